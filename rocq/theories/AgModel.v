(** all_gather: called by svc of a collector or multi-input node (ff_gatherer::all_gather,
    ff/gt.hpp:744-795) or of a farm's multi-input emitter (ff_loadbalancer::all_gather,
    ff/lb.hpp:819-865) with the task it has just received, it waits for one message of every other
    channel and fills an array.

    The thread that gathers and the threads that push interleave.  Which channel is read next
    between two calls is any channel with a message (a choice of the action; the polling order is
    C19, C59).  Simplifications: marks are FF_EOS; in the emitter, the list of polled channels is not
    modelled (the all_gather of lb.hpp also removes a position from it, L859), nor its channel
    numbers (get_my_id). *)
From Coq Require Import List Arith Bool.
From Verif Require Import Base.
Import ListNotations.

Section Model.
  Context {X : Type}.
  Inductive msg := Val (x : X) | Eos.

  (** Which of the two functions. *)
  Inductive variant := Gt | Lb.
  Variable var : variant.
  Variable n : nat.               (* channels *)
  Variable fb : nat.              (* of which feedback channels (they come first) *)

  Inductive pc :=
  | Idle                          (* in gather_task / collect_task *)
  | First (i : nat) (l : list nat)    (* first loop, at channel i; retry vector, back first *)
  | Retry (l : list nat).         (* second loop *)

  Definition row := list (option msg).    (* None: nullptr *)

  Record st := mkSt {
    ch : nat -> list msg;
    off : nat -> bool;            (* offline *)
    cnt : nat;                    (* marks counted: neos of gt, initial nw minus nw of lb *)
    arr : nat -> option msg;      (* V *)
    cur : nat;                    (* channelid / input_channelid *)
    at_ : pc;
    over : bool;                  (* svc loop left *)
    sent : nat -> list msg;       (* history: pushed on each channel *)
    got : nat -> list msg;        (* history: read from each channel *)
    rows : list (row * bool);     (* history: arrays returned, true: result 0 *)
    log : list row }.             (* history: what each call of svc saw, its task alone or an array *)

  Definition init_st : st := mkSt (fun _ => []) (fun _ => false) 0 (fun _ => None) 0 Idle false
                                  (fun _ => []) (fun _ => []) [] [].

  Inductive act :=
  | Send (c : nat) (m : msg)
  | Take (c : nat) (g : bool)     (* the loop reads channel c; g: svc calls all_gather *)
  | Turn.                         (* one turn of a loop of all_gather *)

  Definition is_eos (m : msg) : bool := match m with Eos => true | _ => false end.

  (** gt.hpp:594-601: the number svc sees, and all_gather uses. *)
  Definition chid (c : nat) : nat := if c <? fb then c else c - fb.

  Definition read (s : st) (c : nat) (m : msg) (r : list msg) (v : nat -> option msg) (p : pc) : st :=
    mkSt (fupd (ch s) c r) (off s) (cnt s) v (cur s) p (over s) (sent s)
         (fupd (got s) c (got s c ++ [m])) (rows s) (log s).

  (** The last loop: gt.hpp:776-791 (counts the marks, all indices), lb.hpp:855-863 (marks the channel
      offline, first _nw indices, _nw: channels not offline). *)
  Definition alive (s : st) : nat := length (filter (fun i => negb (off s i)) (seq 0 n)).
  Definition range (s : st) : nat := match var with Gt => n | Lb => alive s end.
  Definition marks (s : st) : list nat :=
    filter (fun i => match arr s i with Some Eos => true | _ => false end) (seq 0 (range s)).
  Definition inb (i : nat) (l : list nat) : bool := existsb (Nat.eqb i) l.
  Definition clean (s : st) : row := map (fun i => if inb i (marks s) then None else arr s i) (seq 0 n).

  Definition finish (s : st) : st :=
    let k := match var with Gt => cnt s + length (marks s) | Lb => cnt s end in
    mkSt (ch s) (match var with Gt => off s | Lb => fun i => off s i || inb i (marks s) end)
         k (arr s) (cur s) Idle
         (match var with Gt => n <=? k | Lb => false end)   (* gt.hpp:652 *)
         (sent s) (got s)
         (rows s ++ [(clean s, match marks s with [] => true | _ => false end)]) (log s ++ [clean s]).

  Definition step (s : st) (a : act) : option st :=
    match a with
    | Send c m =>
        if (c <? n) && negb (existsb is_eos (sent s c)) then
          Some (mkSt (fupd (ch s) c (ch s c ++ [m])) (off s) (cnt s) (arr s) (cur s) (at_ s) (over s)
                     (fupd (sent s) c (sent s c ++ [m])) (got s) (rows s) (log s))
        else None
    | Take c g =>
        match at_ s with
        | Idle =>
            if over s || off s c || negb (c <? n) then None else
            match ch s c with
            | [] => None
            | Eos :: r =>
                (* gt.hpp:603-608; lb.hpp:1033-1053 (offline is not set) *)
                Some (mkSt (fupd (ch s) c r)
                           (match var with Gt => fupd (off s) c true | Lb => off s end)
                           (S (cnt s)) (arr s) (cur s) Idle (n <=? S (cnt s)) (sent s)
                           (fupd (got s) c (got s c ++ [Eos])) (rows s) (log s))
            | Val x :: r =>
                if g then
                  (* gt.hpp:747, lb.hpp:820; ff_minode_t::all_gather clears the array (multinode.hpp:955) *)
                  Some (mkSt (fupd (ch s) c r) (off s) (cnt s)
                             (fupd (fun _ => None) (chid c) (Some (Val x))) (chid c) (First 0 []) false (sent s)
                             (fupd (got s) c (got s c ++ [Val x])) (rows s) (log s))
                else
                  Some (mkSt (fupd (ch s) c r) (off s) (cnt s) (arr s) (chid c) Idle false (sent s)
                             (fupd (got s) c (got s c ++ [Val x])) (rows s) (log s ++ [map (fupd (fun _ => None) (chid c) (Some (Val x))) (seq 0 n)]))
            end
        | _ => None
        end
    | Turn =>
        match at_ s with
        | Idle => None
        | First i l =>
            (* gt.hpp:756-762, lb.hpp:831-837 *)
            if n <=? i then Some (mkSt (ch s) (off s) (cnt s) (arr s) (cur s) (Retry l) (over s) (sent s) (got s) (rows s) (log s))
            else if (i =? cur s) || off s i then
              Some (mkSt (ch s) (off s) (cnt s) (arr s) (cur s) (First (S i) l) (over s) (sent s) (got s) (rows s) (log s))
            else match ch s i with
                 | m :: r => Some (read s i m r (fupd (arr s) i (Some m)) (First (S i) l))
                 | [] => Some (mkSt (ch s) (off s) (cnt s) (arr s) (cur s) (First (S i) (i :: l)) (over s) (sent s) (got s) (rows s) (log s))
                 end
        | Retry [] => Some (finish s)
        | Retry (c :: l) =>
            (* gt.hpp:763-775, lb.hpp:838-852; a turn that finds nothing changes nothing: not a step *)
            match ch s c with
            | m :: r => Some (read s c m r (fupd (arr s) c (Some m)) (Retry l))
            | [] => None
            end
        end
    end.
End Model.
Arguments msg : clear implicits.
Arguments st : clear implicits.
Arguments act : clear implicits.
Arguments row : clear implicits.
