(** The emitter of a farm with feedback channels or several input channels: the polling loop
    ff_loadbalancer::collect_task (ff/lb.hpp:306-361) and the second half of
    ff_loadbalancer::svc (ff/lb.hpp:985-1105), which counts the end-of-stream marks and removes
    channels from the polled list.

    - One step = one turn of the inner loop of collect_task (one channel looked at), together with
      what svc does with the message found.  Other threads push between two steps.
    - The user's code is an oracle: for each call it decides whether svc returns EOS and whether
      input is active afterwards (ff_node::input_active, ff/node.hpp:1388-1391).  What it sends is
      not modelled here (C20, C47).
    - Not modelled: the manager channel, FF_GO_OUT, FF_EOSW (ignored by the code), blocking mode
      (C54), the first call when the first pop is skipped. *)
From Coq Require Import List Arith Bool.
From Verif Require Import Base.
Import ListNotations.

Section Model.
  Context {X : Type}.

  (** FF_EOS; FF_EOS_NOFREEZE. *)
  Inductive msg := Val (x : X) | Eos | EosNF.

  (** An input channel: from worker i back to the emitter; from node i of another feedback
      (inputNodesFeedback); from node j of the previous stage (multi_input); the input queue. *)
  Inductive src := Wk (i : nat) | Fbk (i : nat) | Min (j : nat) | Inq.

  (** The channel svc is told (get_channel_id, set_input_channelid): position among the feedback
      channels; number among the input channels; the input queue. *)
  Inductive rep := Feed (i : nat) | Inp (j : nat) | Queue.

  Record cfg := mkCfg {
    nwk : nat;                    (* workers with a feedback channel (0 if not master_worker) *)
    nfb : nat; nmi : nat;         (* sizes of inputNodesFeedback, multi_input *)
    inq : bool;                   (* there is an input queue (inpresent, and multi_input is empty) *)
    nworkers : nat;               (* workers.size() *)
    frz : nat -> bool }.          (* workers[i]->isfrozen() *)

  Variable F : cfg.

  (** ff/lb.hpp:987-1016 *)
  Definition avail0 : list src := map Wk (seq 0 (nwk F)) ++ map Fbk (seq 0 (nfb F)) ++ map Min (seq 0 (nmi F)).
  Definition sources : list src := avail0 ++ (if inq F then [Inq] else []).
  Definition nw0 : nat := length avail0 + (if inq F then 1 else 0).
  (** multi_input_start; None: the initial (size_t)-1. *)
  Definition mis : option nat := match nmi F with 0 => None | _ => Some (nwk F + nfb F) end.
  Definition is_input (idx : nat) : bool := match mis with Some k => k <=? idx | None => false end.

  (** What happens: svc(x) called, with the channel reported and (history) the channel the value
      came from; svc(NULL) called because input is not active; eosnotify called. *)
  Inductive event := ESvc (c : src) (r : rep) (x : X) | ENull | EEos (c : src).

  Record st := mkSt {
    ch : src -> list msg;         (* contents of the channels *)
    avail : list src;             (* availworkers *)
    pos : nat;                    (* start - availworkers.begin() *)
    cnt : nat;                    (* cnt of collect_task *)
    left : nat;                   (* nw of svc *)
    active : bool;                (* filter->in_active *)
    over : bool;                  (* svc returned *)
    sent : src -> list msg;       (* history: what was pushed on each channel *)
    got : src -> list msg;        (* history: what was read from each channel *)
    log : list event }.

  Definition init_st : st := mkSt (fun _ => []) avail0 0 0 nw0 true false (fun _ => []) (fun _ => []) [].

  Record reaction := mkR { stop : bool; act_ : bool }.

  Inductive act :=
  | Send (c : src) (m : msg)      (* another thread pushes *)
  | Poll (r : reaction).          (* one turn of collect_task *)

  Definition src_eqb (a b : src) : bool :=
    match a, b with
    | Wk i, Wk j | Fbk i, Fbk j | Min i, Min j => i =? j
    | Inq, Inq => true
    | _, _ => false
    end.
  Definition upd {T} (f : src -> T) (c : src) (x : T) : src -> T := fun d => if src_eqb d c then x else f d.
  Definition is_eos (m : msg) : bool := match m with Val _ => false | _ => true end.

  Fixpoint remove_nth {T} (k : nat) (l : list T) : list T :=
    match k, l with 0, _ :: l' => l' | S k', x :: l' => x :: remove_nth k' l' | _, [] => [] end.

  (** ff/lb.hpp:1037-1040; [idx]: channelid, for a channel before multi_input_start. *)
  Definition erases (idx : nat) (m : msg) : bool :=
    match m with
    | Eos => negb (is_input idx) && (0 <? idx) && (idx <? nworkers F) && negb (frz F idx)
    | _ => false
    end.

  (** svc with message m read from channel c, at position idx of the list (None: input queue);
      ff/lb.hpp:1033-1104. *)
  Definition deliver (s : st) (c : src) (idx : option nat) (m : msg) (r : list msg) (k : nat) (u : reaction) : st :=
    let cm := upd (ch s) c r in
    let g := upd (got s) c (got s c ++ [m]) in
    match m with
    | Val x =>
        let rp := match idx with
                  | None => Queue
                  | Some i => match mis with Some b => if b <=? i then Inp (i - b) else Feed i | None => Feed i end
                  end in
        mkSt cm (avail s) k 0 (left s) (act_ u) (stop u) (sent s) g (log s ++ [ESvc c rp x])
    | _ =>
        let er := match idx with Some i => erases i m | None => false end in
        mkSt cm (if er then match idx with Some i => remove_nth i (avail s) | None => avail s end else avail s)
             (if er then 0 else k) 0 (left s - 1) (act_ u) (left s - 1 =? 0) (sent s) g (log s ++ [EEos c])
    end.

  Definition set_poll (s : st) (k n : nat) : st :=
    mkSt (ch s) (avail s) k n (left s) (active s) (over s) (sent s) (got s) (log s).

  Definition step (s : st) (a : act) : option st :=
    match a with
    | Send c m =>
        (* nothing follows an end-of-stream mark (C47) *)
        if existsb (src_eqb c) sources && negb (existsb is_eos (sent s c)) then
          Some (mkSt (upd (ch s) c (ch s c ++ [m])) (avail s) (pos s) (cnt s) (left s) (active s) (over s)
                     (upd (sent s) c (sent s c ++ [m])) (got s) (log s))
        else None
    | Poll u =>
        if over s then None else
        (* 314 *)
        let k := if S (pos s) =? length (avail s) then 0 else S (pos s) in
        match nth_error (avail s) k with
        | None => None      (* outside the list: undefined behaviour *)
        | Some c =>
            (* 318 *)
            if negb (active s) && is_input k then Some (set_poll s k (cnt s))
            else match ch s c with
                 | m :: r => Some (deliver s c (Some k) m r k u)
                 | [] =>
                     (* 343 *)
                     if S (cnt s) =? length (avail s) then
                       if negb (active s) then
                         Some (mkSt (ch s) (avail s) k 0 (left s) (act_ u) (stop u) (sent s) (got s) (log s ++ [ENull]))
                       else if inq F then
                         match ch s Inq with
                         | m :: r => Some (deliver s Inq None m r k u)
                         | [] => Some (set_poll s k 0)
                         end
                       else Some (set_poll s k 0)
                     else Some (set_poll s k (S (cnt s)))
                 end
        end
    end.
End Model.
Arguments msg : clear implicits.
Arguments event : clear implicits.
Arguments st : clear implicits.
Arguments act : clear implicits.
