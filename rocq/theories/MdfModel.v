(** Model of the dependency-driven task scheduler, /repo/ff/task_internals.hpp: class TaskFScheduler L201-L438
    (used by ff_mdf, /repo/ff/mdf.hpp L116-L184).

    The scheduler runs in one thread (the emitter of the farm); the workers run concurrently.
    Simplifications: the hash tables (icl_hash.h) are maps with the same insert (no effect when the key is present
    or is 0, icl_hash.h L169-L175), find and delete; the task table keeps each entry under its id; task ids and
    counters are unbounded.  Which element std::priority_queue::top returns is decided by an oracle (the priority
    function reads fields that change while the task is in the queue, L156-L162).  Memory allocation always succeeds.
    Throttling of the input channel (mdf.hpp L144-L146, L162-L164) is not modelled: a task may arrive at any time.
    The statuses PENDING and PENDING_DONE (never set in this file) are left out. *)
From Coq Require Import List Arith Bool ZArith.
From Verif Require Import Base.
Import ListNotations.

(** L83-L88 *)
Inductive dir := INPUT | OUTPUT | VALUE.
Definition param : Type := nat * dir.

(** L139 *)
Inductive status := NotReady | Ready | Done.
Definition st_done (s : status) : bool := match s with Done => true | _ => false end.

(** hash_task_t, L142-L157: status, is_dummy, remaining_dep, unblock_task_ids[0 .. unblock_numb), num_out *)
Record tk := mkT { tst : status; tdum : bool; trem : Z; tunb : list nat; tnout : Z }.

(** task_set, address_set, task_id (L430-L431) *)
Record graph := mkG { tset : nat -> option tk; aset : list (nat * nat); nextid : nat }.

(** ** Hash tables: icl_hash.h L136-L150 (find), L163-L190 (insert), L245-L285 (delete) *)
Fixpoint find_tag (a : list (nat * nat)) (d : nat) : nat :=
  match a with [] => 0 | (e, x) :: r => if e =? d then x else find_tag r d end.
Definition ins_tag (a : list (nat * nat)) (d x : nat) : list (nat * nat) :=
  if (d =? 0) || existsb (fun e => fst e =? d) a then a else (d, x) :: a.
Definition del_tag (a : list (nat * nat)) (d : nat) : list (nat * nat) := filter (fun e => negb (fst e =? d)) a.

Definition upd (T : nat -> option tk) (x : nat) (f : tk -> tk) : nat -> option tk :=
  match T x with Some k => fupd T x (Some (f k)) | None => T end.
Definition set_st s (k : tk) := mkT s (tdum k) (trem k) (tunb k) (tnout k).
Definition add_rem z (k : tk) := mkT (tst k) (tdum k) (trem k + z) (tunb k) (tnout k).
Definition add_unb x (k : tk) := mkT (tst k) (tdum k) (trem k) (tunb k ++ [x]) (tnout k).
Definition add_out z (k : tk) := mkT (tst k) (tdum k) (trem k) (tunb k) (tnout k + z).

(** ** insertTask, L233-L317: one parameter of task [b].
    The loop L282 runs over the list as it is when the loop starts. *)
Definition holder (g : graph) (d : nat) : option (nat * tk) :=
  let t := find_tag (aset g) d in
  if t =? 0 then None else match tset g t with Some k => Some (t, k) | None => None end.

Definition war (b : nat) (T : nat -> option tk) (us : list nat) : nat -> option tk :=
  fold_left (fun T x => match T x with
                        | Some k => if negb (x =? b) && negb (st_done (tst k))
                                    then upd (upd T x (add_unb b)) b (add_rem 1) else T
                        | None => T
                        end) us T.

Definition add_param (b : nat) (g : graph) (p : param) : graph :=
  let d := fst p in
  match snd p with
  | INPUT =>                                                             (* L242-L269 *)
      match holder g d with
      | None => mkG (fupd (tset g) (nextid g) (Some (mkT Done true 0 [b] 1)))
                    (ins_tag (aset g) d (nextid g)) (S (nextid g))
      | Some (t, k) =>
          let T := upd (tset g) t (add_unb b) in
          mkG (if st_done (tst k) then T else upd T b (add_rem 1)) (aset g) (nextid g)
      end
  | OUTPUT =>                                                            (* L271-L308 *)
      let T1 := match holder g d with
                | None => tset g
                | Some (t, k) =>
                    let T := match tunb k with
                             | [] => if st_done (tst k) then tset g
                                     else upd (upd (tset g) t (add_unb b)) b (add_rem 1)
                             | us => war b (tset g) us
                             end in
                    let T := upd T t (add_out (-1)) in
                    match T t with
                    | Some k => if st_done (tst k) && (tnout k =? 0)%Z then fupd T t None else T   (* L302-L303 *)
                    | None => T
                    end
                end in
      mkG (upd T1 b (add_out 1))
          (ins_tag (if find_tag (aset g) d =? 0 then aset g else del_tag (aset g) d) d b) (nextid g)
  | VALUE => g
  end.

(** L235-L238 *)
Definition create (g : graph) : graph :=
  mkG (fupd (tset g) (nextid g) (Some (mkT NotReady false 0 [] 0))) (aset g) (S (nextid g)).

(** ** handleTask, L354-L378 *)
(** L355-L370: the tasks to unblock; returns also the tasks that became ready, in order. *)
Fixpoint unblock (T : nat -> option tk) (us : list nat) : (nat -> option tk) * list nat :=
  match us with
  | [] => (T, [])
  | x :: r =>
      let T1 := upd T x (add_rem (-1)) in
      match T1 x with
      | Some k =>
          if (trem k =? 0)%Z && (match tst k with NotReady => true | _ => false end)
          then let '(T2, nr) := unblock (upd T1 x (set_st Ready)) r in (T2, x :: nr)
          else unblock T1 r
      | None => unblock T1 r                     (* assert(tmp), L357 *)
      end
  end.

(** L373-L377 *)
Definition retire (T : nat -> option tk) (t : nat) : nat -> option tk :=
  match T t with
  | Some k => if (tnout k =? 0)%Z then fupd T t None else fupd T t (Some (set_st Done k))
  | None => T
  end.

(** ** The scheduler with its workers *)
Inductive ev := Begin (x : nat) | End (x : nat).

Record ss := mkSS {
  gr : graph;
  qs : nat -> list nat;          (* ready_queues *)
  nready : nat; qm : nat; mmax : nat;
  nsch : nat -> nat;             (* nscheduled *)
  inb : nat -> list nat;         (* worker input channels *)
  exe : nat -> option nat;       (* task being executed by each worker *)
  fbk : nat -> list nat;         (* worker output (feedback) channels *)
  prog : list (nat * list param);     (* ghost: tasks inserted, in program order *)
  log : list ev;                      (* ghost: executions *)
  fin : list nat }.                   (* ghost: completions handled *)

Section Sched.
  Variable n : nat.              (* runningworkers *)

  Definition cut (k : nat) (l : list nat) : list nat := firstn k l ++ skipn (S k) l.

  (** Take from queue [j] an element chosen by the oracle and send it to worker [i]; L325-L331, L336-L341. *)
  Definition send (o : nat -> list nat -> nat) (s : ss) (i j : nat) : ss :=
    let k := o j (qs s j) mod length (qs s j) in
    let x := nth k (qs s j) 0 in
    mkSS (gr s) (fupd (qs s) j (cut k (qs s j))) (nready s - 1) (qm s) (mmax s)
         (fupd (nsch s) i (S (nsch s i))) (fupd (inb s) i (inb s i ++ [x])) (exe s) (fbk s) (prog s) (log s) (fin s).
  Definition set_mmax (s : ss) m :=
    mkSS (gr s) (qs s) (nready s) (qm s) m (nsch s) (inb s) (exe s) (fbk s) (prog s) (log s) (fin s).

  (** L334-L346 *)
  Fixpoint steal (o : nat -> list nat -> nat) (fuel : nat) (s : ss) (i : nat) : ss :=
    match fuel with
    | 0 => s
    | S f =>
        let s' := set_mmax s ((mmax s + 1) mod n) in
        match qs s (mmax s) with
        | [] => steal o f s' i
        | _ => send o s' i (mmax s)
        end
    end.

  (** schedule_task, L320-L352, loop over the workers [is] *)
  Fixpoint sched (o : nat -> list nat -> nat) (th : nat) (is : list nat) (s : ss) : ss :=
    match is with
    | [] => s
    | i :: r =>
        if nready s =? 0 then s
        else if nsch s i <=? th
             then match qs s i with
                  | [] => sched o th r (steal o n s i)
                  | _ => sched o th r (send o s i i)
                  end
             else sched o th r s
    end.
  Definition schedule o th s := sched o th (seq 0 n) s.

  Definition set_gr (s : ss) g :=
    mkSS g (qs s) (nready s) (qm s) (mmax s) (nsch s) (inb s) (exe s) (fbk s) (prog s) (log s) (fin s).
  Definition push_ready (s : ss) (j : nat) (xs : list nat) :=
    mkSS (gr s) (fupd (qs s) j (qs s j ++ xs)) (nready s + length xs) (qm s) (mmax s) (nsch s) (inb s) (exe s) (fbk s) (prog s) (log s) (fin s).

  (** insertTask, L233-L317, including L310-L315 *)
  Definition insert (s : ss) (ps : list param) : ss :=
    let b := nextid (gr s) in
    let g := fold_left (add_param b) ps (create (gr s)) in
    let s := mkSS g (qs s) (nready s) (qm s) (mmax s) (nsch s) (inb s) (exe s) (fbk s) (prog s ++ [(b, ps)]) (log s) (fin s) in
    match tset g b with
    | Some k =>
        if (trem k =? 0)%Z
        then let s := push_ready (set_gr s (mkG (upd (tset g) b (set_st Ready)) (aset g) (nextid g))) (qm s) [b] in
             mkSS (gr s) (qs s) (nready s) ((qm s + 1) mod n) (mmax s) (nsch s) (inb s) (exe s) (fbk s) (prog s) (log s) (fin s)
        else s
    | None => s
    end.

  Inductive act :=
  | Insert (ps : list param) (o : nat -> list nat -> nat)     (* a task arrives: mdf.hpp L159-L161 *)
  | Start (w : nat)                                           (* worker [w] takes a task: mdf.hpp L190-L195 *)
  | Finish (w : nat)                                          (* ... and returns it *)
  | Handle (w : nat) (o1 o2 : nat -> list nat -> nat).        (* mdf.hpp L167-L170 *)

  Definition step (s : ss) (a : act) : option ss :=
    match a with
    | Insert ps o => Some (schedule o 0 (insert s ps))
    | Start w =>
        if w <? n then
        match exe s w, inb s w with
        | None, t :: r =>
            Some (mkSS (gr s) (qs s) (nready s) (qm s) (mmax s) (nsch s) (fupd (inb s) w r) (fupd (exe s) w (Some t)) (fbk s)
                       (prog s) (log s ++ [Begin t]) (fin s))
        | _, _ => None
        end else None
    | Finish w =>
        if w <? n then
        match exe s w with
        | Some t =>
            Some (mkSS (gr s) (qs s) (nready s) (qm s) (mmax s) (nsch s) (inb s) (fupd (exe s) w None) (fupd (fbk s) w (fbk s w ++ [t]))
                       (prog s) (log s ++ [End t]) (fin s))
        | None => None
        end else None
    | Handle w o1 o2 =>
        if w <? n then
        match fbk s w with
        | t :: r =>
            (* handleCompletedTask, L379-L384 *)
            let us := match tset (gr s) t with Some k => tunb k | None => [] end in
            let '(T, nr) := unblock (tset (gr s)) us in
            let s1 := mkSS (mkG T (aset (gr s)) (nextid (gr s))) (qs s) (nready s) (qm s) (mmax s)
                           (fupd (nsch s) w (nsch s w - 1)) (inb s) (exe s) (fupd (fbk s) w r) (prog s) (log s) (fin s ++ [t]) in
            let s2 := schedule o1 0 (push_ready s1 w nr) in                                   (* L371 *)
            let s3 := set_gr s2 (mkG (retire (tset (gr s2)) t) (aset (gr s2)) (nextid (gr s2))) in
            Some (schedule o2 1 s3)                                                            (* mdf.hpp L170 *)
        | [] => None
        end else None
    end.

  (** svc_init, L413-L428 *)
  Definition init : ss :=
    mkSS (mkG (fun _ => None) [] 1) (fun _ => []) 0 0 0 (fun _ => 0) (fun _ => []) (fun _ => None) (fun _ => []) [] [] [].
End Sched.
