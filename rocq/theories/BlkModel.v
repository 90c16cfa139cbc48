(** Blocking mode: threads that wait on condition variables.  W producers, each with its own
    channel, and one consumer that polls the channels in a cycle: ff_node::Push and ff_node::Pop
    (ff/node.hpp:576-616, W = 1), ff_gatherer::gather_task and push (ff/gt.hpp:197-250),
    ff_loadbalancer::collect_task and pop (ff/lb.hpp:300-400).

    Simplifications: the channels are atomic queues (C01, C02).  The mutexes cons_m and prod_m are
    taken only by the thread that waits, never by the one that signals, so taking them is part of
    going to sleep.  A timed wait can time out as soon as the thread sleeps (ff/utils.hpp:217-224
    sets the deadline before taking the mutex).  No channel is offline and the consumer asks again
    for ever. *)
From Coq Require Import List Arith Bool.
From Verif Require Import Base.
Import ListNotations.

Section Blk.
  Context {X : Type}.
  (** Number of producers, capacities, and what each sends.  [again]: whether empty() is sampled
      again after a wait (ff/node.hpp:578-589) or taken to be false (ff/gt.hpp:228-237). *)
  Variables (W : nat) (cap : nat -> option nat) (again : bool).

  Inductive ppc :=
  | PIdle                         (* bool empty=out->empty(), ff/node.hpp:579, ff/gt.hpp:228 *)
  | PPush (e : bool)              (* push(ptr), ff/node.hpp:580, ff/gt.hpp:229 *)
  | PSig                          (* pthread_cond_signal(p_cons_c), ff/node.hpp:582, ff/gt.hpp:237, ff/lb.hpp:84 *)
  | PLock                         (* full: about to wait, ff/node.hpp:584-586 *)
  | PWait.                        (* pthread_cond_timedwait(prod_c, ...), ff/node.hpp:587 *)
  Inductive cpc :=
  | CScan (i k : nat)             (* tries channel i after k failures, ff/gt.hpp:202-207; ff/node.hpp:604 *)
  | CLock (i : nat)               (* all empty: about to wait, ff/gt.hpp:210-212; ff/node.hpp:606-608 *)
  | CWait (i : nat).              (* pthread_cond_timedwait(cons_c, ...), ff/gt.hpp:213; ff/node.hpp:609 *)

  Record st := mkSt {
    q : nat -> list X;            (* the channels *)
    left : nat -> list X;         (* what each producer still has to send *)
    pp : nat -> ppc;
    cp : cpc;
    out : list (nat * X) }.       (* history: what the consumer got, and from which channel *)

  Inductive act :=
  | PStep (w : nat)               (* producer w *)
  | PTime (w : nat)               (* its wait times out *)
  | CStep                         (* the consumer *)
  | CTime.                        (* its wait times out *)

  Definition room (s : st) (w : nat) : bool := match cap w with None => true | Some b => length (q s w) <? b end.
  (** selectworker: the next channel in the cycle, ff/gt.hpp:134-139. *)
  Definition next (i : nat) : nat := if S i =? W then 0 else S i.
  (** pthread_cond_signal: wakes the consumer if it sleeps, otherwise it has no effect. *)
  Definition wake (c : cpc) : cpc := match c with CWait i => CScan i 0 | _ => c end.
  Definition is_nil {A} (l : list A) : bool := match l with [] => true | _ => false end.

  Definition pset (s : st) (w : nat) (p : ppc) : st := mkSt (q s) (left s) (fupd (pp s) w p) (cp s) (out s).
  Definition cset (s : st) (c : cpc) : st := mkSt (q s) (left s) (pp s) c (out s).

  Definition step (s : st) (a : act) : option st :=
    match a with
    | PStep w =>
        if negb (w <? W) then None else
        match pp s w with
        | PIdle => if is_nil (left s w) then None else Some (pset s w (PPush (is_nil (q s w))))
        | PPush e =>
            match left s w with
            | [] => None
            | x :: r =>
                if room s w
                then Some (mkSt (fupd (q s) w (q s w ++ [x])) (fupd (left s) w r)
                                (fupd (pp s) w (if e then PSig else PIdle)) (cp s) (out s))
                else Some (pset s w PLock)
            end
        | PSig => Some (cset (pset s w PIdle) (wake (cp s)))
        | PLock => Some (pset s w PWait)
        | PWait => None
        end
    | PTime w =>
        if negb (w <? W) then None else
        match pp s w with
        | PWait => Some (pset s w (if again then PIdle else PPush false))
        | _ => None
        end
    | CStep =>
        match cp s with
        | CScan i k =>
            match q s i with
            | x :: r => Some (mkSt (fupd (q s) i r) (left s) (pp s) (CScan (next i) 0) (out s ++ [(i, x)]))
            | [] => if S k =? W then Some (cset s (CLock (next i))) else Some (cset s (CScan (next i) (S k)))
            end
        | CLock i => Some (cset s (CWait i))
        | CWait _ => None
        end
    | CTime =>
        match cp s with
        | CWait i => Some (cset s (CScan i 0))
        | _ => None
        end
    end.

  Definition init (xs : nat -> list X) : st := mkSt (fun _ => []) xs (fun _ => PIdle) (CScan 0 0) [].
End Blk.
Arguments st : clear implicits.
