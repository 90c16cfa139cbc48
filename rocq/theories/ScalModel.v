(** Model of the queues made of several sub-queues, /repo/ff/mpmc/MPMCqueues.hpp:
    scalableMPMCqueue L870-L973 (FIFO mode, and with MULTI_MPMC_RELAX_FIFO_ORDERING) and multiSWSR L774-L854.

    [rel] = false: the default FIFO mode.  [rel] = true: the relaxed mode, which is also multiSWSR (L815-L834;
    there the number of sub-queues is a power of two, so "& mask" is the remainder).
    The sub-queues are linearizable unbounded FIFO queues (C04, C11; for multiSWSR under the locks of C13):
    one push or pop on them is one step and push on them succeeds.  The tickets are unbounded integers.
    The back-off delay (L931-L933) is not modelled. *)
From Coq Require Import List Arith Bool ZArith.
From Verif Require Import Base LinSpec.
Import ListNotations.

Section Scal.
  Context {A : Type}.
  Variables (n : nat) (rel : bool).

  Inductive spc :=
  | SIdle
  | PTick (x : A)               (* L907: ++enqueue *)
  | PStore (x : A) (k : nat)    (* L908: pool[k % size].push *)
  | PInc                        (* L909: ++count, return *)
  | CCnt                        (* L916: if (!count) return false *)
  | CDeq                        (* L925: q = dequeue *)
  | CEnq (q : nat)              (* L925-L927: q1 = enqueue; if (q > q1) return false *)
  | CCas (q : nat)              (* L928: CAS(&dequeue, q+1, q) *)
  | CTick                       (* L945: ++dequeue *)
  | CTake (k : nat)             (* L937 / L946: pool[k % size].pop *)
  | CDec (v : A).               (* L938 / L947: --count, return true *)

  Record sst := mkS {
    pool : nat -> list A; enq : nat; deq : nat; cnt : Z; sp : nat -> spc; str : list (ev A) }.

  Inductive sact := SPush (t : nat) (x : A) | SPop (t : nat) | SRun (t : nat).

  Definition sgo (s : sst) t p := mkS (pool s) (enq s) (deq s) (cnt s) (fupd (sp s) t p) (str s).
  Definition sgoe (s : sst) t p e := mkS (pool s) (enq s) (deq s) (cnt s) (fupd (sp s) t p) (str s ++ [e]).

  Definition sstep (s : sst) (a : sact) : option sst :=
    match a with
    | SPush t x => match sp s t with SIdle => Some (sgoe s t (PTick x) (CallPush t x)) | _ => None end
    | SPop t => match sp s t with SIdle => Some (sgoe s t CCnt (CallPop t)) | _ => None end
    | SRun t =>
        match sp s t with
        | SIdle => None
        | PTick x =>
            Some (mkS (pool s) (S (enq s)) (deq s) (cnt s) (fupd (sp s) t (PStore x (S (enq s)))) (str s))
        | PStore x k =>
            Some (mkS (fupd (pool s) (k mod n) (pool s (k mod n) ++ [x])) (enq s) (deq s) (cnt s)
                      (fupd (sp s) t PInc) (str s ++ [LinPush t]))
        | PInc =>
            Some (mkS (pool s) (enq s) (deq s) (cnt s + 1) (fupd (sp s) t SIdle) (str s ++ [RetPush t true]))
        | CCnt =>
            if (cnt s =? 0)%Z then Some (sgoe s t SIdle (RetPop t None))
            else Some (sgo s t (if rel then CTick else CDeq))
        | CDeq => Some (sgo s t (CEnq (deq s)))
        | CEnq q => if q <=? enq s then Some (sgo s t (CCas q)) else Some (sgoe s t SIdle (RetPop t None))
        | CCas q =>
            if deq s =? q
            then Some (mkS (pool s) (enq s) (S q) (cnt s) (fupd (sp s) t (CTake q)) (str s))
            else Some (sgo s t CDeq)
        | CTick =>
            Some (mkS (pool s) (enq s) (S (deq s)) (cnt s) (fupd (sp s) t (CTake (S (deq s)))) (str s))
        | CTake k =>
            match pool s (k mod n) with
            | [] => Some (sgoe s t SIdle (RetPop t None))
            | v :: r => Some (mkS (fupd (pool s) (k mod n) r) (enq s) (deq s) (cnt s) (fupd (sp s) t (CDec v)) (str s ++ [LinPop t]))
            end
        | CDec v =>
            Some (mkS (pool s) (enq s) (deq s) (cnt s - 1) (fupd (sp s) t SIdle) (str s ++ [RetPop t (Some v)]))
        end
    end.

  (** Constructor, L874-L890 (L806-L808 for multiSWSR): dequeue starts from 1 in FIFO mode. *)
  Definition scal_init : sst :=
    mkS (fun _ => []) 0 (if rel then 0 else 1) 0 (fun _ => SIdle) [].

  (** The values stored in the sub-queues. *)
  Definition contents (s : sst) : list A := flat_map (pool s) (seq 0 n).
End Scal.
Arguments sst : clear implicits. Arguments spc : clear implicits. Arguments sact : clear implicits.
