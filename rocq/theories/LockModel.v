(** Model of the spin locks of /repo/ff/spin-lock.hpp, for any number of threads.
    One step is one access to shared memory; [None] means that the step is not possible now.
    Sequentially consistent interleaving: the acquire/release orders of the test-and-set lock, and the
    compiler's treatment of the volatile fields of the CLH lock, are not modelled. *)
From Coq Require Import List Arith Bool.
From Verif Require Import Base.
Import ListNotations.

(** ** Test-and-set lock, L86-L89. *)
Inductive tpc := TIdle | TTry | TCrit.
Record tas := mkT { flag : bool; tp : nat -> tpc }.
Inductive tact := TCall (t : nat) | TStep (t : nat) | TUnlock (t : nat).

Definition tstep (s : tas) (a : tact) : option tas :=
  match a with
  | TCall t => match tp s t with TIdle => Some (mkT (flag s) (fupd (tp s) t TTry)) | _ => None end
  | TStep t =>        (* L87: while(l->test_and_set()); one iteration *)
      match tp s t with
      | TTry => if flag s then Some s else Some (mkT true (fupd (tp s) t TCrit))
      | _ => None
      end
  | TUnlock t =>      (* L89 *)
      match tp s t with TCrit => Some (mkT false (fupd (tp s) t TIdle)) | _ => None end
  end.
(** L78: ATOMIC_FLAG_INIT. *)
Definition tas_init : tas := mkT false (fun _ => TIdle).

(** ** CLH lock, L117-L164. *)
Inductive cpc :=
| CIdle
| CMark          (* L150: MyNode[pid]->locked = true *)
| CSwap          (* L154: MyPred[pid] = swap(&Tail, MyNode[pid]) *)
| CSpin          (* L156: while (MyPred[pid]->locked == true) *)
| CCrit          (* the lock is held *)
| CFree          (* L160: MyNode[pid]->locked = false *)
| CTake.         (* L161: MyNode[pid] = MyPred[pid] *)

(** Nodes are addresses.  [swaps] and [acqs] are histories: the threads in the order of their swaps and
    of their acquisitions. *)
Record clh := mkC {
  locked : nat -> bool; tail : nat; mynode : nat -> nat; mypred : nat -> nat; cp : nat -> cpc;
  swaps : list nat; acqs : list nat }.

(** init, L138-L146: the nodes are distinct blocks; node 0 is the initial tail. *)
Definition clh_init (junk : nat -> bool) (pred0 : nat -> nat) : clh :=
  mkC (fupd junk 0 false) 0 S pred0 (fun _ => CIdle) [] [].

Inductive cact := CCall (t : nat) | CStep (t : nat) | CRelease (t : nat).

Definition goc (s : clh) (t : nat) (p : cpc) : clh :=
  mkC (locked s) (tail s) (mynode s) (mypred s) (fupd (cp s) t p) (swaps s) (acqs s).

Definition cstep (s : clh) (a : cact) : option clh :=
  match a with
  | CCall t => match cp s t with CIdle => Some (goc s t CMark) | _ => None end
  | CRelease t => match cp s t with CCrit => Some (goc s t CFree) | _ => None end
  | CStep t =>
      match cp s t with
      | CMark => Some (mkC (fupd (locked s) (mynode s t) true) (tail s) (mynode s) (mypred s)
                           (fupd (cp s) t CSwap) (swaps s) (acqs s))
      | CSwap => Some (mkC (locked s) (mynode s t) (mynode s) (fupd (mypred s) t (tail s))
                           (fupd (cp s) t CSpin) (swaps s ++ [t]) (acqs s))
      | CSpin => if locked s (mypred s t) then Some s
                 else Some (mkC (locked s) (tail s) (mynode s) (mypred s)
                                (fupd (cp s) t CCrit) (swaps s) (acqs s ++ [t]))
      | CFree => Some (mkC (fupd (locked s) (mynode s t) false) (tail s) (mynode s) (mypred s)
                           (fupd (cp s) t CTake) (swaps s) (acqs s))
      | CTake => Some (mkC (locked s) (tail s) (fupd (mynode s) t (mypred s t)) (mypred s)
                           (fupd (cp s) t CIdle) (swaps s) (acqs s))
      | _ => None
      end
  end.
