(** Model of the barriers of /repo/ff/barrier.hpp, for any number of threads and rounds.
    Sequentially consistent interleaving of the accesses to the atomic counters. *)
From Coq Require Import List Arith Bool.
From Verif Require Import Base.
Import ListNotations.

Definition bupd {B : Type} (f : bool -> B) (i : bool) (v : B) : bool -> B :=
  fun j => if Bool.eqb j i then v else f j.

(** ** spinBarrier, L169-L210. *)
Inductive bpc :=
| BOut                (* not inside doBarrier *)
| BInc                (* L194: c = ++B[whichBar] *)
| BReset              (* L196: B[whichBar] = 0 *)
| BSpin.              (* L200-L203: while(c) c = B[whichBar] *)

(** [nb] is _barrier, [arr] is barArray, [B] the two counters (long in the code: they count threads, so no
    overflow).  [ent] and [lft] count the calls each thread has entered and returned from since the last
    effective barrierSetup; no step reads them. *)
Record sb := mkSB { nb : nat; arr : nat -> bool; B : bool -> nat; bp : nat -> bpc; ent : nat -> nat; lft : nat -> nat }.

(** Constructor L172-L175: barArray and B are uninitialised. *)
Definition sb_new (junk : nat -> bool) (j0 : bool -> nat) : sb :=
  mkSB 0 junk j0 (fun _ => BOut) (fun _ => 0) (fun _ => 0).

(** barrierSetup, L182-L189; the returned value is [-1] exactly when nothing is done. *)
Definition setup (s : sb) (n : nat) : sb :=
  if n =? nb s then s
  else mkSB n (fun _ => false) (fun _ => 0) (bp s) (fun _ => 0) (fun _ => 0).

Inductive bact := BCall (t : nat) | BStep (t : nat).
Definition btid (a : bact) : nat := match a with BCall t => t | BStep t => t end.

Definition leave (s : sb) (t : nat) : sb :=
  mkSB (nb s) (arr s) (B s) (fupd (bp s) t BOut) (ent s) (fupd (lft s) t (S (lft s t))).

Definition bstep (s : sb) (a : bact) : option sb :=
  match a with
  | BCall t =>        (* L193: barArray[tid] ^= true *)
      match bp s t with
      | BOut => Some (mkSB (nb s) (fupd (arr s) t (negb (arr s t))) (B s) (fupd (bp s) t BInc)
                           (fupd (ent s) t (S (ent s t))) (lft s))
      | _ => None
      end
  | BStep t =>
      let w := arr s t in
      match bp s t with
      | BOut => None
      | BInc => let c := S (B s w) in
                Some (mkSB (nb s) (arr s) (bupd (B s) w c)
                           (fupd (bp s) t (if nb s =? c then BReset else BSpin)) (ent s) (lft s))
      | BReset => Some (leave (mkSB (nb s) (arr s) (bupd (B s) w 0) (bp s) (ent s) (lft s)) t)
      | BSpin => if B s w =? 0 then Some (leave s t) else Some s
      end
  end.

(** ** The mutex and condition variable Barrier used where pthread barriers are missing, L73-L115.
    Everything between lock and unlock is one step.  A thread in [MWait] is blocked in pthread_cond_wait
    (L107); POSIX lets it return without a signal ([MSpurious]). *)
Inductive mpc := MOut | MWait | MWoken.
Record mb := mkMB { mn : nat; mcnt : nat; mp : nat -> mpc; ment : nat -> nat; mlft : nat -> nat }.
Definition mb_init (n : nat) : mb := mkMB n 0 (fun _ => MOut) (fun _ => 0) (fun _ => 0).

Inductive mact := MCall (t : nat) | MResume (t : nat) | MSpurious (t : nat).
Definition mtid (a : mact) : nat := match a with MCall t => t | MResume t => t | MSpurious t => t end.
Definition wake (p : mpc) : mpc := match p with MWait => MWoken | q => q end.

Definition mstep (s : mb) (a : mact) : option mb :=
  match a with
  | MCall t =>        (* L102-L108 *)
      match mp s t with
      | MOut =>
          if mn s =? S (mcnt s)
          then Some (mkMB (mn s) 0 (fun u => wake (mp s u)) (fupd (ment s) t (S (ment s t)))
                          (fupd (mlft s) t (S (mlft s t))))
          else Some (mkMB (mn s) (S (mcnt s)) (fupd (mp s) t MWait) (fupd (ment s) t (S (ment s t))) (mlft s))
      | _ => None
      end
  | MResume t =>      (* return of pthread_cond_wait, L107-L108 *)
      match mp s t with
      | MWoken => Some (mkMB (mn s) (mcnt s) (fupd (mp s) t MOut) (ment s) (fupd (mlft s) t (S (mlft s t))))
      | _ => None
      end
  | MSpurious t =>
      match mp s t with
      | MWait => Some (mkMB (mn s) (mcnt s) (fupd (mp s) t MWoken) (ment s) (mlft s))
      | _ => None
      end
  end.
