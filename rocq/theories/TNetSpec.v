(** Vocabulary of the theorems on networks on TSO; the rest is in NetSpec. *)
From Coq Require Import List Arith.
From Verif Require Import Base NetModel NetSpec TNetModel.
Import ListNotations.

Section Spec.
  Context {X St : Type}.
  Variable N : net X St.

  (** No node is its own successor through one channel. *)
  Definition no_loop : Prop := forall c k, chan_of N c = Some k -> src k <> dst k.

  Definition treach (o0 : nat -> X) (s : tst X St) : Prop := exists l, exec (tstep N) (tinit N o0) l = Some s.
  Definition tdone (s : tst X St) : Prop := forall v, v < nodes N -> ph (cn s v) = Done.
  (** No thread can do anything but repeat a test that fails, and no store is on its way to memory. *)
  Definition tstuck (s : tst X St) : Prop := forall a, tstep N s a = None.
  (** Node v has been started, is outside pop and push, and has nothing to send. *)
  Definition waiting (s : tst X St) (v : nat) : Prop := pcs s v = Idle /\ ph (cn s v) = Running /\ pend (cn s v) = [].
  (** The memory of channel c holds no pointer. *)
  Definition blank (s : tst X St) (c : nat) : Prop := forall i, mem s c i = None.
  (** Everything node v's code has asked to send so far. *)
  Definition asks (s : tst X St) (v : nat) : list (list (req X)) :=
    boot N v ++ replies N v (start N v) (got s v) ++
    match ph (cn s v) with Running => [] | _ => [eos_group N v] end.
  (** The items svc of the successors was given from channel c. *)
  Definition treceived (s : tst X St) (c : nat) : list (msg X) :=
    match chan_of N c with Some k => on c (got s (dst k)) | None => [] end.
End Spec.
