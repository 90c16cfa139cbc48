(** What a user expects of ff_taskf. *)
From Coq Require Import List Arith Bool.
From Verif Require Import Base TkfModel.
Import ListNotations.

(** How many tasks a list of rounds submits. *)
Definition total (l : list round) : nat := fold_right (fun r a => k r + a) 0 l.

(** The number of rounds of [l] whose wait() (or run_then_freeze()) has returned. *)
Definition returned (l : list round) (s : st) : nat := length l - length (rounds s).

(** Some worker takes part in every round (see taskf_empty_ub). *)
Definition proper (n : nat) (l : list round) : Prop := Forall (fun r => 0 < run_with n r) l.

(** No task is run twice or without having been submitted; a closure is deleted once, after it has
    been run. *)
Definition each_once (s : st) : Prop :=
  NoDup (ran s) /\ NoDup (freed s) /\ incl (freed s) (ran s) /\ forall t, In t (ran s) -> t < next s.

(** All the tasks of the rounds whose wait has returned have been run, and their closures deleted. *)
Definition waited (l : list round) (s : st) : Prop :=
  forall t, t < total (firstn (returned l s) l) -> In t (ran s) /\ In t (freed s).

(** Some thread can make a step. *)
Definition can_move (n : nat) (cap : option nat) (s : st) : Prop := exists a s', step n cap s a = Some s'.
