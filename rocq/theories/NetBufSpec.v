(** Conditions under which the buffers of the distributed runtime are used safely. *)
From Coq Require Import List ZArith.
From Verif Require Import Base FrameModel NetBufModel.
Import ListNotations.

(** No message is sent directly while a batch is pending. *)
Fixpoint separate (s : sb) (l : list sact) : Prop :=
  match l with
  | [] => True
  | a :: l' => (a = SDirect -> held s = 0%nat) /\ match sstep s a with Some s' => separate s' l' | None => True end
  end.

(** Messages received in the same slot never shrink. *)
Definition growing (l : list ract) : Prop :=
  ForallOrdPairs (fun a a' => match a, a' with
    | RStart i b, RStart j b' => i = j -> (Z.of_nat (length b) <= Z.of_nat (length b'))%Z
    | _, _ => True end) l.

(** No message received carries exactly one inline payload. *)
Definition no_hand_off (T : Z) (l : list ract) : Prop :=
  Forall (fun a => match a with RStart _ b => hands_off T b = false | RHandle _ => True end) l.
