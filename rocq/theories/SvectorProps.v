(** Property C28: svector. *)
From Coq Require Import List Arith Lia.
From Verif Require Import Outcome SvectorModel SvectorSpec.
From Verif Require SvectorProofs.
Import ListNotations.

(** C28 as stated. *)
Definition svector_claim : Prop := forall (T : Type) (d : T) (ck : nat) (os : list (op T)),
  allowed (spec_step d) legal [] os ->
  exists v', orun (step d) (mk ck) os = Done (v', snd (srun (spec_step d) [] os)).

(** True for every legal history whose insertions are at the end and that does not append the
    vector to itself. *)
Theorem svector_partial : forall (T : Type) (d : T) (ck : nat) (os : list (op T)),
  allowed (spec_step d) (fun l o => legal l o /\
    match o with Insert p _ => p = length l | AppendSelf => l = [] | _ => True end) [] os ->
  exists v', orun (step d) (mk ck) os = Done (v', snd (srun (spec_step d) [] os)).
Proof. intros T d ck os. exact (SvectorProofs.svector_no_insert d os ck). Qed.

(** True for every legal history in which each insertion before the end finds at least two free
    slots (size()+2 <= capacity()) and each self-append finds size() free slots. *)
Theorem svector_room_partial : forall (T : Type) (d : T) (ck : nat) (os : list (op T)),
  SvectorProofs.good_run d (mk ck) [] os ->
  exists v', orun (step d) (mk ck) os = Done (v', snd (srun (spec_step d) [] os)).
Proof. intros T d ck os. apply SvectorProofs.svector_run. apply SvectorProofs.Inv_mk. Qed.

(** The copy constructor yields the same sequence. *)
Theorem svector_copy : forall (T : Type) (d : T) (ck : nat) (l : list T), 1 <= ck ->
  exists v, copy ck l = Done v /\ len v = length l /\
  forall i x, nth_error l i = Some x -> get v i = Done x.
Proof.
  intros T d ck l H. destruct (SvectorProofs.Inv_copy ck l H) as (v & E & I).
  exists v. split; [exact E|]. split; [exact (SvectorProofs.v_len _ _ I)|].
  intros i x Hx. unfold get. apply (SvectorProofs.Inv_load _ l); auto. apply SvectorProofs.Inv_reserve. exact I.
Qed.

(** insert in the middle of a full vector writes outside the block. *)
Theorem svector_insert_full_refuted :
  allowed (spec_step 0) legal [] [PushBack 1; PushBack 2; Insert 0 9] /\
  orun (step 0) (mk 2) [PushBack 1; PushBack 2; Insert 0 9] = Undef.
Proof. split; [simpl; repeat split; lia|vm_compute; reflexivity]. Qed.

(** insert when exactly one slot is free reallocates and then uses stale iterators. *)
Theorem svector_insert_last_slot_refuted :
  allowed (spec_step 0) legal [] [PushBack 1; PushBack 2; Insert 0 9] /\
  orun (step 0) (mk 3) [PushBack 1; PushBack 2; Insert 0 9] = Undef.
Proof. split; [simpl; repeat split; lia|vm_compute; reflexivity]. Qed.

(** v += v uses stale iterators once it has to grow. *)
Theorem svector_append_self_refuted :
  allowed (spec_step 0) legal [] [PushBack 1; PushBack 2; AppendSelf] /\
  orun (step 0) (mk 2) [PushBack 1; PushBack 2; AppendSelf] = Undef.
Proof. split; [simpl; repeat split; lia|vm_compute; reflexivity]. Qed.

Theorem svector_claim_refuted : ~ svector_claim.
Proof.
  intros C. destruct svector_insert_full_refuted as [A E].
  destruct (C nat 0 2 _ A) as [v E']. rewrite E in E'. discriminate.
Qed.

(** A moved-from vector still reports its old size and its slots are gone: clear() and
    push_back() on it are undefined although it reports free capacity. *)
Theorem svector_moved_from_refuted : exists v, orun (step 0) (mk 4) [PushBack 1; PushBack 2] = Done (v, [RUnit; RUnit]) /\
  len (moved_from v) = 2 /\ cap (moved_from v) = 4 /\ clear (moved_from v) = Undef /\ push_back (moved_from v) 3 = Undef.
Proof. eexists. split; [vm_compute; reflexivity|]. vm_compute. repeat split. Qed.

Example svector_nonvacuous :
  let os := [PushBack 1; PushBack 2; PushBack 3; Erase 1; Insert 2 7; Resize 5; Back; Get 1; Append [8; 9]; PopBack; Size; Assign [4]; Front; Clear; Size] in
  allowed (spec_step 0) (fun l o => legal l o /\
    match o with Insert p _ => p = length l | AppendSelf => l = [] | _ => True end) [] os /\
  exists v, orun (step 0) (mk 2) os = Done (v, [RUnit; RUnit; RUnit; RUnit; RUnit; RUnit; RVal 0; RVal 3; RUnit; RUnit; RSize 6; RUnit; RVal 4; RUnit; RSize 0]).
Proof. split; [simpl; repeat split; try lia; discriminate|]. eexists. vm_compute. reflexivity. Qed.

Example svector_room_nonvacuous :
  SvectorProofs.good_run 0 (mk 8) [] [PushBack 1; PushBack 2; Insert 0 9; Insert 1 8; AppendSelf; Get 5] /\
  exists v, orun (step 0) (mk 8) [PushBack 1; PushBack 2; Insert 0 9; Insert 1 8; AppendSelf; Get 5]
    = Done (v, [RUnit; RUnit; RUnit; RUnit; RUnit; RVal 8]).
Proof.
  split; [|eexists; vm_compute; reflexivity].
  cbn [SvectorProofs.good_run legal SvectorProofs.good].
  repeat match goal with
  | |- _ /\ _ => split
  | |- True => exact I
  | |- forall v' r, step _ _ _ = Done (v', r) -> _ => intros ? ? HS; vm_compute in HS; injection HS as <- <-
  end; simpl; try lia; auto.
Qed.

Print Assumptions svector_partial.
Print Assumptions svector_room_partial.
Print Assumptions svector_copy.
Print Assumptions svector_claim_refuted.
