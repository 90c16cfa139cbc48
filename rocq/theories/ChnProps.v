(** C74: replacing a node of a building block. *)
From Coq Require Import List Arith Bool Lia.
From Verif Require Import ChnModel ChnSpec ChnProofs.
Import ListNotations.

(** The full claim: whatever the flags given to the block and to the call. *)
Definition change_claim : Prop := forall kd b old n cl rm, sane b n -> In old (parts b) ->
  replaced b old n cl rm (change kd b old n cl rm).

(** It holds for the blocks and calls of [regular]. *)
Theorem change_node_partial : forall kd b old n cl rm, sane b n -> In old (parts b) -> regular kd b old n rm ->
  replaced b old n cl rm (change kd b old n cl rm).
Proof. exact present. Qed.

(** Then no node appears twice in the block, and none is deleted twice. *)
Theorem change_node_once_partial : forall kd b old n cl rm, sane b n -> In old (parts b) -> regular kd b old n rm ->
  let r := change kd b old n cl rm in
  NoDup (parts (after r)) /\ NoDup (now r ++ destroy (after r)).
Proof. intros kd b old n cl rm S I R. eapply once; eauto. apply present; auto. Qed.

(** A node that is not in the block: refused, and nothing is changed or deleted. *)
Theorem change_node_absent : forall kd b old n cl rm, ~ In old (parts b) ->
  change kd b old n cl rm = mkRes false b [].
Proof. exact absent. Qed.

(** Finding 1: a pipeline told to delete its stages (cleanup_nodes()) deletes the new stage even if
    it is given with cleanup = false, and no longer deletes the old one. *)
Theorem change_pipe_leaks : forall kd p old n cl rm, sane (BPipe p) n -> ncl p = true ->
  In old (nodes p) -> ~ In old (psup p) -> ~ In old (dont p) -> ~ In n (dont p) ->
  times old (destroy (BPipe p)) = 1
  /\ let r := change kd (BPipe p) old n cl rm in
     ok r = true /\ times old (now r ++ destroy (after r)) = 0 /\ times n (now r ++ destroy (after r)) = 1.
Proof. exact pipe_cleanup. Qed.

(** Finding 2: a farm told to delete its workers deletes both, even if the caller took the old one
    back and gave the new one with cleanup = false. *)
Theorem change_farm_deletes_both : forall kd f old n cl rm, sane (BFarm f) n -> wcl f = true -> In old (wk f) ->
  let r := change kd (BFarm f) old n cl rm in
  ok r = true /\ times old (now r ++ destroy (after r)) = 1 /\ times n (now r ++ destroy (after r)) = 1.
Proof. exact farm_cleanup. Qed.

(** Finding 3: an emitter or collector owned by the farm is deleted during the call, even if the
    caller takes it back; and if the new one is refused the farm is left without. *)
Theorem change_farm_filter_lost : forall kd f old n cl rm,
  (em f = Some old -> ecl f = true -> In old (now (change kd (BFarm f) old n cl rm)))
  /\ (em f <> Some old -> co f = Some old -> ccl f = true -> In old (now (change kd (BFarm f) old n cl rm)))
  /\ (em f = Some old -> kd n = Par ->
        let r := change kd (BFarm f) old n cl rm in
        ok r = false /\ parts (after r) = opt (co f) ++ wk f)
  /\ (em f <> Some old -> co f = Some old -> kd n = Par ->
        let r := change kd (BFarm f) old n cl rm in
        ok r = false /\ parts (after r) = opt (em f) ++ wk f).
Proof.
  intros kd f old n cl rm. simpl. unfold farm_change.
  assert (A : em f = Some old -> is (em f) old = true) by (intros ->; apply Nat.eqb_refl).
  assert (B : em f <> Some old -> is (em f) old = false)
    by (intros H; destruct (em f); simpl; auto; apply Nat.eqb_neq; congruence).
  assert (C : co f = Some old -> is (co f) old = true) by (intros ->; apply Nat.eqb_refl).
  repeat split; intros; repeat match goal with
    | H : em f = Some old |- _ => rewrite (A H); clear A
    | H : em f <> Some old |- _ => rewrite (B H); clear B
    | H : co f = Some old |- _ => rewrite (C H); clear C end; simpl;
  repeat match goal with H : _ = true |- _ => rewrite H | H : kd n = Par |- _ => rewrite H end; simpl; auto.
Qed.

(** Finding 4: a composition inside a composition cannot be replaced. *)
Theorem change_comb_nested_refused : forall kd c old n cl rm, kd old = Comp ->
  change kd (BComb c) old n cl rm = mkRes false (BComb c) [].
Proof.
  intros kd c old n cl rm K. simpl. unfold comb_change. rewrite K. destruct (c0 c =? old), (c1 c =? old); reflexivity.
Qed.

Theorem change_node_refuted : ~ change_claim.
Proof.
  intros H. specialize (H (fun _ => Seq) (BPipe (mkPipe [1; 2; 3] [] true [])) 2 9 false false).
  assert (S : sane (BPipe (mkPipe [1; 2; 3] [] true [])) 9).
  { repeat split; simpl; try lia; repeat constructor; simpl; lia. }
  destruct (H S) as (_ & _ & T); [simpl; auto|]. specialize (T 9). vm_compute in T. discriminate.
Qed.

(** The hypotheses are met: a pipeline, a farm and an all-to-all that own some of their nodes. *)
Example ex_pipe : let b := BPipe (mkPipe [1; 2; 3] [2; 5] false []) in
  sane b 9 /\ In 2 (parts b) /\ regular (fun _ => Seq) b 2 9 true
  /\ parts (after (change (fun _ => Seq) b 2 9 true true)) = [1; 9; 3]
  /\ destroy (after (change (fun _ => Seq) b 2 9 true true)) = [5; 9].
Proof. repeat split; simpl; try lia; auto; repeat constructor; simpl; lia. Qed.
Example ex_farm : let b := BFarm (mkFarm (Some 1) (Some 2) [3; 4] [4; 7] true false false) in
  sane b 9 /\ In 1 (parts b) /\ regular (fun _ => Seq) b 1 9 false /\ regular (fun _ => Seq) b 4 9 true
  /\ parts (after (change (fun _ => Seq) b 1 9 true false)) = [9; 2; 3; 4]
  /\ now (change (fun _ => Seq) b 1 9 true false) = [1]
  /\ destroy (after (change (fun _ => Seq) b 4 9 true true)) = [1; 7; 9].
Proof.
  repeat split; simpl; try lia; auto; try discriminate; repeat constructor; simpl; try lia.
Qed.
Example ex_a2a : let b := BA2a (mkA2a [1; 2] [3] [3]) in
  sane b 9 /\ In 3 (parts b) /\ regular (fun _ => Seq) b 3 9 true
  /\ parts (after (change (fun _ => Seq) b 3 9 false true)) = [1; 2; 9]
  /\ destroy (after (change (fun _ => Seq) b 3 9 false true)) = [].
Proof. repeat split; simpl; try lia; auto; repeat constructor; simpl; lia. Qed.
Example ex_leak : let p := mkPipe [1; 2; 3] [] true [] in
  sane (BPipe p) 9 /\ ncl p = true /\ In 2 (nodes p) /\ ~ In 2 (psup p).
Proof. repeat split; simpl; try lia; auto; repeat constructor; simpl; lia. Qed.
Example ex_both : let f := mkFarm None None [3; 4] [] false false true in
  sane (BFarm f) 9 /\ wcl f = true /\ In 4 (wk f).
Proof. repeat split; simpl; try lia; auto; repeat constructor; simpl; lia. Qed.

Print Assumptions change_node_partial.
Print Assumptions change_node_once_partial.
Print Assumptions change_node_absent.
Print Assumptions change_pipe_leaks.
Print Assumptions change_farm_deletes_both.
Print Assumptions change_farm_filter_lost.
Print Assumptions change_comb_nested_refused.
Print Assumptions change_node_refuted.
