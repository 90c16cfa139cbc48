(** C79: ownership of the nodes when two farms are combined. *)
From Coq Require Import List Arith Bool Lia Permutation.
From Verif Require Import CfoModel CfoSpec.
Import ListNotations.
Local Arguments count_occ : simpl never.

(** The full claim. *)
Definition combine_owner_claim : Prop := forall mi f1 n1 f2 n2 merge r,
  combine_farms mi f1 n1 f2 n2 merge = Some r -> same_deletions f1 f2 r.

Lemma on_nil : forall b, on b [] = [].
Proof. intros []; reflexivity. Qed.
Lemma cnt_cons : forall n l z, count_occ Nat.eq_dec (n :: l) z = (if Nat.eq_dec n z then 1 else 0) + count_occ Nat.eq_dec l z.
Proof. intros. unfold count_occ. destruct (Nat.eq_dec n z); reflexivity. Qed.
Ltac counts := apply (Permutation_count_occ Nat.eq_dec); intros z; repeat (rewrite ?on_nil, ?app_nil_r, ?count_occ_app, ?cnt_cons, ?count_occ_nil; simpl); lia.

Lemma moved_same : forall f1 f2, same_deletions f1 f2 (moved [] f1 f2).
Proof.
  intros [o1 e1 a1 c1 b1 w1 d1] [o2 e2 a2 c2 b2 w2 d2]. unfold same_deletions, deleted, moved, dels. simpl.
  destruct e1, a1, b1, d1, a2, b2, d2; simpl; counts.
Qed.
Lemma moved_changed : forall f1 f2, same_deletions f1 f2 (moved (fst (change_emitter f2 None false)) f1 (snd (change_emitter f2 None false))).
Proof.
  intros [o1 e1 a1 c1 b1 w1 d1] [o2 e2 a2 c2 b2 w2 d2]. unfold same_deletions, deleted, moved, dels, change_emitter. simpl.
  destruct e1, e2, a1, b1, d1, a2, b2, d2; simpl; counts.
Qed.
Lemma two_changed : forall f1 f2 cl, same_deletions f1 f2 (two f1 (change_emitter f2 None cl)).
Proof.
  intros [o1 e1 a1 c1 b1 w1 d1] [o2 e2 a2 c2 b2 w2 d2] cl. unfold same_deletions, deleted, two, dels, change_emitter. simpl.
  destruct e2, a2, cl; simpl; counts.
Qed.
Lemma two_node : forall f1 f2 n, flags_match f2 -> same_deletions f1 f2 (two f1 (change_emitter f2 (Some n) false)).
Proof.
  intros [o1 e1 a1 c1 b1 w1 d1] [o2 e2 a2 c2 b2 w2 d2] n F. unfold same_deletions, deleted, two, dels, change_emitter, flags_match in *. simpl in *.
  destruct e2; [|rewrite (F eq_refl)]; simpl; counts.
Qed.
Lemma ofarm_same : forall f1 f2, ~ (em f2 = None /\ clE f2 = false /\ clC f1 = true /\ co f1 <> None) -> same_deletions f1 f2 (ofarm_farm f1 f2).
Proof.
  intros [o1 e1 a1 c1 b1 w1 d1] [o2 e2 a2 c2 b2 w2 d2] N. unfold same_deletions, deleted, ofarm_farm, dels in *. simpl in *.
  destruct e1, e2, c1, a1, b1, a2; simpl; try (exfalso; apply N; repeat split; discriminate); counts.
Qed.

(** The same nodes are deleted once, in every accepted call but three cases: node2 only without
    mergeCE and farm1 owning its workers; node1 only with mergeCE and the flag of an emitter farm2
    does not have; an ordered farm1 that owns its collector and a farm2 without an emitter. *)
Theorem combine_owner_partial : forall mi f1 n1 f2 n2 merge r,
  combine_farms mi f1 n1 f2 n2 merge = Some r ->
  ~ (merge = false /\ n1 = None /\ n2 <> None /\ clW f1 = true) ->
  (merge = true -> n1 <> None -> n2 = None -> flags_match f2) ->
  (ord f1 = true -> ~ (em f2 = None /\ clE f2 = false /\ clC f1 = true /\ co f1 <> None)) ->
  same_deletions f1 f2 r.
Proof.
  intros mi f1 n1 f2 n2 merge r E A B C. unfold combine_farms in E. destruct merge.
  - destruct (ord f1 || ord f2).
    + destruct n1; [discriminate|]. destruct n2; [discriminate|]. destruct (length (wk f1) =? length (wk f2)); [discriminate|].
      destruct (ord f1); injection E as <-; [apply ofarm_same; auto|]. unfold same_deletions, deleted. simpl. rewrite app_nil_r. apply Permutation_refl.
    + destruct n1 as [a|], n2 as [b|].
      * injection E as <-. apply two_changed.
      * injection E as <-. destruct mi; [apply two_changed|]. apply two_node. apply B; congruence.
      * injection E as <-. apply two_changed.
      * destruct (length (wk f1) =? length (wk f2)); injection E as <-; [apply moved_same|apply moved_changed].
  - destruct (ord f1 || ord f2); [discriminate|]. destruct n1 as [a|], n2 as [b|]; injection E as <-.
    + apply moved_same.
    + apply moved_same.
    + assert (W : clW f1 = false). { destruct (clW f1); [|reflexivity]. destruct A. repeat split; discriminate. }
      clear - W. destruct f1 as [o1 e1 a1 c1 b1 w1 d1], f2 as [o2 e2 a2 c2 b2 w2 d2]. simpl in W. subst.
      unfold same_deletions, deleted, a2a_node, dels. simpl. counts.
    + apply moved_changed.
Qed.

(** With farms that own nothing, no node of the user is ever deleted. *)
Theorem combine_owner_nothing : forall mi f1 n1 f2 n2 merge r,
  combine_farms mi f1 n1 f2 n2 merge = Some r ->
  clE f1 = false -> clC f1 = false -> clW f1 = false -> clE f2 = false -> clC f2 = false -> clW f2 = false ->
  deleted r = [].
Proof.
  intros mi f1 n1 f2 n2 merge r E A1 A2 A3 B1 B2 B3.
  assert (P : same_deletions f1 f2 r).
  { eapply combine_owner_partial; [exact E| | |]; [intros (_ & _ & _ & X)|intros _ _ _ _|intros _ (_ & _ & X & _)]; congruence. }
  unfold same_deletions, dels in P. rewrite A1, A2, A3, B1, B2, B3 in P. simpl in P. apply Permutation_sym, Permutation_nil in P. exact P.
Qed.

(** Findings.  The workers of farm1 are deleted twice, by farm1 and by the compositions. *)
Theorem combine_owner_twice : forall mi f1 f2 b r x, ord f1 || ord f2 = false -> clW f1 = true -> In x (wk f1) ->
  combine_farms mi f1 None f2 (Some b) false = Some r -> 2 <= count_occ Nat.eq_dec (deleted r) x.
Proof.
  intros mi f1 f2 b r x O W I E. unfold combine_farms in E. rewrite O in E. injection E as <-.
  apply (count_occ_In Nat.eq_dec) in I. unfold deleted, a2a_node, dels. simpl. rewrite W. simpl. rewrite !count_occ_app. lia.
Qed.
(** node1, which belongs to the caller, is deleted by farm2 if it had the flag and no emitter. *)
Theorem combine_owner_node1 : forall f1 f2 a r, ord f1 || ord f2 = false -> em f2 = None -> clE f2 = true ->
  combine_farms false f1 (Some a) f2 None true = Some r -> In a (deleted r).
Proof.
  intros f1 f2 a r O M C E. unfold combine_farms in E. rewrite O in E. injection E as <-. unfold deleted, two, change_emitter. rewrite M. simpl.
  apply in_or_app. right. apply in_or_app. left. unfold dels. simpl. rewrite C. simpl. auto.
Qed.
(** The collector of an ordered farm1 is never deleted if farm2 has no emitter. *)
Theorem combine_owner_leak : forall mi f1 f2 c r, ord f1 = true -> co f1 = Some c -> clC f1 = true -> em f2 = None -> clE f2 = false ->
  ~ In c (opt (em f1) ++ wk f1 ++ opt (co f2) ++ wk f2) ->
  combine_farms mi f1 None f2 None true = Some r -> In c (dels f1) /\ ~ In c (deleted r).
Proof.
  intros mi f1 f2 c r O Cc Cl M F N E. unfold combine_farms in E. rewrite O in E. simpl in E. destruct (length (wk f1) =? length (wk f2)); [discriminate|].
  injection E as <-. split.
  - unfold dels. rewrite Cl, Cc. apply in_or_app. right. left. reflexivity.
  - unfold deleted, ofarm_farm, dels. simpl. rewrite M, F, Cc. simpl. intros X. apply N.
    rewrite !in_app_iff in *. destruct (em f1), (clE f1), (clW f1), (clC f2), (clW f2); simpl in *; tauto.
Qed.
Theorem combine_owner_refuted : ~ combine_owner_claim.
Proof.
  intros H. pose (f1 := mkFarm false None false None false [1; 2] true). pose (f2 := mkFarm false None false None false [3] true).
  specialize (H false f1 None f2 (Some 9) false _ eq_refl). apply Permutation_length in H. discriminate.
Qed.

(** Farms that own all their nodes; both modes. *)
Definition g1 := mkFarm false (Some 1) true (Some 2) true [3; 4] true.
Definition g2 := mkFarm false (Some 5) true (Some 6) true [7; 8; 9] true.
Example ex_a2a : exists r, combine_farms false g1 None g2 None false = Some r /\ now r = [5] /\ dels (f1' r) = [2] /\ dels (f2' r) = [] /\ pipe r = [1; 6; 3; 4; 7; 8; 9].
Proof. eexists. repeat split. Qed.
Example ex_hyps : exists r, combine_farms false g1 (Some 10) g2 None true = Some r /\ flags_match g2 /\ same_deletions g1 g2 r.
Proof. eexists. split; [reflexivity|]. split; [discriminate|]. apply (two_node g1 g2 10). discriminate. Qed.
Example ex_ordered : exists r, combine_farms false (mkFarm true (Some 1) true (Some 2) true [3; 4] true) None g2 None true = Some r /\ deleted r = [1; 3; 4; 2; 5; 6; 7; 8; 9].
Proof. eexists. split; reflexivity. Qed.
Example ex_leak : exists r, combine_farms false (mkFarm true (Some 1) true (Some 2) true [3; 4] true) None (mkFarm false None false None false [7] true) None true = Some r /\ deleted r = [1; 3; 4; 7].
Proof. eexists. split; reflexivity. Qed.

Print Assumptions combine_owner_partial.
Print Assumptions combine_owner_nothing.
Print Assumptions combine_owner_twice.
Print Assumptions combine_owner_node1.
Print Assumptions combine_owner_leak.
Print Assumptions combine_owner_refuted.
