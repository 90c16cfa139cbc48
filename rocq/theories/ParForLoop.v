(** Facts about the sequential loop (ParForSpec.loop) and about taking one chunk. *)
From Coq Require Import List ZArith Lia Bool Permutation.
From Verif Require Import Base ParForSpec ParForModel.
Import ListNotations.
Local Open Scope Z_scope.

Lemma loop_fuel_enough : forall f g a b s, 1 <= s ->
  b - a <= Z.of_nat f -> b - a <= Z.of_nat g -> loop_fuel f a b s = loop_fuel g a b s.
Proof.
  induction f as [|f IH]; destruct g as [|g]; intros a b s Hs Hf Hg; simpl; auto.
  - destruct (Z.ltb_spec a b); [lia|auto].
  - destruct (Z.ltb_spec a b); [lia|auto].
  - destruct (Z.ltb_spec a b); auto. f_equal. apply IH; lia.
Qed.

Lemma loop_nil : forall a b s, b <= a -> loop a b s = [].
Proof. intros. unfold loop. replace (Z.to_nat (b - a)) with 0%nat by lia. reflexivity. Qed.

Lemma loop_cons : forall a b s, 1 <= s -> a < b -> loop a b s = a :: loop (a + s) b s.
Proof.
  intros a b s Hs H. unfold loop.
  destruct (Z.to_nat (b - a)) as [|n] eqn:E; [lia|]. simpl.
  destruct (Z.ltb_spec a b); [|lia]. f_equal. apply loop_fuel_enough; lia.
Qed.

Lemma loop_ind : forall (s : Z) (P : Z -> Z -> Prop), 1 <= s ->
  (forall a b, b <= a -> P a b) ->
  (forall a b, a < b -> P (a + s) b -> P a b) ->
  forall a b, P a b.
Proof.
  intros s P Hs H0 H1 a b.
  remember (Z.to_nat (b - a)) as n eqn:E.
  revert a E. induction n as [n IH] using lt_wf_ind. intros a E.
  destruct (Z_lt_le_dec a b) as [L|L]; [|now apply H0].
  apply H1; auto. apply (IH (Z.to_nat (b - (a + s)))); [lia|reflexivity].
Qed.

Lemma In_loop : forall s a b z, 1 <= s ->
  (In z (loop a b s) <-> a <= z < b /\ (s | z - a)).
Proof.
  intros s a b z Hs. revert a b.
  apply (loop_ind s (fun a b => In z (loop a b s) <-> a <= z < b /\ (s | z - a))); auto.
  - intros a b H. rewrite loop_nil by auto. simpl. split; [tauto|lia].
  - intros a b H IH. rewrite loop_cons by auto. simpl. rewrite IH. split.
    + intros [->|[R [k D]]]; (split; [lia|]).
      * exists 0; lia.
      * exists (k + 1); lia.
    + intros [R [k D]]. destruct (Z.eq_dec a z); [auto|right].
      assert (1 <= k) by nia. split; [split; nia|]. exists (k - 1); lia.
Qed.

Lemma NoDup_loop : forall s a b, 1 <= s -> NoDup (loop a b s).
Proof.
  intros s a b Hs. revert a b.
  apply (loop_ind s (fun a b => NoDup (loop a b s))); auto.
  - intros. rewrite loop_nil by auto. constructor.
  - intros a b H IH. rewrite loop_cons by auto. constructor; auto.
    rewrite In_loop by auto. lia.
Qed.

Definition len (a b s : Z) : Z := Z.of_nat (length (loop a b s)).

Lemma len_nonneg : forall a b s, 0 <= len a b s.
Proof. intros; unfold len; lia. Qed.

Lemma len_nil : forall a b s, b <= a -> len a b s = 0.
Proof. intros. unfold len. now rewrite loop_nil. Qed.

Lemma len_cons : forall a b s, 1 <= s -> a < b -> len a b s = 1 + len (a + s) b s.
Proof. intros. unfold len. rewrite loop_cons by auto. simpl length. lia. Qed.

Lemma len_0 : forall a b s, 1 <= s -> len a b s = 0 -> b <= a.
Proof.
  intros a b s Hs H. destruct (Z_lt_le_dec a b); auto.
  rewrite len_cons in H by auto. pose proof (len_nonneg (a + s) b s). lia.
Qed.

(** Number of iterations = the ceiling the code computes. *)
Lemma len_ceil : forall s a b, 1 <= s -> a <= b -> len a b s = ceil_div (b - a) s.
Proof.
  intros s a b Hs. revert a b.
  apply (loop_ind s (fun a b => a <= b -> len a b s = ceil_div (b - a) s)); auto.
  - intros a b H H'. rewrite len_nil by auto. replace b with a by lia.
    unfold ceil_div. rewrite Z.div_small; lia.
  - intros a b H IH _. rewrite len_cons by auto. unfold ceil_div in *.
    destruct (Z_le_gt_dec (a + s) b).
    + rewrite IH by lia. replace (b - a + s - 1) with ((b - (a + s) + s - 1) + 1 * s) by lia.
      rewrite Z.div_add by lia. lia.
    + rewrite len_nil by lia. replace (b - a + s - 1) with ((b - a - 1) + 1 * s) by lia.
      rewrite Z.div_add by lia. rewrite Z.div_small; lia.
Qed.

(** Taking [c] iterations. *)
Lemma chunk_split_nat : forall s (n : nat) a b, 1 <= s ->
  let e := Z.min (a + (Z.of_nat n * s + 1)) b in
  loop a b s = loop a e s ++ loop ((e - 1) + s) b s /\
  len a e s = Z.min (Z.of_nat n + 1) (len a b s).
Proof.
  intros s n. induction n as [|n IH]; intros a b Hs e.
  - destruct (Z_lt_le_dec a b) as [L|L].
    + assert (E : e = a + 1) by (unfold e; lia). rewrite E.
      rewrite (loop_cons a b) by lia. unfold len.
      rewrite (loop_cons a (a + 1)), (loop_nil (a + s) (a + 1)), (loop_cons a b) by lia.
      split; [simpl; repeat f_equal; lia | simpl length; lia].
    + assert (E : e = b) by (unfold e; lia). rewrite E.
      unfold len. rewrite !(loop_nil) by lia. split; [reflexivity|simpl; lia].
  - destruct (Z_lt_le_dec a b) as [L|L].
    + specialize (IH (a + s) b Hs). cbv zeta in IH.
      replace (Z.min (a + s + (Z.of_nat n * s + 1)) b) with e in IH by (unfold e; nia).
      destruct IH as [IH1 IH2].
      assert (a < e) by (unfold e; nia).
      rewrite (loop_cons a b), (loop_cons a e), IH1 by lia. split; [reflexivity|].
      rewrite (len_cons a e), (len_cons a b), IH2 by lia. lia.
    + assert (E : e = b) by (unfold e; nia). rewrite E.
      unfold len. rewrite !(loop_nil) by lia. split; [reflexivity|simpl; lia].
Qed.

Lemma chunk_split : forall s c a b, 1 <= s -> 1 <= c ->
  let e := Z.min (a + ((c - 1) * s + 1)) b in
  loop a b s = loop a e s ++ loop ((e - 1) + s) b s /\
  len a e s = Z.min c (len a b s) /\
  len ((e - 1) + s) b s = Z.max 0 (len a b s - c).
Proof.
  intros s c a b Hs Hc e.
  destruct (chunk_split_nat s (Z.to_nat (c - 1)) a b Hs) as [H1 H2].
  rewrite Z2Nat.id in H1, H2 by lia.
  change (Z.min (a + ((c - 1) * s + 1)) b) with e in H1, H2.
  split; [exact H1|]. rewrite H2. split; [lia|].
  assert (L : len a b s = len a e s + len ((e - 1) + s) b s).
  { unfold len. rewrite H1 at 1. rewrite app_length. lia. }
  pose proof (len_nonneg a b s). lia.
Qed.

(** [k] chunks of [c] iterations are exactly what is needed for [n] iterations. *)
Definition fits (c n k : Z) : Prop :=
  (k <= 0 -> n = 0) /\ (1 <= k -> c * (k - 1) < n <= c * k).

Lemma fits_take : forall c n k, 1 <= c -> 0 <= n -> fits c n k -> fits c (Z.max 0 (n - c)) (k - 1).
Proof.
  intros c n k Hc Hn [H0 H1]. destruct (Z_le_gt_dec k 0).
  - rewrite H0 by lia. split; [intros; lia|intros; lia].
  - destruct H1 as [A B]; [lia|]. split; intros.
    + assert (k = 1) by lia. subst k. lia.
    + nia.
Qed.

Lemma fits_ceil : forall c n, 1 <= c -> 0 <= n -> fits c n (ceil_div n c).
Proof.
  intros c n Hc Hn. unfold ceil_div.
  pose proof (Z.div_mod (n + c - 1) c ltac:(lia)).
  pose proof (Z.mod_pos_bound (n + c - 1) c ltac:(lia)).
  split; intros; nia.
Qed.

(** Counting, used for all "exactly once" claims. *)
Definition cnt (l : list Z) (z : Z) : nat := count_occ Z.eq_dec l z.

Lemma cnt_app : forall l m z, cnt (l ++ m) z = (cnt l z + cnt m z)%nat.
Proof. intros. apply count_occ_app. Qed.

Lemma cnt_perm : forall l m, (forall z, cnt l z = cnt m z) -> Permutation l m.
Proof. intros l m H. apply (Permutation_count_occ Z.eq_dec). exact H. Qed.

Lemma cnt_flat_lupd : forall X (f : X -> list Z) (l : list X) i x y z,
  nth_error l i = Some x ->
  (cnt (flat_map f (lupd l i y)) z + cnt (f x) z = cnt (flat_map f l) z + cnt (f y) z)%nat.
Proof.
  induction l as [|a l IH]; destruct i; simpl; intros x y z E; try discriminate.
  - injection E as ->. rewrite !cnt_app. lia.
  - rewrite !cnt_app. pose proof (IH i x y z E). lia.
Qed.

(** What [loop] means, independently of its definition. *)
Lemma loop_count : forall s a b z, 1 <= s ->
  count_occ Z.eq_dec (loop a b s) z =
  if (a <=? z) && (z <? b) && ((z - a) mod s =? 0) then 1%nat else 0%nat.
Proof.
  intros s a b z Hs. pose proof (NoDup_loop s a b Hs) as ND.
  pose proof (In_loop s a b z Hs) as IN.
  rewrite (NoDup_count_occ Z.eq_dec) in ND. specialize (ND z).
  destruct ((a <=? z) && (z <? b) && ((z - a) mod s =? 0)) eqn:E.
  - apply andb_prop in E as [E E3]. apply andb_prop in E as [E1 E2].
    apply Z.leb_le in E1. apply Z.ltb_lt in E2. apply Z.eqb_eq in E3.
    assert (In z (loop a b s)).
    { apply IN. split; [lia|]. apply Z.mod_divide; lia. }
    apply (count_occ_In Z.eq_dec) in H. lia.
  - apply count_occ_not_In. intros H. apply IN in H as [H1 H2].
    apply Z.mod_divide in H2; [|lia].
    destruct (Z.leb_spec a z), (Z.ltb_spec z b), (Z.eqb_spec ((z - a) mod s) 0); simpl in E; try discriminate; lia.
Qed.

Lemma once_of_perm : forall lg first last step,
  Permutation (map snd lg) (loop first last step) -> ran_exactly_once lg first last step.
Proof. intros lg first last step P i. apply (Permutation_count_occ Z.eq_dec). exact P. Qed.
