(** Proofs about UtilModel. *)
From Coq Require Import ZArith List Bool Lia.
From Verif Require Import UtilModel.
Import ListNotations.
Local Open Scope Z_scope.

Lemma land_pred_pow2 : forall k, 0 <= k -> Z.land (2 ^ k) (2 ^ k - 1) = 0.
Proof.
  intros k Hk. rewrite Z.sub_1_r, <- Z.ones_equiv, Z.land_ones by lia.
  apply Z.mod_same. pose proof (Z.pow_pos_nonneg 2 k). lia.
Qed.

Lemma land_pred_nonpow2 : forall x, 0 < x -> Z.land x (x - 1) = 0 -> x = 2 ^ Z.log2 x.
Proof.
  intros x Hx H. pose proof (Z.log2_spec x Hx) as [L U].
  destruct (Z.eq_dec x (2 ^ Z.log2 x)) as [|N]; auto. exfalso.
  assert (P : 2 ^ Z.log2 x > 0) by (pose proof (Z.log2_nonneg x); pose proof (Z.pow_pos_nonneg 2 (Z.log2 x)); lia).
  assert (E : Z.log2 (x - 1) = Z.log2 x) by (apply Z.log2_unique; [apply Z.log2_nonneg|lia]).
  assert (B : Z.testbit (Z.land x (x - 1)) (Z.log2 x) = true).
  { rewrite Z.land_spec, Z.bit_log2 by lia. rewrite <- E at 1. rewrite Z.bit_log2 by lia. reflexivity. }
  rewrite H, Z.testbit_0_l in B. discriminate.
Qed.

Lemma w32_small : forall x, 0 <= x < 2 ^ 32 -> w32 x = x.
Proof. intros. apply Z.mod_small. auto. Qed.
Lemma w64_small : forall x, 0 <= x < 2 ^ 64 -> w64 x = x.
Proof. intros. apply Z.mod_small. auto. Qed.

Lemma isPowerOf2_spec : forall x, 0 <= x < 2 ^ 32 ->
  (isPowerOf2 x = true <-> exists k, 0 <= k /\ x = 2 ^ k).
Proof.
  intros x Hx. unfold isPowerOf2. rewrite (w32_small x Hx).
  destruct (Z.eqb_spec x 0) as [->|N]; simpl.
  - split; [discriminate|]. intros (k & Hk & E). pose proof (Z.pow_pos_nonneg 2 k). lia.
  - rewrite w32_small by lia. rewrite Z.eqb_eq. split.
    + intros H. exists (Z.log2 x). split; [apply Z.log2_nonneg|]. apply land_pred_nonpow2; auto; lia.
    + intros (k & Hk & ->). apply land_pred_pow2; auto.
Qed.

(** Loop invariant: starting from 2^j with 2^j below twice the target. *)
Lemma np2_loop_spec : forall f x j k, 0 <= j <= k -> k <= 63 -> 0 <= x <= 2 ^ k ->
  (k = 0 \/ 2 ^ (k - 1) < x) -> k - j < Z.of_nat f -> np2_loop f x (2 ^ j) = Some (2 ^ k).
Proof.
  induction f as [|f IH]; intros x j k Hj Hk Hx Hl Hf; [lia|]. cbn [np2_loop].
  destruct (Z.eq_dec j k) as [->|N].
  - rewrite Z.gtb_ltb. replace (2 ^ k <? x) with false; auto. symmetry. apply Z.ltb_ge. lia.
  - assert (2 ^ j <= 2 ^ (k - 1)) by (apply Z.pow_le_mono_r; lia).
    rewrite Z.gtb_ltb. replace (2 ^ j <? x) with true by (symmetry; apply Z.ltb_lt; lia).
    rewrite <- Z.pow_succ_r by lia. rewrite w64_small.
    + replace (Z.succ j) with (j + 1) by lia. apply IH; lia.
    + split; [apply Z.pow_nonneg; lia|]. apply Z.pow_lt_mono_r; lia.
Qed.

Lemma np2_loop_zero : forall f x, 0 < x -> np2_loop f x 0 = None.
Proof.
  induction f; intros x Hx; auto. cbn [np2_loop].
  rewrite Z.gtb_ltb. replace (0 <? x) with true by (symmetry; apply Z.ltb_lt; lia).
  change (w64 (2 * 0)) with 0. auto.
Qed.

Lemma np2_loop_diverges : forall f x j, 2 ^ 63 < x < 2 ^ 64 -> 0 <= j <= 63 -> np2_loop f x (2 ^ j) = None.
Proof.
  induction f as [|f IH]; intros x j Hx Hj; auto. cbn [np2_loop].
  assert (2 ^ j <= 2 ^ 63) by (apply Z.pow_le_mono_r; lia).
  rewrite Z.gtb_ltb. replace (2 ^ j <? x) with true by (symmetry; apply Z.ltb_lt; lia).
  rewrite <- Z.pow_succ_r by lia.
  destruct (Z.eq_dec j 63) as [->|N].
  - change (w64 (2 ^ Z.succ 63)) with 0. apply np2_loop_zero. lia.
  - rewrite w64_small.
    + apply IH; lia.
    + split; [apply Z.pow_nonneg; lia|]. apply Z.pow_lt_mono_r; lia.
Qed.

Lemma np2_loop_fuel : forall f x, 0 <= x < 2 ^ 64 -> np2_loop f x 1 <> None ->
  np2_loop 66 x 1 = np2_loop f x 1.
Proof.
  intros f x Hx H.
  assert (x <= 2 ^ 63).
  { destruct (Z.le_gt_cases x (2 ^ 63)); auto. exfalso. apply H. change 1 with (2 ^ 0). apply np2_loop_diverges; lia. }
  assert (M : forall f1 f2 y p r, np2_loop f1 y p = Some r -> (f1 <= f2)%nat -> np2_loop f2 y p = Some r).
  { induction f1 as [|f1 IH]; intros f2 y p r E L; [discriminate|]. destruct f2; [lia|]. cbn [np2_loop] in *.
    destruct (y >? p); auto. apply IH; auto; lia. }
  destruct (np2_loop f x 1) as [r|] eqn:E; [|congruence].
  destruct (Nat.le_gt_cases f 66); [eapply M; eauto|].
  assert (E66 : exists r', np2_loop 66 x 1 = Some r').
  { destruct (Z.eq_dec x 0) as [->|]; [exists 1; reflexivity|].
    destruct (Z.eq_dec x 1) as [->|]; [exists 1; reflexivity|].
    exists (2 ^ Z.log2_up x). change 1 with (2 ^ 0).
    pose proof (Z.log2_up_spec x ltac:(lia)) as [A B].
    assert (Z.log2_up x <= 63). { rewrite <- (Z.log2_up_pow2 63) by lia. apply Z.log2_up_le_mono. auto. }
    pose proof (Z.log2_up_nonneg x).
    apply np2_loop_spec; try lia; right; replace (Z.log2_up x - 1) with (Z.pred (Z.log2_up x)) by lia; auto. }
  destruct E66 as (r' & E66). rewrite E66. f_equal.
  apply (M 66%nat f) in E66; [|lia]. congruence.
Qed.

(** Characterisation of the loop result. *)
Lemma np2_value : forall x, 0 < x <= 2 ^ 63 -> exists k, 0 <= k <= 63 /\ np2_loop 66 x 1 = Some (2 ^ k) /\
  x <= 2 ^ k /\ (forall k', 0 <= k' -> x <= 2 ^ k' -> 2 ^ k <= 2 ^ k').
Proof.
  intros x Hx. change 1 with (2 ^ 0).
  destruct (Z.eq_dec x 1) as [->|N].
  - exists 0. split; [lia|]. split; [reflexivity|]. split; [simpl; lia|].
    intros. apply Z.pow_le_mono_r; lia.
  - pose proof (Z.log2_up_spec x ltac:(lia)) as [A B].
    assert (Z.log2_up x <= 63). { rewrite <- (Z.log2_up_pow2 63) by lia. apply Z.log2_up_le_mono. lia. }
    pose proof (Z.log2_up_nonneg x).
    exists (Z.log2_up x). split; [lia|]. split.
    + apply np2_loop_spec; try lia; right; replace (Z.log2_up x - 1) with (Z.pred (Z.log2_up x)) by lia; auto.
    + split; auto. intros k' Hk' L. apply Z.pow_le_mono_r; [lia|].
      rewrite <- (Z.log2_up_pow2 k') by lia. apply Z.log2_up_le_mono. auto.
Qed.

Lemma roundPow2_spec : forall x, 0 < x < 2 ^ 32 -> exists k, 0 <= k <= 32 /\ roundPow2 x = Ret (2 ^ k) /\
  x <= 2 ^ k /\ (forall k', 0 <= k' -> x <= 2 ^ k' -> 2 ^ k <= 2 ^ k').
Proof.
  intros x Hx. unfold roundPow2, nextPowerOf2.
  destruct (isPowerOf2 x) eqn:E.
  - apply isPowerOf2_spec in E; [|lia]. destruct E as (k & Hk & ->). exists k.
    split; [|split; [reflexivity|split; auto; lia]].
    split; auto. apply Z.lt_le_incl. apply (Z.pow_lt_mono_r_iff 2); lia.
  - destruct (np2_value x ltac:(lia)) as (k & Hk & EL & G & M). exists k. rewrite EL. split; [|split; [reflexivity|split; auto]].
    split; [lia|]. apply (Z.pow_le_mono_r_iff 2); [lia|lia|]. apply M; lia.
Qed.

Lemma nextMultipleOfIf_spec : forall x m, 0 < m -> 0 <= x -> x + m <= 2 ^ 32 -> exists r,
  nextMultipleOfIf x m = Some r /\ (m | r) /\ x <= r /\ (forall r', (m | r') -> x <= r' -> r <= r').
Proof.
  intros x m Hm Hx Hb. unfold nextMultipleOfIf.
  replace (m =? 0) with false by (symmetry; apply Z.eqb_neq; lia).
  pose proof (Z.mod_pos_bound x m Hm) as B. pose proof (Z.div_mod x m ltac:(lia)) as D.
  destruct (Z.eqb_spec (x mod m) 0) as [E|E].
  - exists x. split; auto. split; [exists (x / m); lia|]. split; [lia|auto].
  - rewrite w32_small by lia. eexists. split; [reflexivity|].
    split; [exists (x / m + 1); nia|]. split; [lia|].
    intros r' [q ->] L. assert (x / m < q) by nia. nia.
Qed.

Lemma land_low_shift : forall a b n, 0 <= n -> Z.land a b = 0 -> a mod 2 ^ n = b mod 2 ^ n -> a mod 2 ^ n = 0.
Proof.
  intros a b n Hn H E. rewrite <- Z.land_ones in * by auto. rewrite <- (Z.land_ones b) in E by auto.
  assert (X : Z.land (Z.land a (Z.ones n)) (Z.land b (Z.ones n)) = 0).
  { replace (Z.land (Z.land a (Z.ones n)) (Z.land b (Z.ones n))) with (Z.land (Z.land a b) (Z.ones n)).
    - rewrite H. apply Z.land_0_l.
    - apply Z.bits_inj. intros i. rewrite !Z.land_spec. destruct (Z.testbit a i), (Z.testbit b i), (Z.testbit (Z.ones n) i); auto. }
  rewrite <- E, Z.land_diag in X. auto.
Qed.

(** The alignment test accepts exactly the powers of two that are multiples of 2^n. *)
Lemma isPowerOfTwoMultiple_spec : forall a n, 0 <= n < 64 -> 0 <= a < 2 ^ 64 ->
  (isPowerOfTwoMultiple a (2 ^ n) = true <-> exists k, n <= k /\ a = 2 ^ k).
Proof.
  intros a n Hn Ha. unfold isPowerOfTwoMultiple.
  assert (P : 0 < 2 ^ n) by (apply Z.pow_pos_nonneg; lia).
  assert (E64 : 2 ^ 64 = 2 ^ n * 2 ^ (64 - n)) by (rewrite <- Z.pow_add_r by lia; f_equal; lia).
  destruct (Z.eqb_spec a 0) as [->|N]; cbn [negb andb].
  { split; [discriminate|]. intros (k & Hk & E). pose proof (Z.pow_pos_nonneg 2 k). lia. }
  rewrite Z.eqb_eq. split.
  - intros H.
    assert (M : a mod 2 ^ n = w64 (a - 2 ^ n) mod 2 ^ n).
    { unfold w64. rewrite E64. rewrite Z.rem_mul_r by (pose proof (Z.pow_pos_nonneg 2 (64 - n)); lia).
      rewrite (Z.mul_comm (2 ^ n) (_ mod _)), Z.mod_add by lia. rewrite Z.mod_mod by lia.
      replace (a - 2 ^ n) with (a + (-1) * 2 ^ n) by ring. rewrite Z.mod_add by lia. auto. }
    assert (Z0 : a mod 2 ^ n = 0) by (eapply land_low_shift; eauto; lia).
    apply Z.mod_divide in Z0; [|lia]. destruct Z0 as [b Eb].
    assert (Hb : 1 <= b) by nia.
    rewrite w64_small in H by nia.
    assert (HH : Z.land b (b - 1) = 0).
    { replace (a - 2 ^ n) with ((b - 1) * 2 ^ n) in H by nia. rewrite Eb in H.
      rewrite <- !Z.shiftl_mul_pow2 in H by lia. rewrite <- Z.shiftl_land in H.
      rewrite Z.shiftl_mul_pow2 in H by lia. nia. }
    apply land_pred_nonpow2 in HH; [|lia].
    exists (n + Z.log2 b). pose proof (Z.log2_nonneg b). split; [lia|].
    rewrite Z.pow_add_r by lia. rewrite <- HH. lia.
  - intros (k & Hk & ->).
    assert (L : 2 ^ n <= 2 ^ k) by (apply Z.pow_le_mono_r; lia).
    rewrite w64_small by lia.
    apply Z.bits_inj. intros i. rewrite Z.land_spec, Z.testbit_0_l.
    destruct (Z.eq_dec i k) as [->|Ni].
    + replace (Z.testbit (2 ^ k - 2 ^ n) k) with false; [apply andb_false_r|].
      symmetry. rewrite Z.testbit_false by lia. rewrite Z.div_small by lia. reflexivity.
    + rewrite Z.pow2_bits_false by auto. reflexivity.
Qed.

(** ** mapper *)
Lemma pad_nth : forall k j l, (j + k <= length l)%nat ->
  pad k j l = l ++ firstn k (skipn j l).
Proof.
  induction k as [|k IH]; intros j l H; cbn [pad].
  - rewrite app_nil_r. auto.
  - rewrite IH by (rewrite app_length; simpl; lia).
    rewrite <- app_assoc. f_equal.
    rewrite skipn_app. replace (S j - length l)%nat with 0%nat by lia. rewrite skipn_O.
    rewrite firstn_app. rewrite skipn_length. replace (k - (length l - S j))%nat with 0%nat by lia.
    rewrite firstn_O, app_nil_r.
    assert (E : skipn j l = nth j l 0 :: skipn (S j) l).
    { clear -H. revert j H. induction l; destruct j; simpl in *; intros; try lia; auto. rewrite <- IHl by lia. auto. }
    rewrite E. reflexivity.
Qed.

(** The cyclic list of the specification: [size] entries, entry i is l[i mod length l]. *)
Lemma padded_spec : forall l, l <> [] -> Z.of_nat (length l) < 2 ^ 32 -> exists k,
  0 <= k <= 32 /\ padded l = Some (2 ^ k, l ++ firstn (Z.to_nat (2 ^ k) - length l) l) /\
  Z.of_nat (length l) <= 2 ^ k < 2 * Z.of_nat (length l).
Proof.
  intros l N B. assert (0 < Z.of_nat (length l)) by (destruct l; simpl; [congruence|lia]).
  destruct (roundPow2_spec (Z.of_nat (length l)) ltac:(lia)) as (k & Hk & E & G & M).
  exists k. unfold padded. rewrite E. split; auto.
  assert (U : 2 ^ k < 2 * Z.of_nat (length l)).
  { destruct (Z.eq_dec k 0) as [->|]; [change (2 ^ 0) with 1; lia|].
    destruct (Z.lt_ge_cases (2 ^ (k - 1)) (Z.of_nat (length l))).
    - replace k with (Z.succ (k - 1)) by lia. rewrite Z.pow_succ_r by lia. lia.
    - specialize (M (k - 1) ltac:(lia) ltac:(lia)).
      pose proof (Z.pow_lt_mono_r 2 (k - 1) k ltac:(lia)). lia. }
  split; [|lia]. rewrite pad_nth by lia. reflexivity.
Qed.

Lemma padded_length : forall (l : list Z) k, Z.of_nat (length l) <= 2 ^ k < 2 * Z.of_nat (length l) -> 
  length (l ++ firstn (Z.to_nat (2 ^ k) - length l) l) = Z.to_nat (2 ^ k).
Proof. intros. rewrite app_length, firstn_length. lia. Qed.

(** Well-formed mapper: the list has [mask]+1 = 2^k entries, all among the existing cores. *)
Definition mwf (m : mapper) : Prop :=
  exists k, 0 <= k <= 32 /\ mask m = 2 ^ k - 1 /\ length (clist m) = Z.to_nat (2 ^ k) /\
  0 <= rrcnt m < 2 ^ k /\ 0 < num_cores m < 2 ^ 32 /\ Forall (fun c => 0 <= c < num_cores m) (clist m).

Lemma mwf_core : forall m t, mwf m -> 0 <= t ->
  core_of m t = nth_error (clist m) (Z.to_nat (t mod 2 ^ Z.log2 (mask m + 1))) /\
  exists c, core_of m t = Some c /\ 0 <= c < num_cores m.
Proof.
  intros m t (k & Hk & Em & El & Er & En & F) Ht. unfold core_of.
  rewrite Em. replace (2 ^ k - 1 + 1) with (2 ^ k) by lia. rewrite Z.log2_pow2 by lia.
  rewrite Z.sub_1_r, <- Z.ones_equiv, Z.land_ones by lia. split; auto.
  pose proof (Z.mod_pos_bound t (2 ^ k) ltac:(apply Z.pow_pos_nonneg; lia)).
  destruct (nth_error (clist m) (Z.to_nat (t mod 2 ^ k))) as [c|] eqn:E.
  - exists c. split; auto. rewrite Forall_forall in F. apply F. eapply nth_error_In; eauto.
  - apply nth_error_None in E. lia.
Qed.

Lemma mwf_next : forall m, mwf m -> mwf (fst (next_core m)) /\
  exists c, snd (next_core m) = Some c /\ 0 <= c < num_cores m.
Proof.
  intros m (k & Hk & Em & El & Er & En & F). unfold next_core; cbn [fst snd].
  assert (P : 0 < 2 ^ k) by (apply Z.pow_pos_nonneg; lia).
  split.
  - exists k. cbn [mask clist rrcnt num_cores]. split; [auto|]. split; [auto|]. split; [auto|]. split; [|auto].
    rewrite Em. rewrite Z.sub_1_r, <- Z.ones_equiv, Z.land_ones by lia. apply Z.mod_pos_bound. auto.
  - destruct (nth_error (clist m) (Z.to_nat (rrcnt m))) as [c|] eqn:E.
    + exists c. split; auto. rewrite Forall_forall in F. apply F. eapply nth_error_In; eauto.
    + apply nth_error_None in E. lia.
Qed.

Lemma bad_cpu_spec : forall m c, 0 < num_cores m < 2 ^ 32 -> bad_cpu m c = false <-> c < num_cores m.
Proof.
  intros m c H. unfold bad_cpu. rewrite w32_small by lia. rewrite Z.gtb_ltb, Z.ltb_ge. lia.
Qed.

Lemma mwf_set : forall m ids nc, 0 < nc < 2 ^ 32 -> num_cores m = nc -> ids <> [] -> Z.of_nat (length ids) < 2 ^ 32 ->
  Forall (fun c => 0 <= c) ids -> existsb (bad_cpu m) ids = false ->
  exists k, padded ids = Some (2 ^ k, ids ++ firstn (Z.to_nat (2 ^ k) - length ids) ids) /\
  mwf (Mapper nc (2 ^ k - 1) 0 (ids ++ firstn (Z.to_nat (2 ^ k) - length ids) ids)).
Proof.
  intros m ids nc Hn En N B F X.
  destruct (padded_spec ids N B) as (k & Hk & E & L). exists k. split; auto.
  exists k. cbn [mask clist rrcnt num_cores]. split; [auto|]. split; [auto|]. split; [apply padded_length; auto|].
  split; [split; [lia|apply Z.pow_pos_nonneg; lia]|]. split; [lia|].
  assert (G : Forall (fun c => 0 <= c < nc) ids).
  { rewrite Forall_forall in *. intros c Hc. split; auto.
    destruct (bad_cpu m c) eqn:Eb.
    - assert (existsb (bad_cpu m) ids = true) by (apply existsb_exists; eauto). congruence.
    - apply bad_cpu_spec in Eb; lia. }
  apply Forall_app. split; auto. rewrite Forall_forall in *. intros c Hc. apply G.
  rewrite <- (firstn_skipn (Z.to_nat (2 ^ k) - length ids) ids). apply in_or_app. auto.
Qed.

(** Requests a client can make: ids are unsigned, lists shorter than 2^32. *)
Definition mop_ok (o : mop) : Prop :=
  match o with
  | SetStr ids | SetVec ids => Forall (fun c => 0 <= c) ids /\ Z.of_nat (length ids) < 2 ^ 32
  | CoreOf t => 0 <= t
  | Next => True
  end.

Lemma mwf_reset : forall m, mwf m -> mwf (Mapper (num_cores m) (mask m) 0 (clist m)).
Proof.
  intros m (k & Hk & Em & El & Er & En & F). exists k. cbn [mask clist rrcnt num_cores].
  split; [auto|]. split; [auto|]. split; [auto|]. split; [lia|]. split; auto.
Qed.

Lemma mstep_ok : forall m o, mwf m -> mop_ok o ->
  mwf (fst (mstep m o)) /\ num_cores (fst (mstep m o)) = num_cores m /\
  (forall r, snd (mstep m o) = Some r -> exists c, r = Some c /\ 0 <= c < num_cores m).
Proof.
  intros m o W OK. destruct o as [ids|ids| |t]; cbn [mstep].
  - split; [|split; [|simpl; discriminate]]; unfold set_str; cbn [fst]; destruct ids as [|i ids]; try (apply mwf_reset; auto); auto.
    + destruct (existsb (bad_cpu m) (i :: ids)) eqn:X; [apply mwf_reset; auto|].
      destruct OK as [F B]. assert (W' := W). destruct W' as (k0 & _ & _ & _ & _ & En & _).
      destruct (mwf_set m (i :: ids) _ En eq_refl ltac:(discriminate) B F X) as (k & -> & W2). auto.
    + destruct (existsb (bad_cpu m) (i :: ids)); auto. destruct (padded (i :: ids)) as [[? ?]|]; auto.
  - split; [|split; [|simpl; discriminate]]; unfold set_vec; cbn [fst].
    + destruct (_ || _) eqn:Y; [apply mwf_reset; auto|].
      destruct (existsb (bad_cpu m) ids) eqn:X; [apply mwf_reset; auto|].
      destruct OK as [F B]. assert (W' := W). destruct W' as (k0 & _ & _ & _ & _ & En & _).
      assert (N : ids <> []). { intros ->. cbn in Y. rewrite orb_true_r in Y. discriminate. }
      destruct (mwf_set m ids _ En eq_refl N B F X) as (k & -> & W2). auto.
    + destruct (_ || _); auto. destruct (existsb (bad_cpu m) ids); auto. destruct (padded ids) as [[? ?]|]; auto.
  - destruct (mwf_next m W) as (W2 & c & E & R). unfold next_core in *. cbn [fst snd] in *.
    split; auto. split; auto. intros r Er. injection Er as <-. eauto.
  - cbn [fst snd]. split; auto. split; auto. intros r Er. injection Er as <-.
    apply mwf_core; auto.
Qed.

Lemma mrun_ok : forall l m, mwf m -> Forall mop_ok l ->
  Forall (fun r => exists c, r = Some c /\ 0 <= c < num_cores m) (snd (mrun m l)).
Proof.
  induction l as [|o l IH]; intros m W F; cbn [mrun]; [constructor|].
  inversion_clear F as [|? ? Ho Fl]. destruct (mstep_ok m o W Ho) as (W1 & E1 & R1).
  destruct (mstep m o) as [m1 c]. cbn [fst snd] in *.
  specialize (IH m1 W1 Fl). rewrite E1 in IH. destruct (mrun m1 l) as [m2 cs]. cbn [snd] in *.
  destruct c; auto.
Qed.

Lemma mk_mapper_wf : forall nc, 0 < Z.of_nat nc < 2 ^ 32 -> exists m, mk_mapper nc = Some m /\ mwf m /\ num_cores m = Z.of_nat nc.
Proof.
  intros nc Hn. unfold mk_mapper.
  assert (N : map Z.of_nat (seq 0 nc) <> []) by (destruct nc; [lia|discriminate]).
  assert (EX : existsb (bad_cpu (Mapper (Z.of_nat nc) 0 0 [])) (map Z.of_nat (seq 0 nc)) = false).
  { destruct (existsb _ _) eqn:E; auto. apply existsb_exists in E as (c & Hc & Eb).
    apply in_map_iff in Hc as (i & <- & Hi). apply in_seq in Hi.
    assert (bad_cpu (Mapper (Z.of_nat nc) 0 0 []) (Z.of_nat i) = false) by (apply bad_cpu_spec; cbn [num_cores]; lia). congruence. }
  destruct (mwf_set (Mapper (Z.of_nat nc) 0 0 []) (map Z.of_nat (seq 0 nc)) (Z.of_nat nc) Hn eq_refl N) as (k & E & W); auto.
  - rewrite map_length, seq_length. lia.
  - rewrite Forall_forall. intros c Hc. apply in_map_iff in Hc as (i & <- & Hi). lia.
  - rewrite E. eexists. split; [reflexivity|]. auto.
Qed.

(** After an accepted list of m ids, thread t < m gets id t, and when m is a power of two every
    thread t gets id t mod m. *)
Lemma set_str_map : forall m ids, mwf m -> ids <> [] -> Forall (fun c => 0 <= c < num_cores m) ids ->
  Z.of_nat (length ids) < 2 ^ 32 ->
  snd (set_str m ids) = Z.of_nat (length ids) /\
  (forall t, (t < length ids)%nat -> core_of (fst (set_str m ids)) (Z.of_nat t) = nth_error ids t) /\
  (forall k t, length ids = Nat.pow 2 k -> core_of (fst (set_str m ids)) (Z.of_nat t) = nth_error ids (t mod length ids)%nat).
Proof.
  intros m ids W N F B. assert (W' := W). destruct W' as (k0 & _ & _ & _ & _ & En & _).
  assert (X : existsb (bad_cpu m) ids = false).
  { destruct (existsb _ _) eqn:E; auto. apply existsb_exists in E as (c & Hc & Eb).
    rewrite Forall_forall in F. specialize (F c Hc). assert (bad_cpu m c = false) by (apply bad_cpu_spec; lia). congruence. }
  destruct (padded_spec ids N B) as (k & Hk & E & L).
  assert (ES : set_str m ids = (Mapper (num_cores m) (2 ^ k - 1) 0 (ids ++ firstn (Z.to_nat (2 ^ k) - length ids) ids), Z.of_nat (length ids))).
  { unfold set_str. destruct ids; [congruence|]. rewrite X, E. reflexivity. }
  rewrite ES. cbn [fst snd]. split; auto. unfold core_of. cbn [mask clist].
  rewrite Z.sub_1_r, <- Z.ones_equiv. split.
  - intros t Ht. rewrite Z.land_ones, Z.mod_small by lia. rewrite Nat2Z.id. apply nth_error_app1. auto.
  - intros k' t Hp. rewrite Z.land_ones by lia.
    assert (Ek : 2 ^ k = Z.of_nat (length ids)).
    { rewrite Hp in *. rewrite Nat2Z.inj_pow in *. change (Z.of_nat 2) with 2 in *.
      assert (k = Z.of_nat k'); [|subst; auto].
      apply Z.le_antisymm.
      - apply Z.lt_succ_r. apply (Z.pow_lt_mono_r_iff 2); [lia|lia|]. rewrite Z.pow_succ_r by lia. lia.
      - apply (Z.pow_le_mono_r_iff 2); lia. }
    rewrite Ek. rewrite <- Nat2Z.inj_mod. rewrite !Nat2Z.id. apply nth_error_app1.
    apply Nat.mod_upper_bound. destruct ids; simpl; [congruence|lia].
Qed.

(** Successive [getCoreId()] after an accepted list: k-th call returns what [getCoreId(k)] returns. *)
Lemma rr_calls : forall n m, mwf m ->
  snd (mrun m (repeat Next n)) = map (fun i => core_of m (rrcnt m + Z.of_nat i)) (seq 0 n).
Proof.
  induction n as [|n IH]; intros m W; [reflexivity|]. cbn [repeat mrun mstep next_core].
  set (m1 := Mapper (num_cores m) (mask m) (Z.land (rrcnt m + 1) (mask m)) (clist m)).
  assert (W1 : mwf m1) by (apply (proj1 (mwf_next m W))).
  specialize (IH m1 W1). destruct (mrun m1 (repeat Next n)) as [m2 cs]. cbn [snd] in *. rewrite IH.
  cbn [seq map]. destruct W as (k & Hk & Em & El & Er & En & F). f_equal.
  - unfold core_of. rewrite Em. rewrite Z.sub_1_r, <- Z.ones_equiv, Z.land_ones by lia.
    rewrite Z.mod_small by lia. f_equal. lia.
  - rewrite <- seq_shift, map_map. apply map_ext. intros i. unfold core_of, m1. cbn [mask rrcnt clist].
    f_equal. f_equal. rewrite Em. rewrite Z.sub_1_r, <- Z.ones_equiv, !Z.land_ones by lia.
    rewrite Z.add_mod_idemp_l by (pose proof (Z.pow_pos_nonneg 2 k); lia). f_equal. lia.
Qed.
