(** Alignment arithmetic, the backward walk of free(), and the remaining
    operations of the allocator. *)
From Coq Require Import List ZArith Lia Bool Permutation.
From Verif Require Import AllocModel AllocProofs AllocProofs2.
Import ListNotations.
Open Scope Z_scope.

(** * Powers of two *)
Lemma land_pred_pow2 : forall m, 0 < m -> Z.land m (m - 1) = 0 -> m = 2 ^ Z.log2 m.
Proof.
  intros m Hm E. destruct (Z.log2_spec m Hm) as [L1 L2].
  destruct (Z.eq_dec m (2 ^ Z.log2 m)) as [|N]; auto. exfalso.
  assert (B : Z.testbit (Z.land m (m - 1)) (Z.log2 m) = true).
  { rewrite Z.land_spec, Z.bit_log2 by auto. cbn.
    replace (Z.log2 m) with (Z.log2 (m - 1)); [apply Z.bit_log2|].
    - pose proof (Z.pow_pos_nonneg 2 (Z.log2 m) ltac:(lia) (Z.log2_nonneg m)). lia.
    - apply Z.log2_unique; [apply Z.log2_nonneg|lia]. }
  rewrite E, Z.bits_0 in B. discriminate.
Qed.

Lemma pow2_land_pred : forall k, 0 <= k -> Z.land (2 ^ k) (2 ^ k - 1) = 0.
Proof.
  intros k Hk.
  replace (2 ^ k - 1) with (Z.ones k) by (rewrite Z.ones_equiv; lia).
  rewrite Z.land_ones by auto. apply Z.mod_same. pose proof (Z.pow_pos_nonneg 2 k ltac:(lia) Hk). lia.
Qed.

Lemma pow2_multiple_spec : forall al, 0 <= al < W64 ->
  (pow2_multiple al 8 = true <-> exists k, 3 <= k /\ al = 2 ^ k).
Proof.
  intros al Ha. unfold pow2_multiple. rewrite andb_true_iff, negb_true_iff, Z.eqb_neq, Z.eqb_eq.
  assert (Elow : ((al - 8) mod W64) mod 8 = al mod 8).
  { unfold W64. rewrite <- Znumtheory.Zmod_div_mod; try lia; [|exists (2 ^ 61); reflexivity].
    replace (al - 8) with (al + (-1) * 8) by lia. apply Z.mod_add. lia. }
  split.
  - intros [N E].
    assert (L : Z.land al (Z.ones 3) = 0).
    { assert (Q : Z.land (al mod 8) (al mod 8) = 0).
      { rewrite <- Elow at 2. remember ((al - 8) mod W64) as y eqn:Ey. clear Ey.
        change 8 with (2 ^ 3). rewrite <- !Z.land_ones by lia.
        rewrite Z.land_assoc, <- (Z.land_assoc al), (Z.land_comm (Z.ones 3)), Z.land_assoc, E.
        reflexivity. }
      rewrite Z.land_diag in Q. rewrite Z.land_ones by lia. exact Q. }
    rewrite Z.land_ones in L by lia. change (2 ^ 3) with 8 in L.
    apply Z.mod_divide in L; [|lia]. destruct L as [m ->].
    assert (Hm : 0 < m) by lia.
    rewrite Z.mod_small in E by lia.
    replace (m * 8 - 8) with ((m - 1) * 2 ^ 3) in E by lia.
    change (m * 8) with (m * 2 ^ 3) in E. rewrite <- !Z.shiftl_mul_pow2, <- Z.shiftl_land in E by lia.
    apply Z.shiftl_eq_0_iff in E; [|lia].
    apply land_pred_pow2 in E; auto. exists (Z.log2 m + 3). split; [pose proof (Z.log2_nonneg m); lia|].
    rewrite Z.pow_add_r; [|apply Z.log2_nonneg|lia]. change (2 ^ 3) with 8. lia.
  - intros (k & Hk & ->).
    pose proof (Z.pow_pos_nonneg 2 k ltac:(lia) ltac:(lia)). split; [lia|].
    replace k with (k - 3 + 3) in * by lia. rewrite Z.pow_add_r in * by lia. change (2 ^ 3) with 8 in *.
    assert (0 < 2 ^ (k - 3)) by (apply Z.pow_pos_nonneg; lia).
    rewrite Z.mod_small by lia.
    replace (2 ^ (k - 3) * 8 - 8) with ((2 ^ (k - 3) - 1) * 2 ^ 3) by lia.
    change (2 ^ (k - 3) * 8) with (2 ^ (k - 3) * 2 ^ 3).
    rewrite <- !Z.shiftl_mul_pow2, <- Z.shiftl_land by lia.
    rewrite pow2_land_pred by lia. apply Z.shiftl_0_l.
Qed.

Lemma land_mask : forall x k, 0 <= k <= 64 -> 0 <= x < W64 ->
  Z.land x (W64 - 1 - (2 ^ k - 1)) = x - x mod 2 ^ k.
Proof.
  intros x k Hk Hx.
  pose proof (Z.pow_pos_nonneg 2 k ltac:(lia) ltac:(lia)) as P.
  replace (W64 - 1 - (2 ^ k - 1)) with (Z.ldiff (Z.ones 64) (Z.ones k)).
  - rewrite Z.ldiff_land, Z.land_assoc, (Z.land_ones x 64) by lia.
    rewrite (Z.mod_small x) by (exact Hx). rewrite <- Z.ldiff_land.
    rewrite Z.ldiff_ones_r by lia. rewrite Z.shiftr_div_pow2, Z.shiftl_mul_pow2 by lia.
    pose proof (Z.div_mod x (2 ^ k)). lia.
  - rewrite Z.ldiff_ones_r by lia. rewrite Z.shiftr_div_pow2, Z.shiftl_mul_pow2 by lia.
    rewrite Z.ones_equiv. unfold W64.
    assert (E : 2 ^ 64 = 2 ^ (64 - k) * 2 ^ k) by (rewrite <- Z.pow_add_r by lia; f_equal; lia).
    assert (Q : Z.pred (2 ^ 64) / 2 ^ k = 2 ^ (64 - k) - 1).
    { symmetry. apply Z.div_unique with (r := 2 ^ k - 1); lia. }
    rewrite Q. lia.
Qed.

Lemma align_up_spec : forall buf k, 0 <= k <= 64 -> 0 <= buf -> buf + 2 ^ k < W64 ->
  (2 ^ k | align_up buf (2 ^ k)) /\ buf < align_up buf (2 ^ k) <= buf + 2 ^ k.
Proof.
  intros buf k Hk Hb Hw. unfold align_up.
  pose proof (Z.pow_pos_nonneg 2 k ltac:(lia) ltac:(lia)) as P.
  rewrite (Z.mod_small (buf + 2 ^ k)) by lia. rewrite land_mask by lia.
  pose proof (Z.mod_pos_bound (buf + 2 ^ k) (2 ^ k) P).
  split; [|lia].
  exists ((buf + 2 ^ k) / 2 ^ k). pose proof (Z.div_mod (buf + 2 ^ k) (2 ^ k)). lia.
Qed.

(** * Size classes *)
Lemma getslabs_spec : forall size, 0 < size <= 8192 ->
  exists c, getslabs size = Some c /\ (c < 9)%nat /\ size <= csize c /\
            forall c', (c' < c)%nat -> csize c' < size.
Proof.
  intros size H. unfold getslabs. destruct (Z.eqb_spec size 0); [lia|].
  pose proof (Z.log2_nonneg (size - 1)) as L0.
  assert (L1 : Z.log2 (size - 1) <= 12).
  { change 12 with (Z.log2 8191). apply Z.log2_le_mono. lia. }
  destruct (Z.ltb_spec (Z.log2 (size - 1) + 1) 5) as [L|L].
  - exists 0%nat. repeat split; try lia. change (csize 0) with 32.
    destruct (Z.eq_dec size 1); [lia|].
    assert (size - 1 < 2 ^ 5); [|lia]. apply Z.log2_lt_pow2; lia.
  - destruct (Z.ltb_spec 13 (Z.log2 (size - 1) + 1)) as [|_]; [lia|].
    assert (S1 : 0 < size - 1).
    { destruct (Z.eq_dec (size - 1) 0) as [E|]; [rewrite E in L; cbn in L; lia|lia]. }
    destruct (Z.log2_spec (size - 1) S1) as [Q1 Q2].
    exists (Z.to_nat (Z.log2 (size - 1) + 1 - 5)). split; auto. split; [lia|]. split.
    + unfold csize. rewrite Z2Nat.id by lia. change 32 with (2 ^ 5). rewrite <- Z.pow_add_r by lia.
      replace (5 + (Z.log2 (size - 1) + 1 - 5)) with (Z.succ (Z.log2 (size - 1))) by lia. lia.
    + intros c' Hc. unfold csize. change 32 with (2 ^ 5). rewrite <- Z.pow_add_r by lia.
      assert (2 ^ (5 + Z.of_nat c') <= 2 ^ Z.log2 (size - 1)) by (apply Z.pow_le_mono_r; lia). lia.
Qed.

(** * The back pointers *)
Lemma fill_out : forall n m p q v w, p <= q -> (w < p \/ q <= w) -> (8 | q - p) -> fill n m p q v w = m w.
Proof.
  induction n as [|n IH]; simpl; intros m p q v w H W D; auto.
  destruct (Z.eqb_spec p q); auto.
  assert (p + 8 <= q) by (destruct D; lia).
  rewrite IH; [apply wr_neq; lia|lia|lia|destruct D as [d D]; exists (d - 1); lia].
Qed.
Lemma fill_in : forall n m p q v w, (8 | q - p) -> q - p <= 8 * Z.of_nat n -> (8 | w - p) -> p <= w < q ->
  fill n m p q v w = v.
Proof.
  induction n as [|n IH]; intros m p q v w D L Dw W; [lia|]. cbn [fill].
  destruct (Z.eqb_spec p q); [lia|].
  destruct (Z.eq_dec w p) as [->|N].
  - rewrite fill_out; [apply wr_eq| |lia|].
    + destruct D; lia.
    + destruct D as [d D]; exists (d - 1); lia.
  - destruct D as [d D], Dw as [e Dw]. apply IH; try lia; [exists (d - 1)|exists (e - 1)]; lia.
Qed.
Lemma walk_finds : forall n m buf h b, (8 | buf - h) -> h <= buf -> buf - h < 8 * Z.of_nat n ->
  (forall w, (8 | w - h) -> h <= w <= buf -> m w = b) -> m (h - 8) <> b -> walk n m buf = FSlab h.
Proof.
  induction n as [|n IH]; intros m buf h b D L F A N; [lia|]. cbn [walk].
  destruct (Z.eq_dec buf h) as [->|Nb].
  - rewrite (A h); [|exists 0; lia|lia]. destruct (Z.eqb_spec b (m (h - 8))); congruence.
  - assert (h <= buf - 8) by (destruct D; lia).
    assert (D' : (8 | buf - 8 - h)) by (destruct D as [d D]; exists (d - 1); lia).
    rewrite (A buf), (A (buf - 8)); auto; try lia.
    rewrite Z.eqb_refl. apply (IH _ _ _ b); auto; try lia.
    intros w Dw W. apply A; auto. lia.
Qed.

Section Ops3.
  Variable ns : nat -> Z.
  Notation Inv := (Inv ns).
  Notation slab := (slab ns).
  Notation good := (good ns).
  Notation segf := (segf ns).
  Notation inseg := (inseg ns).

  (** In every state of the invariant free() finds the block a pointer belongs to. *)
  Lemma before_header : forall hand s h b c k, Inv hand s -> slab s h b c k -> mem s (h - 8) <> b.
  Proof.
    intros hand s h b c k V (H & Hk & -> & _).
    destruct (Z.eq_dec k 0) as [->|N].
    - rewrite hdr_0. replace (b + 24 - 8) with (b + 16) by lia.
      pose proof (v_av ns _ _ V _ _ H). destruct (v_seg ns _ _ V _ _ H) as (_ & _ & Q & _).
      pose proof (cnt_nonneg (segf b c) (toks hand s)). lia.
    - apply (v_last ns _ _ V _ c); auto. lia.
  Qed.

  Lemma csize_le : forall c, (c < 9)%nat -> csize c <= 8192.
  Proof.
    intros c H. unfold csize. assert (2 ^ Z.of_nat c <= 2 ^ 8) by (apply Z.pow_le_mono_r; lia). lia.
  Qed.

  Lemma finds_slab : forall hand s x b c k, Inv hand s -> (c < 9)%nat ->
    slab s (bh x) b c k -> (8 | bptr x) -> bh x + 8 <= bptr x < bh x + 8 + csize c ->
    (forall w, (8 | w) -> bh x <= w < bptr x -> mem s w = b) ->
    free_finds (mem s) (bptr x) = FSlab (bh x).
  Proof.
    intros hand s x b c k V Hc S D L A.
    pose proof (before_header _ _ _ _ _ _ V S) as B.
    pose proof (csize_le c Hc).
    assert (Dh : (8 | bh x)).
    { destruct S as (H1 & _ & -> & _). apply hdr_div. apply (v_seg ns _ _ V _ _ H1). }
    assert (Eb : mem s (bptr x - 8) = b).
    { apply A; [|lia]. destruct D as [d D]; exists (d - 1); lia. }
    assert (Hb : 0 < b) by (destruct S as (H1 & _); destruct (v_seg ns _ _ V _ _ H1); lia).
    unfold free_finds. rewrite Eb. destruct (Z.eqb_spec b 0); [lia|].
    apply (walk_finds _ _ _ _ b); auto; try lia.
    - destruct D as [d D], Dh as [e De]. exists (d - 1 - e). lia.
    - unfold WALK. lia.
    - intros w Dw W. apply A; [|lia]. destruct Dw as [d Dw], Dh as [e De]. exists (d + e). lia.
  Qed.

  Lemma seg_class_eq : forall hand s b c, Inv hand s -> In (b, c) (segs s) -> seg_class s b = Some c.
  Proof.
    intros hand s b c V H. unfold seg_class.
    destruct (find (fun x => fst x =? b) (segs s)) as [[b' c']|] eqn:E.
    - apply find_some in E as [E1 E2]. cbn [fst] in E2. apply Z.eqb_eq in E2. subst b'. cbn.
      destruct (head_same ns _ _ b c' b c 0 V E1 H ltac:(lia) eq_refl) as [_ ->]. auto.
    - exfalso. apply (find_none _ _ E) in H. cbn [fst] in H. lia.
  Qed.

  Lemma check_reclaim_inv : forall hand s h b c k, Inv (h :: hand) s -> slab s h b c k ->
    nomore s = true \/ avail s c = 0 -> Inv hand (check_reclaim ns s h).
  Proof.
    intros hand s h b c k V S Hn. pose proof S as (Hs & Hk & Eh & Em).
    unfold check_reclaim. rewrite Em, (seg_class_eq _ _ _ _ V Hs).
    destruct (v_seg ns _ _ V _ _ Hs) as (Hns & Hb8 & Hbn & HbW).
    pose proof (v_av ns _ _ V _ _ Hs) as Hav.
    change (toks (h :: hand) s) with (h :: toks hand s) in Hav. rewrite cnt_cons in Hav.
    rewrite (segf_slab ns _ _ _ _ _ S) in Hav.
    set (m1 := wr (mem s) (b + 16) (mem s (b + 16) + 1)).
    assert (Mo : forall w, w <> b + 16 -> m1 w = mem s w) by (intros; apply wr_neq; auto).
    assert (M16 : m1 (b + 16) = mem s (b + 16) + 1) by apply wr_eq.
    assert (Mh : forall b' c' k', In (b', c') (segs s) -> 0 <= k' < ns c' -> m1 (hdr b' c' k') = mem s (hdr b' c' k')).
    { intros b' c' k' H Hk'. apply Mo. apply (hdr_not_head ns _ _ _ _ _ b c 16 V H Hs); auto. lia. }
    assert (Mp : forall b' c' k' w, In (b', c') (segs s) -> 0 <= k' < ns c' ->
                 hdr b' c' k' < w < hdr b' c' k' + 8 + csize c' -> m1 w = mem s w).
    { intros b' c' k' w H Hk' W. apply Mo. intros ->. apply (pay_not_ctl ns _ _ _ _ _ _ V H Hk' W).
      exists b, c; auto. }
    assert (Mr : forall a len w, In (a, len) (regs s) -> a <= w < a + len -> m1 w = mem s w).
    { intros a len w R W. apply Mo. intros ->. apply (reg_not_ctl ns _ _ _ _ _ V R W). exists b, c; auto. }
    set (sg := if mem s (b + 16) + 1 =? ns c then filter (fun x => negb (fst x =? b)) (segs s) else segs s).
    assert (Sub : forall x, In x sg -> In x (segs s)).
    { subst sg. intros x H. destruct (_ =? _); auto. apply filter_In in H. apply H. }
    assert (Keep : forall b' c', In (b', c') (segs s) -> (b' = b -> mem s (b + 16) + 1 <> ns c) -> In (b', c') sg).
    { subst sg. intros b' c' H N. destruct (Z.eqb_spec (mem s (b + 16) + 1) (ns c)) as [E|]; auto.
      apply filter_In. split; auto. cbn. destruct (Z.eqb_spec b' b) as [Eb|]; auto. exfalso. exact (N Eb E). }
    (* when the segment goes, no token is left in it *)
    assert (Gone : mem s (b + 16) + 1 = ns c -> forall h', In h' (toks hand s) -> segf b c h' = false).
    { intros E. apply cnt_zero. lia. }
    set (s1 := mkS m1 sg (regs s) (bp s) (avail s) (lq s) (nomore s) (pend s) (live s) (bad s)).
    assert (SL : forall h' b' c' k', In h' (toks hand s) -> slab s h' b' c' k' -> slab s1 h' b' c' k').
    { intros h' b' c' k' Ht S'. pose proof S' as (P1 & P2 & P3 & P4). repeat split; auto; try lia.
      - apply Keep; auto. intros -> E. pose proof (Gone E _ Ht) as Q.
        destruct (head_same ns _ _ b c' b c 16 V P1 Hs ltac:(lia) eq_refl) as [_ ->].
        rewrite (segf_slab ns _ _ _ _ _ S') in Q. discriminate.
      - cbn. subst h'. rewrite Mh; auto. }
    assert (RG : forall h' len, reg s h' len -> reg s1 h' len).
    { intros h' len (P1 & P2). split; auto. cbn. destruct (v_reg ns _ _ V _ _ P1) as (_ & _ & Q & _).
      rewrite (Mr _ _ _ P1); auto. lia. }
    assert (Et : toks hand s1 = toks hand s) by reflexivity.
    pose proof V as V'.
    destruct V' as [V1 V2 V3 V4 V5 V6 V7 V8 V9 V10 V11 V12 V13 V14 V15 V16].
    change (toks (h :: hand) s) with (h :: toks hand s) in *.
    assert (InL : forall x, In x (live s) -> In (bh x) (toks hand s)).
    { intros x H. unfold toks. rewrite !in_app_iff. right; left. apply in_map; auto. }
    assert (InP : forall t h', In (t, h') (pend s) -> In h' (toks hand s)).
    { intros t h' H. unfold toks. rewrite !in_app_iff. right; right; left. apply (in_map snd) in H; auto. }
    assert (InQ : forall c' t h', In (c', t, h') (lq s) -> In h' (toks hand s)).
    { intros c' t h' H. unfold toks. rewrite !in_app_iff. right; right; right. apply (in_map snd) in H; auto. }
    constructor; rewrite ?Et; cbn [bad segs regs bp avail lq nomore pend live mem s1]; auto.
    - subst sg. destruct (_ =? _); auto. apply FOP_filter; auto.
    - intros a len H. destruct (V6 _ _ H) as (P1 & P2 & P3 & P4). repeat split; auto.
      rewrite (Mr _ _ _ H); auto. lia.
    - inversion V7; auto.
    - intros h' H. assert (In h' (toks hand s)) by (unfold toks; apply in_or_app; auto).
      destruct (V8 h' (or_intror H)) as [(b' & c' & k' & S')|(len & R)]; [left|right]; eauto 6.
    - intros x H. destruct (V9 _ H) as (P1 & P2 & P3 & P4 & P4' & P5).
      repeat split; auto. destruct (bsys x) eqn:Eb.
      + destruct P5 as (len & R & Q). exists len. auto.
      + destruct P5 as (b' & c' & k' & S' & Q1 & Q2 & Q3). exists b', c', k'.
        split; [apply SL; auto|]. split; [auto|]. split; [auto|].
        intros w W8 W. cbn [mem s1]. destruct (Z.eq_dec w (bh x)) as [->|Nw].
        * apply (SL _ _ _ _ (InL _ H) S').
        * pose proof S' as (P6 & P7 & P8 & _). rewrite P8 in *.
          rewrite (Mp b' c' k'); auto. lia.
    - intros t h' H. destruct (V10 _ _ H) as (b' & c' & k' & S'). exists b', c', k'. apply SL; eauto.
    - intros c' t h' H. destruct (V11 _ _ _ H) as (b' & k' & S'). exists b', k'. apply SL; eauto.
    - intros N' c' Hc'. destruct (V13 N' c' Hc') as (b' & Q1 & Q2 & Q3 & Q4 & Q5).
      exists b'. split; [|split; [auto|split; [auto|split]]].
      + apply Keep; auto. intros -> _.
        destruct (head_same ns _ _ b c' b c 16 V Q1 Hs ltac:(lia) eq_refl) as [_ ->].
        destruct Hn; [congruence|lia].
      + rewrite Q3 in *. rewrite Mh; auto. lia.
      + intros k' Hk' H. apply Q5; auto. right; auto.
    - intros b' c' H. pose proof (Sub _ H) as H'. pose proof (V14 _ _ H') as Q. rewrite cnt_cons in Q.
      destruct (Z.eq_dec b' b) as [->|Nb].
      + destruct (head_same ns _ _ b c' b c 16 V H' Hs ltac:(lia) eq_refl) as [_ ->].
        rewrite M16. lia.
      + rewrite (segf_other ns (h :: hand) s _ b c k b' c') in Q; auto; [|congruence].
        rewrite Mo by lia. lia.
    - intros b' c' k' H Hk'. pose proof (Sub _ H) as H'.
      rewrite (Mp b' c' (k' - 1)); auto; [lia|apply last_in_pay].
    - intros b' c' H Ef. pose proof (Sub _ H) as H'. destruct (Z.eq_dec b' b) as [->|Nb].
      + exfalso. destruct (head_same ns _ _ b c' b c 16 V H' Hs ltac:(lia) eq_refl) as [_ ->].
        rewrite M16 in Ef. subst sg. rewrite (proj2 (Z.eqb_eq _ _) Ef) in H.
        apply filter_In in H as [_ H]. cbn [fst] in H. rewrite Z.eqb_refl in H. discriminate.
      + rewrite Mo in Ef by lia. auto.
  Qed.

  Lemma putitem_inv : forall hand s t h b c k s', Inv (h :: hand) s -> slab s h b c k ->
    putitem ns s t h = Some s' -> Inv hand s'.
  Proof.
    intros hand s t h b c k s' V S E. unfold putitem in E. pose proof S as (Hs & _ & _ & Em).
    rewrite Em, (seg_class_eq _ _ _ _ V Hs) in E.
    destruct (nomore s) eqn:En.
    - injection E as <-. apply (check_reclaim_inv _ _ _ b c k); auto.
    - destruct (existsb _ _); [discriminate|]. injection E as <-.
      apply (inv_move ns (h :: hand) hand s); auto; cbn [live pend lq].
      + unfold toks; cbn [live pend lq]. rewrite map_app. cbn [map snd]. cbn [app].
        rewrite <- !app_assoc. cbn [app].
        rewrite !app_assoc. apply Permutation_sym, Permutation_middle.
      + intros h' H. apply (v_hand ns _ _ V). right; auto.
      + apply (v_live ns _ _ V).
      + intros t' h' H. apply in_app_or in H as [H|[H|[]]]; [apply (v_pend ns _ _ V _ _ H)|].
        injection H as <- <-. eauto.
      + apply (v_lq ns _ _ V).
  Qed.

  Lemma pop_pend_perm : forall q t h r, pop_pend q t = Some (h, r) -> Permutation q ((t, h) :: r).
  Proof.
    induction q as [|(t', h') q IH]; simpl; intros t h r E; [discriminate|].
    destruct (Nat.eqb_spec t' t); [injection E as <- <-; subst; auto|].
    destruct (pop_pend q t) as [[h1 r1]|] eqn:Ep; [|discriminate]. injection E as <- <-.
    rewrite (IH _ _ _ Ep). apply perm_swap.
  Qed.

  Lemma push_inv : forall s t s', Inv [] s -> step ns s (APush t) = Some s' -> Inv [] s'.
  Proof.
    intros s t s' V E. cbn [step] in E.
    destruct (pop_pend (pend s) t) as [[h r]|] eqn:Ep; [|discriminate].
    apply pop_pend_perm in Ep.
    assert (Hp : In (t, h) (pend s)) by (eapply Permutation_in; [apply Permutation_sym; exact Ep|left; auto]).
    destruct (v_pend ns _ _ V _ _ Hp) as (b & c & k & S). pose proof S as (Hs & _ & _ & Em).
    rewrite Em, (seg_class_eq _ _ _ _ V Hs) in E. injection E as <-.
    apply (inv_move ns [] [] s); auto; cbn [live pend lq].
    - unfold toks; cbn [live pend lq app]. apply Permutation_app_head.
      rewrite map_app. cbn [map snd]. apply (Permutation_map snd) in Ep. rewrite Ep. cbn [map snd].
      rewrite app_assoc. rewrite <- Permutation_cons_append. auto.
    - intros h' [].
    - apply (v_live ns _ _ V).
    - intros t' h' H. apply (v_pend ns _ _ V t'). eapply Permutation_in; [apply Permutation_sym; exact Ep|right; auto].
    - intros c' t' h' H. apply in_app_or in H as [H|[H|[]]]; [apply (v_lq ns _ _ V _ _ _ H)|].
      injection H as <- <- <-. eauto.
  Qed.
End Ops3.
