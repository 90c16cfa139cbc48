(** The allocator's operations preserve the invariant. *)
From Coq Require Import List ZArith Lia Bool Permutation.
From Verif Require Import AllocModel AllocProofs.
Import ListNotations.
Open Scope Z_scope.

Section Ops.
  Variable ns : nat -> Z.
  Notation Inv := (Inv ns).
  Notation slab := (slab ns).
  Notation good := (good ns).
  Notation segf := (segf ns).
  Notation inseg := (inseg ns).

  Lemma cupd_eq : forall B (f : nat -> B) i v, cupd f i v i = v.
  Proof. intros; unfold cupd; rewrite Nat.eqb_refl; auto. Qed.
  Lemma cupd_neq : forall B (f : nat -> B) i j v, j <> i -> cupd f i v j = f j.
  Proof. intros; unfold cupd; destruct (Nat.eqb_spec j i); congruence. Qed.

  Lemma segf_slab : forall s h b c k, slab s h b c k -> segf b c h = true.
  Proof.
    intros s h b c k (H & Hk & -> & _). unfold AllocProofs.segf.
    pose proof (hdr_in ns b c k Hk). pose proof (csize_pos c). lia.
  Qed.
  Lemma segf_other : forall hand s h b c k b' c', Inv hand s -> slab s h b c k ->
    In (b', c') (segs s) -> (b', c') <> (b, c) -> segf b' c' h = false.
  Proof.
    intros hand s h b c k b' c' V S H N. destruct (segf b' c' h) eqn:E; auto. exfalso. apply N.
    destruct (slab_inseg ns _ _ _ _ _ h S) as [H1 I1]; [pose proof (csize_pos c); lia|].
    apply (seg_same ns _ _ _ _ h V H H1); auto. unfold AllocProofs.segf in E.
    unfold AllocProofs.inseg; simpl. lia.
  Qed.
  Lemma segf_reg : forall hand s a len b' c', Inv hand s -> In (a, len) (regs s) ->
    In (b', c') (segs s) -> segf b' c' a = false.
  Proof.
    intros hand s a len b' c' V R H. destruct (segf b' c' a) eqn:E; auto. exfalso.
    apply (seg_reg ns _ _ _ _ a V H R).
    - unfold AllocProofs.segf in E. unfold AllocProofs.inseg; simpl. lia.
    - unfold inreg; simpl. destruct (v_reg ns _ _ V _ _ R). lia.
  Qed.

  (** Rearranging who holds what: the memory and the segments stay. *)
  Lemma inv_move : forall hand hand' s s', Inv hand s ->
    mem s' = mem s -> segs s' = segs s -> regs s' = regs s -> bp s' = bp s ->
    avail s' = avail s -> nomore s' = nomore s -> bad s' = bad s ->
    Permutation (toks hand' s') (toks hand s) ->
    (forall h, In h hand' -> slot ns s h) ->
    (forall x, In x (live s') -> good s x) ->
    (forall t h, In (t, h) (pend s') -> exists b c k, slab s h b c k) ->
    (forall c t h, In (c, t, h) (lq s') -> exists b k, slab s h b c k) ->
    Inv hand' s'.
  Proof.
    intros hand hand' s s' V E1 E2 E3 E4 E5 E6 E7 P H1 H2 H3 H4.
    assert (SL : forall h b c k, slab s h b c k -> slab s' h b c k).
    { unfold AllocProofs.slab; rewrite E1, E2; auto. }
    assert (RG : forall h len, reg s h len -> reg s' h len).
    { unfold reg; rewrite E1, E3; auto. }
    destruct V as [V1 V2 V3 V4 V5 V6 V7 V8 V9 V10 V11 V12 V13 V14 V15 V16].
    constructor; rewrite ?E1, ?E2, ?E3, ?E4, ?E5, ?E6, ?E7; auto.
    - eapply Permutation_NoDup; [apply Permutation_sym; exact P|auto].
    - intros h H. destruct (H1 _ H) as [(b & c & k & S)|(len & R)]; [left|right]; eauto 6.
    - intros x H. destruct (H2 _ H) as (P1 & P2 & P3 & P4 & P4' & P5).
      repeat split; auto. destruct (bsys x) eqn:Eb.
      + destruct P5 as (len & R & Q). exists len. auto.
      + destruct P5 as (b & c & k & S & Q). exists b, c, k. split; [apply SL, S|]. rewrite E1. exact Q.
    - intros t h H. destruct (H3 _ _ H) as (b & c & k & S). eauto 6.
    - intros c t h H. destruct (H4 _ _ _ H) as (b & k & S). eauto 6.
    - intros N c Hc. destruct (V13 N c Hc) as (b & Q1 & Q2 & Q3 & Q4 & Q5).
      exists b. repeat split; auto. intros k Hk0 Hk. apply Q5; auto.
      eapply Permutation_in; [exact P|exact Hk].
    - intros b c H. rewrite (cnt_perm _ _ _ P). auto.
  Qed.

  Lemma pop_perm : forall q c t h r, pop q c t = Some (h, r) ->
    Permutation q ((c, t, h) :: r).
  Proof.
    induction q as [|((c', t'), h') q IH]; simpl; intros c t h r E; [discriminate|].
    destruct (Nat.eqb_spec c' c); simpl in E.
    - destruct (Nat.eqb_spec t' t); [injection E as <- <-; subst; auto|].
      destruct (pop q c t) as [[h1 r1]|] eqn:Ep; [|discriminate]. injection E as <- <-.
      rewrite (IH _ _ _ _ Ep). apply perm_swap.
    - destruct (pop q c t) as [[h1 r1]|] eqn:Ep; [|discriminate]. injection E as <- <-.
      rewrite (IH _ _ _ _ Ep). apply perm_swap.
  Qed.

  Lemma pop_inv : forall hand s c t h q, Inv hand s -> pop (lq s) c t = Some (h, q) ->
    Inv (h :: hand) (set_lq s q) /\ exists b k, slab s h b c k.
  Proof.
    intros hand s c t h q V E. apply pop_perm in E.
    assert (S : exists b k, slab s h b c k).
    { apply (v_lq ns _ _ V c t h). eapply Permutation_in; [apply Permutation_sym; exact E|left; auto]. }
    split; auto.
    apply (inv_move hand _ s); auto.
    - unfold toks; cbn. apply (Permutation_map snd) in E. cbn in E. rewrite E.
      rewrite !app_assoc. apply Permutation_middle.
    - intros h' [<-|H].
      + destruct S as (b & k & S). left; eauto.
      + apply (v_hand ns _ _ V _ H).
    - intros x H. apply (v_live ns _ _ V _ H).
    - intros t' h' H. apply (v_pend ns _ _ V _ _ H).
    - cbn. intros c' t' h' H. apply (v_lq ns _ _ V c' t' h').
      eapply Permutation_in; [apply Permutation_sym; exact E|right; auto].
  Qed.

  (** Carving the next block of the current segment. *)
  Lemma carve_inv : forall hand s c s1 h, Inv hand s -> nomore s = false -> 0 < avail s c ->
    carve s c = (s1, h) ->
    Inv (h :: hand) s1 /\ (exists b k, slab s1 h b c k) /\ live s1 = live s /\ segs s1 = segs s /\
    regs s1 = regs s /\ nomore s1 = nomore s /\ pend s1 = pend s /\ lq s1 = lq s /\
    ~ In h (toks hand s) /\
    (forall w, ~ ctl ns s w -> mem s1 w = mem s w).
  Proof.
    intros hand s c s1 h V N Ha E.
    destruct (v_bp ns _ _ V N c Ha) as (b & Hs & Hle & Hbp & Hm & Hk).
    destruct (v_seg ns _ _ V _ _ Hs) as (Hns & Hb8 & Hbn & HbW).
    remember (ns c - avail s c) as k0 eqn:Ek0.
    unfold carve in E. rewrite Hm in E. rewrite Hbp in E.
    assert (Hh : hdr b c k0 + 8 + csize c = hdr b c (k0 + 1)) by (rewrite hdr_S; lia).
    assert (Es : exists m2 nx,
       s1 = mkS m2 (segs s) (regs s) (cupd (bp s) c nx) (cupd (avail s) c (avail s c - 1))
                          (lq s) (nomore s) (pend s) (live s) (bad s) /\ h = hdr b c k0 /\
       m2 (b + 16) = mem s (b + 16) - 1 /\
       (k0 + 1 < ns c -> m2 (hdr b c (k0 + 1)) = b /\ nx = hdr b c (k0 + 1)) /\
       (forall w, w <> b + 16 -> (k0 + 1 < ns c -> w <> hdr b c (k0 + 1)) -> m2 w = mem s w)).
    { destruct (avail s c - 1 =? 0) eqn:Ez; rewrite ?Hh in E; injection E as <- <-;
        eexists; eexists; (split; [reflexivity|]); (split; [reflexivity|]).
      - split; [apply wr_eq|]. split; [lia|]. intros w W _. apply wr_neq; auto.
      - split; [|split].
        + rewrite wr_neq, wr_eq; auto. intros Q. symmetry in Q.
          apply (hdr_not_head ns _ _ b c (k0 + 1) b c 16 V); auto; lia.
        + intros _. split; [apply wr_eq|auto].
        + intros w W1 W2. rewrite !wr_neq; auto. apply W2. lia. }
    clear E. destruct Es as (m2 & nx & -> & -> & A16 & Anx & Aneq).
    cbn [live segs regs nomore pend lq mem].
    assert (Hnt : ~ In (hdr b c k0) (toks hand s)).
    { intros H. apply Hk in H; lia. }
    assert (SLn : slab s (hdr b c k0) b c k0).
    { repeat split; auto; try lia. rewrite <- Hbp; auto. }
    assert (Hw : forall w, ~ ctl ns s w -> m2 w = mem s w).
    { intros w H. apply Aneq.
      - intros ->. apply H. exists b, c. auto.
      - intros L ->. apply H. exists b, c. split; auto. right. exists (k0 + 1). split; auto. lia. }
    assert (Hhd : forall b' c' k', In (b', c') (segs s) -> 0 <= k' < ns c' ->
              mem s (hdr b' c' k') = b' -> m2 (hdr b' c' k') = b').
    { intros b' c' k' Hs' Hk' Em.
      destruct (Z.ltb_spec (k0 + 1) (ns c)) as [L|L].
      - destruct (Z.eq_dec (hdr b' c' k') (hdr b c (k0 + 1))) as [Eq|Nq].
        + assert (Hk1 : 0 <= k0 + 1 < ns c) by lia.
          destruct (hdr_same ns _ _ _ _ _ _ _ _ V Hs' Hs Hk' Hk1 Eq) as (-> & -> & ->).
          apply (Anx L).
        + rewrite Aneq; auto. apply (hdr_not_head ns _ _ _ _ _ b c 16 V Hs' Hs); auto. lia.
      - rewrite Aneq; auto; [|lia]. apply (hdr_not_head ns _ _ _ _ _ b c 16 V Hs' Hs); auto. lia. }
    set (s1 := mkS m2 (segs s) (regs s) (cupd (bp s) c nx) (cupd (avail s) c (avail s c - 1))
                          (lq s) (nomore s) (pend s) (live s) (bad s)).
    assert (SL : forall h' b' c' k', slab s h' b' c' k' -> slab s1 h' b' c' k').
    { intros h' b' c' k' (P1 & P2 & P3 & P4). repeat split; auto; try lia. cbn. subst h'. auto. }
    assert (Hreg : forall a len, In (a, len) (regs s) -> m2 a = mem s a).
    { intros a len R. apply Hw. apply (reg_not_ctl ns _ _ _ _ _ V R).
      destruct (v_reg ns _ _ V _ _ R). lia. }
    assert (RG : forall h' len, reg s h' len -> reg s1 h' len).
    { intros h' len (P1 & P2). split; auto. cbn. rewrite (Hreg _ _ P1); auto. }
    assert (Et : toks (hdr b c k0 :: hand) s1 = hdr b c k0 :: toks hand s) by reflexivity.
    pose proof V as V'.
    destruct V' as [V1 V2 V3 V4 V5 V6 V7 V8 V9 V10 V11 V12 V13 V14 V15 V16].
    split.
    { constructor; rewrite ?Et; cbn [bad segs regs bp avail lq nomore pend live mem s1]; auto.
      - intros a len H. destruct (V6 _ _ H) as (P1 & P2 & P3 & P4). repeat split; auto.
        rewrite (Hreg _ _ H); auto.
      - constructor; auto.
      - intros h' [<-|H].
        + left. exists b, c, k0. apply SL, SLn.
        + destruct (V8 _ H) as [(b' & c' & k' & S)|(len & R)]; [left|right]; eauto 6.
      - intros x H. destruct (V9 _ H) as (P1 & P2 & P3 & P4 & P4' & P5).
        repeat split; auto. destruct (bsys x) eqn:Eb.
        + destruct P5 as (len & R & Q). exists len. auto.
        + destruct P5 as (b' & c' & k' & S & Q1 & Q2 & Q3). exists b', c', k'.
          split; [apply SL, S|]. split; [auto|]. split; [auto|].
          intros w W8 W. cbn [mem s1]. destruct (Z.eq_dec w (bh x)) as [->|Nw].
          * apply (SL _ _ _ _ S).
          * rewrite Hw; auto. destruct S as (S1 & S2 & S3 & S4). rewrite S3 in *.
            apply (pay_not_ctl ns _ _ b' c' k' _ V); auto. lia.
      - intros t h' H. destruct (V10 _ _ H) as (b' & c' & k' & S). eauto 6.
      - intros c' t h' H. destruct (V11 _ _ _ H) as (b' & k' & S). eauto 6.
      - intros c'. destruct (Nat.eq_dec c' c) as [->|Nc]; [rewrite cupd_eq|rewrite cupd_neq; auto]. lia.
      - intros N' c' Hc'. destruct (Nat.eq_dec c' c) as [->|Nc].
        + rewrite cupd_eq in Hc'. rewrite !cupd_eq. exists b.
          destruct (Anx ltac:(lia)) as [X1 X2].
          split; [auto|]. split; [lia|]. split; [rewrite X2; f_equal; lia|]. split.
          * rewrite X2. auto.
          * intros k Hk1 [H|H]; [apply hdr_inj in H; lia|apply Hk in H; lia].
        + rewrite cupd_neq in Hc' by auto. rewrite !cupd_neq by auto.
          destruct (V13 N' c' Hc') as (b' & Q1 & Q2 & Q3 & Q4 & Q5).
          exists b'. split; [auto|]. split; [auto|]. split; [auto|]. split.
          * rewrite Q3. apply Hhd; auto; try lia. rewrite <- Q3; auto.
          * intros k Hk1 [H|H]; auto.
            assert (Hk2 : 0 <= k0 < ns c) by lia.
            destruct (hdr_same ns _ _ _ _ _ _ _ _ V Hs Q1 Hk2 Hk1 H) as (_ & X & _).
            congruence.
      - intros b' c' H. rewrite cnt_cons.
        destruct (Z.eq_dec b' b) as [->|Nb].
        + destruct (head_same ns _ _ b c' b c 16 V H Hs ltac:(lia) eq_refl) as [_ ->].
          rewrite A16. pose proof (V14 _ _ Hs).
          rewrite (segf_slab s _ _ _ _ SLn). lia.
        + rewrite (segf_other hand s _ b c k0 b' c'); auto; [|congruence].
          pose proof (V14 _ _ H). rewrite Aneq; [lia|lia|].
          intros L Q. apply (hdr_not_head ns _ _ b c (k0 + 1) b' c' 16 V Hs H); auto; lia.
      - intros b' c' k H Hk1. rewrite Hw; auto.
        apply (pay_not_ctl ns _ _ b' c' (k - 1) _ V H); [lia|]. apply last_in_pay.
      - intros b' c' H Ef. destruct (Z.eq_dec b' b) as [->|Nb].
        + exfalso. destruct (head_same ns _ _ b c' b c 16 V H Hs ltac:(lia) eq_refl) as [_ ->].
          rewrite A16 in Ef. pose proof (V14 _ _ Hs). pose proof (cnt_nonneg (segf b c) (toks hand s)). lia.
        + assert (Ef' : mem s (b' + 16) = ns c').
          { rewrite <- Ef. symmetry. apply Aneq; [lia|]. intros L Q.
            apply (hdr_not_head ns _ _ b c (k0 + 1) b' c' 16 V Hs H); auto; lia. }
          destruct (V16 _ _ H Ef') as [F1 F2].
          destruct (Nat.eq_dec c' c) as [->|Nc]; [|rewrite !cupd_neq by auto; auto].
          exfalso. rewrite Hbp in F1. apply Nb.
          assert (Q : hdr b c k0 = hdr b' c 0) by (rewrite F1, hdr_0; lia).
          assert (Z1 : 0 <= k0 < ns c) by lia. assert (Z2 : 0 <= 0 < ns c) by lia.
          destruct (hdr_same ns _ _ _ _ _ _ _ _ V Hs H Z1 Z2 Q) as (X & _).
          auto. }
    repeat split; auto. exists b, k0. apply SL, SLn.
  Qed.

  Lemma os_fresh_spec : forall used b len, os_fresh used b len = true ->
    (8 | b) /\ 0 < b /\ b + len < W64 /\ forall x, In x used -> apart (b, len) x = true.
  Proof.
    unfold os_fresh; intros used b len H. rewrite !andb_true_iff, forallb_forall in H.
    destruct H as (((H1 & H2) & H3) & H4). repeat split; auto; try lia.
    apply Z.mod_divide; lia.
  Qed.

  Lemma fresh_mem_out : forall m b len f w, ~ (b <= w < b + len) -> fresh_mem m b len f w = m w.
  Proof. intros; unfold fresh_mem. destruct ((b <=? w) && (w <? b + len)) eqn:E; auto. lia. Qed.
  Lemma fresh_mem_in : forall m b len f w, b <= w < b + len -> fresh_mem m b len f w = f w.
  Proof. intros; unfold fresh_mem. destruct ((b <=? w) && (w <? b + len)) eqn:E; auto. lia. Qed.

  Lemma tok_area : forall hand s h, Inv hand s -> In h (toks hand s) ->
    exists x, In x (areas ns s) /\ fst x <= h < fst x + snd x.
  Proof.
    intros hand s h V H. destruct (tok_slot ns _ _ _ V H) as [(b & c & k & S1 & S2 & -> & _)|(len & R & _)].
    - exists (b, seglen ns c). split.
      + unfold areas. apply in_or_app; left. apply in_map_iff. exists (b, c); auto.
      + apply (hdr_inseg ns b c k S2).
    - exists (h, len). split; [unfold areas; apply in_or_app; auto|].
      simpl. destruct (v_reg ns _ _ V _ _ R). lia.
  Qed.

  Lemma newslab_inv : forall hand s c b f s1, Inv hand s -> avail s c = 0 -> 0 < ns c ->
    (forall w, f w <> b) -> newslab ns s c b f = Some s1 ->
    Inv hand s1 /\ avail s1 c = ns c /\ live s1 = live s /\ regs s1 = regs s /\
    nomore s1 = nomore s /\ pend s1 = pend s /\ lq s1 = lq s /\ segs s1 = segs s ++ [(b, c)] /\
    (forall w, (exists x, In x (areas ns s) /\ fst x <= w < fst x + snd x) -> mem s1 w = mem s w).
  Proof.
    intros hand s c b f s1 V Ha Hns Hf E. unfold newslab in E.
    destruct (os_fresh (areas ns s) b (seglen ns c)) eqn:Eo; [|discriminate].
    destruct (Z.ltb_spec (ns c) b) as [Hb|]; [|discriminate]. cbn [andb] in E. injection E as <-.
    apply os_fresh_spec in Eo as (B8 & B0 & BW & Bd).
    assert (BdS : forall x, In x (segs s) -> apart (b, seglen ns c) (sarea ns x) = true).
    { intros x H. apply Bd. unfold areas. apply in_or_app; left. apply in_map_iff. exists x; auto. }
    assert (BdR : forall x, In x (regs s) -> apart (b, seglen ns c) x = true).
    { intros x H. apply Bd. unfold areas. apply in_or_app; auto. }
    pose proof (csize_pos c) as Hcs.
    assert (HL : 24 + 40 <= seglen ns c) by (rewrite seglen_eq; nia).
    set (m3 := wr (wr (fresh_mem (mem s) b (seglen ns c) f) (b + 16) (ns c)) (b + 24) b).
    assert (Mo : forall w, ~ (b <= w < b + seglen ns c) -> m3 w = mem s w).
    { intros w W. subst m3. rewrite !wr_neq by lia. apply fresh_mem_out; auto. }
    assert (Mi : forall w, b <= w < b + seglen ns c -> w <> b + 16 -> w <> b + 24 -> m3 w <> b).
    { intros w W W1 W2. subst m3. rewrite !wr_neq by lia. rewrite fresh_mem_in; auto. }
    assert (M16 : m3 (b + 16) = ns c). { subst m3. rewrite wr_neq by lia. apply wr_eq. }
    assert (M24 : m3 (b + 24) = b). { subst m3. apply wr_eq. }
    assert (Mar : forall w x, In x (areas ns s) -> fst x <= w < fst x + snd x -> m3 w = mem s w).
    { intros w x Hx W. apply Mo. specialize (Bd x Hx). unfold apart in Bd; simpl in Bd. lia. }
    assert (Mseg : forall b' c' w, In (b', c') (segs s) -> inseg (b', c') w -> m3 w = mem s w).
    { intros b' c' w H W. apply (Mar w (b', seglen ns c')); auto.
      unfold areas. apply in_or_app; left. apply in_map_iff. exists (b', c'); auto. }
    assert (Mreg : forall a len w, In (a, len) (regs s) -> a <= w < a + len -> m3 w = mem s w).
    { intros a len w H W. apply (Mar w (a, len)); auto. unfold areas. apply in_or_app; auto. }
    set (s1 := mkS m3 (segs s ++ [(b, c)]) (regs s) (cupd (bp s) c (b + 24))
                (cupd (avail s) c (avail s c + ns c)) (lq s) (nomore s) (pend s) (live s) (bad s)).
    assert (SL : forall h' b' c' k', slab s h' b' c' k' -> slab s1 h' b' c' k').
    { intros h' b' c' k' (P1 & P2 & P3 & P4). repeat split; auto; try lia.
      - cbn. apply in_or_app; auto.
      - cbn. subst h'. rewrite (Mseg b' c'); auto. apply hdr_inseg; auto. }
    assert (RG : forall h' len, reg s h' len -> reg s1 h' len).
    { intros h' len (P1 & P2). split; auto. cbn. destruct (v_reg ns _ _ V _ _ P1) as (_ & _ & Q & _).
      rewrite (Mreg _ _ _ P1); auto. lia. }
    assert (Et : toks hand s1 = toks hand s) by reflexivity.
    assert (Hno : forall h, In h (toks hand s) -> segf b c h = false).
    { intros h H. destruct (tok_area _ _ _ V H) as (x & Hx & W). specialize (Bd x Hx).
      unfold AllocProofs.segf. unfold apart in Bd; simpl in Bd.
      destruct ((b <=? h) && (h <? b + seglen ns c)) eqn:Eq; auto. lia. }
    pose proof V as V'.
    destruct V' as [V1 V2 V3 V4 V5 V6 V7 V8 V9 V10 V11 V12 V13 V14 V15 V16].
    split.
    { constructor; rewrite ?Et; cbn [bad segs regs bp avail lq nomore pend live mem s1]; auto.
      - apply FOP_snoc; auto. intros x H. apply apart_sym. apply BdS; auto.
      - intros x y H Hy. apply in_app_or in H as [H|[<-|[]]]; auto.
      - intros b' c' H. apply in_app_or in H as [H|[H|[]]]; auto.
        injection H as <- <-. auto.
      - intros a len H. destruct (V6 _ _ H) as (P1 & P2 & P3 & P4). repeat split; auto.
        rewrite (Mreg _ _ _ H); auto. lia.
      - intros h' H. destruct (V8 _ H) as [(b' & c' & k' & S)|(len & R)]; [left|right]; eauto 6.
      - intros x H. destruct (V9 _ H) as (P1 & P2 & P3 & P4 & P4' & P5).
        repeat split; auto. destruct (bsys x) eqn:Eb.
        + destruct P5 as (len & R & Q). exists len. auto.
        + destruct P5 as (b' & c' & k' & S & Q1 & Q2 & Q3). exists b', c', k'.
          split; [apply SL, S|]. split; [auto|]. split; [auto|].
          intros w W8 W. cbn [mem s1].
          destruct (slab_inseg ns _ _ _ _ _ w S) as [J1 J2]; [lia|].
          rewrite (Mseg _ _ _ J1 J2). auto.
      - intros t h' H. destruct (V10 _ _ H) as (b' & c' & k' & S). eauto 6.
      - intros c' t h' H. destruct (V11 _ _ _ H) as (b' & k' & S). eauto 6.
      - intros c'. destruct (Nat.eq_dec c' c) as [->|Nc]; [rewrite cupd_eq|rewrite cupd_neq; auto]. lia.
      - intros N' c' Hc'. destruct (Nat.eq_dec c' c) as [->|Nc].
        + rewrite !cupd_eq. exists b.
          split; [apply in_or_app; right; left; auto|]. split; [lia|].
          replace (ns c - (avail s c + ns c)) with 0 by lia.
          split; [rewrite hdr_0; auto|]. split; [auto|].
          intros k Hk H. exfalso. pose proof (Hno _ H) as Q.
          pose proof (hdr_inseg ns b c k Hk) as J. unfold AllocProofs.inseg in J; cbn [fst snd] in J.
          unfold AllocProofs.segf in Q. lia.
        + rewrite cupd_neq in Hc' by auto. rewrite !cupd_neq by auto.
          destruct (V13 N' c' Hc') as (b' & Q1 & Q2 & Q3 & Q4 & Q5).
          exists b'. split; [apply in_or_app; auto|]. split; [auto|]. split; [auto|]. split; auto.
          rewrite Q3 in *. rewrite (Mseg b' c'); auto. apply hdr_inseg. lia.
      - intros b' c' H. apply in_app_or in H as [H|[H|[]]].
        + rewrite (Mseg b' c'); auto. apply head_inseg; [apply (V5 _ _ H)|lia].
        + injection H as <- <-. rewrite M16, (cnt_none _ _ Hno). lia.
      - intros b' c' k H Hk. pose proof (last_in_pay b' c' k) as L.
        assert (J : inseg (b', c') (hdr b' c' k - 8)).
        { unfold AllocProofs.inseg; cbn [fst snd]. pose proof (hdr_in ns b' c' (k - 1)). lia. }
        apply in_app_or in H as [H|[H|[]]].
        + rewrite (Mseg b' c'); auto.
        + injection H as <- <-. unfold AllocProofs.inseg in J; cbn [fst snd] in J.
          pose proof (hdr_in ns b c (k - 1) ltac:(lia)). apply Mi; lia.
      - intros b' c' H Ef. apply in_app_or in H as [H|[H|[]]].
        + rewrite (Mseg b' c') in Ef; auto; [|apply head_inseg; [apply (V5 _ _ H)|lia]].
          destruct (V16 _ _ H Ef) as [F1 F2].
          destruct (Nat.eq_dec c' c) as [->|Nc]; [lia|]. rewrite !cupd_neq by auto. auto.
        + injection H as <- <-. rewrite !cupd_eq. split; lia. }
    repeat split; auto.
    - cbn. rewrite cupd_eq. lia.
    - intros w (x & Hx & W). cbn. apply (Mar w x); auto.
  Qed.
End Ops.
