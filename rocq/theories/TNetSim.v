(** The network on TSO: the steps that change memory or the abstract network. *)
From Coq Require Import List Arith Lia Bool Permutation.
From Verif Require Import Base NetModel NetSpec NetProofs TNetModel TNetChan TNetProofs TNetInv.
Import ListNotations.

Section Sim.
  Context {X St : Type}.
  Variable N : net X St.
  Variable o0 : nat -> X.
  Hypothesis HC : forall c k b, chan_of N c = Some k -> cap k = Some b -> 1 <= b.
  Hypothesis HS : forall c k, chan_of N c = Some k -> src k <> dst k.
  Notation tst := (tst X St).
  Notation st := (st X St).
  Notation rel := (rel N).

  Lemma in_items : forall (l : list (msg nat)) a, In a (items l) <-> In (Item a) l.
  Proof.
    intros. unfold items. rewrite in_flat_map. split.
    - intros ([x |] & H & E); [destruct E as [<- | []]; auto | destruct E].
    - intros H. exists (Item a). split; auto. left; auto.
  Qed.

  Lemma own1_other : forall o p w a, p <> Item a -> own1 o p w a = o a.
  Proof. intros o [b |] w a H; simpl; auto. apply fupd_neq. congruence. Qed.
  Lemma own1_same : forall o w a, own1 o (Item a) w a = w.
  Proof. intros. apply fupd_eq. Qed.
  Lemma own1_fin : forall o p w, (exists m, forall a, m <= a -> o a = Free) -> exists m, forall a, m <= a -> own1 o p w a = Free.
  Proof.
    intros o [b |] w (m & H); [| exists m; auto]. exists (Nat.max m (S b)). intros a L. rewrite own1_other; [apply H; lia |].
    intros E. injection E as ->. lia.
  Qed.
  Lemma p_dec : forall (p : msg nat) a, p = Item a \/ p <> Item a.
  Proof. intros [b |] a; [| right; discriminate]. destruct (Nat.eq_dec b a); [left; congruence | right; congruence]. Qed.

  (** ** End of pop: the abstract network reads the message *)
  Lemma sim_clear : forall s t g v s', rel s t g -> tstep N s (TClear v) = Some s' ->
    exists t' g', (exists c, step N t (Get v c) = Some t') /\ rel s' t' g'.
  Proof using HC HS.
    intros s t g v s' R E. cbn [tstep] in E. destruct (pcs s v) eqn:P; try discriminate.
    destruct (r_node _ _ _ _ R v) as (A & B & C). rewrite P in C. destruct C as (C1 & (D1 & D2 & D3 & D4 & D5 & D6) & NE).
    pose proof D4 as D4'. apply memb_In, in_ins in D4' as (k & K & D).
    pose proof (r_q _ _ _ _ R c k K) as Q. unfold tail in Q. rewrite (skipn_nth _ _ _ _ NE) in Q. simpl in Q.
    set (t' := mkSt (fupd (q t) c (map (mmap (cur g)) (skipn (S (ta g c)) (ha g c))))
                 (fupd (nd t) v (react N v (nd t v) c (mmap (cur g) p))) (hs t)
                 (fupd (hl t) v (hl t v ++ [(c, mmap (cur g) p)])) (hp t)).
    set (g' := mkG (ha g) (fupd (ta g) c (S (ta g c))) (ka g) (kb g) (cur g)).
    exists t', g'. split.
    { exists c. cbn [step]. rewrite C1. unfold nmap. cbn [ph pend ended ust]. rewrite D2, D3, Q. cbn [map].
      apply Nat.ltb_lt in D1. rewrite D1, D4, D5. cbn [andb negb]. unfold t'. rewrite C1. unfold nmap. rewrite D2, D3. reflexivity. }
    injection E as <-.
    assert (TL : tail g c = p :: tail g' c) by (unfold tail, g'; cbn [ha ta]; rewrite fupd_eq; apply skipn_nth; auto).
    assert (TO : forall c', c' <> c -> tail g' c' = tail g c') by (intros; unfold tail, g'; cbn [ha ta]; rewrite fupd_neq by auto; auto).
    assert (NOT : forall a, p = Item a -> ~ In (Item a) (tail g' c)).
    { intros a -> H. pose proof (r_nd _ _ _ _ R c k K) as ND. rewrite TL in ND. simpl in ND. inversion ND; subst.
      apply in_items in H. contradiction. }
    assert (OWN : forall a, p = Item a -> own s a = InCh c).
    { intros a ->. eapply (r_in _ _ _ _ R); eauto. rewrite TL. left; auto. }
    assert (SL : forall c' w, slots c' (fupd (sb s) v (sb s v ++ [SSlot c (pr s c) None]) w) =
                   if (w =? v) && (c' =? c) then slots c' (sb s w) ++ [(pr s c, None)] else slots c' (sb s w)).
    { intros c' w. destruct (Nat.eqb_spec w v) as [-> | Nw]; [rewrite fupd_eq | rewrite fupd_neq by auto; auto].
      rewrite slots_app. simpl. rewrite (Nat.eqb_sym c c'). destruct (c' =? c); [auto | apply app_nil_r]. }
    assert (OB : forall w, objs (fupd (sb s) v (sb s v ++ [SSlot c (pr s c) None]) w) = objs (sb s w)).
    { intros w. destruct (Nat.eq_dec w v) as [-> | Nw]; [rewrite fupd_eq | rewrite fupd_neq by auto; auto].
      rewrite objs_app. simpl. apply app_nil_r. }
    constructor; cbn [bad mem obj sb pw pr pcs cn own got put].
    - apply (r_bad _ _ _ _ R).
    - intros c' k' K'. rewrite !SL. destruct (Nat.eqb_spec c' c) as [-> | Nc].
      + rewrite K in K'. injection K' as <-. rewrite <- D at 1. destruct (Nat.eqb_spec (src k) (dst k)) as [F | _]; [exfalso; eapply HS; eauto |].
        rewrite D, Nat.eqb_refl. cbn [andb]. unfold g'; cbn [ha ta ka kb cur]. rewrite !fupd_eq. unfold sizeof. rewrite K.
        apply ck_pop; auto; [intros b Hb; eapply HC; eauto |]. rewrite <- D. apply (r_ck _ _ _ _ R c k K).
      + rewrite !andb_false_r. unfold g'; cbn [ha ta ka kb cur]. rewrite !fupd_neq by auto. apply (r_ck _ _ _ _ R c' k' K').
    - intros c' k' K'. unfold t'; cbn [q]. destruct (Nat.eq_dec c' c) as [-> | Nc].
      + rewrite fupd_eq. unfold tail, g'; cbn [ha ta cur]. rewrite fupd_eq. auto.
      + rewrite fupd_neq by auto. rewrite TO by auto. apply (r_q _ _ _ _ R c' k' K').
    - intros c' w. rewrite SL. destruct ((w =? v) && (c' =? c)) eqn:T; [| apply (r_sb _ _ _ _ R)].
      apply andb_true_iff in T as [T1 T2]. apply Nat.eqb_eq in T1, T2. subst. intros _. exists k. auto.
    - intros c' k' a K' H. assert (Nt : p <> Item a).
      { intros E. destruct (Nat.eq_dec c' c) as [-> | Nc]; [eapply NOT; eauto |]. rewrite TO in H by auto.
        pose proof (r_in _ _ _ _ R c' k' a K' H). rewrite (OWN a E) in H0. congruence. }
      rewrite own1_other by auto. apply (r_in _ _ _ _ R c' k'); auto.
      destruct (Nat.eq_dec c' c) as [-> | Nc]; [rewrite TL; right; auto | rewrite <- TO; auto].
    - intros c' k' K'. destruct (Nat.eq_dec c' c) as [-> | Nc]; [| rewrite TO by auto; eapply (r_nd _ _ _ _ R); eauto].
      pose proof (r_nd _ _ _ _ R c k K) as ND. rewrite TL in ND. destruct p; simpl in ND; [inversion ND; auto | auto].
    - intros a w H. unfold keys in H. rewrite OB in H. destruct (p_dec p a) as [-> | Np].
      + exfalso. eapply (r_com _ _ _ _ R c k (ta g c) a w K); eauto.
      + rewrite own1_other by auto. apply (r_obj _ _ _ _ R); auto.
    - intros a w H. unfold view. cbn [sb obj]. rewrite OB. destruct (p_dec p a) as [Ep | Np].
      + subst p. rewrite own1_same in H. cbn in H. injection H as <-. cbn.
        assert (NK : forall w, ~ In a (keys (sb s w))) by (intros w; eapply (r_com _ _ _ _ R c k (ta g c) a w K); eauto).
        rewrite ld_notin by apply NK.
        assert (V : view s (src k) a = cur g a) by (apply (r_view _ _ _ _ R); rewrite (OWN a eq_refl); simpl; rewrite K; auto).
        unfold view in V. rewrite ld_notin in V by apply NK. auto.
      + rewrite own1_other in H by auto. apply (r_view _ _ _ _ R); auto.
    - intros w. destruct (Nat.eq_dec w v) as [-> | Nw]; [rewrite fupd_eq | rewrite fupd_neq by auto; apply (r_ord _ _ _ _ R)].
      apply ord_app; [apply (r_ord _ _ _ _ R) | simpl; auto | simpl; auto].
    - intros c' k' j a w K' J NJ. unfold keys. rewrite OB. cbn [kb ha g'] in *. apply (r_com _ _ _ _ R c' k' j a w K'); auto.
      unfold g' in J. cbn [ta kb] in J. destruct (Nat.eq_dec c' c) as [-> | Nc]; [rewrite fupd_eq in J; lia | rewrite fupd_neq in J by auto; lia].
    - intros w. unfold t'; cbn [nd]. destruct (Nat.eq_dec w v) as [-> | Nw].
      + rewrite !fupd_eq. split; [| split; [auto |]].
        * rewrite D3. intros a [].
        * split; [auto |]. rewrite C1. split; [reflexivity |]. split; [auto |]. split; [auto |]. intros a ->. apply own1_same.
      + rewrite !fupd_neq by auto. eapply nrel_frame; [apply (r_node _ _ _ _ R w) | | | | | |]; cbn [g' ha ta ka kb cur]; auto.
        * intros a Ha. split; auto. rewrite own1_other; auto. intros E. rewrite (OWN a E) in Ha. discriminate.
        * intros c' Hc. apply fupd_neq. intros ->. apply in_ins in Hc as (k' & K' & W'). congruence.
        * intros c'. exists []. rewrite app_nil_r. auto.
    - apply own1_fin, (r_fin _ _ _ _ R).
    - intros w. unfold t'; cbn [hl g' cur]. destruct (Nat.eq_dec w v) as [-> | Nw].
      + rewrite !fupd_eq, (r_hl _ _ _ _ R), P, app_nil_r. auto.
      + rewrite !fupd_neq by auto. apply (r_hl _ _ _ _ R).
    - apply (r_hp _ _ _ _ R).
  Qed.

  (** ** The store of push: the abstract network pushes the message *)
  Lemma resolve_map : forall f v r j, resolve N v (rmap f r) j = option_map (fun cp => (fst cp, mmap f (snd cp))) (tresolve N v r j).
  Proof.
    intros f v [i m | a] j; simpl; [destruct (nth_error (outs N v) i) | destruct (nth_error (outs N v) j)]; auto.
  Qed.
  Lemma nth_map : forall A B (f : A -> B) l k x, nth_error l k = Some x -> nth_error (map f l) k = Some (f x).
  Proof. intros. rewrite nth_error_map, H. auto. Qed.
  Lemma remove_map : forall A B (f : A -> B) l k, remove_nth k (map f l) = map f (remove_nth k l).
  Proof. intros. unfold remove_nth. rewrite map_app, firstn_map, skipn_map. auto. Qed.

  Lemma sent_remove : forall (gr : list (req nat)) P k r, nth_error gr k = Some r ->
    Permutation (sent (gr :: P)) (item_of r ++ sent (remove_nth k gr :: P)).
  Proof.
    intros gr P k r H. unfold sent. simpl. rewrite app_assoc. apply Permutation_app_tail.
    apply remove_nth_perm in H. clear - H.
    change (item_of r ++ flat_map item_of (remove_nth k gr)) with (flat_map item_of (r :: remove_nth k gr)).
    induction H; simpl; auto.
    - apply Permutation_app_head; auto.
    - rewrite !app_assoc. apply Permutation_app_tail. apply Permutation_app_comm.
    - etransitivity; eauto.
  Qed.
  Lemma nodup_app_r : forall T (l m : list T), NoDup (l ++ m) -> NoDup m.
  Proof. induction l; simpl; intros m H; auto. inversion H; auto. Qed.
  Lemma tresolve_item : forall v r j c a, tresolve N v r j = Some (c, Item a) -> item_of r = [a].
  Proof.
    intros v [i m | b] j c a H; simpl in H.
    - destruct (nth_error (outs N v) i); [| discriminate]. injection H as _ ->. auto.
    - destruct (nth_error (outs N v) j); [| discriminate]. injection H as _ ->. auto.
  Qed.

  Lemma sim_store : forall s t g v s', rel s t g -> tstep N s (TStore v) = Some s' ->
    exists t' g', (exists k j, step N t (Put v k j) = Some t') /\ rel s' t' g'.
  Proof using HC HS.
    intros s t g v s' R E. cbn [tstep] in E. destruct (pcs s v) as [| | | | | kq j] eqn:P; try discriminate.
    destruct (r_node _ _ _ _ R v) as (A & B & C). rewrite P in C.
    destruct C as (V & C1 & gr & Q & r & c & p & k & PE & NE & TR & K & SK & BD).
    rewrite PE, NE, TR in E. injection E as <-.
    assert (OWN : forall a, p = Item a -> own s a = Own v).
    { intros a ->. apply A. rewrite PE. eapply Permutation_in; [apply Permutation_sym, (sent_remove gr Q kq r NE) |].
      rewrite (tresolve_item _ _ _ _ _ TR). left; auto. }
    assert (MV : mmap (view s v) p = mmap (cur g) p).
    { destruct p as [a |]; auto. simpl. f_equal. apply (r_view _ _ _ _ R). rewrite (OWN a eq_refl). auto. }
    pose proof (r_ck _ _ _ _ R c k K) as CK.
    assert (LE : ta g c <= length (ha g c)) by (destruct CK; lia).
    set (t' := mkSt (fupd (q t) c (q t c ++ [mmap (cur g) p]))
                 (fupd (nd t) v (mkNode (ust (nd t v)) (remove_nth kq (map (rmap (cur g)) gr) :: map (map (rmap (cur g))) Q)
                                        (ended (nd t v)) (ph (nd t v))))
                 (fupd (hs t) c (hs t c ++ [mmap (cur g) p])) (hl t)
                 (fupd (hp t) v (hp t v ++ [(c, mmap (cur g) p)]))).
    set (g' := mkG (fupd (ha g) c (ha g c ++ [p])) (ta g) (ka g) (kb g) (cur g)).
    exists t', g'. split.
    { exists kq, j. cbn [step]. unfold t'. rewrite C1 at 1. unfold nmap. cbn [pend]. rewrite PE. cbn [map].
      rewrite (nth_map _ _ (rmap (cur g)) _ _ _ NE), resolve_map, TR. cbn [option_map fst snd].
      assert (RM : room N t c = true).
      { unfold room. rewrite K. destruct (cap k) as [b |] eqn:CP; auto. apply Nat.ltb_lt.
        rewrite (r_q _ _ _ _ R c k K), map_length. unfold tail. rewrite skipn_length. unfold bounded in BD.
        destruct CK. lia. }
      apply Nat.ltb_lt in V. rewrite V, RM. reflexivity. }
    assert (TL : tail g' c = tail g c ++ [p]).
    { unfold tail, g'; cbn [ha ta]. rewrite fupd_eq, skipn_app. replace (ta g c - length (ha g c)) with 0 by lia. auto. }
    assert (TO : forall c', c' <> c -> tail g' c' = tail g c') by (intros; unfold tail, g'; cbn [ha ta]; rewrite fupd_neq by auto; auto).
    assert (NIN : forall a c' k', p = Item a -> chan_of N c' = Some k' -> ~ In (Item a) (tail g c')).
    { intros a c' k' Ep K' H. pose proof (r_in _ _ _ _ R c' k' a K' H). rewrite (OWN a Ep) in H0. discriminate. }
    assert (SL : forall c' w, slots c' (fupd (sb s) v (sb s v ++ [SSlot c (pw s c) (Some p)]) w) =
                   if (w =? v) && (c' =? c) then slots c' (sb s w) ++ [(pw s c, Some p)] else slots c' (sb s w)).
    { intros c' w. destruct (Nat.eqb_spec w v) as [-> | Nw]; [rewrite fupd_eq | rewrite fupd_neq by auto; auto].
      rewrite slots_app. simpl. rewrite (Nat.eqb_sym c c'). destruct (c' =? c); [auto | apply app_nil_r]. }
    assert (OB : forall w, objs (fupd (sb s) v (sb s v ++ [SSlot c (pw s c) (Some p)]) w) = objs (sb s w)).
    { intros w. destruct (Nat.eq_dec w v) as [-> | Nw]; [rewrite fupd_eq | rewrite fupd_neq by auto; auto].
      rewrite objs_app. simpl. apply app_nil_r. }
    assert (HO : forall a, holder N (own1 (own s) p (InCh c) a) = holder N (own s a)).
    { intros a. destruct (p_dec p a) as [Ep | Np]; [| rewrite own1_other by auto; auto].
      rewrite (OWN a Ep). subst p. rewrite own1_same. simpl. rewrite K. simpl. congruence. }
    constructor; cbn [bad mem obj sb pw pr pcs cn own got put].
    - apply (r_bad _ _ _ _ R).
    - intros c' k' K'. rewrite !SL. destruct (Nat.eqb_spec c' c) as [-> | Nc].
      + rewrite K in K'. injection K' as <-. rewrite SK, Nat.eqb_refl. cbn [andb].
        destruct (Nat.eqb_spec (dst k) v) as [F | _]; [exfalso; eapply HS; [exact K | congruence] |]. cbn [andb].
        unfold g'; cbn [ha ta ka kb cur]. rewrite !fupd_eq. unfold sizeof. rewrite K.
        apply ck_push; auto; [intros b Hb; eapply HC; eauto |]. rewrite <- SK. exact CK.
      + rewrite !andb_false_r. unfold g'; cbn [ha ta ka kb cur]. rewrite !fupd_neq by auto. apply (r_ck _ _ _ _ R c' k' K').
    - intros c' k' K'. unfold t'; cbn [q]. destruct (Nat.eq_dec c' c) as [-> | Nc].
      + rewrite fupd_eq, TL, map_app. cbn [map g' cur]. rewrite (r_q _ _ _ _ R c k' K'). auto.
      + rewrite fupd_neq by auto. rewrite TO by auto. apply (r_q _ _ _ _ R c' k' K').
    - intros c' w. rewrite SL. destruct ((w =? v) && (c' =? c)) eqn:T; [| apply (r_sb _ _ _ _ R)].
      apply andb_true_iff in T as [T1 T2]. apply Nat.eqb_eq in T1, T2. subst. intros _. exists k. auto.
    - intros c' k' a K' H. destruct (Nat.eq_dec c' c) as [-> | Nc].
      + rewrite TL in H. apply in_app_or in H as [H | [-> | []]]; [| apply own1_same].
        rewrite own1_other; [eapply (r_in _ _ _ _ R); eauto |]. intros Ep. eapply NIN; eauto.
      + rewrite TO in H by auto. rewrite own1_other; [eapply (r_in _ _ _ _ R); eauto |]. intros Ep. eapply NIN; eauto.
    - intros c' k' K'. destruct (Nat.eq_dec c' c) as [-> | Nc]; [| rewrite TO by auto; eapply (r_nd _ _ _ _ R); eauto].
      rewrite TL. unfold items. rewrite flat_map_app. fold (items (tail g c)). destruct p as [a |]; simpl; [| rewrite app_nil_r; eapply (r_nd _ _ _ _ R); eauto].
      apply (Permutation_NoDup (l := a :: items (tail g c))); [apply Permutation_cons_append |]. constructor; [| eapply (r_nd _ _ _ _ R); eauto].
      intros H. apply in_items in H. eapply NIN; eauto.
    - intros a w H. unfold keys in H. rewrite OB in H. rewrite HO. apply (r_obj _ _ _ _ R); auto.
    - intros a w H. unfold view. cbn [sb obj]. rewrite OB. rewrite HO in H. apply (r_view _ _ _ _ R); auto.
    - intros w. destruct (Nat.eq_dec w v) as [-> | Nw]; [rewrite fupd_eq | rewrite fupd_neq by auto; apply (r_ord _ _ _ _ R)].
      apply ord_app; [apply (r_ord _ _ _ _ R) | simpl; destruct p; auto | simpl; auto].
    - intros c' k' j' a w K' J NJ. unfold keys. rewrite OB. unfold g' in *; cbn [ta kb ha] in *. apply (r_com _ _ _ _ R c' k' j' a w K'); auto.
      destruct (Nat.eq_dec c' c) as [-> | Nc]; [rewrite fupd_eq in NJ | rewrite fupd_neq in NJ by auto; auto].
      rewrite nth_error_app1 in NJ; auto. destruct CK; lia.
    - intros w. unfold t'; cbn [nd]. destruct (Nat.eq_dec w v) as [-> | Nw].
      + rewrite !fupd_eq. unfold nrel. cbn [pend]. rewrite PE in B.
        pose proof (Permutation_NoDup (sent_remove gr Q kq r NE) B) as ND. pose proof (nodup_app_r _ _ _ ND) as ND'.
        split; [| split; [exact ND' |]].
        * intros a Ha. rewrite own1_other.
          -- apply A. rewrite PE. eapply Permutation_in; [apply Permutation_sym, (sent_remove gr Q kq r NE) |]. apply in_or_app. auto.
          -- intros ->. rewrite (tresolve_item _ _ _ _ _ TR) in ND. simpl in ND. inversion ND; contradiction.
        * split; [exact V |]. rewrite C1. unfold nmap. cbn [ust pend ended ph map g' cur]. rewrite remove_map. reflexivity.
      + rewrite !fupd_neq by auto. eapply nrel_frame; [apply (r_node _ _ _ _ R w) | | | | | |]; cbn [g' ha ta ka kb cur]; auto.
        * intros a Ha. split; auto. rewrite own1_other; auto. intros Ep. rewrite (OWN a Ep) in Ha. congruence.
        * intros c' Hc. apply fupd_neq. intros ->. apply in_outs in Hc as (k' & K' & W'). congruence.
        * intros c'. destruct (Nat.eq_dec c' c) as [-> | Nc]; [rewrite fupd_eq; eauto | rewrite fupd_neq by auto; exists []; rewrite app_nil_r; auto].
    - apply own1_fin, (r_fin _ _ _ _ R).
    - intros w. unfold t'; cbn [hl g' cur]. destruct (Nat.eq_dec w v) as [-> | Nw].
      + rewrite !fupd_eq, (r_hl _ _ _ _ R), P. auto.
      + rewrite !fupd_neq by auto. apply (r_hl _ _ _ _ R).
    - intros w. unfold t'; cbn [hp]. rewrite MV. destruct (Nat.eq_dec w v) as [-> | Nw].
      + rewrite !fupd_eq, (r_hp _ _ _ _ R). auto.
      + rewrite !fupd_neq by auto. apply (r_hp _ _ _ _ R).
  Qed.

  (** ** Next group, end of thread *)
  Lemma sim_next : forall s t g v s', rel s t g -> tstep N s (TNext v) = Some s' ->
    exists t', step N t (Next v) = Some t' /\ rel s' t' g.
  Proof.
    intros s t g v s' R E. cbn [tstep] in E. destruct (pcs s v) eqn:P; try discriminate.
    destruct (pend (cn s v)) as [| [|] Q] eqn:PE; try discriminate. destruct (v <? nodes N) eqn:V; [| discriminate]. injection E as <-.
    destruct (r_node _ _ _ _ R v) as (A & B & C). rewrite P in C. destruct C as [V' C1].
    eexists. split.
    { cbn [step]. rewrite C1 at 1. unfold nmap. cbn [pend]. rewrite PE. cbn [map]. rewrite V. reflexivity. }
    destruct R. constructor; cbn [bad mem obj sb pw pr pcs cn own got put q nd hl hp]; auto.
    intros w. destruct (Nat.eq_dec w v) as [-> | Nw]; [| rewrite !fupd_neq by auto; auto].
    rewrite !fupd_eq, P. unfold nrel. cbn [pend]. rewrite PE in A, B. split; [exact A |]. split; [exact B |]. split; [auto |].
    rewrite C1. unfold nmap. reflexivity.
  Qed.
  Lemma sim_fin : forall s t g v s', rel s t g -> tstep N s (TFin v) = Some s' ->
    exists t', step N t (Fin v) = Some t' /\ rel s' t' g.
  Proof.
    intros s t g v s' R E. cbn [tstep] in E. destruct (pcs s v) eqn:P; try discriminate.
    destruct (ph (cn s v)) eqn:PH; try discriminate.
    destruct (pend (cn s v)) eqn:PE; try discriminate. destruct (v <? nodes N) eqn:V; [| discriminate]. injection E as <-.
    destruct (r_node _ _ _ _ R v) as (A & B & C). rewrite P in C. destruct C as [V' C1].
    eexists. split.
    { cbn [step]. rewrite C1 at 1. rewrite C1 at 1. unfold nmap. cbn [pend ph]. rewrite PE, PH. cbn [map]. rewrite V. reflexivity. }
    destruct R. constructor; cbn [bad mem obj sb pw pr pcs cn own got put q nd hl hp]; auto.
    intros w. destruct (Nat.eq_dec w v) as [-> | Nw]; [| rewrite !fupd_neq by auto; auto].
    rewrite !fupd_eq, P. unfold nrel. cbn [pend]. split; [intros a [] |]. split; [constructor |]. split; [auto |].
    rewrite C1. unfold nmap. reflexivity.
  Qed.

  (** ** The thread stores the items it will send *)
  Lemma sim_enter : forall s t g v r sg s' gt, rel s t g -> v < nodes N ->
    enter s v r sg gt = Some s' -> nd t v = r -> hl t v = gt v -> (forall w, w <> v -> gt w = got s w) ->
    rel s' t (mkG (ha g) (ta g) (ka g) (kb g) (ld (cur g) (combine sg (sent (pend r))))).
  Proof using HC HS.
    intros s t g v r sg s' gt R V E ND HL GT. unfold enter in E. destruct (chosen s v (pend r) sg) eqn:CH; [| discriminate]. injection E as <-.
    unfold chosen in CH. apply andb_true_iff in CH as [CH US]. apply andb_true_iff in CH as [LN DI].
    apply Nat.eqb_eq in LN. apply distinct_ok in DI. rewrite forallb_forall in US.
    set (ws := combine sg (sent (pend r))). assert (KW : map fst ws = sg) by (apply combine_keys; auto).
    set (g' := mkG (ha g) (ta g) (ka g) (kb g) (ld (cur g) ws)).
    assert (NI : forall a c, own s a = InCh c -> ~ In a sg).
    { intros a c O H. specialize (US a H). unfold usable in US. rewrite O in US. discriminate. }
    assert (NW : forall a w, own s a = Own w -> w <> v -> ~ In a sg).
    { intros a w O Nw H. specialize (US a H). unfold usable in US. rewrite O in US. apply Nat.eqb_eq in US. congruence. }
    assert (CU : forall a, ~ In a sg -> cur g' a = cur g a) by (intros a H; unfold g'; cbn [cur]; apply ld_notin; rewrite KW; auto).
    assert (OS : forall a, In a sg -> owns s v sg a = Own v) by (intros a H; unfold owns; apply memb_In in H; rewrite H; auto).
    assert (ON : forall a, ~ In a sg -> owns s v sg a = own s a).
    { intros a H. unfold owns. destruct (memb a sg) eqn:M; auto. apply memb_In in M. contradiction. }
    assert (TG : forall c, tail g' c = tail g c) by reflexivity.
    assert (SL : forall c w, slots c (fupd (sb s) v (sb s v ++ writes (pend r) sg) w) = slots c (sb s w)).
    { intros c w. destruct (Nat.eq_dec w v) as [-> | Nw]; [rewrite fupd_eq | rewrite fupd_neq by auto; auto].
      rewrite slots_app, slots_writes, app_nil_r. auto. }
    constructor; cbn [bad mem obj sb pw pr pcs cn own got put].
    - apply (r_bad _ _ _ _ R).
    - intros c k K. rewrite !SL. apply (r_ck _ _ _ _ R c k K).
    - intros c k K. rewrite (r_q _ _ _ _ R c k K), TG. apply map_ext_in. intros [a |] H; simpl; auto. f_equal. symmetry. apply CU.
      eapply NI. eapply (r_in _ _ _ _ R); eauto.
    - intros c w. rewrite SL. apply (r_sb _ _ _ _ R).
    - intros c k a K H. rewrite TG in H. pose proof (r_in _ _ _ _ R c k a K H) as O. rewrite ON; auto. eapply NI; eauto.
    - apply (r_nd _ _ _ _ R).
    - intros a w H. unfold keys in H. destruct (in_dec Nat.eq_dec a sg) as [I | I].
      + rewrite OS by auto. simpl. destruct (Nat.eq_dec w v) as [-> | Nw]; auto. exfalso.
        rewrite fupd_neq in H by auto. apply (r_obj _ _ _ _ R) in H. specialize (US a I). unfold usable in US.
        destruct (own s a) as [| u | c'] eqn:O; simpl in H; try discriminate. apply Nat.eqb_eq in US. congruence.
      + rewrite ON by auto. apply (r_obj _ _ _ _ R). destruct (Nat.eq_dec w v) as [-> | Nw]; [rewrite fupd_eq in H | rewrite fupd_neq in H by auto; auto].
        rewrite objs_app, map_app, objs_writes in H. fold ws in H. rewrite KW in H. apply in_app_or in H as [H | H]; [auto | contradiction].
    - intros a w H. unfold view. cbn [sb obj]. destruct (in_dec Nat.eq_dec a sg) as [I | I].
      + rewrite OS in H by auto. simpl in H. injection H as <-. rewrite fupd_eq, objs_app, objs_writes, ld_app. apply ld_in. fold ws. rewrite KW. auto.
      + rewrite ON in H by auto. rewrite CU by auto. rewrite <- (r_view _ _ _ _ R a w H). unfold view.
        destruct (Nat.eq_dec w v) as [-> | Nw]; [rewrite fupd_eq | rewrite fupd_neq by auto; auto].
        rewrite objs_app, objs_writes, ld_app. apply ld_notin. fold ws. rewrite KW. auto.
    - intros w. destruct (Nat.eq_dec w v) as [-> | Nw]; [rewrite fupd_eq | rewrite fupd_neq by auto; apply (r_ord _ _ _ _ R)].
      apply ord_app; [apply (r_ord _ _ _ _ R) | apply ord_writes |]. intros c i a H. rewrite objs_writes. fold ws. rewrite KW.
      destruct (buffered_in N HS s t g c i (Item a) v R H) as (k & K & _ & I). eapply NI. eapply (r_in _ _ _ _ R); eauto.
    - intros c k j a w K J NJ. cbn [g' ta kb ha] in *. pose proof (r_com _ _ _ _ R c k j a w K J NJ) as NC.
      unfold keys. destruct (Nat.eq_dec w v) as [-> | Nw]; [rewrite fupd_eq | rewrite fupd_neq by auto; auto].
      rewrite objs_app, map_app, objs_writes. fold ws. rewrite KW. intros H. apply in_app_or in H as [H | H]; [auto |].
      revert H. eapply NI. eapply (r_in _ _ _ _ R c k); eauto. unfold tail. pose proof J as [J1 _].
      rewrite <- (firstn_skipn (ta g c) (ha g c)) in NJ. rewrite nth_error_app2 in NJ by (rewrite firstn_length; lia).
      eapply nth_error_In; eauto.
    - intros w. destruct (Nat.eq_dec w v) as [-> | Nw].
      + rewrite !fupd_eq. unfold nrel. cbn [pend].
        destruct (place_ok (cur g') (pend r) sg LN) as [PL1 PL2]. rewrite PL1. split; [apply OS |]. split; [auto |]. split; [auto |].
        rewrite ND. unfold nmap. cbn [ust pend ended ph]. rewrite PL2; [destruct r; auto |].
        unfold g'; cbn [cur]. unfold ws. apply ld_combine; auto.
      + rewrite !fupd_neq by auto. eapply nrel_frame; [apply (r_node _ _ _ _ R w) | | | | | |]; cbn [g' ha ta ka kb]; auto.
        * intros a Ha. pose proof (NW a w Ha Nw). split; [rewrite ON; auto | apply CU; auto].
        * intros c. exists []. rewrite app_nil_r. auto.
    - destruct (r_fin _ _ _ _ R) as (m & M). exists (Nat.max m (S (list_max sg))). intros a L. rewrite ON; [apply M; lia |].
      intros H. assert (list_max sg <= list_max sg) as LM by lia. apply list_max_le in LM. rewrite Forall_forall in LM. specialize (LM a H). lia.
    - intros w. destruct (Nat.eq_dec w v) as [-> | Nw].
      + rewrite fupd_eq, app_nil_r. auto.
      + rewrite fupd_neq by auto. rewrite GT by auto. rewrite (r_hl _ _ _ _ R). f_equal. destruct (pcs s w) as [| | | | c p |] eqn:P; auto.
        destruct (r_node _ _ _ _ R w) as (_ & _ & C). rewrite P in C. destruct C as (_ & _ & _ & _ & O). f_equal. f_equal.
        destruct p as [a |]; auto. simpl. f_equal. symmetry. apply CU. apply (NW a w); auto.
    - apply (r_hp _ _ _ _ R).
  Qed.

  Lemma sim_boot : forall s t g v sg s', rel s t g -> tstep N s (TBoot v sg) = Some s' -> exists g', rel s' t g'.
  Proof using HC HS.
    intros s t g v sg s' R E. cbn [tstep] in E. destruct (Nat.ltb_spec v (nodes N)) as [V | V]; [| discriminate].
    destruct (pcs s v) eqn:P; try discriminate. destruct (r_node _ _ _ _ R v) as (_ & _ & C). rewrite P in C. destruct C as [C1 C2].
    eexists. eapply sim_enter; eauto. rewrite (r_hl _ _ _ _ R), P, app_nil_r. auto.
  Qed.
  Lemma react_pend : forall v n m c x, ust n = ust m -> ended n = ended m -> react N v n c x = react N v m c x.
  Proof. intros v n m c x E1 E2. unfold react. rewrite E1, E2. auto. Qed.

  Lemma sim_use : forall s t g v sg s', rel s t g -> tstep N s (TUse v sg) = Some s' -> exists g', rel s' t g'.
  Proof using HC HS.
    intros s t g v sg s' R E. cbn [tstep] in E. destruct (pcs s v) eqn:P; try discriminate.
    destruct (r_node _ _ _ _ R v) as (_ & _ & C). rewrite P in C. destruct C as (V & C1 & C2 & C3 & O).
    assert (MV : mmap (view s v) p = mmap (cur g) p).
    { destruct p as [a |]; auto. simpl. f_equal. apply (r_view _ _ _ _ R). rewrite (O a eq_refl). auto. }
    rewrite MV in E. eexists. apply (sim_enter _ _ _ _ _ _ _ _ R V E).
    - rewrite C1. apply react_pend; reflexivity.
    - rewrite fupd_eq, (r_hl _ _ _ _ R), P. auto.
    - intros w Nw. apply fupd_neq. auto.
  Qed.

  (** ** A store reaches memory *)
  Lemma sim_flush : forall s t g v s', rel s t g -> tstep N s (TFlush v) = Some s' -> exists g', rel s' t g'.
  Proof using HC HS.
    intros s t g v s' R E. cbn [tstep] in E. destruct (sb s v) as [| [c i p | a x] l] eqn:B; [discriminate | |].
    - injection E as <-.
      assert (SV : slots c (sb s v) = (i, p) :: slots c l) by (rewrite B; simpl; rewrite Nat.eqb_refl; auto).
      destruct (r_sb _ _ _ _ R c v) as (k & K & W); [rewrite SV; discriminate |].
      assert (SL : forall c' w, c' <> c \/ w <> v -> slots c' (fupd (sb s) v l w) = slots c' (sb s w)).
      { intros c' w H. destruct (Nat.eq_dec w v) as [-> | Nw]; [rewrite fupd_eq | rewrite fupd_neq by auto; auto].
        destruct H as [H | H]; [| contradiction]. rewrite B. simpl. destruct (Nat.eqb_spec c c'); [congruence | auto]. }
      assert (OB : forall w, objs (fupd (sb s) v l w) = objs (sb s w)).
      { intros w. destruct (Nat.eq_dec w v) as [-> | Nw]; [rewrite fupd_eq, B | rewrite fupd_neq by auto]; auto. }
      pose proof (r_ck _ _ _ _ R c k K) as CK.
      assert (exists g', ha g' = ha g /\ ta g' = ta g /\ cur g' = cur g /\ (forall c', ka g c' <= ka g' c') /\ (forall c', kb g c' <= kb g' c') /\
        (forall c' k', chan_of N c' = Some k' ->
          ck (cap k') (ha g' c') (ta g' c') (ka g' c') (kb g' c') (fupd (mem s) c (fupd (mem s c) i p) c')
             (slots c' (fupd (sb s) v l (src k'))) (slots c' (fupd (sb s) v l (dst k'))) (pw s c') (pr s c')) /\
        (forall c' j a, kb g c' <= j < kb g' c' -> nth_error (ha g c') j = Some (Item a) -> v = src k /\ c' = c /\ p = Some (Item a)))
        as (g' & G1 & G2 & G3 & G4 & G5 & G6 & G7).
      { destruct W as [-> | ->].
        - rewrite SV in CK. destruct (ck_flushp (cap k) (fun b Hb => HC c k b K Hb) _ _ _ _ _ _ _ _ _ _ _ CK) as (L & PV & CK').
          exists (mkG (ha g) (ta g) (ka g) (fupd (kb g) c (S (kb g c))) (cur g)). cbn [ha ta ka kb cur].
          repeat (split; [solve [auto] |]). split; [| split].
          + intros c'. unfold fupd. destruct (Nat.eqb_spec c' c); [subst |]; lia.
          + intros c' k' K'. destruct (Nat.eq_dec c' c) as [-> | Nc].
            * rewrite K in K'. injection K' as <-. rewrite !fupd_eq. rewrite (SL c (dst k)); auto.
              right. intros H. eapply HS; eauto.
            * rewrite !fupd_neq by auto. rewrite !SL by auto. apply (r_ck _ _ _ _ R c' k' K').
          + intros c' j a J NJ. unfold fupd in J. destruct (Nat.eqb_spec c' c) as [-> | Nc]; [| lia].
            assert (j = kb g c) by lia. subst j. rewrite NJ in PV. auto.
        - rewrite SV in CK. destruct (ck_flushc (cap k) (fun b Hb => HC c k b K Hb) _ _ _ _ _ _ _ _ _ _ _ CK) as (L & PV & CK').
          exists (mkG (ha g) (ta g) (fupd (ka g) c (S (ka g c))) (kb g) (cur g)). cbn [ha ta ka kb cur].
          repeat (split; [solve [auto] |]). split; [| split; [| split]].
          + intros c'. unfold fupd. destruct (Nat.eqb_spec c' c); [subst |]; lia.
          + auto.
          + intros c' k' K'. destruct (Nat.eq_dec c' c) as [-> | Nc].
            * rewrite K in K'. injection K' as <-. rewrite !fupd_eq. rewrite (SL c (src k)); auto.
              right. intros H. eapply HS; eauto.
            * rewrite !fupd_neq by auto. rewrite !SL by auto. apply (r_ck _ _ _ _ R c' k' K').
          + intros; lia. }
      assert (TG : forall c', tail g' c' = tail g c') by (intros; unfold tail; rewrite G1, G2; auto).
      exists g'. constructor; cbn [bad mem obj sb pw pr pcs cn own got put]; auto.
      + apply (r_bad _ _ _ _ R).
      + intros c' k' K'. rewrite TG, G3. apply (r_q _ _ _ _ R c' k' K').
      + intros c' w H. apply (r_sb _ _ _ _ R). intros F. apply H. destruct (Nat.eq_dec w v) as [-> | Nw]; [rewrite fupd_eq | rewrite fupd_neq by auto; auto].
        rewrite B in F. simpl in F. destruct (c =? c'); [discriminate | auto].
      + intros c' k' a K' H. rewrite TG in H. eapply (r_in _ _ _ _ R); eauto.
      + intros c' k' K'. rewrite TG. eapply (r_nd _ _ _ _ R); eauto.
      + intros a w H. unfold keys in H. rewrite OB in H. apply (r_obj _ _ _ _ R); auto.
      + intros a w H. unfold view. cbn [sb obj]. rewrite OB, G3. apply (r_view _ _ _ _ R); auto.
      + intros w. destruct (Nat.eq_dec w v) as [-> | Nw]; [rewrite fupd_eq | rewrite fupd_neq by auto; apply (r_ord _ _ _ _ R)].
        pose proof (r_ord _ _ _ _ R v) as O. rewrite B in O. apply O.
      + intros c' k' j a w K' J NJ. unfold keys. rewrite OB. rewrite G1, G2 in *.
        destruct (Nat.lt_ge_cases j (kb g c')) as [JL | JG]; [apply (r_com _ _ _ _ R c' k' j a w K'); auto; lia |].
        destruct (G7 c' j a) as (E1 & E2 & E3); [lia | auto |]. subst c' p. rewrite K in K'. injection K' as <-.
        assert (O : own s a = InCh c).
        { eapply (r_in _ _ _ _ R c k); eauto. unfold tail. rewrite <- (firstn_skipn (ta g c) (ha g c)) in NJ.
          rewrite nth_error_app2 in NJ by (rewrite firstn_length; lia). eapply nth_error_In; eauto. }
        intros H. pose proof (r_obj _ _ _ _ R a w H) as HW. rewrite O in HW. simpl in HW. rewrite K in HW. simpl in HW. injection HW as HW.
        rewrite E1, <- HW in *. pose proof (r_ord _ _ _ _ R v) as OR. subst v. rewrite B in OR. destruct OR as [OR _]. subst w.
        rewrite B in H. simpl in H. contradiction.
      + intros w. eapply nrel_frame; [apply (r_node _ _ _ _ R w) | | | | | |]; rewrite ?G1, ?G2, ?G3; auto.
        intros c'. exists []. rewrite app_nil_r. auto.
      + apply (r_fin _ _ _ _ R).
      + rewrite G3. apply (r_hl _ _ _ _ R).
      + apply (r_hp _ _ _ _ R).
    - injection E as <-. exists g.
      assert (SL : forall c' w, slots c' (fupd (sb s) v l w) = slots c' (sb s w)).
      { intros c' w. destruct (Nat.eq_dec w v) as [-> | Nw]; [rewrite fupd_eq, B | rewrite fupd_neq by auto]; auto. }
      assert (KS : forall b w, In b (map fst (objs (fupd (sb s) v l w))) -> In b (keys (sb s w))).
      { intros b w H. unfold keys. destruct (Nat.eq_dec w v) as [-> | Nw]; [rewrite fupd_eq in H; rewrite B; simpl | rewrite fupd_neq in H by auto]; auto. }
      assert (HA : holder N (own s a) = Some v) by (apply (r_obj _ _ _ _ R); unfold keys; rewrite B; left; auto).
      constructor; cbn [bad mem obj sb pw pr pcs cn own got put]; try apply R.
      + intros c k K. rewrite !SL. apply (r_ck _ _ _ _ R c k K).
      + intros c w. rewrite SL. apply (r_sb _ _ _ _ R).
      + intros b w H. apply (r_obj _ _ _ _ R). apply KS. auto.
      + intros b w H. unfold view. cbn [sb obj]. rewrite <- (r_view _ _ _ _ R b w H). unfold view. destruct (Nat.eq_dec w v) as [-> | Nw].
        * rewrite fupd_eq, ld_cons, B. auto.
        * rewrite fupd_neq by auto. apply ld_other. intros ->. congruence.
      + intros w. destruct (Nat.eq_dec w v) as [-> | Nw]; [rewrite fupd_eq | rewrite fupd_neq by auto; apply (r_ord _ _ _ _ R)].
        pose proof (r_ord _ _ _ _ R v) as O. rewrite B in O. apply O.
      + intros c k j b w K J NJ H. apply KS in H. eapply (r_com _ _ _ _ R); eauto.
  Qed.

  (** ** Simulation *)
  Lemma sim_step : forall s t g a s', rel s t g -> tstep N s a = Some s' ->
    exists t' g', (t' = t \/ exists b, step N t b = Some t') /\ rel s' t' g'.
  Proof using HC HS.
    intros s t g a s' R E. destruct a as [v sg | v c | v | v | v sg | v k j | v | v | v | v].
    - destruct (sim_boot _ _ _ _ _ _ R E) as (g' & H). eauto 6.
    - apply (sim_test N HC _ _ _ _ _ _ R) in E. eauto 6.
    - apply (sim_read N HC _ _ _ _ _ R) in E. eauto 6.
    - destruct (sim_clear _ _ _ _ _ R E) as (t' & g' & (c & H) & R'). eauto 7.
    - destruct (sim_use _ _ _ _ _ _ R E) as (g' & H). eauto 6.
    - apply (sim_chk N HC _ _ _ _ _ _ _ R) in E. eauto 6.
    - destruct (sim_store _ _ _ _ _ R E) as (t' & g' & (k & j & H) & R'). eauto 7.
    - destruct (sim_next _ _ _ _ _ R E) as (t' & H & R'). eauto 7.
    - destruct (sim_fin _ _ _ _ _ R E) as (t' & H & R'). eauto 7.
    - destruct (sim_flush _ _ _ _ _ R E) as (g' & H). eauto 6.
  Qed.

  Lemma sim : forall l s, exec (tstep N) (tinit N o0) l = Some s ->
    exists l' t g, exec (step N) (init_st N) l' = Some t /\ rel s t g.
  Proof using HC HS.
    intros l s E. revert E. apply (exec_inv (tstep N) (fun s => exists l' t g, exec (step N) (init_st N) l' = Some t /\ rel s t g)).
    - intros s1 a s2 (l' & t & g & EX & R) E. destruct (sim_step _ _ _ _ _ R E) as (t' & g' & [-> | (b & H)] & R').
      + eauto.
      + exists (l' ++ [b]), t', g'. split; auto. apply exec_app. exists t. split; auto. simpl. rewrite H. auto.
    - exists [], (init_st N), (g0 o0). split; auto. apply rel_init. auto.
  Qed.
End Sim.
