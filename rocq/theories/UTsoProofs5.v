From Coq Require Import List Arith Bool Lia.
From Verif Require Import Base UTsoModel UTsoSpec UTsoProofs UTsoProofs2 UTsoProofs3 UTsoProofs4.
Import ListNotations.

Section Proofs.
Variable n : nat.
Hypothesis Hn : 1 <= n.
Notation Inv := (Inv n).

Lemma ccont_nil : forall c g, ccont c g [] = [].
Proof. induction c as [|y c IH]; intros g; auto. destruct y; cbn [ccont]; try apply IH; destruct (_ =? _); apply IH. Qed.

(** A value reaches the segment [buf_w]. *)
Lemma cview_snoc : forall s saw g y, Inv s saw -> In g (chain s) -> ccont (cbuf s) g (cont s g ++ [y]) = cview s g ++ [y].
Proof.
  intros s saw g y I H. assert (X : ~ In (SRst g) (cbuf s) /\ deqn (cbuf s) g <= length (cont s g)).
  { destruct (fetch (cp s)) as [h|] eqn:F; [|destruct (Nat.eq_dec g (bufr s)) as [->|N]].
    - destruct (notouch _ s saw g I H) as [R D]; [intros [Q _]; congruence|]. split; auto. lia.
    - split; [eapply bufr_norst; eauto|]. apply (i_deq _ _ _ I F).
    - destruct (notouch _ s saw g I H) as [R D]; [intros [_ Q]; auto|]. split; auto. lia. }
  destruct X as [R D]. unfold cview. rewrite !ccont_skip by (rewrite ?app_length; auto; lia).
  rewrite skipn_app. f_equal. replace (deqn (cbuf s) g - length (cont s g)) with 0 by lia. reflexivity.
Qed.

Lemma flat_fupd1 : forall (f : nat -> list item) h pre p w y, ~ In w pre -> ~ In w p ->
  (forall a, a <> w -> h a = f a) -> h w = f w ++ [y] -> (forall a, In a p -> f a = []) ->
  flat_map h (pre ++ w :: p) = flat_map f (pre ++ w :: p) ++ [y].
Proof.
  intros f h pre p w y N1 N2 A B E. rewrite !flat_map_app. cbn [flat_map]. rewrite B.
  rewrite (flat_ext h f pre) by (intros a Ha; apply A; intros ->; auto).
  rewrite (flat_nil h p) by (intros a Ha; rewrite A by (intros ->; auto); auto).
  rewrite (flat_nil f p) by auto. rewrite !app_nil_r, app_assoc. reflexivity.
Qed.

Ltac blk BLK := let a := fresh "a" in let H := fresh "H" in let X := fresh "X" in
  intros a H; destruct (BLK a H) as [[X|X]|X]; [discriminate|left; exact X|right; exact X].
Ltac tails := cbn [links takes wsets enqs pcont endpay gives frees ccont deqn app ctouch newok enqok wlok payok In] in *.

Lemma drainP_ok : forall s saw s', Inv s saw -> drainP n s = Some s' -> exists saw', Inv s' saw'.
Proof.
  intros s saw s' I E. exists saw. pose proof (bufw_in _ s saw I) as WC. pose proof (vchain_alive _ s saw _ I WC) as WA.
  unfold drainP in E. destruct (pbuf s) as [|z b] eqn:EB; [discriminate|]. injection E as <-.
  destruct z as [a v|g y| |g|g|g].
  - (* SPay *)
    open I. norm. rewrite EB in *. tails. constructor; norm; auto; try tauto.
    + blk BLK.
    + intros x H. rewrite fupd_neq; auto. intros Q. destruct PYO as [PYO _]. apply PYO. rewrite <- Q. apply in_map. auto.
  - (* SEnq *)
    assert (Q : g = bufw s) by (pose proof (i_enq _ _ _ I) as X; rewrite EB in X; apply X). subst g.
    assert (WCC : In (bufw s) (chain s)) by (apply in_or_app; auto).
    assert (LT : length (cont s (bufw s)) < n).
    { pose proof (i_cap _ _ _ I _ WCC) as X. unfold pview in X. rewrite EB in X. cbn [pcont] in X. rewrite Nat.eqb_refl in X.
      pose proof (nonew _ s saw _ I WC) as NN. rewrite EB in NN.
      pose proof (pcont_ge b (bufw s) (cont s (bufw s) ++ [y]) ltac:(intros Z; apply NN; right; auto)) as G. rewrite app_length in G. cbn in G. lia. }
    apply Nat.ltb_lt in LT. cbn [cont]. rewrite LT.
    pose proof (cview_snoc s saw _ y I WCC) as CS.
    assert (NB : forall a, 1 <= cc (pcache s) a + cc (gives (cbuf s)) a + cc (oldc (cp s) (bufr s)) a + cc (heldp (pp s)) a -> a <> bufw s).
    { intros a Ha ->. pose proof (own_le _ s saw (bufw s) I) as L. unfold own in L. apply in_cc in WC. lia. }
    assert (NA : forall a, In a (wsets b ++ linkp (pp s)) -> a <> bufw s).
    { intros a Ha. apply (after_ne _ s saw a I). rewrite EB. exact Ha. }
    assert (VS : flat_map (fun a => ccont (cbuf s) a (fupd (cont s) (bufw s) (cont s (bufw s) ++ [y]) a)) (vchain s) = flat_map (cview s) (vchain s) ++ [y]).
    { destruct (i_chn _ _ _ I) as (pre & p & H1 & H2). pose proof (own_le _ s saw (bufw s) I) as L. unfold own in L. rewrite H1 in *.
      rewrite cc_app in L. cbn [cc] in L. rewrite Nat.eqb_refl in L.
      apply flat_fupd1.
      - intros X. apply in_cc in X. lia.
      - intros X. apply in_cc in X. lia.
      - intros a Ha. rewrite fupd_neq; auto.
      - rewrite fupd_eq. exact CS.
      - intros a Ha. apply (cview_after _ s saw a I); [rewrite H1; apply in_or_app; right; right; auto|]. rewrite <- H2. apply in_or_app. auto. }
    assert (PV : forall a, pcont b a (fupd (cont s) (bufw s) (cont s (bufw s) ++ [y]) a) = pview s a).
    { intros a. unfold pview. rewrite EB. cbn [pcont]. rewrite (Nat.eqb_sym (bufw s) a). unfold fupd. destruct (Nat.eqb_spec a (bufw s)) as [->|]; auto. }
    assert (CVO : forall a, a <> bufw s -> ccont (cbuf s) a (fupd (cont s) (bufw s) (cont s (bufw s) ++ [y]) a) = cview s a).
    { intros a Ha. rewrite fupd_neq; auto. }
    assert (PC : pcache s = skipn (takes b) (cache s)) by (unfold pcache; rewrite EB; reflexivity).
    open I. norm. rewrite EB in *. tails. destruct ENQ as [_ ENQ]. destruct PYO as [PY1 PYO].
    set (cf := fun g : nat => ccont (cbuf s) g (fupd (cont s) (bufw s) (cont s (bufw s) ++ [y]) g)) in *.
    constructor; norm; auto; try tauto; change (fun g : nat => ccont (cbuf s) g (fupd (cont s) (bufw s) (cont s (bufw s) ++ [y]) g)) with cf;
      rewrite ?VS, ?(app_assoc (heldc (cp s))).
    + intros a H. assert (NQ : a <> bufw s).
      { rewrite app_assoc in H. apply in_app_or in H as [H|H]; [apply NA; auto|]. apply NB. apply in_cc in H. destruct (pp s); cbn [readyp heldp cc] in *; lia. }
      rewrite fupd_neq by auto. destruct (BLK a H) as [[X|X]|X]; [discriminate|auto|auto].
    + intros a H. rewrite CVO; auto. apply NB. destruct H as [H|H]; apply in_cc in H; lia.
    + intros a H. rewrite PV. auto.
    + intros a H. rewrite PV. auto.
    + rewrite PV. auto.
    + rewrite PV. auto.
    + intros F. specialize (DEQ F). unfold fupd. destruct (Nat.eqb_spec (bufr s) (bufw s)) as [Q|Q]; [|auto]. rewrite app_length, <- Q. lia.
    + destruct (cp s) eqn:EC; auto.
      * destruct CONS as [N CONS]. rewrite CVO; auto.
      * rewrite CVO; auto. apply NB. cbn [oldc cc]. rewrite Nat.eqb_refl. lia.
      * destruct CONS as [CONS|CONS]; auto. left. destruct (Nat.eq_dec (bufr s) (bufw s)) as [Q|Q]; [|rewrite CVO; auto].
        rewrite Q, fupd_eq, CS. intros Z. destruct (app_cons_not_nil _ _ _ (eq_sym Z)).
    + eapply replay_snoc; [exact REP|]. cbn [replay]. exists y, (enqs b). auto.
    + intros _ Z. destruct (app_cons_not_nil _ _ _ (eq_sym Z)).
    + eapply payok_mono; [exact PYO|]. intros a H. rewrite map_app in H. apply in_app_or in H as [H|[<-|[]]]; [right; auto|left; auto].
    + intros x H. apply in_app_or in H as [H|[<-|[]]]; auto.
    + destruct (pp s); auto. destruct CUR as (U & C1 & C2). cbn [map In] in C2. split; [auto|split; [|tauto]]. rewrite map_app. intros H. apply in_app_or in H as [H|[H|[]]]; [auto|apply C2; auto].
    + intros x [H|H]; [|auto]. apply in_app_or in H as [H|[<-|[]]]; auto.
    + rewrite UAF, WA. auto.
  - (* STake *)
    pose proof (i_tak _ _ _ I) as TK. rewrite EB in TK. cbn [takes] in TK. destruct (cache s) as [|k ks] eqn:EK; [cbn in TK; lia|].
    open I. norm. rewrite EB, EK in *. tails. cbn [skipn length tl] in *. constructor; norm; auto; try tauto; try lia.
    + blk BLK.
  - (* SNew *)
    assert (OG : In g (links b) \/ In g (heldp (pp s))).
    { pose proof (i_new _ _ _ I) as X. rewrite EB in X. apply X. }
    pose proof (own_le _ s saw g I) as L.
    assert (AG : alive s g = true).
    { apply (own_alive _ s saw g I). unfold own. rewrite EB. cbn [links]. destruct OG as [X|X]; apply in_cc in X; lia. }
    assert (NG : forall a, 1 <= cc (vchain s) a + cc (pcache s) a + cc (gives (cbuf s)) a + cc (oldc (cp s) (bufr s)) a -> a <> g).
    { intros a H ->. unfold own in L. rewrite EB in L. cbn [links] in L. destruct OG as [X|X]; apply in_cc in X; lia. }
    assert (VS : flat_map (fun a => ccont (cbuf s) a (fupd (cont s) g [] a)) (vchain s) = flat_map (cview s) (vchain s)).
    { apply flat_ext. intros a H. rewrite fupd_neq; auto. apply NG. apply in_cc in H. lia. }
    assert (PV : forall a, pcont b a (fupd (cont s) g [] a) = pview s a).
    { intros a. unfold pview. rewrite EB. cbn [pcont]. rewrite (Nat.eqb_sym g a). unfold fupd. destruct (Nat.eqb_spec a g) as [->|]; auto. }
    open I. norm. rewrite EB in *. tails. destruct NEW as [_ NEW].
    set (cf := fun a : nat => ccont (cbuf s) a (fupd (cont s) g [] a)) in *.
    constructor; norm; auto; try tauto; change (fun g0 : nat => ccont (cbuf s) g0 (fupd (cont s) g [] g0)) with cf; rewrite ?VS; auto.
    + intros a H. unfold fupd. destruct (Nat.eqb_spec a g) as [->|]; [auto|]. destruct (BLK a H) as [[X|X]|X]; [congruence|auto|auto].
    + intros a H. rewrite fupd_neq; auto. apply NG. destruct H as [H|H]; apply in_cc in H; lia.
    + intros a H. rewrite PV. auto.
    + intros a H. rewrite PV. auto.
    + rewrite PV. auto.
    + rewrite PV. auto.
    + intros F. rewrite fupd_neq; auto. apply NG. unfold first. rewrite F. cbn [cc]. rewrite Nat.eqb_refl. lia.
    + destruct (cp s) eqn:EC; auto; rewrite fupd_neq; auto; apply NG; unfold first; cbn [fetch cc oldc]; rewrite Nat.eqb_refl; lia.
    + rewrite UAF, AG. auto.
  - (* SLink *)
    assert (CG : cont s g = []).
    { pose proof (own_le _ s saw g I) as L. unfold own in L. rewrite EB in L. cbn [links cc] in L. rewrite Nat.eqb_refl in L.
      destruct (i_blk _ _ _ I g) as [X|X]; auto.
      - destruct (i_chn _ _ _ I) as (pre & p & H1 & H2). rewrite app_assoc, <- H2, EB. cbn [links]. rewrite !in_app_iff. cbn. auto.
      - exfalso. pose proof (i_new _ _ _ I) as NW. rewrite EB in X, NW. destruct X as [X|X]; [discriminate|].
        destruct (newok_in _ b g NW X) as [Y|Y]; apply in_cc in Y; lia. }
    assert (VS : flat_map (cview s) (vchain s ++ [g]) = flat_map (cview s) (vchain s)).
    { rewrite flat_map_app. cbn [flat_map]. unfold cview at 2. rewrite CG, ccont_nil. rewrite !app_nil_r. reflexivity. }
    open I. norm. rewrite EB in *. tails. cbn [app] in VS.
    constructor; norm; auto; try tauto; rewrite ?VS; auto.
    + intros a. specialize (OWN a). rewrite app_comm_cons, cc_app. cbn [cc] in *. lia.
    + destruct CHN as (pre & p & H1 & H2). exists pre, (p ++ [g]). split; [rewrite app_comm_cons, H1, <- app_assoc; reflexivity|]. rewrite <- app_assoc. exact H2.
    + blk BLK.
    + intros a H. apply CAP. cbn [app] in H. rewrite <- app_assoc in H. exact H.
    + intros a H. apply NE. cbn [app] in H. rewrite <- app_assoc in H. exact H.
  - (* SBufw *)
    assert (GF : g <> first (cp s) (bufr s)).
    { apply (after_ne _ s saw g I). rewrite EB. left. auto. }
    open I. norm. rewrite EB in *. tails. destruct WL as [_ WL].
    constructor; norm; auto; try tauto.
    + destruct CHN as (pre & p & H1 & H2). destruct (wlok_here _ _ WL) as (p' & W). rewrite <- W, app_comm_cons in H2. apply app_inv_tail in H2. subst p.
      exists (pre ++ [bufw s]), p'. split; auto. rewrite H1, <- app_assoc. reflexivity.
    + intros a H. destruct (BLK a (or_intror H)) as [[X|X]|X]; [discriminate|auto|auto].
    + unfold first in GF. destruct (cp s) eqn:EC; auto; cbn [fetch] in GF; try (intros Q; congruence). split; [congruence|tauto].
Qed.

(** The cache ring never overflows: entries and pending entries fit. *)
Definition crm (s : st) : Prop := length (cache s) + length (gives (cbuf s)) <= cache_size.

Lemma drainC_ok : forall s saw s', Inv s saw -> crm s -> drainC s = Some s' -> exists saw', Inv s' saw'.
Proof.
  intros s saw s' I CR E. exists saw. pose proof (wreg_in _ s saw I) as WC.
  unfold drainC in E. destruct (cbuf s) as [|z c] eqn:EB; [discriminate|]. injection E as <-.
  destruct z as [g|g|g|g].
  - (* SDeq *)
    assert (OG : In g (gives c) \/ In g (frees c) \/ In g (cur (cp s) (bufr s))).
    { pose proof (i_ct _ _ _ I) as X. rewrite EB in X. apply X. }
    pose proof (own_le _ s saw g I) as L. unfold own in L. rewrite EB in L. cbn [gives frees] in L.
    assert (AG : alive s g = true).
    { apply (own_alive _ s saw g I). unfold own. rewrite EB. cbn [gives frees]. destruct OG as [X|[X|X]]; [apply in_cc in X; lia|apply in_cc in X; lia|].
      unfold vchain, first. apply in_cc in X. destruct (cp s); cbn [cur cc fetch oldc] in *; lia. }
    assert (NC : forall a, In a (chain s) -> ~ consumable s a -> a <> g).
    { intros a H N ->. apply in_cc in H. unfold chain in H. rewrite cc_app in H. destruct OG as [X|[X|X]]; [apply in_cc in X; lia|apply in_cc in X; lia|].
      apply in_cc in X. apply N. unfold consumable, vchain, first in *. destruct (cp s); cbn [cur cc fetch oldc] in *; try lia;
      (split; [reflexivity|]; destruct (Nat.eqb_spec (bufr s) g); [auto|lia]). }
    assert (CV : forall a, ccont c a (fupd (cont s) g (tl (cont s g)) a) = cview s a).
    { intros a. unfold cview. rewrite EB. cbn [ccont]. rewrite (Nat.eqb_sym g a). unfold fupd. destruct (Nat.eqb_spec a g) as [->|]; auto. }
    assert (VS : flat_map (fun a => ccont c a (fupd (cont s) g (tl (cont s g)) a)) (vchain s) = flat_map (cview s) (vchain s)) by (apply flat_ext; auto).
    assert (PL : forall a, length (pcont (pbuf s) a (fupd (cont s) g (tl (cont s g)) a)) <= length (pview s a)).
    { intros a. apply pcont_le. unfold fupd. destruct (Nat.eqb_spec a g) as [->|]; [destruct (cont s g); cbn; lia|lia]. }
    open I. norm. rewrite EB in *. tails. destruct CT as [_ CT].
    set (cf := fun a : nat => ccont c a (fupd (cont s) g (tl (cont s g)) a)) in *.
    constructor; norm; auto; try tauto; change (fun g0 : nat => ccont c g0 (fupd (cont s) g (tl (cont s g)) g0)) with cf; rewrite ?VS; auto.
    + intros a H. destruct (BLK a H) as [X|X]; [auto|]. right. unfold fupd. destruct (Nat.eqb_spec a g) as [->|]; [rewrite X; auto|auto].
    + intros a H. rewrite CV. auto.
    + intros a H. etransitivity; [apply PL|]. auto.
    + intros a H N1 N2 N3. rewrite fupd_neq by (apply NC; auto). auto.
    + intros B N. rewrite fupd_neq by (apply NC; auto). auto.
    + destruct (pp s); auto. eapply Nat.le_lt_trans; [apply PL|]. auto.
    + intros F. specialize (DEQ F). unfold fupd. rewrite (Nat.eqb_sym g) in DEQ. destruct (Nat.eqb_spec (bufr s) g) as [Q|Q]; [|lia]. rewrite Q in *.
      destruct (cont s g); cbn [length tl] in *; lia.
    + destruct (cp s); auto; rewrite ?CV; auto.
    + rewrite UAF, AG. auto.
  - (* SRst *)
    assert (OG : In g (gives c) \/ In g (frees c) \/ In g (cur2 (cp s) (bufr s))).
    { pose proof (i_ct _ _ _ I) as X. rewrite EB in X. apply X. }
    pose proof (own_le _ s saw g I) as L. unfold own in L. rewrite EB in L. cbn [gives frees] in L.
    assert (OL : In g (cur2 (cp s) (bufr s)) -> 1 <= cc (oldc (cp s) (bufr s)) g).
    { intros X. apply in_cc. destruct (cp s); cbn in *; tauto. }
    assert (AG : alive s g = true).
    { apply (own_alive _ s saw g I). unfold own. rewrite EB. cbn [gives frees]. destruct OG as [X|[X|X]]; [apply in_cc in X; lia|apply in_cc in X; lia|].
      specialize (OL X). lia. }
    assert (NC : forall a, In a (chain s) -> a <> g).
    { intros a H ->. apply in_cc in H. unfold chain in H. rewrite cc_app in H. destruct OG as [X|[X|X]]; [apply in_cc in X; lia|apply in_cc in X; lia|].
      specialize (OL X). lia. }
    assert (CV : forall a, ccont c a (fupd (cont s) g [] a) = cview s a).
    { intros a. unfold cview. rewrite EB. cbn [ccont]. rewrite (Nat.eqb_sym g a). unfold fupd. destruct (Nat.eqb_spec a g) as [->|]; auto. }
    assert (VS : flat_map (fun a => ccont c a (fupd (cont s) g [] a)) (vchain s) = flat_map (cview s) (vchain s)) by (apply flat_ext; auto).
    assert (FC : fetch (cp s) = None -> In (bufr s) (chain s)).
    { intros F. left. unfold first. rewrite F. auto. }
    open I. norm. rewrite EB in *. tails. destruct CT as [_ CT].
    set (cf := fun a : nat => ccont c a (fupd (cont s) g [] a)) in *.
    constructor; norm; auto; try tauto; change (fun g0 : nat => ccont c g0 (fupd (cont s) g [] g0)) with cf; rewrite ?VS; auto.
    + intros a H. destruct (BLK a H) as [X|X]; [auto|]. right. unfold fupd. destruct (a =? g); auto.
    + intros a H. rewrite CV. auto.
    + intros a H. rewrite fupd_neq by (apply NC; auto). auto.
    + intros a H N1 N2 N3. rewrite fupd_neq by (apply NC; auto). auto.
    + rewrite fupd_neq by (apply NC; auto). auto.
    + rewrite fupd_neq by (apply NC; auto). auto.
    + intros F. rewrite fupd_neq by (apply NC; auto). auto.
    + destruct (cp s); auto; rewrite ?CV; auto.
    + rewrite UAF, AG. auto.
  - (* SGive *)
    assert (RM : length (cache s) <? cache_size = true) by (apply Nat.ltb_lt; red in CR; rewrite EB in CR; cbn [gives length] in CR; lia).
    open I. norm. rewrite RM in *. norm. rewrite EB in *. tails.
    assert (SK : skipn (takes (pbuf s)) (cache s ++ [g]) = skipn (takes (pbuf s)) (cache s) ++ [g]).
    { rewrite skipn_app. replace (takes (pbuf s) - length (cache s)) with 0 by lia. reflexivity. }
    constructor; norm; auto; try tauto; rewrite ?SK; auto.
    + intros a. specialize (OWN a). rewrite cc_app. cbn [cc] in *. lia.
    + rewrite app_length. lia.
    + intros a H. rewrite in_app_iff in H. apply CAC. cbn in *. tauto.
  - (* SFree *)
    pose proof (i_own _ _ _ I g) as OG. 
    open I. norm. rewrite EB in *. tails. 
    assert (AG : alive s g = true).
    { destruct (alive s g); auto. cbn [cc] in OG. rewrite Nat.eqb_refl in OG. lia. }
    constructor; norm; auto; try tauto.
    + intros a. specialize (OWN a). cbn [cc] in *. unfold fupd. rewrite (Nat.eqb_sym a g). destruct (Nat.eqb_spec g a) as [EQ|NX]; [rewrite <- EQ, AG in OWN; rewrite <- EQ|]; lia.
    + rewrite UAF, AG. auto.
Qed.

Lemma crm_step : forall s a s', crm s -> step n s a = Some s' -> crm s'.
Proof.
  assert (GA : forall c x, gives (c ++ [x]) = gives c ++ gives [x]).
  { induction c as [|y c IH]; intros x; cbn [app]; [reflexivity|]. destruct y; cbn [gives]; rewrite ?IH; reflexivity. }
  unfold crm. intros s a s' C E. destruct a as [a v| |m| | |]; cbn [step] in E.
  - destruct (pp s); try discriminate. destruct (existsb _ _); [discriminate|]. injection E as <-. exact C.
  - destruct (cp s); try discriminate. injection E as <-. exact C.
  - unfold pstep in E. destruct (pp s) as [|x|x|x|x g|x g|x g|x] eqn:EP; try discriminate; try (injection E as <-; exact C).
    + destruct (pcache s); [destruct (alive s m); [discriminate|]|]; injection E as <-; exact C.
    + cbv zeta in E. injection E as <-. destruct (length _ <? n); exact C.
  - unfold cstep in E. destruct (cp s) as [| | | | |g|g|g| |x] eqn:EC; try discriminate; try (injection E as <-; exact C).
    + destruct (bufr s =? bufw s); injection E as <-; exact C.
    + destruct (inuse s); injection E as <-; exact C.
    + injection E as <-. cbn [cbuf cache goC stC touch]. rewrite GA, app_length. cbn [gives length]. lia.
    + injection E as <-. cbn [cbuf cache goC stC]. rewrite GA, app_length. unfold croom.
      destruct (Nat.ltb_spec (length (cache s) + length (gives (cbuf s))) cache_size); cbn [gives length]; lia.
    + cbv zeta in E. destruct (cview _ _); injection E as <-; [exact C|]. cbn [cbuf cache goC stC touch]. rewrite GA, app_length. cbn [gives length]. lia.
  - unfold drainP in E. destruct (pbuf s) as [|x b]; [discriminate|]. destruct x; injection E as <-; try exact C. cbn. destruct (cache s); cbn in *; lia.
  - unfold drainC in E. destruct (cbuf s) as [|x b]; [discriminate|]. destruct x; injection E as <-; try exact C. cbn [gives length] in C.
    cbn [cbuf cache setm]. destruct (Nat.ltb_spec (length (cache s)) cache_size); rewrite ?app_length; cbn [length]; [lia|]. destruct (cache s); cbn [length tl] in *; lia.
Qed.

Lemma step_ok : forall s saw a s', Inv s saw -> crm s -> step n s a = Some s' -> exists saw', Inv s' saw'.
Proof.
  intros s saw a s' I CR E. destruct a as [a v| |m| | |]; cbn [step] in E.
  - destruct (pp s) eqn:EP; try discriminate. destruct (existsb (Nat.eqb a) (used s)) eqn:EX; [discriminate|]. injection E as <-. exists saw. apply call_push; auto.
  - destruct (cp s) eqn:EC; try discriminate. injection E as <-. eexists. eapply call_pop; eauto.
  - eapply pstep_ok; eauto.
  - eapply cstep_ok; eauto.
  - eapply drainP_ok; eauto.
  - eapply drainC_ok; eauto.
Qed.

Lemma exec_Inv : forall l s, exec (step n) init_st l = Some s -> exists saw, Inv s saw.
Proof.
  intros l s E. enough (X : (exists saw, Inv s saw) /\ crm s) by tauto. revert E. apply (exec_inv (step n) (fun s => (exists saw, Inv s saw) /\ crm s)).
  - intros s1 a s2 ((saw & I) & CR) E. split; [eapply step_ok|eapply crm_step]; eauto.
  - split; [exists false; apply Inv0|unfold crm; cbn; lia].
Qed.
End Proofs.
