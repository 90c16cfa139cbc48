From Coq Require Import List Arith Bool Lia.
From Verif Require Import Base UTsoModel UTsoSpec UTsoProofs UTsoProofs2.
Import ListNotations.

#[local] Hint Rewrite links_app takes_app wsets_app enqs_app pcont_app endpay_app gives_app frees_app ccont_app deqn_app app_nil_r Nat.add_0_r : ut.
Ltac open I := destruct I as [OWN TAK CT NEW ENQ CHN WL BLK CAC CAP NE BUSY ROOM DEQ CONS REP SAW PYO PYV CUR USD UAF].
Ltac proj := cbn [cont alive bufw inuse cache pay pbuf cbuf wreg bufr pp cp uaf used tr goP goC stP stC emit touch setm set_cont set_alive
  fetch oldc cur cur2 heldc incall heldp readyp linkp bp] in *.
Ltac norm := unfold own, chain, consumable, vstored, vchain, pcache, cview, pview in *; proj.
Ltac app := autorewrite with ut in *; cbn [links takes wsets enqs pcont endpay gives frees ccont deqn app] in *; autorewrite with ut in *.

Section Proofs.
Variable n : nat.
Hypothesis Hn : 1 <= n.
Notation Inv := (Inv n).

Lemma skipn_next : forall (k : nat) (l : list nat) g q, skipn k l = g :: q -> skipn (k + 1) l = q /\ k + 1 <= length l.
Proof.
  induction k as [|k IH]; intros l g q EC.
  - cbn in EC. subst l. cbn. split; [auto|lia].
  - destruct l as [|b l]; cbn [skipn] in EC; [discriminate|]. destruct (IH l g q EC) as [H1 H2]. split; [exact H1|cbn [length]; lia].
Qed.

Lemma call_push : forall s saw a v, Inv s saw -> pp s = PIdle -> existsb (Nat.eqb a) (used s) = false ->
  Inv (mkSt (cont s) (alive s) (bufw s) (inuse s) (cache s) (pay s) (pbuf s) (cbuf s) (wreg s) (bufr s)
            (PPay (a, v)) (cp s) (uaf s) (a :: used s) (tr s)) saw.
Proof.
  intros s saw a v I E F. assert (NU : ~ In a (used s)).
  { intros X. assert (existsb (Nat.eqb a) (used s) = true) as Q; [|congruence]. apply existsb_exists. exists a. rewrite Nat.eqb_refl. auto. }
  open I. norm. rewrite E in *. constructor; norm; auto.
  - cbn [fst]. split; [left; auto|]. split; intros X; apply in_map_iff in X as (x & <- & X); apply NU, USD; auto.
  - intros x H. right. auto.
Qed.

Lemma call_pop : forall s saw, Inv s saw -> cp s = CIdle ->
  Inv (emit (goC s CEmp1) ECallPop) (match vstored s with [] => true | _ => false end).
Proof.
  intros s saw I E. open I. norm. rewrite E in *. unfold first in *. constructor; norm; auto.
  - eapply replay_snoc; [exact REP|]. cbn [replay]. auto.
  - intros _ H. unfold first in H. proj. rewrite H. auto.
Qed.

Lemma pstep_ok : forall s saw m s', Inv s saw -> pstep n s m = Some s' -> exists saw', Inv s' saw'.
Proof.
  intros s saw m s' I E. exists saw. pose proof (wreg_in n s saw I) as WC. pose proof (chain_alive n s saw _ I WC) as WA.
  unfold pstep in E. destruct (pp s) as [|x|x|x|x g|x g|x g|x] eqn:EP; [discriminate|..].
  - (* PPay *)
    injection E as <-. open I. norm. rewrite EP in *. proj.
    constructor; norm; app; auto; try solve [intros ?; app; auto].
    + eapply newok_mono; eauto.
    + apply enqok_app; auto.
    + apply wlok_app; auto.
    + intros g H. rewrite in_app_iff. destruct (BLK g H); auto.
    + apply payok_app; auto. tauto.
    + destruct CUR as (U & _). split; auto. apply fupd_eq.
  - (* PAvail *)
    injection E as <-. open I. norm. rewrite EP in *. proj. unfold touch, pview; proj.
    destruct (length (pcont (pbuf s) (wreg s) (cont s (wreg s))) <? n) eqn:EL.
    + apply Nat.ltb_lt in EL. constructor; norm; auto. rewrite UAF, WA. auto.
    + apply Nat.ltb_ge in EL. constructor; norm; auto.
      * intros _ _ Q. rewrite Q in EL. cbn in EL. lia.
      * rewrite UAF, WA. auto.
  - (* PTake *)
    destruct (pcache s) as [|g q] eqn:EC.
    + destruct (alive s m) eqn:EM; [discriminate|]. injection E as <-.
      assert (NM : own s m = 0) by (rewrite (i_own _ _ _ I), EM; auto).
      open I. norm. rewrite EP, ?EC in *. proj.
      constructor; norm; auto; rewrite ?EC; auto.
      * intros g. specialize (OWN g). cbn [cc] in *. unfold fupd. rewrite (Nat.eqb_sym m g). destruct (Nat.eqb_spec g m) as [->|N]; [|lia]. lia.
      * eapply newok_held; eauto. intros ? [].
    + injection E as <-. 
      assert (SK : skipn (takes (pbuf s) + 1) (cache s) = q /\ takes (pbuf s) + 1 <= length (cache s)).
      { exact (skipn_next _ _ g q EC). }
      destruct SK as [SK TL]. assert (CG : cview s g = []) by (apply (i_cac _ _ _ I); left; rewrite EC; left; auto).
      assert (UG : cont s g = []).
      { pose proof (own_le _ s saw g I) as L. unfold own in L. rewrite EC in L. cbn [cc] in L. rewrite Nat.eqb_refl in L.
        assert (O : ~ In g (cur (cp s) (bufr s))).
        { intros X. apply in_cc in X. unfold vchain, first in L. destruct (cp s); cbn [cur cc fetch oldc] in *; lia. }
        assert (O2 : ~ In g (cur2 (cp s) (bufr s))) by (intros X; apply O; destruct (cp s); cbn in *; tauto).
        assert (R : ~ In (SRst g) (cbuf s)).
        { intros X. destruct (ctouch_rst _ _ _ _ (i_ct _ _ _ I) X) as [Y|[Y|Y]]; [apply in_cc in Y; lia|apply in_cc in Y; lia|auto]. }
        assert (D : deqn (cbuf s) g = 0).
        { destruct (deqn (cbuf s) g) eqn:ED; auto. destruct (ctouch_deq _ _ _ g (i_ct _ _ _ I) ltac:(lia)) as [Y|[Y|Y]]; [apply in_cc in Y; lia|apply in_cc in Y; lia|contradiction]. }
        unfold cview in CG. rewrite ccont_skip in CG; auto; rewrite D in *; [exact CG|lia]. }
      open I. norm. rewrite EP, ?EC in *. proj.
      constructor; norm; app; auto; try solve [intros ?; app; auto]; rewrite ?SK; auto.
      * intros a. specialize (OWN a). cbn [cc] in *. lia.
      * eapply newok_mono; eauto; intros ? [].
      * apply enqok_app; auto.
      * apply wlok_app; auto.
      * intros a H. rewrite in_app_iff. apply in_app_or in H as [H|[<-|[]]]; [|auto]. destruct (BLK a); auto; rewrite app_nil_r; auto.
      * intros a H. apply CAC. cbn. tauto.
      * apply payok_app; auto.
  - (* PInit *)
    injection E as <-. pose proof (own_le _ s saw g I) as L.
    assert (NG : forall h, In h (chain s) -> g =? h = false).
    { intros h H. apply Nat.eqb_neq. intros ->. unfold own in L. rewrite EP in L. cbn [heldp cc] in L. rewrite Nat.eqb_refl in L.
      apply in_cc in H. unfold chain in H. rewrite cc_app in H. lia. }
    open I. norm. rewrite EP in *. proj.
    constructor; norm; app; auto; try solve [intros ?; app; auto].
    + eapply newok_mono; eauto; cbn; auto.
    + apply enqok_app; auto.
    + apply wlok_app; auto.
    + intros a H. rewrite in_app_iff. apply in_app_or in H as [H|[<-|[]]]; [|left; right; left; auto]. destruct (BLK a); auto; rewrite app_nil_r; auto.
    + intros h H. app. rewrite (NG h H). auto.
    + intros h H. app. rewrite (NG h H). auto.
    + rewrite (NG _ WC). auto.
    + apply payok_app; auto.
  - (* PLink *)
    injection E as <-. pose proof (own_le _ s saw g I) as L. unfold own in L. rewrite EP in L. cbn [heldp cc] in L. rewrite Nat.eqb_refl in L.
    assert (NOENQ : forall y, ~ In (SEnq g y) (pbuf s)).
    { intros y X. destruct (noenq _ s saw g y I X) as [->|H].
      - pose proof (bufw_in _ s saw I) as B. apply in_cc in B. lia.
      - pose proof (after_in _ s saw g I (in_or_app _ _ _ (or_introl H))) as B. apply in_cc in B. unfold chain in B. rewrite cc_app in B. lia. }
    assert (PG : pview s g = []).
    { unfold pview. destruct (i_blk _ _ _ I g) as [B|B]; [rewrite EP; cbn; apply in_or_app; right; left; auto| |].
      - apply pcont_new; auto.
      - rewrite B. destruct (In_dec pstore_dec (SNew g) (pbuf s)); [apply pcont_new; auto|apply pcont_other; auto]. }
    open I. norm. rewrite EP in *. proj.
    constructor; norm; app; auto; try solve [intros ?; app; auto].
    + intros a. specialize (OWN a). rewrite cc_app. cbn [cc] in *. lia.
    + eapply newok_mono; eauto; cbn; auto.
    + apply enqok_app; auto.
    + destruct CHN as (pre & p & H1 & H2). exists pre, p. split; auto. rewrite app_assoc, H2. reflexivity.
    + apply wlok_link; auto.
    + intros a H. rewrite in_app_iff. destruct (BLK a); auto.
    + intros a H. app; rewrite app_assoc, app_comm_cons in H; apply in_app_or in H as [H|[<-|[]]]; [auto|]. rewrite PG. cbn. lia.
    + intros a H N1 N2 N3. app; rewrite app_assoc, app_comm_cons in H; apply in_app_or in H as [H|[<-|[]]]; [auto|]. destruct N2. left. auto.
    + apply payok_app; auto.
  - (* PSet *)
    injection E as <-. pose proof (own_le _ s saw g I) as L. 
    assert (AG : In g (wsets (pbuf s) ++ linkp (pp s))) by (rewrite EP; apply in_or_app; right; left; auto).
    pose proof (after_in _ s saw g I AG) as GC. pose proof (after_ne _ s saw g I AG) as [GF GB].
    assert (NW : ~ In g (wsets (pbuf s))).
    { intros X. destruct (i_chn _ _ _ I) as (pre & p & H1 & H2). unfold own in L. rewrite H1, cc_app in L. cbn [cc] in L. rewrite EP in H2.
      apply (f_equal (fun l => cc l g)) in H2. rewrite !cc_app in H2. cbn [linkp cc] in H2. rewrite Nat.eqb_refl in H2. apply in_cc in X. lia. }
    assert (NOENQ : forall y, ~ In (SEnq g y) (pbuf s)).
    { intros y X. destruct (noenq _ s saw g y I X) as [->|H]; auto. }
    assert (PG : pview s g = []).
    { unfold pview. destruct (i_blk _ _ _ I g) as [B|B]; [rewrite EP; cbn; apply in_or_app; right; left; auto| |].
      - apply pcont_new; auto.
      - rewrite B. destruct (In_dec pstore_dec (SNew g) (pbuf s)); [apply pcont_new; auto|apply pcont_other; auto]. }
    open I. norm. rewrite EP in *. proj.
    constructor; norm; app; auto; try solve [intros ?; app; auto].
    + eapply newok_mono; eauto; cbn; auto.
    + eapply enqok_bufw; eauto.
    + apply wlok_bufw; auto.
    + intros a H. rewrite in_app_iff. destruct (BLK a); auto.
    + intros a H N1 _ N3. app. destruct (Nat.eq_dec a (wreg s)) as [->|N2]; [auto|]. apply NE; auto. intros [|[]]. auto.
    + rewrite PG. cbn. lia.
    + apply payok_app; auto.
  - (* PPut *)
    pose proof (i_room _ _ _ I) as R. rewrite EP in R.
    unfold touch, pview in E, R. proj. apply Nat.ltb_lt in R. rewrite R in E. apply Nat.ltb_lt in R. injection E as <-.
    open I. norm. rewrite EP in *. proj.
    constructor; norm; app; auto; try solve [intros ?; app; auto].
    + eapply newok_mono; eauto; intros ? [].
    + apply enqok_app; auto.
    + apply wlok_app; auto.
    + intros a H. rewrite in_app_iff. destruct (BLK a); auto; app; auto.
    + intros a H. app. destruct (Nat.eqb_spec (wreg s) a) as [<-|N]; [rewrite app_length; cbn; lia|auto].
    + intros a H N1 N2 N3. app. destruct (Nat.eqb_spec (wreg s) a) as [<-|N]; [congruence|auto].
    + eapply replay_snoc; [exact REP|]. cbn [replay]. auto.
    + apply payok_app; auto. tauto.
    + intros y [H|H]; [auto|]. app. apply in_app_or in H as [H|[<-|[]]]; [auto|tauto].
    + rewrite UAF, WA. auto.
Qed.
End Proofs.
