From Coq Require Import List Arith Bool Lia.
From Verif Require Import Base UTsoModel UTsoSpec UTsoProofs UTsoProofs2 UTsoProofs3.
Import ListNotations.

#[local] Hint Rewrite links_app takes_app wsets_app enqs_app pcont_app endpay_app gives_app frees_app ccont_app deqn_app app_nil_r Nat.add_0_r : ut.

Section Proofs.
Variable n : nat.
Hypothesis Hn : 1 <= n.
Notation Inv := (Inv n).

Lemma bufr_alive : forall s saw, Inv s saw -> In (bufr s) (cur (cp s) (bufr s)) -> alive s (bufr s) = true.
Proof.
  intros s saw I H. apply (own_alive _ s saw _ I). unfold own, vchain, first.
  destruct (cp s); cbn [cur fetch oldc cc In] in *; rewrite ?Nat.eqb_refl; try lia.
Qed.
Lemma bufr_norst : forall s saw, Inv s saw -> fetch (cp s) = None -> ~ In (SRst (bufr s)) (cbuf s).
Proof.
  intros s saw I F X. pose proof (own_le _ s saw (bufr s) I) as L. unfold own, vchain, first in L. rewrite F in L. cbn [cc] in L. rewrite Nat.eqb_refl in L.
  destruct (ctouch_rst _ _ _ _ (i_ct _ _ _ I) X) as [Y|[Y|Y]]; [apply in_cc in Y; lia|apply in_cc in Y; lia|].
  destruct (cp s); cbn in *; try tauto; discriminate.
Qed.
Lemma wreg_ne : forall s saw, Inv s saw -> bufw s <> first (cp s) (bufr s) -> wreg s <> first (cp s) (bufr s).
Proof.
  intros s saw I N. destruct (enqok_last _ _ _ (i_enq _ _ _ I)) as [->|H]; auto.
  apply (after_ne _ s saw _ I). apply in_or_app. auto.
Qed.

Lemma cstep_ok : forall s saw s', Inv s saw -> cstep s = Some s' -> exists saw', Inv s' saw'.
Proof.
  intros s saw s' I E. exists saw. pose proof (bufr_alive s saw I) as RA. pose proof (bufw_in _ s saw I) as WC.
  unfold cstep in E. destruct (cp s) as [ | | | | |g|g|g| |x] eqn:EC; [discriminate|..].
  - (* CEmp1 *)
    specialize (RA ltac:(left; auto)).
    pose proof (visible_nil _ s saw I ltac:(rewrite EC; auto)) as VN. unfold first in VN. rewrite EC in VN. cbn [fetch] in VN.
    unfold touch, cview in E. proj.
    destruct (ccont (cbuf s) (bufr s) (cont s (bufr s))) as [|y l] eqn:EV; injection E as <-; open I; norm; rewrite EC in *; unfold first in *; proj;
      constructor; norm; unfold first; proj; auto; try (rewrite UAF, RA; auto).
    + intros Q. apply SAW; auto. apply VN; rewrite <- Q; auto.
    + left. congruence.
  - (* CCmp *)
    destruct (Nat.eqb_spec (bufr s) (bufw s)) as [Q|Q]; injection E as <-; open I; norm; rewrite EC in *; unfold first in *; proj;
      constructor; norm; unfold first; proj; auto.
    eapply replay_snoc; [exact REP|]. cbn [replay]. auto.
  - (* CEmp2 *)
    specialize (RA ltac:(left; auto)). unfold touch, cview in E. proj.
    destruct (ccont (cbuf s) (bufr s) (cont s (bufr s))) as [|y l] eqn:EV; injection E as <-; open I; norm; rewrite EC in *; unfold first in *; proj;
      constructor; norm; unfold first; proj; auto; try (rewrite UAF, RA; auto).
    left. congruence.
  - (* CNext *)
    pose proof (i_cons _ _ _ I) as CO. rewrite EC in CO. destruct CO as [NQ CV].
    pose proof (wreg_ne s saw I) as WN. unfold first in WN. rewrite EC in WN. cbn [fetch] in WN. specialize (WN ltac:(congruence)).
    destruct (inuse s) as [|g q] eqn:EI.
    + unfold vchain, first in WC. rewrite EC, EI in WC. cbn in WC. destruct WC as [W|[]]. congruence.
    + injection E as <-.
      assert (NR : forall a, In a (chain s) -> a = bufr s -> cc (inuse s ++ links (pbuf s)) a = 0).
      { intros a Ha ->. pose proof (own_le _ s saw (bufr s) I) as L. unfold own, vchain, first in L. rewrite EC in L. cbn [cc fetch] in L. rewrite Nat.eqb_refl in L.
        rewrite cc_app. lia. }
      assert (VS : heldc CNext ++ flat_map (cview s) (bufr s :: g :: q) = flat_map (cview s) (g :: q)).
      { cbn [heldc app flat_map]. rewrite CV. reflexivity. }
      open I. norm. rewrite EC, EI in *. unfold first in *. proj. rewrite VS in *.
      constructor; norm; unfold first; proj; auto.
      * intros a. specialize (OWN a). cbn [cc] in *. lia.
      * destruct CHN as ([|b pre] & p & H1 & H2); cbn [app] in H1; injection H1 as E1 E2; [congruence|]. exists pre, p. auto.
      * intros a H. apply CAP. right. auto.
      * intros a H N1 N2 _. apply NE; auto; [right; auto|]. intros [_ Q]. assert (cc ((g :: q) ++ links (pbuf s)) a = 0) as Z by (apply NR; auto; right; auto).
        apply in_cc in H. lia.
      * intros B _. apply BUSY; auto. intros [_ Q]. auto.
  - (* CRst *)
    specialize (RA ltac:(left; auto)). injection E as <-.
    assert (NR : ~ In (bufr s) (vchain s)).
    { intros H. pose proof (own_le _ s saw (bufr s) I) as L. unfold own in L. rewrite EC in L. cbn [cc oldc] in L. rewrite Nat.eqb_refl in L.
      apply in_cc in H. lia. }
    assert (VS : flat_map (fun a => ccont (cbuf s ++ [SRst (bufr s)]) a (cont s a)) (vchain s) = flat_map (cview s) (vchain s)).
    { apply flat_ext. intros a Ha. rewrite ccont_app. cbn [ccont]. destruct (Nat.eqb_spec (bufr s) a) as [<-|]; [contradiction|reflexivity]. }
    open I. norm. rewrite EC in *. unfold first in *. proj.
    constructor; norm; unfold first; proj; rewrite ?VS; auto.
    + intros a. app. auto.
    + apply ctouch_rst_app; [|left; auto]. eapply ctouch_mono; eauto. intros ? [].
    + intros a H. app. rewrite CAC by auto. destruct (_ =? _); auto.
    + discriminate.
    + app. rewrite Nat.eqb_refl. auto.
    + rewrite UAF, RA. auto.
  - (* CRel *)
    injection E as <-.
    assert (VS : forall y, y = SGive (bufr s) \/ y = SFree (bufr s) ->
       flat_map (fun a => ccont (cbuf s ++ [y]) a (cont s a)) (vchain s) = flat_map (cview s) (vchain s)).
    { intros y Hy. apply flat_ext. intros a Ha. rewrite ccont_app. destruct Hy as [-> | ->]; reflexivity. }
    open I. norm. rewrite EC in *. unfold first in *. proj.
    destruct (croom s); constructor; norm; unfold first; proj; rewrite ?VS by auto; auto;
      try (eapply ctouch_out; eauto; cbn; intuition; fail); try discriminate.
    + intros a. specialize (OWN a). app. rewrite cc_app. cbn [cc] in *. lia.
    + intros a H. app. rewrite in_app_iff in H. destruct H as [H|[H|[<-|[]]]]; auto.
    + intros a. specialize (OWN a). app. rewrite cc_app. cbn [cc] in *. lia.
    + intros a H. app. auto.
  - (* CSet *)
    injection E as <-.
    assert (NCO : forall a, ~ consumable s a) by (intros a [F _]; rewrite EC in F; discriminate).
    pose proof (first_in s) as FI. unfold first in FI. rewrite EC in FI. cbn [fetch] in FI.
    assert (D : deqn (cbuf s) g = 0).
    { pose proof (own_le _ s saw g I) as L. unfold own in L. apply in_cc in FI.
      destruct (deqn (cbuf s) g) eqn:ED; auto. pose proof (i_ct _ _ _ I) as CT. rewrite EC in CT.
      destruct (ctouch_deq _ _ _ g CT ltac:(lia)) as [Y|[Y|[]]]; apply in_cc in Y; lia. }
    assert (CP : cview s g <> [] \/ saw = true).
    { destruct (cview s g) as [|y l] eqn:EV; [right|left; discriminate].
      pose proof (untouched _ s saw g I (in_or_app _ _ _ (or_introl FI)) (NCO g) _ EV) as U.
      destruct (Nat.eq_dec (bufw s) g) as [Q|N].
      - apply (i_saw _ _ _ I); [rewrite EC; exact Logic.I|]. apply (visible_nil _ s saw I); [rewrite EC; auto|unfold first; rewrite EC; auto|congruence].
      - exfalso. assert (NA : ~ In g (wsets (pbuf s) ++ linkp (pp s))).
        { intros A. destruct (after_ne _ s saw g I A) as [X _]. apply X. unfold first. rewrite EC. auto. }
        pose proof (wreg_ne s saw I) as WN. unfold first in WN. rewrite EC in WN. cbn [fetch] in WN. specialize (WN N).
        apply (i_ne _ _ _ I g); auto; [apply in_or_app; auto|intros X; apply NA, in_or_app; auto|].
        rewrite (before_view _ s saw g I FI); auto. }
    open I. norm. rewrite EC in *. unfold first in *. proj.
    constructor; norm; unfold first; proj; auto.
    + eapply ctouch_mono; eauto. intros ? [].
    + intros _. rewrite D. lia.
  - (* CPop *)
    specialize (RA ltac:(left; auto)). pose proof (bufr_norst s saw I ltac:(rewrite EC; auto)) as NR.
    unfold touch, cview in E. proj.
    assert (NI : ~ In (bufr s) (inuse s)).
    { intros X. pose proof (own_le _ s saw (bufr s) I) as L. unfold own, vchain, first in L. rewrite EC in L. cbn [cc fetch] in L. rewrite Nat.eqb_refl in L.
      apply in_cc in X. lia. }
    destruct (ccont (cbuf s) (bufr s) (cont s (bufr s))) as [|y l] eqn:EV; injection E as <-.
    + open I. norm. rewrite EC in *. unfold first in *. proj. destruct CONS as [?|CONS]; [congruence|].
      constructor; norm; unfold first; proj; auto; try (rewrite UAF, RA; auto); try tauto.
      eapply replay_snoc; [exact REP|]. cbn [replay]. auto.
    + assert (VS : [y] ++ flat_map (fun a => ccont (cbuf s ++ [SDeq (bufr s)]) a (cont s a)) (bufr s :: inuse s) =
                   flat_map (fun a => ccont (cbuf s) a (cont s a)) (bufr s :: inuse s)).
      { cbn [flat_map]. rewrite ccont_app, EV. cbn [ccont]. rewrite Nat.eqb_refl. cbn [tl app]. f_equal. f_equal. apply flat_ext. intros a Ha.
        rewrite ccont_app. cbn [ccont]. destruct (Nat.eqb_spec (bufr s) a) as [<-|]; [contradiction|reflexivity]. }
      open I. norm. rewrite EC in *. unfold first in *. proj. specialize (DEQ eq_refl).
      rewrite ccont_skip in EV by auto.
      assert (DL : deqn (cbuf s) (bufr s) < length (cont s (bufr s))).
      { apply (f_equal (@length _)) in EV. rewrite skipn_length in EV. cbn [length] in EV. lia. }
      constructor; norm; unfold first; proj; rewrite ?VS; auto; try (rewrite UAF, RA; auto); try tauto.
      * intros a. specialize (OWN a). app. cbn [cc] in *. lia.
      * apply ctouch_deq_app; auto. left. auto.
      * intros a H. app. rewrite CAC by auto. destruct (_ =? _); auto.
      * intros _. app. rewrite Nat.eqb_refl. lia.
  - (* CUse *)
    injection E as <-. 
    assert (PX : pay s (fst x) = snd x) by (apply (i_pyv _ _ _ I); unfold vstored; rewrite EC; left; auto).
    rewrite PX. rewrite <- surjective_pairing. open I. norm. rewrite EC in *. unfold first in *. proj.
    constructor; norm; unfold first; proj; auto; try tauto.
    + eapply replay_snoc; [exact REP|]. cbn [replay app]. eauto.
    + eapply payok_mono; eauto. intros a H. cbn. auto.
    + intros y H. apply PYV. right. auto.
    + destruct (pp s); auto. intuition. cbn in *. tauto.
    + intros y [H|H]; apply USD; auto. left. right. auto.
Qed.
End Proofs.
