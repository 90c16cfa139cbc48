(** What the invariant gives. *)
From Coq Require Import List Arith Bool Lia.
From Verif Require Import Base DgrModel DgrSpec DgrProofs DgrProofs2 DgrProofs3 DgrProofs4 DgrProofs5.
Import ListNotations.

Lemma choose_all : forall A (Q : A -> nat -> Prop) l, (forall p, In p l -> exists v, Q p v) -> exists t, Forall2 Q l t.
Proof.
  intros A Q l. induction l as [|p l IH]; intros H; [exists []; constructor|].
  destruct (H p (or_introl eq_refl)) as (v & Hv). destruct IH as (t & Ht); [intros; apply H; simpl; auto|].
  exists (v :: t). constructor; auto.
Qed.
Lemma F2_len : forall A B (R : A -> B -> Prop) l m, Forall2 R l m -> length l = length m.
Proof. intros A B R l m H. induction H; simpl; congruence. Qed.
Lemma F2_imp : forall A B (R S : A -> B -> Prop) l m, (forall a b, R a b -> S a b) -> Forall2 R l m -> Forall2 S l m.
Proof. intros A B R S l m K H. induction H; constructor; auto. Qed.

Section End_.
  Context {X : Type}.
  Notation msg := (msg X).
  Notation st := (st X).
  Variables (n : nat) (edges : list (nat * nat)) (grp : nat -> nat) (size : X -> nat)
            (urgent : msg -> bool) (batch limit : nat) (ack : bool) (otf : nat).
  Notation succ := (succ edges).
  Notation pred := (pred edges).
  Notation conns := (conns edges grp).
  Notation item := (option nat * X)%type.
  Notation InvS := (@InvS X edges grp).
  Notation InvP := (@InvP X edges grp).
  Notation InvB := (@InvB X edges grp ack otf).
  Notation InvD := (@InvD X edges grp).
  Notation InvL := (@InvL X edges grp).
  Notation InvE := (@InvE X edges).
  Notation Inv := (@Inv X edges grp ack otf).
  Notation path := (@path X grp).
  Notation step := (step n edges grp size urgent batch limit ack).

  Hypothesis Hrange : forall u v, In (u, v) edges -> u < n /\ v < n.
  Hypothesis Hsize : forall x, 0 < size x.
  Hypothesis Hotf : 0 < otf.

  Lemma strip_dat : forall l : list msg, strip l = [] -> dat l = [].
  Proof using Type.
    intros l. induction l as [|m l IH]; simpl; auto. unfold is_flush at 1. destruct (cont m); simpl; try discriminate. exact IH.
  Qed.

  (** Every destination of a value is legal, and what arrived is a prefix of what is owed. *)
  Lemma inv_safe : forall s, Inv s -> forall u, exists t, shares edges u (sent s u) t /\
    forall v, In (u, v) edges ->
      prefix (from u (recv s v)) (owed v (sent s u) t) /\
      (In None (from u (recv s v)) -> closed s u = true /\ from u (recv s v) = owed v (sent s u) t).
  Proof using Type.
    intros s (pre & tc & et & dd & de & tn & IS & IP & IB & ID & IL & IE & Hab & Hlo) u.
    (* the messages still on the way to h *)
    assert (HA : forall h, exists A' ta, picks h (pre u) (tc u) = dd u h ++ A' /\ Forall2 (Pn edges grp u h) A' ta /\
                 (de u h = true -> A' = [] /\ et u = true)).
    { intros h. destruct (eqshape _ _ _ _ _ _ (IP u h)) as (K1 & K2). destruct (de u h) eqn:De.
      - destruct (K1 eq_refl) as (_ & HA & He). exists [], []. rewrite app_nil_r. split; auto. split; [constructor|].
        intros _. split; auto. now apply andb_true_iff in He.
      - destruct (K2 eq_refl) as (A' & HA & _). destruct (choose_all _ (Pn edges grp u h) A') as (ta & Ht).
        + intros p Hp. assert (Hpc : Pc edges grp u p h).
          { apply (picks_forall _ _ _ _ (s_pre _ _ _ _ _ _ _ _ _ IS u)). rewrite HA. apply in_app_iff. auto. }
          destruct Hpc as (Hh & Hd). destruct (fst p) as [w|] eqn:Ep.
          * destruct (Hd w eq_refl) as (H1 & H2). exists w. split; auto. split; auto. intros w' Hw. rewrite Ep in Hw. congruence.
          * apply conns_in in Hh. destruct Hh as (v & H1 & H2). exists v. split; auto. split; auto. intros w Hw. congruence.
        + exists A', ta. split; auto. split; auto. discriminate. }
    assert (Htn : exists tn', forall h, Forall2 (Pn edges grp u h) (picks h (pre u) (tc u)) (tn' h) /\
              forall v, exists r, picks v (picks h (pre u) (tc u)) (tn' h) = picks v (dd u h) (tn u h) ++ r /\
                                  (de u h = true -> r = [] /\ et u = true)).
    { assert (Hf : exists tn', forall h, In h (conns u) -> Forall2 (Pn edges grp u h) (picks h (pre u) (tc u)) (tn' h) /\
              forall v, exists r, picks v (picks h (pre u) (tc u)) (tn' h) = picks v (dd u h) (tn u h) ++ r /\
                                  (de u h = true -> r = [] /\ et u = true)).
      { induction (conns u) as [|h0 l IH].
        - exists (fun _ => []). intros h [].
        - destruct IH as (tn0 & H0). destruct (HA h0) as (A' & ta & E1 & E2 & E3).
          exists (fupd tn0 h0 (tn u h0 ++ ta)). intros h Hh. destruct (Nat.eq_dec h h0) as [->|N].
          + rewrite fupd_eq, E1. split; [apply Forall2_app; auto; apply ID|]. intros v. exists (picks v A' ta).
            split; [apply picks_app; symmetry; eapply F2_len; apply ID|]. intros De. destruct (E3 De) as (-> & ?). auto.
          + rewrite fupd_neq by auto. destruct Hh as [Hh|Hh]; [congruence|]. apply H0. exact Hh. }
      destruct Hf as (tn' & Hf). exists (fun h => if mem h (conns u) then tn' h else []). intros h.
      destruct (mem h (conns u)) eqn:M; [apply Hf; now apply mem_in|].
      assert (Hn : ~ In h (conns u)). { intros Hi. apply mem_in in Hi. congruence. }
      assert (Hp : picks h (pre u) (tc u) = []).
      { destruct (picks h (pre u) (tc u)) as [|p l] eqn:E; auto. exfalso. apply Hn.
        apply (picks_forall _ _ _ _ (s_pre _ _ _ _ _ _ _ _ _ IS u) p). rewrite E. simpl. auto. }
      rewrite Hp. split; [constructor|]. intros v. destruct (HA h) as (A' & ta & E1 & E2 & E3). rewrite Hp in E1.
      destruct (dd u h); [|discriminate]. exists []. split; [reflexivity|]. intros De. destruct (E3 De). auto. }
    destruct Htn as (tn' & Htn).
    destruct (picks_compose (Pc edges grp u) (fun p h v => Pn edges grp u h p v) (pre u) (tc u) tn' (s_pre _ _ _ _ _ _ _ _ _ IS u)) as (t1 & Ht1 & Hpk).
    { intros h. apply Htn. }
    destruct (choose_all _ (may_go edges u) (dat (chl grp (choosing s) u) ++ dat (outq s u))) as (t2 & Ht2).
    { intros p Hp. assert (Hs : In p (sent s u)).
      { rewrite (s_sent _ _ _ _ _ _ _ _ _ IS u). apply in_app_iff. auto. }
      destruct (fst p) as [w|] eqn:Ep.
      - exists w. split; [apply succ_in; exact (s_legal _ _ _ _ _ _ _ _ _ IS u p w Hs Ep)|]. intros w' Hw. congruence.
      - assert (Hsu : succ u <> []).
        { apply in_app_iff in Hp. destruct Hp as [Hp|Hp].
          - unfold DgrProofs2.chl in Hp. destruct (choosing s (grp u)) as [m|] eqn:Hc; [|contradiction].
            cbn in Hp. destruct (Nat.eqb_spec (src m) u) as [Eu|]; [|contradiction].
            destruct (b_ch _ _ _ _ _ _ _ _ _ _ _ IB _ _ Hc) as (_ & _ & _ & _ & _ & c & K & _). rewrite Eu in K.
            apply (proj2 (conns_nonempty edges grp u)). eauto.
          - apply (s_succ _ _ _ _ _ _ _ _ _ IS u). intros Z. rewrite Z in Hp. contradiction. }
        destruct (succ u) as [|v l] eqn:Es; [congruence|]. exists v. split; [apply succ_in; rewrite Es; simpl; auto|].
        intros w Hw. congruence. }
    exists (t1 ++ t2). pose proof (s_sent _ _ _ _ _ _ _ _ _ IS u) as Hsent. split.
    { unfold shares. rewrite Hsent. apply Forall2_app; auto. eapply F2_imp; [|exact Ht1].
      intros p v (h & _ & Hpn). destruct Hpn as (H1 & _ & H3). split; auto. now apply succ_in. }
    intros v Hv. pose proof (l_eq _ _ _ _ _ _ _ IL u v Hv) as HL.
    assert (Hpv : picks v (pre u) t1 = picks v (picks (grp v) (pre u) (tc u)) (tn' (grp v))).
    { apply Hpk. intros p h (_ & H & _). auto. }
    destruct (Htn (grp v)) as (_ & Hr). destruct (Hr v) as (r & Er & Hder).
    assert (Hsp : picks v (sent s u) (t1 ++ t2) =
                  picks v (dd u (grp v)) (tn u (grp v)) ++ r ++ picks v (dat (chl grp (choosing s) u) ++ dat (outq s u)) t2).
    { rewrite Hsent, picks_app, Hpv, Er, <- app_assoc; auto. symmetry. eapply F2_len; eauto. }
    assert (Hde : de u (grp v) = true -> closed s u = true /\
              picks v (sent s u) (t1 ++ t2) = picks v (dd u (grp v)) (tn u (grp v))).
    { intros De. destruct (Hder De) as (-> & Het). destruct (s_et _ _ _ _ _ _ _ _ _ IS u Het) as (HC & Hst & Hch).
      split; auto. rewrite Hsp, Hch, (strip_dat _ Hst). cbn. now rewrite app_nil_r. }
    unfold owed. destruct (de u (grp v)) eqn:De.
    - destruct (Hde eq_refl) as (HC & Hp). rewrite Hp. split.
      + exists (map pay (ofsrc u (lq s v))). exact HL.
      + intros HN. split; auto. apply in_split in HN. destruct HN as (l1 & l2 & El). rewrite El in HL.
        rewrite <- app_assoc in HL. cbn in HL. apply (somes_split _ _ true) in HL. destruct HL as (_ & Z & _ & E1).
        apply app_eq_nil in Z. destruct Z as (-> & _). now rewrite El, E1.
    - rewrite app_nil_r in HL. split.
      + exists (map pay (ofsrc u (lq s v)) ++ map Some (map snd (r ++ picks v (dat (chl grp (choosing s) u) ++ dat (outq s u)) t2)) ++ [None]).
        rewrite Hsp, (map_app snd), (map_app Some), HL, <- !app_assoc. reflexivity.
      + intros HN. exfalso. assert (In None (map Some (map snd (picks v (dd u (grp v)) (tn u (grp v)))))).
        { rewrite HL. apply in_app_iff. auto. }
        apply in_map_iff in H. destruct H as (? & H & _). discriminate.
  Qed.

  Definition quiescent (s : st) : Prop := forall a, internal a = true -> step s a = None.

  Lemma quiet_lq : forall s, Inv s -> quiescent s -> forall v, lq s v = [].
  Proof using Type*.
    intros s (pre & tc & et & dd & de & tn & IS & IP & IB & ID & IL & IE & Hab & Hlo) Q v.
    destruct (lq s v) as [|m r] eqn:Hlq; auto. exfalso. specialize (Q (Recv v) eq_refl).
    unfold DgrModel.step in Q. rewrite Hab, Hlq in Q.
    assert (Hed : In (src m, v) edges). { apply (l_lq _ _ _ _ _ _ _ IL). rewrite Hlq. simpl. auto. }
    destruct (alive s v) eqn:Hal.
    - cbv zeta in Q. destruct (if bsize size (cont m) =? 0 then None else _) as [x|]; [discriminate|].
      destruct (mem (src m) (ended s v)); [discriminate|]. destruct (length (pred v) <=? _); [|discriminate].
      destruct (succ v); [discriminate|]. destruct (closed s v); discriminate.
    - destruct (proj1 (e_dead _ _ _ _ _ IE v) Hal) as (_ & Hin).
      assert (HN : In None (from (src m) (recv s v))).
      { apply from_in. apply (e_ended _ _ _ _ _ IE). apply Hin. now apply pred_in. }
      apply in_split in HN. destruct HN as (l1 & l2 & El). pose proof (l_eq _ _ _ _ _ _ _ IL _ _ Hed) as HL.
      rewrite El, <- app_assoc in HL. cbn in HL. apply somes_split in HL. destruct HL as (_ & Z & _).
      apply app_eq_nil in Z. destruct Z as (_ & Z). rewrite Hlq in Z. cbn in Z. rewrite Nat.eqb_refl in Z. discriminate.
  Qed.

  Lemma quiet_rb : forall s, Inv s -> quiescent s -> forall h, rb s h = [].
  Proof using Type*.
    intros s (pre & tc & et & dd & de & tn & IS & IP & IB & ID & IL & IE & Hab & Hlo) Q h.
    destruct (rb s h) as [|m r] eqn:Hrb; auto. exfalso.
    destruct (targets n edges grp h (src m)) as [|t ts] eqn:Et.
    - specialize (Q (Route h 0) eq_refl). unfold DgrModel.step in Q. rewrite Hab, Hrb, Et in Q. cbv zeta in Q.
      destruct (dest m); discriminate.
    - specialize (Q (Route h t) eq_refl). unfold DgrModel.step in Q. rewrite Hab, Hrb, Et in Q. cbv zeta in Q.
      destruct (dest m); [discriminate|]. destruct (bsize size (cont m) =? 0); [discriminate|].
      cbn in Q. rewrite Nat.eqb_refl in Q. discriminate.
  Qed.

  Lemma quiet_net : forall s, Inv s -> quiescent s -> forall g h, net s g h = [].
  Proof using Type*.
    intros s I Q g h. pose proof (quiet_rb s I Q h) as Hrb.
    destruct I as (pre & tc & et & dd & de & tn & IS & IP & IB & ID & IL & IE & Hab & Hlo).
    destruct (net s g h) as [|b r] eqn:Hn; auto. exfalso. specialize (Q (Deliver g h) eq_refl).
    unfold DgrModel.step in Q. rewrite Hab, Hn, Hrb in Q. discriminate.
  Qed.

  Lemma quiet_pend : forall s, Inv s -> quiescent s -> forall g, pend s g = [].
  Proof using Type*.
    intros s I Q g. pose proof (quiet_net s I Q) as Hn.
    destruct I as (pre & tc & et & dd & de & tn & IS & IP & IB & ID & IL & IE & Hab & Hlo).
    destruct (pend s g) as [|(h & b) r] eqn:Hp; auto. exfalso.
    pose proof (Q (Emit g) eq_refl) as Q1. unfold DgrModel.step in Q1. rewrite Hab, Hp in Q1.
    destruct (ack && (credit s g h =? 0)) eqn:Ea; [|discriminate]. apply andb_true_iff in Ea. destruct Ea as (Ea & Ec).
    pose proof (Q (AckRead g h) eq_refl) as Q2. unfold DgrModel.step in Q2. rewrite Hab, Hp, Ec in Q2.
    pose proof (b_flow _ _ _ _ _ _ _ _ _ _ _ IB Ea g h) as Hf. rewrite Hn in Hf. apply Nat.eqb_eq in Ec. cbn in Hf.
    cbn [andb] in Q2. destruct (Nat.ltb_spec 0 (acks s g h)); [discriminate|lia].
  Qed.

  Lemma quiet_choosing : forall s, Inv s -> quiescent s -> forall g, choosing s g = None.
  Proof using Type*.
    intros s I Q g. pose proof (quiet_net s I Q) as Hn.
    destruct I as (pre & tc & et & dd & de & tn & IS & IP & IB & ID & IL & IE & Hab & Hlo).
    destruct (choosing s g) as [m|] eqn:Hc; auto. exfalso.
    destruct (b_ch _ _ _ _ _ _ _ _ _ _ _ IB _ _ Hc) as (_ & _ & Ha & _ & _ & c & _ & Hz).
    pose proof (Q (AckAny g c) eq_refl) as Q2. unfold DgrModel.step in Q2. rewrite Hab, Hc in Q2.
    pose proof (b_flow _ _ _ _ _ _ _ _ _ _ _ IB Ha g c) as Hf. rewrite Hn, Hz in Hf. cbn in Hf.
    destruct (Nat.ltb_spec 0 (acks s g c)); [discriminate|lia].
  Qed.

  Lemma quiet_outq : forall s, Inv s -> quiescent s -> forall u, outq s u = [].
  Proof using Type*.
    intros s I Q u. pose proof (quiet_pend s I Q (grp u)) as Hp. pose proof (quiet_choosing s I Q (grp u)) as Hc.
    destruct I as (pre & tc & et & dd & de & tn & IS & IP & IB & ID & IL & IE & Hab & Hlo).
    destruct (outq s u) as [|m r] eqn:HO; auto. exfalso.
    assert (Hs : succ u <> []). { apply (s_succ _ _ _ _ _ _ _ _ _ IS u). rewrite HO. discriminate. }
    apply (proj1 (conns_nonempty edges grp u)) in Hs. destruct Hs as (c & Hcc).
    specialize (Q (Take u c) eq_refl). unfold DgrModel.step in Q. rewrite Hab, HO, Hp, Hc in Q. cbv zeta in Q.
    destruct (is_flush m); [discriminate|]. destruct (dest m) as [d|]; [destruct (known edges grp (grp u) d); discriminate|].
    destruct (bsize size (cont m) =? 0); [discriminate|]. rewrite (proj2 (mem_in _ _) Hcc) in Q.
    match type of Q with (if ?b then _ else _) = _ => destruct b end; discriminate.
  Qed.

  (** Nothing is left for the runtime to do: a node that ended has delivered everything. *)
  Lemma inv_quiet : forall s, Inv s -> quiescent s -> forall u v, In (u, v) edges -> closed s u = true ->
    In None (from u (recv s v)).
  Proof using Type*.
    intros s I Q u v Hv HC. pose proof (quiet_outq s I Q u) as HO. pose proof (quiet_lq s I Q v) as Hl.
    pose proof (quiet_net s I Q (grp u) (grp v)) as Hn. pose proof (quiet_rb s I Q (grp v)) as Hr.
    pose proof (quiet_pend s I Q (grp u)) as Hp.
    destruct I as (pre & tc & et & dd & de & tn & IS & IP & IB & ID & IL & IE & Hab & Hlo).
    assert (Het : et u = true).
    { pose proof (s_outq _ _ _ _ _ _ _ _ _ IS u) as K. rewrite HO, HC in K. cbn in K. destruct (et u); auto. discriminate. }
    assert (Hm : mem (grp v) (conns u) = true).
    { apply mem_in. apply conns_in. exists v. split; auto. now apply succ_in. }
    pose proof (IP u (grp v)) as K. rewrite Het, Hm in K. cbn [andb] in K. unfold DgrProofs2.path in K.
    rewrite Hr, Hn, Hp in K. cbn [ofsrc filter concat app pendfor map] in K.
    destruct (de u (grp v)) eqn:De.
    - pose proof (l_eq _ _ _ _ _ _ _ IL u v Hv) as HL. rewrite De, Hl in HL. cbn in HL. rewrite app_nil_r in HL.
      rewrite <- HL. apply in_app_iff. simpl. auto.
    - exfalso. destruct (eqshape _ _ _ _ _ _ K) as (_ & K2). destruct (K2 eq_refl) as (A' & _ & EP).
      assert (Hi : In (eos u) (buf s (grp u) (grp v))).
      { assert (In (eos (X := X) u) (filter (fun m => src m =? u) (buf s (grp u) (grp v)))).
        { unfold ofsrc in EP. rewrite EP. apply in_app_iff. simpl. auto. }
        apply filter_In in H. tauto. }
      destruct (b_buf _ _ _ _ _ _ _ _ _ _ _ IB _ _ _ Hi) as (_ & _ & Hpay). apply Hpay. reflexivity.
  Qed.
End End_.
