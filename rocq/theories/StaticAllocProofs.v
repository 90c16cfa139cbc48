From Coq Require Import List Arith Bool Lia.
From Verif Require Import Base StaticAllocModel.
Import ListNotations.

Section P.
  Variables (W req slotsize nch : nat).
  Hypothesis Hreq : 1 <= req.
  Hypothesis Hnch : 1 <= nch.
  Notation perch := (perch req nch).
  Notation ssize := (ssize slotsize).
  Notation nslot := (nslot req nch).
  Notation step := (step W req slotsize nch).

  Lemma perch_eq : nslot = perch * nch.
  Proof. unfold StaticAllocModel.perch, StaticAllocModel.nslot. rewrite Nat.div_mul by lia. reflexivity. Qed.

  Lemma perch_pos : 1 <= perch.
  Proof.
    unfold StaticAllocModel.perch, StaticAllocModel.nslot. rewrite Nat.div_mul by lia.
    apply Nat.div_le_lower_bound; lia.
  Qed.

  Lemma nslot_enough : req <= nslot.
  Proof.
    unfold StaticAllocModel.nslot. pose proof (Nat.div_mod (req + nch - 1) nch ltac:(lia)).
    pose proof (Nat.mod_upper_bound (req + nch - 1) nch ltac:(lia)). nia.
  Qed.

  Lemma ssize_pos : 8 <= ssize.
  Proof. unfold StaticAllocModel.ssize. lia. Qed.

  Definition slot_of (c o : nat) : Prop := exists m, m < perch /\ o = (c * perch + m) * ssize.

  Lemma slot_inj : forall c d o, slot_of c o -> slot_of d o -> c = d.
  Proof.
    intros c d o (m & Hm & E) (m' & Hm' & E'). pose proof ssize_pos. pose proof perch_pos.
    assert (c * perch + m = d * perch + m') by nia.
    destruct (lt_eq_lt_dec c d) as [[L|]|L]; auto; exfalso.
    - assert ((c + 1) * perch <= d * perch) by (apply Nat.mul_le_mono_r; lia). lia.
    - assert ((d + 1) * perch <= c * perch) by (apply Nat.mul_le_mono_r; lia). lia.
  Qed.

  Lemma live_snoc : forall t e, live (t ++ [e]) =
    match e with Alloc _ p => p :: live t | Free p => filter (fun q => negb (q =? p)) (live t) end.
  Proof. intros. unfold live. rewrite fold_left_app. reflexivity. Qed.

  Record Inv (s : st) : Prop := {
    i_live : forall p, In p (live (tr s)) -> 8 <= p /\ (exists c, c < nch /\ slot_of c (p - 8)) /\ go s (p - 8) = false /\ freeing s (p - 8) = false;
    i_free : forall o, freeing s o = true -> go s o = false;
    i_busy : forall o, go s o = false -> freeing s o = true \/ In (o + 8) (live (tr s));
    i_take : forall c mp, pcs s c = Take mp -> go s mp = true /\ slot_of c mp;
    i_chan : forall c, pcs s c <> Out -> c < nch;
    i_nodup : NoDup (live (tr s)) }.

  Lemma Inv_init : Inv init.
  Proof.
    constructor; simpl; intros; try discriminate; try contradiction; try congruence. constructor.
  Qed.

  Lemma NoDup_filter_l : forall (f : nat -> bool) l, NoDup l -> NoDup (filter f l).
  Proof. intros. apply NoDup_filter. auto. Qed.

  Lemma Inv_step : forall s a s', Inv s -> step s a = Some s' -> Inv s'.
  Proof.
    intros s a s' HI E. destruct HI as [IL IF IB IT IC IN]. pose proof perch_pos as PP.
    destruct a as [c|c|p|p]; cbn [StaticAllocModel.step] in E.
    - destruct (pcs s c) eqn:Ec; try discriminate. destruct (Nat.ltb_spec c nch); [|discriminate].
      injection E as <-. constructor; cbn [go cnts pcs freeing tr]; auto.
      + intros c' mp. destruct (Nat.eq_dec c' c) as [->|N]; [rewrite fupd_eq; discriminate|rewrite fupd_neq by auto; auto].
      + intros c'. destruct (Nat.eq_dec c' c) as [->|N]; [auto|rewrite fupd_neq by auto; auto].
    - destruct (pcs s c) as [| |mp] eqn:Ec; try discriminate.
      + injection E as <-. constructor; cbn [go cnts pcs freeing tr]; auto.
        * intros c' mp'. destruct (go s _) eqn:G; [|auto].
          destruct (Nat.eq_dec c' c) as [->|N]; [rewrite fupd_eq|rewrite fupd_neq by auto; auto].
          intros X; injection X as <-. split; auto. exists (cnts s c mod perch). split; auto. apply Nat.mod_upper_bound. lia.
        * intros c'. destruct (go s _) eqn:G; [|auto].
          destruct (Nat.eq_dec c' c) as [->|N]; [|rewrite fupd_neq by auto; auto]. intros _. apply IC. congruence.
      + injection E as <-. destruct (IT c mp Ec) as [G HS].
        assert (CN : c < nch) by (apply IC; congruence).
        assert (FN : freeing s mp = false) by (destruct (freeing s mp) eqn:F; auto; rewrite (IF _ F) in G; discriminate).
        assert (NL : ~ In (mp + 8) (live (tr s))).
        { intros X. apply IL in X as (_ & _ & X & _). replace (mp + 8 - 8) with mp in X by lia. congruence. }
        constructor; cbn [go cnts pcs freeing tr].
        * intros p. rewrite live_snoc. intros [<-|X].
          -- replace (mp + 8 - 8) with mp by lia. rewrite fupd_eq. split; [lia|]. eauto.
          -- destruct (IL p X) as (A & B & C & D). split; auto. split; auto. split; auto.
             destruct (Nat.eq_dec (p - 8) mp) as [->|N]; [apply fupd_eq|rewrite fupd_neq by auto; auto].
        * intros o F. destruct (Nat.eq_dec o mp) as [->|N]; [apply fupd_eq|rewrite fupd_neq by auto; auto].
        * intros o. rewrite live_snoc. destruct (Nat.eq_dec o mp) as [->|N]; [intros _; right; left; auto|].
          rewrite fupd_neq by auto. intros X. destruct (IB o X); [auto|right; right; auto].
        * intros c' mp'. destruct (Nat.eq_dec c' c) as [->|N]; [rewrite fupd_eq; discriminate|rewrite fupd_neq by auto].
          intros X. destruct (IT c' mp' X) as [G' HS']. split; auto. rewrite fupd_neq; auto.
          intros ->. apply N. eapply slot_inj; eauto.
        * intros c'. destruct (Nat.eq_dec c' c) as [->|N]; [auto|rewrite fupd_neq by auto; auto].
        * rewrite live_snoc. constructor; auto.
    - destruct (existsb _ _) eqn:X; [|discriminate]. injection E as <-.
      apply existsb_exists in X as (q & Hq & X). apply Nat.eqb_eq in X. subst q.
      destruct (IL p Hq) as (P8 & PS & PG & PF).
      constructor; cbn [go cnts pcs freeing tr]; auto.
      + intros q. rewrite live_snoc, filter_In. intros [Hi N]. destruct (IL q Hi) as (A & B & C & D).
        split; auto. split; auto. split; auto. rewrite fupd_neq; auto. destruct (Nat.eqb_spec q p); [discriminate|]. lia.
      + intros o. destruct (Nat.eq_dec o (p - 8)) as [->|N]; [auto|rewrite fupd_neq by auto; auto].
      + intros o Ho. destruct (Nat.eq_dec o (p - 8)) as [->|N]; [rewrite fupd_eq; auto|rewrite fupd_neq by auto].
        destruct (IB o Ho) as [|X]; auto. right. rewrite live_snoc, filter_In. split; auto.
        destruct (Nat.eqb_spec (o + 8) p); auto. lia.
      + rewrite live_snoc. apply NoDup_filter. auto.
    - destruct (freeing s (p - 8)) eqn:F; [|discriminate]. injection E as <-.
      constructor; cbn [go cnts pcs freeing tr]; auto.
      + intros q Hq. destruct (IL q Hq) as (A & B & C & D). split; auto. split; auto.
        destruct (Nat.eq_dec (q - 8) (p - 8)) as [e|N]; [rewrite e in *; congruence|]. rewrite !fupd_neq by auto. auto.
      + intros o. destruct (Nat.eq_dec o (p - 8)) as [->|N]; [rewrite fupd_eq; discriminate|rewrite !fupd_neq by auto; auto].
      + intros o. destruct (Nat.eq_dec o (p - 8)) as [->|N]; [rewrite !fupd_eq; discriminate|rewrite !fupd_neq by auto; auto].
      + intros c mp X. destruct (IT c mp X) as [G HS]. split; auto.
        destruct (Nat.eq_dec mp (p - 8)) as [->|N]; [apply fupd_eq|rewrite fupd_neq by auto; auto].
  Qed.

  Lemma Inv_reach : forall l s, exec step init l = Some s -> Inv s.
  Proof. intros l s. apply (exec_inv step Inv Inv_step). apply Inv_init. Qed.

  (** Blocks of distinct slots. *)
  Lemma block_bounds : forall c o, c < nch -> slot_of c o -> o + ssize <= nslot * ssize.
  Proof.
    intros c o Hc (m & Hm & ->). rewrite perch_eq.
    assert (c * perch + m + 1 <= perch * nch).
    { assert ((c + 1) * perch <= nch * perch) by (apply Nat.mul_le_mono_r; lia). lia. }
    assert ((c * perch + m + 1) * ssize <= perch * nch * ssize) by (apply Nat.mul_le_mono_r; lia). lia.
  Qed.

  Lemma block_disjoint : forall c d o o', slot_of c o -> slot_of d o' -> o <> o' -> o + ssize <= o' \/ o' + ssize <= o.
  Proof.
    intros c d o o' (m & Hm & ->) (m' & Hm' & ->) N.
    assert (c * perch + m <> d * perch + m') by congruence.
    destruct (Nat.lt_ge_cases (c * perch + m) (d * perch + m')).
    - left. assert ((c * perch + m + 1) * ssize <= (d * perch + m') * ssize) by (apply Nat.mul_le_mono_r; lia). lia.
    - right. assert ((d * perch + m' + 1) * ssize <= (c * perch + m) * ssize) by (apply Nat.mul_le_mono_r; lia). lia.
  Qed.

  Lemma live_blocks : forall s, Inv s ->
    NoDup (live (tr s)) /\
    (forall p, In p (live (tr s)) -> 8 <= p /\ p + slotsize <= nslot * ssize) /\
    (forall p q, In p (live (tr s)) -> In q (live (tr s)) -> p <> q -> p + slotsize <= q - 8 \/ q + slotsize <= p - 8).
  Proof.
    intros s HI. split; [apply i_nodup; auto|]. split.
    - intros p Hp. destruct (i_live _ HI p Hp) as (A & (c & C & S) & _). split; auto.
      pose proof (block_bounds c _ C S). unfold StaticAllocModel.ssize in *. lia.
    - intros p q Hp Hq N. destruct (i_live _ HI p Hp) as (A & (c & C & S) & _). destruct (i_live _ HI q Hq) as (A' & (d & D & S') & _).
      destruct (block_disjoint c d _ _ S S' ltac:(lia)); unfold StaticAllocModel.ssize in *; lia.
  Qed.

  (** Each block handed out was not live, and comes from the caller's channel. *)
  Lemma alloc_event : forall s a s' c p, Inv s -> step s a = Some s' -> tr s' = tr s ++ [Alloc c p] ->
    c < nch /\ ~ In p (live (tr s)) /\ exists m, m < perch /\ p = (c * perch + m) * ssize + 8.
  Proof.
    intros s a s' c p HI E Et. destruct a as [c0|c0|p0|p0]; cbn [StaticAllocModel.step] in E.
    - destruct (pcs s c0); try discriminate. destruct (c0 <? nch); [|discriminate]. injection E as <-. cbn in Et.
      apply (f_equal (@length ev)) in Et. rewrite app_length in Et. simpl in Et. lia.
    - destruct (pcs s c0) as [| |mp] eqn:Ec; try discriminate; injection E as <-; cbn [tr] in Et.
      + apply (f_equal (@length ev)) in Et. rewrite app_length in Et. simpl in Et. lia.
      + apply app_inj_tail in Et as [_ Et]. injection Et as <- <-. destruct (i_take _ HI _ _ Ec) as [G (m & Hm & Em)].
        split; [apply (i_chan _ HI); congruence|]. split.
        * intros X. apply (i_live _ HI) in X as (_ & _ & X & _). replace (mp + 8 - 8) with mp in X by lia. congruence.
        * exists m. split; auto.
    - destruct (existsb _ _); [|discriminate]. injection E as <-. cbn [tr] in Et. apply app_inj_tail in Et as [_ Et]. discriminate.
    - destruct (freeing s _); [|discriminate]. injection E as <-. cbn in Et.
      apply (f_equal (@length ev)) in Et. rewrite app_length in Et. simpl in Et. lia.
  Qed.

  (** Probing reaches every slot of the channel within 2*perch probes, even across the wrap of
      the counter. *)
  Lemma probe_reaches : forall k j, perch <= W -> k < W -> j < perch ->
    exists d, d < 2 * perch /\ ((k + d) mod W) mod perch = j.
  Proof.
    intros k j HW Hk Hj. pose proof perch_pos.
    destruct (Nat.le_gt_cases (k + perch) W) as [L|L].
    - pose proof (Nat.mod_upper_bound k perch ltac:(lia)) as B. pose proof (Nat.div_mod k perch ltac:(lia)) as D.
      destruct (Nat.le_gt_cases (k mod perch) j).
      + exists (j - k mod perch). split; [lia|]. rewrite (Nat.mod_small _ W) by lia.
        symmetry. apply Nat.mod_unique with (q := k / perch); lia.
      + exists (j + perch - k mod perch). split; [lia|]. rewrite (Nat.mod_small _ W) by lia.
        symmetry. apply Nat.mod_unique with (q := k / perch + 1); nia.
    - exists (W - k + j). split; [lia|]. replace (k + (W - k + j)) with (j + 1 * W) by lia.
      rewrite Nat.mod_add by lia. rewrite (Nat.mod_small j W) by lia. apply Nat.mod_small. lia.
  Qed.

  Definition mine (c : nat) (a : act) : bool := match a with ARun c' => c' =? c | _ => false end.

  Lemma cnt_lt : forall l s, 1 <= W -> exec step init l = Some s -> forall c, cnts s c < W.
  Proof.
    intros l s HW. apply (exec_inv step (fun s => forall c, cnts s c < W)).
    - intros s0 a s' HI E c. destruct a as [c0|c0|p|p]; cbn [StaticAllocModel.step] in E.
      + destruct (pcs s0 c0); try discriminate. destruct (c0 <? nch); [|discriminate]. injection E as <-. apply HI.
      + destruct (pcs s0 c0); try discriminate; injection E as <-; cbn [cnts]; auto.
        destruct (Nat.eq_dec c c0) as [->|N]; [rewrite fupd_eq; apply Nat.mod_upper_bound; lia|rewrite fupd_neq by auto; auto].
      + destruct (existsb _ _); [|discriminate]. injection E as <-. apply HI.
      + destruct (freeing s0 _); [|discriminate]. injection E as <-. apply HI.
    - intros c. simpl. lia.
  Qed.

  Definition has_alloc (c : nat) (t : list ev) : Prop := exists p, In (Alloc c p) t.

  (** The trace only grows. *)
  Lemma tr_grows : forall s a s', step s a = Some s' -> exists d, tr s' = tr s ++ d.
  Proof.
    intros s a s' E. destruct a as [c0|c0|p0|p0]; cbn [StaticAllocModel.step] in E.
    - destruct (pcs s c0); try discriminate. destruct (c0 <? nch); [|discriminate]. injection E as <-. exists []. rewrite app_nil_r. auto.
    - destruct (pcs s c0); try discriminate; injection E as <-; cbn [tr]; eauto. exists []. rewrite app_nil_r. auto.
    - destruct (existsb _ _); [|discriminate]. injection E as <-. cbn [tr]; eauto.
    - destruct (freeing s _); [|discriminate]. injection E as <-. exists []. rewrite app_nil_r. auto.
  Qed.

  Lemma ev_origin : forall l s, exec step init l = Some s -> forall c p, In (Alloc c p) (tr s) ->
    c < nch /\ exists m, m < perch /\ p = (c * perch + m) * ssize + 8.
  Proof.
    intros l s E. apply (exec_inv step (fun s => Inv s /\ forall c p, In (Alloc c p) (tr s) ->
      c < nch /\ exists m, m < perch /\ p = (c * perch + m) * ssize + 8)) in E.
    - apply E.
    - clear l s E. intros s a s' [HI H] E. split; [eapply Inv_step; eauto|]. intros c p Hi.
      destruct a as [c0|c0|p0|p0]; pose proof E as E0; cbn [StaticAllocModel.step] in E.
      + destruct (pcs s c0); try discriminate. destruct (c0 <? nch); [|discriminate]. injection E as <-. auto.
      + destruct (pcs s c0) as [| |mp] eqn:Ec; try discriminate; injection E as <-; auto.
        cbn [tr] in Hi. apply in_app_or in Hi as [Hi|[X|[]]]; auto. injection X as <- <-.
        destruct (alloc_event s _ _ c0 (mp + 8) HI E0 eq_refl) as (A & B & C). auto.
      + destruct (existsb _ _); [|discriminate]. injection E as <-. cbn [tr] in Hi. apply in_app_or in Hi as [Hi|[X|[]]]; auto. discriminate.
      + destruct (freeing s _); [|discriminate]. injection E as <-. auto.
    - split; [apply Inv_init|]. simpl. tauto.
  Qed.

  Lemma channels_disjoint : forall l s c d p, exec step init l = Some s -> In (Alloc c p) (tr s) -> In (Alloc d p) (tr s) -> c = d.
  Proof.
    intros l s c d p E H1 H2. destruct (ev_origin l s E c p H1) as (_ & m & A & B). destruct (ev_origin l s E d p H2) as (_ & m' & A' & B').
    apply (slot_inj c d (p - 8)); [exists m|exists m']; split; auto; lia.
  Qed.

  Lemma tr_grows_run : forall l s s', exec step s l = Some s' -> exists d, tr s' = tr s ++ d.
  Proof.
    induction l as [|a l IH]; simpl; intros s s' E.
    - injection E as <-. exists []. rewrite app_nil_r. auto.
    - destruct (step s a) as [s1|] eqn:E1; [|discriminate]. destruct (tr_grows _ _ _ E1) as [d1 D1].
      destruct (IH _ _ E) as [d2 D2]. exists (d1 ++ d2). rewrite D2, D1, app_assoc. auto.
  Qed.

  Lemma progress : forall l s s' c d j, Inv s -> 1 <= W ->
    pcs s c = Probe -> j < perch -> go s ((c * perch + j) * ssize) = true ->
    cnts s c < W -> ((cnts s c + d) mod W) mod perch = j ->
    exec step s l = Some s' -> d + 2 <= length (filter (mine c) l) ->
    exists t p u, tr s' = tr s ++ t ++ Alloc c p :: u.
  Proof.
    induction l as [|a l IH]; intros s s' c d j HI HW Hp Hj Hg Hc Hd E L; simpl in L; [lia|].
    simpl in E. destruct (step s a) as [s1|] eqn:E1; [|discriminate].
    pose proof (Inv_step _ _ _ HI E1) as HI1.
    assert (KEEP : mine c a = false -> pcs s1 c = Probe /\ go s1 ((c * perch + j) * ssize) = true /\ cnts s1 c = cnts s c).
    { intros M. destruct a as [c0|c0|p0|p0]; cbn [StaticAllocModel.step] in E1.
      - destruct (pcs s c0) eqn:E0; try discriminate. destruct (c0 <? nch); [|discriminate]. injection E1 as <-. cbn [pcs go cnts].
        rewrite fupd_neq by congruence. auto.
      - cbn in M. apply Nat.eqb_neq in M. destruct (pcs s c0) as [| |mp] eqn:E0; try discriminate; injection E1 as <-; cbn [pcs go cnts].
        + rewrite (fupd_neq _ (cnts s)) by auto. split; [|auto].
          match goal with |- context [if ?b then _ else _] => destruct b end; rewrite ?fupd_neq by auto; auto.
        + rewrite fupd_neq by auto. split; auto. split; auto. rewrite fupd_neq; auto. intros X.
          apply M. destruct (i_take _ HI _ _ E0) as [_ S0]. rewrite <- X in S0. eapply slot_inj; eauto. exists j. auto.
      - destruct (existsb _ _); [|discriminate]. injection E1 as <-. auto.
      - destruct (freeing s _); [|discriminate]. injection E1 as <-. cbn [pcs go cnts]. split; auto. split; auto.
        destruct (Nat.eq_dec ((c * perch + j) * ssize) (p0 - 8)) as [->|N]; [apply fupd_eq|rewrite fupd_neq by auto; auto]. }
    destruct (tr_grows _ _ _ E1) as [d1 D1].
    destruct (mine c a) eqn:M.
    - destruct a as [c0|c0|p0|p0]; try discriminate. cbn in M. apply Nat.eqb_eq in M. subst c0. clear KEEP.
      cbn [StaticAllocModel.step] in E1. rewrite Hp in E1. injection E1 as <-. cbn [tr] in *.
      set (mp := (c * perch + cnts s c mod perch) * ssize) in *.
      destruct (go s mp) eqn:G.
      + (* a free slot: taken at the next step of c *)
        simpl in L. assert (L2 : 1 <= length (filter (mine c) l)) by lia.
        clear IH L Hd Hg D1.
        match type of E with exec _ ?x _ = _ => remember x as s1 eqn:Es1 end.
        assert (P1 : pcs s1 c = Take mp) by (subst s1; apply fupd_eq).
        assert (T1 : tr s1 = tr s) by (subst s1; auto). rewrite <- T1. clear Es1 T1 HI1 d1. clear HI Hp Hc G. clearbody mp. clear s.
        revert s1 E P1. induction l as [|a l IH]; intros s1 E P1; simpl in L2; [lia|].
        simpl in E. destruct (step s1 a) as [s2|] eqn:E2; [|discriminate].
        destruct (mine c a) eqn:M.
        * destruct a as [c0|c0|p0|p0]; try discriminate. cbn in M. apply Nat.eqb_eq in M. subst c0.
          cbn [StaticAllocModel.step] in E2. rewrite P1 in E2. injection E2 as <-.
          destruct (tr_grows_run _ _ _ E) as [u U]. cbn [tr] in U. exists [], (mp + 8), u. rewrite U, <- app_assoc. auto.
        * assert (P2 : pcs s2 c = Take mp).
          { destruct a as [c0|c0|p0|p0]; cbn [StaticAllocModel.step] in E2.
            - destruct (pcs s1 c0) eqn:E0; try discriminate. destruct (c0 <? nch); [|discriminate]. injection E2 as <-. cbn [pcs].
              rewrite fupd_neq by congruence. auto.
            - cbn in M. apply Nat.eqb_neq in M. destruct (pcs s1 c0) as [| |mp'] eqn:E0; try discriminate; injection E2 as <-; cbn [pcs].
              + destruct (go s1 _); rewrite ?fupd_neq by auto; auto.
              + rewrite fupd_neq by auto. auto.
            - destruct (existsb _ _); [|discriminate]. injection E2 as <-. auto.
            - destruct (freeing s1 _); [|discriminate]. injection E2 as <-. auto. }
          destruct (IH L2 s2 E P2) as (t & p & u & U). destruct (tr_grows _ _ _ E2) as [d2 D2].
          exists (d2 ++ t), p, u. rewrite U, D2, <- !app_assoc. auto.
      + (* an occupied slot: one probe closer *)
        destruct d as [|d].
        { exfalso. rewrite Nat.add_0_r, (Nat.mod_small (cnts s c) W) in Hd by auto. subst mp. rewrite Hd in G. congruence. }
        apply (IH _ s' c d j) in E; auto.
        * cbn [cnts]. rewrite fupd_eq. apply Nat.mod_upper_bound. lia.
        * cbn [cnts]. rewrite fupd_eq. rewrite Nat.add_mod_idemp_l by lia. replace (cnts s c + 1 + d) with (cnts s c + S d) by lia. auto.
        * simpl in L. lia.
    - destruct (KEEP eq_refl) as (K1 & K2 & K3).
      destruct (IH s1 s' c d j HI1 HW K1 Hj K2 ltac:(congruence) ltac:(congruence) E L) as (t & p & u & U).
      exists (d1 ++ t), p, u. rewrite U, D1, <- !app_assoc. auto.
  Qed.

  Lemma alloc_terminates : forall l0 s l s' c j, perch <= W ->
    exec step init l0 = Some s -> pcs s c = Probe -> j < perch ->
    ~ In ((c * perch + j) * ssize + 8) (live (tr s)) -> freeing s ((c * perch + j) * ssize) = false ->
    exec step s l = Some s' -> 2 * perch + 1 <= length (filter (mine c) l) ->
    exists t p u, tr s' = tr s ++ t ++ Alloc c p :: u.
  Proof.
    intros l0 s l s' c j HW E0 Hp Hj NL NF E L. pose proof perch_pos. pose proof (Inv_reach _ _ E0) as HI.
    pose proof (cnt_lt _ _ ltac:(lia) E0 c) as HC.
    destruct (probe_reaches (cnts s c) j HW HC Hj) as (d & D & Ed).
    apply (progress l s s' c d j); auto; try lia.
    destruct (go s _) eqn:G; auto. destruct (i_busy _ HI _ G); [congruence|contradiction].
  Qed.

  (** A full channel: alloc cannot return. *)
  Lemma full_blocks : forall l s s' c,
    pcs s c = Probe -> (forall j, j < perch -> go s ((c * perch + j) * ssize) = false) ->
    Forall (fun a => match a with DStore _ => False | _ => True end) l ->
    exec step s l = Some s' ->
    pcs s' c = Probe /\ (forall j, j < perch -> go s' ((c * perch + j) * ssize) = false).
  Proof.
    pose proof perch_pos as PP.
    induction l as [|a l IH]; simpl; intros s s' c Hp Hg F E; [injection E as <-; auto|].
    destruct (step s a) as [s1|] eqn:E1; [|discriminate]. inversion_clear F as [|? ? Fa Fl].
    apply (IH s1 s' c) in E; auto.
    - destruct a as [c0|c0|p0|p0]; cbn [StaticAllocModel.step] in E1; [| | |contradiction].
      + destruct (pcs s c0) eqn:E0; try discriminate. destruct (c0 <? nch); [|discriminate]. injection E1 as <-. cbn [pcs].
        rewrite fupd_neq by congruence. auto.
      + destruct (pcs s c0) as [| |mp] eqn:E0; try discriminate; injection E1 as <-; cbn [pcs].
        * destruct (Nat.eq_dec c0 c) as [->|N].
          -- rewrite Hg by (apply Nat.mod_upper_bound; lia). auto.
          -- destruct (go s _); rewrite ?fupd_neq by auto; auto.
        * rewrite fupd_neq by congruence. auto.
      + destruct (existsb _ _); [|discriminate]. injection E1 as <-. auto.
    - destruct a as [c0|c0|p0|p0]; cbn [StaticAllocModel.step] in E1; [| | |contradiction].
      + destruct (pcs s c0) eqn:E0; try discriminate. destruct (c0 <? nch); [|discriminate]. injection E1 as <-. auto.
      + destruct (pcs s c0) as [| |mp] eqn:E0; try discriminate; injection E1 as <-; cbn [go]; auto.
        intros j Hj. destruct (Nat.eq_dec ((c * perch + j) * ssize) mp) as [->|N]; [apply fupd_eq|rewrite fupd_neq by auto; auto].
      + destruct (existsb _ _); [|discriminate]. injection E1 as <-. auto.
  Qed.
End P.
