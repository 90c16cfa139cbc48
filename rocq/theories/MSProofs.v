(** Proofs about MSModel.v (property C11). *)
From Coq Require Import List Arith Bool Lia.
From Verif Require Import Base LinSpec DynqProofs MSModel.
Import ListNotations.

Lemma linked_at : forall nx pre a suf, linked nx (pre ++ a :: suf) -> nx a = hd_error suf.
Proof.
  intros nx pre. induction pre as [|b r IH]; intros a suf H.
  - destruct suf as [|c suf]; cbn in H; cbn; tauto.
  - apply IH. destruct r as [|c r]; cbn in H; cbn; tauto.
Qed.

Lemma linked_none_last : forall nx l a, linked nx l -> In a l -> nx a = None -> exists pre, l = pre ++ [a].
Proof.
  intros nx l a L H E. apply in_split in H. destruct H as (pre & suf & ->). exists pre.
  apply linked_at in L. destruct suf; auto. cbn in L. congruence.
Qed.

Lemma linked_next_in : forall nx l a b, linked nx l -> In a l -> nx a = Some b -> In b l.
Proof.
  intros nx l a b L H E. apply in_split in H. destruct H as (pre & suf & ->).
  apply linked_at in L. destruct suf as [|c suf]; cbn in L; [congruence|].
  apply in_or_app. right. cbn. right. left. congruence.
Qed.

Section Proofs.
  Context {A : Type}.
  Notation ms := (ms A). Notation mpc := (mpc A).

  (** The node a running push has not linked yet. *)
  Definition priv (p : mpc) : option nat :=
    match p with
    | MInit _ n | MTail _ n | MNext _ n _ | MChk _ n _ _ | MCas _ n _ | MHelp _ n _ _ => Some n
    | _ => None
    end.
  Definition mown (p : mpc) : option nat :=
    match p with QFree hp _ => Some hp | _ => priv p end.
  Definition stok (p : mpc) (st : status A) : Prop :=
    match p with
    | MIdle => st = Idle
    | MAlloc x | MInit x _ | MTail x _ | MNext x _ _ | MChk x _ _ _ | MCas x _ _ | MHelp x _ _ _ => st = WantPush x
    | MSwing _ _ => st = DidPush
    | QFree _ v => st = DidPop v
    | QChk hp tp None => if hp =? tp then st = SawEmpty else st = WantPop \/ st = SawEmpty
    | _ => st = WantPop \/ st = SawEmpty
    end.
  Definition mknow (s : ms) (suf rest : list nat) (p : mpc) : Prop :=
    match p with
    | MTail x n | MNext x n _ | MCas x n _ => mdata s n = x /\ mnext s n = None
    | MChk x n tp nx => mdata s n = x /\ mnext s n = None /\ (forall m, nx = Some m -> mnext s tp = Some m)
    | MHelp x n tp nx => mdata s n = x /\ mnext s n = None /\ mnext s tp = Some nx
    | MSwing n tp => mnext s tp = Some n
    | QTail hp => ~ In hp rest
    | QNext hp tp => ~ In hp rest /\ (hp <> tp -> ~ In hp (mtail s :: suf))
    | QChk hp tp nx => ~ In hp rest /\ (hp <> tp -> ~ In hp (mtail s :: suf)) /\
                       (forall m, nx = Some m -> mnext s hp = Some m) /\ (hp <> tp -> nx <> None)
    | QHelp hp tp nx => hp = tp /\ exists m, nx = Some m /\ mnext s hp = Some m
    | QData hp nx => ~ In hp rest /\ ~ In hp (mtail s :: suf) /\ exists m, nx = Some m /\ mnext s hp = Some m
    | QCas hp nx v => ~ In hp (mtail s :: suf) /\ mnext s hp = Some nx /\ (In hp (mhead s :: rest) -> mdata s nx = v)
    | _ => True
    end.

  Record minv (s : ms) (pre suf rest : list nat) (th : nat -> status A) : Prop := {
    m_ch : pre ++ mtail s :: suf = mhead s :: rest;
    m_lnk : linked (mnext s) (mhead s :: rest);
    m_nd : NoDup (mhead s :: rest);
    m_lin : lins None false [] (fun _ => Idle) (mtr s) (map (mdata s) rest) th;
    m_th : forall t, stok (mp s t) (th t);
    m_alive : forall n, In n (mhead s :: rest) -> alive s n = true;
    m_own : forall t n, mown (mp s t) = Some n -> alive s n = true /\ ~ In n (mhead s :: rest);
    m_uni : forall t u n, mown (mp s t) = Some n -> mown (mp s u) = Some n -> t = u;
    m_haz : forall t h, hazard (mp s t) = Some h ->
              (In h (mhead s :: rest) \/ mnext s h <> None) /\ forall u, priv (mp s u) <> Some h;
    m_know : forall t, mknow s suf rest (mp s t) }.
  Definition MInv s := exists pre suf rest th, minv s pre suf rest th.

  Lemma MInv_init : forall d0 x0 d, MInv (ms_init d0 x0 d).
  Proof.
    intros d0 x0 d. exists [], [], [], (fun _ => Idle). constructor; unfold ms_init; cbn;
      try (intros; discriminate); auto.
    - apply fupd_eq.
    - constructor; auto. constructor.
    - constructor.
    - intros n [->|[]]. apply Nat.eqb_refl.
  Qed.

  Ltac fu := repeat (rewrite fupd_eq in * || rewrite fupd_neq in * by auto).
  Ltac cs u t := destruct (Nat.eq_dec u t) as [->|?N]; fu.

  Lemma priv_mown : forall p n, priv p = Some n -> mown p = Some n.
  Proof. intros p n. destruct p; cbn; auto; discriminate. Qed.

  (** Steps that change no memory.  The new program counter may hold a new hazard. *)
  Lemma Inv_local : forall s pre suf rest th t p' es th',
    minv s pre suf rest th -> mown p' = mown (mp s t) -> priv p' = priv (mp s t) ->
    (forall h, hazard p' = Some h -> hazard (mp s t) = Some h \/ In h (mhead s :: rest)) ->
    mknow s suf rest p' ->
    lins None false [] (fun _ => Idle) (mtr s ++ es) (map (mdata s) rest) th' ->
    (forall u, u <> t -> th' u = th u) -> stok p' (th' t) ->
    minv (mkM (mdata s) (mnext s) (alive s) (mhead s) (mtail s) (fupd (mp s) t p') (mtr s ++ es))
        pre suf rest th'.
  Proof.
    intros s pre suf rest th t p' es th' I Eo EP EH K L Hth Hst. destruct I.
    assert (O : forall u, mown (fupd (mp s) t p' u) = mown (mp s u)) by (intro u; cs u t; auto).
    assert (Q : forall u, priv (fupd (mp s) t p' u) = priv (mp s u)) by (intro u; cs u t; auto).
    constructor; cbn [mdata mnext alive mhead mtail mp mtr]; auto.
    - intros u. cs u t; auto. rewrite Hth by auto. apply m_th0.
    - intros u n. rewrite O. apply m_own0.
    - intros u v n. rewrite !O. apply m_uni0.
    - intros u h Hh. setoid_rewrite Q. cs u t; [|eauto]. destruct (EH h Hh) as [E|E]; [eauto|].
      split; auto. intros v E'. apply priv_mown in E'. destruct (m_own0 v h E'). auto.
    - intros u. cs u t; [exact K|exact (m_know0 u)].
  Qed.

  Lemma Inv_go : forall s pre suf rest th t p',
    minv s pre suf rest th -> mown p' = mown (mp s t) -> priv p' = priv (mp s t) ->
    (forall h, hazard p' = Some h -> hazard (mp s t) = Some h \/ In h (mhead s :: rest)) ->
    mknow s suf rest p' -> stok p' (th t) ->
    MInv (mgo s t p').
  Proof.
    intros s pre suf rest th t p' I Eo EP EH K S. exists pre, suf, rest, th. unfold mgo.
    assert (H := Inv_local s pre suf rest th t p' [] th I Eo EP EH K). rewrite app_nil_r in H. apply H; auto.
    exact (m_lin _ _ _ _ _ I).
  Qed.

  Lemma Inv_goe : forall s pre suf rest th t p' e u,
    minv s pre suf rest th -> mown p' = mown (mp s t) -> priv p' = priv (mp s t) ->
    (forall h, hazard p' = Some h -> hazard (mp s t) = Some h \/ In h (mhead s :: rest)) ->
    mknow s suf rest p' -> stok p' u ->
    lin None false (map (mdata s) rest) th e (map (mdata s) rest) (fupd th t u) ->
    MInv (mgoe s t p' e).
  Proof.
    intros s pre suf rest th t p' e u I Eo EP EH K S L. exists pre, suf, rest, (fupd th t u). unfold mgoe.
    apply (Inv_local s pre suf rest th); auto.
    - eapply lins_snoc; [exact (m_lin _ _ _ _ _ I)|exact L].
    - intros v Hv. apply fupd_neq; auto.
    - rewrite fupd_eq. exact S.
  Qed.

  (** Advancing tail, when the next node of tail is [m]; the thread finishes or retries. *)
  Lemma Inv_tail : forall s pre suf rest th t p' m es th',
    minv s pre suf rest th -> mnext s (mtail s) = Some m ->
    mown p' = mown (mp s t) -> priv p' = priv (mp s t) -> hazard p' = None ->
    (forall suf', mknow s suf' rest p') ->
    lins None false [] (fun _ => Idle) (mtr s ++ es) (map (mdata s) rest) th' ->
    (forall u, u <> t -> th' u = th u) -> stok p' (th' t) ->
    MInv (mkM (mdata s) (mnext s) (alive s) (mhead s) m (fupd (mp s) t p') (mtr s ++ es)).
  Proof.
    intros s pre suf rest th t p' m es th' I E Eo EP EH K L Hth Hst. destruct I.
    assert (O : forall u, mown (fupd (mp s) t p' u) = mown (mp s u)) by (intro u; cs u t; auto).
    assert (Q : forall u, priv (fupd (mp s) t p' u) = priv (mp s u)) by (intro u; cs u t; auto).
    assert (L2 := m_lnk0). rewrite <- m_ch0 in L2. apply linked_at in L2. rewrite E in L2.
    destruct suf as [|m' suf]; cbn in L2; [discriminate|]. injection L2 as <-.
    exists (pre ++ [mtail s]), suf, rest, th'.
    constructor; cbn [mdata mnext alive mhead mtail mp mtr]; auto.
    - rewrite <- m_ch0, <- app_assoc. reflexivity.
    - intros u. cs u t; auto. rewrite Hth by auto. apply m_th0.
    - intros u n. rewrite O. apply m_own0.
    - intros u v n. rewrite !O. apply m_uni0.
    - intros u h Hh. setoid_rewrite Q. cs u t; [|eauto]. congruence.
    - intros u. cs u t.
      + specialize (K suf). destruct p'; cbn in *; try discriminate; auto.
      + assert (Ku := m_know0 u).
        assert (SH : forall a, ~ In a (mtail s :: m :: suf) -> ~ In a (m :: suf)) by (cbn; tauto).
        destruct (mp s u); cbn [mknow] in *; cbn [mtail mdata mnext mhead]; auto.
        * destruct Ku as [Ka Kb]. split; auto.
        * destruct Ku as (Ka & Kb & Kc & Kd). auto.
        * destruct Ku as (Ka & Kb & Kc). auto.
        * destruct Ku as (Ka & Kb & Kc). auto.
  Qed.

  Lemma Inv_step : forall s a s', MInv s ->
    (forall t addr x, a = MStep t addr -> mp s t = MAlloc x -> forall u, hazard (mp s u) <> Some addr) ->
    mstep s a = Some s' -> MInv s'.
  Proof.
    intros s a s' (pre & suf & rest & th & I) NR H. destruct a as [t x|t|t addr]; cbn in H.
    - destruct (mp s t) eqn:P; try discriminate. injection H as <-. assert (T := m_th _ _ _ _ _ I t). rewrite P in T. cbn in T.
      apply (Inv_goe s pre suf rest th t (MAlloc x) (CallPush t x) (WantPush x)); rewrite ?P; cbn; auto; try discriminate.
      apply lin_call_push. auto.
    - destruct (mp s t) eqn:P; try discriminate. injection H as <-. assert (T := m_th _ _ _ _ _ I t). rewrite P in T. cbn in T.
      apply (Inv_goe s pre suf rest th t QHead (CallPop t) WantPop); rewrite ?P; cbn; auto; try discriminate.
      apply lin_call_pop. auto.
    - assert (T := m_th _ _ _ _ _ I t). assert (K := m_know _ _ _ _ _ I t).
      assert (HZ := m_haz _ _ _ _ _ I t). assert (OW := m_own _ _ _ _ _ I t).
      assert (TI : In (mtail s) (mhead s :: rest)) by (rewrite <- (m_ch _ _ _ _ _ I); apply in_or_app; cbn; auto).
      destruct (mp s t) as [|x|x n|x n|x n tp|x n tp nx|x n tp|x n tp nx|n tp| |hp|hp tp|hp tp nx|hp tp nx|hp nx|hp nx v|hp v] eqn:P; try discriminate;
        cbn [stok mknow hazard mown priv] in *.
      + (* MAlloc *)
        destruct (alive s addr) eqn:LA; try discriminate. injection H as <-.
        specialize (NR t addr x eq_refl P). exists pre, suf, rest, th. clear OW HZ. destruct I.
        assert (F : forall u m, mown (mp s u) = Some m -> m <> addr)
            by (intros u m Hm ->; destruct (m_own0 _ _ Hm); congruence).
        assert (FL : forall m, alive s m = true -> fupd (alive s) addr true m = true)
          by (intros m Hm; cs m addr; auto).
        constructor; cbn [mdata mnext alive mhead mtail mp mtr]; auto.
        * intros u. cs u t; [auto|apply m_th0].
        * intros u m. cs u t; cbn.
          -- intros E; injection E as <-. fu. split; auto. intro Hin. rewrite (m_alive0 _ Hin) in LA. discriminate.
          -- intros Hm. destruct (m_own0 _ _ Hm). auto.
        * intros u v m. cs u t; cs v t; auto; cbn; intros; [| |eauto].
          -- exfalso. apply (F v m); auto; congruence.
          -- exfalso. apply (F u m); auto; congruence.
        * intros u h. cs u t; [discriminate|]. intros Hh. destruct (m_haz0 u h Hh) as [H1 H2]. split; auto.
          intros v. cs v t; auto. cbn. intro E; injection E as <-. exact (NR u Hh).
        * intros u. cs u t; [exact Logic.I|exact (m_know0 u)].
      + (* MInit *)
        injection H as <-. destruct (OW n eq_refl) as [On1 On2].
        assert (U : forall u m, u <> t -> mown (mp s u) = Some m -> m <> n).
        { intros u m N Hm ->. apply N. apply (m_uni _ _ _ _ _ I u t n); auto. rewrite P; auto. }
        assert (UH : forall u h, hazard (mp s u) = Some h -> h <> n).
        { intros u h Hh ->. destruct (m_haz _ _ _ _ _ I u n Hh) as [_ H2]. apply (H2 t). rewrite P. auto. }
        assert (ND : forall m, In m (mhead s :: rest) -> m <> n) by (intros m Hm ->; auto).
        clear OW HZ. exists pre, suf, rest, th. destruct I.
        constructor; cbn [mdata mnext alive mhead mtail mp mtr]; auto.
        * eapply linked_ext; [|exact m_lnk0]. intros a Ha. apply fupd_neq. apply ND; auto.
        * rewrite (map_ext_in' (fupd (mdata s) n x) (mdata s)); auto. intros a Ha. apply fupd_neq. apply ND. cbn; auto.
        * intros u. cs u t; [auto|apply m_th0].
        * intros u m. cs u t; [cbn; intros E; injection E as <-; auto|apply m_own0].
        * intros u v m. cs u t; cs v t; auto; cbn; intros; [| |eauto].
          -- exfalso. apply (U v m); auto; congruence.
          -- exfalso. apply (U u m); auto; congruence.
        * intros u h. cs u t; [discriminate|]. intros Hh. destruct (m_haz0 u h Hh) as [H1 H2].
          rewrite (fupd_neq _ (mnext s) n h) by (apply (UH u); auto). split; auto.
          intros v. cs v t; auto. specialize (H2 t). rewrite P in H2. exact H2.
        * intros u. cs u t; [cbn; rewrite !fupd_eq; auto|].
          assert (Ku := m_know0 u). assert (UHu := UH u). assert (Uu := U u).
          destruct (mp s u) eqn:Pu; cbn [mknow hazard mown priv] in *; cbn [mdata mnext mhead mtail]; auto;
            repeat match goal with
            | H : forall h, Some ?a = Some h -> h <> n |- _ => assert (a <> n) by (apply H; auto); clear H
            | H : forall m, u <> t -> Some ?a = Some m -> m <> n |- _ => assert (a <> n) by (apply H; auto); clear H
            end; fu; auto.
          destruct Ku as (Ka & Kb & Kc). repeat split; auto. intros Hin. rewrite fupd_neq; auto.
          apply ND. eapply linked_next_in; eauto.
      + (* MTail *)
        injection H as <-. apply (Inv_go s pre suf rest th); rewrite ?P; auto.
        cbn. intros h E; injection E as <-. auto.
      + (* MNext *)
        injection H as <-. apply (Inv_go s pre suf rest th); rewrite ?P; auto. cbn. tauto.
      + (* MChk *)
        destruct (mtail s =? tp) eqn:E; [destruct nx as [m|]|]; injection H as <-;
          (apply (Inv_go s pre suf rest th); rewrite ?P; auto); cbn; try discriminate.
        * destruct K as (? & ? & K3). auto.
        * tauto.
        * tauto.
      + (* MCas *)
        destruct (mnext s tp) eqn:E; injection H as <-; [apply (Inv_go s pre suf rest th); rewrite ?P; auto; discriminate|].
        destruct (HZ tp eq_refl) as [[TC|TC] HP]; [|congruence].
        destruct (OW n eq_refl) as [On1 On2]. destruct K as [Kd Kn].
        destruct (linked_none_last _ _ _ (m_lnk _ _ _ _ _ I) TC E) as (pf & Hpf).
        assert (UH : forall u h, hazard (mp s u) = Some h -> h <> n).
        { intros u h Hh ->. destruct (m_haz _ _ _ _ _ I u n Hh) as [_ H2]. apply (H2 t). rewrite P. auto. }
        assert (U : forall u m, u <> t -> mown (mp s u) = Some m -> m <> n).
        { intros u m N Hm ->. apply N. apply (m_uni _ _ _ _ _ I u t n); auto. rewrite P; auto. }
        clear OW HZ. exists pre, (suf ++ [n]), (rest ++ [n]), (fupd th t DidPush). destruct I.
        assert (MV : forall m, In m (mhead s :: rest ++ [n]) <-> m = n \/ In m (mhead s :: rest)).
        { intros m. cbn. rewrite in_app_iff. cbn. intuition congruence. }
        constructor; cbn [mdata mnext alive mhead mtail mp mtr]; auto.
        * change (mhead s :: rest ++ [n]) with ((mhead s :: rest) ++ [n]). rewrite <- m_ch0, <- app_assoc. reflexivity.
        * change (mhead s :: rest ++ [n]) with ((mhead s :: rest) ++ [n]). rewrite Hpf, <- app_assoc. cbn [app].
          apply linked_snoc; auto; rewrite <- Hpf; auto.
        * change (mhead s :: rest ++ [n]) with ((mhead s :: rest) ++ [n]).
          apply (NoDup_Add (a := n) (l := mhead s :: rest)).
          { assert (Z := Add_app n (mhead s :: rest) []). rewrite app_nil_r in Z. exact Z. } auto.
        * rewrite map_app. cbn. rewrite Kd. eapply lins_snoc; [exact m_lin0|]. apply lin_push; auto. exact Logic.I.
        * intros u. cs u t; [cbn; auto|apply m_th0].
        * intros m. rewrite MV. intros [->|Hm]; auto.
        * intros u m. cs u t; [discriminate|]. intros Hm. destruct (m_own0 u m Hm). rewrite MV. split; auto.
          intros [->|]; auto. apply (U u n); auto.
        * intros u v m. cs u t; cs v t; auto; cbn; intros; try discriminate. eauto.
        * assert (PV : forall h, (forall u, priv (mp s u) <> Some h) -> forall u, priv (fupd (mp s) t (MSwing n tp) u) <> Some h)
            by (intros h Hh u; cs u t; [discriminate|auto]).
          intros u h. cs u t; cbn.
          -- intros E'; injection E' as <-. split; [|auto]. right. fu. discriminate.
          -- intros Hh. destruct (m_haz0 u h Hh) as [H1 H2]. split; auto.
             change (In h (mhead s :: rest ++ [n]) \/ fupd (mnext s) tp (Some n) h <> None).
             destruct H1 as [H1|H1]; [left; apply MV; auto|right]. cs h tp; auto.
        * intros u. cs u t; [cbn; apply fupd_eq|].
          assert (Ku := m_know0 u). assert (UHu := UH u). assert (Uu := U u).
          assert (F : forall h m, mnext s h = Some m -> fupd (mnext s) tp (Some n) h = Some m)
            by (intros h m Hm; cs h tp; congruence).
          assert (G : forall m, priv (mp s u) = Some m -> fupd (mnext s) tp (Some n) m = mnext s m).
          { intros m Hm. cs m tp; auto. destruct (HP u); auto. }
          assert (IR : forall h, h <> n -> ~ In h rest -> ~ In h (rest ++ [n])).
          { intros h N1 N2 Hin. apply in_app_or in Hin. cbn in Hin. intuition congruence. }
          assert (IS : forall h, h <> n -> ~ In h (mtail s :: suf) -> ~ In h (mtail s :: suf ++ [n])).
          { intros h N1 N2 Hin. apply N2. cbn in *. destruct Hin as [|Hin]; auto. apply in_app_or in Hin. cbn in Hin. intuition congruence. }
          destruct (mp s u) eqn:Pu; cbn [mknow hazard mown priv] in *; cbn [mdata mnext mhead mtail]; auto;
            repeat match goal with
            | H : forall h, Some ?a = Some h -> h <> n |- _ => assert (a <> n) by (apply H; auto); clear H
            | H : forall m, Some ?a = Some m -> fupd _ _ _ _ = _ |- _ => rewrite (H a eq_refl); clear H
            end; fu; auto.
          -- destruct Ku as (Ka & Kb & Kc). auto.
          -- destruct Ku as (Ka & Kb & Kc). auto.
          -- destruct Ku as (Ka & Kb). auto.
          -- destruct Ku as (Ka & Kb & Kc & Ke). auto 6.
          -- destruct Ku as (Ka & m & Kb & Kc). eauto 6.
          -- destruct Ku as (Ka & Kb & m & Kc & Ke). eauto 8.
          -- destruct Ku as (Ka & Kb & Kc). repeat split; auto. intros Hin. apply MV in Hin. destruct Hin; [congruence|auto].
      + (* MHelp *)
        destruct (mtail s =? tp) eqn:E; injection H as <-;
          [|apply (Inv_go s pre suf rest th); rewrite ?P; auto; cbn; try discriminate; tauto].
        apply Nat.eqb_eq in E. subst tp. unfold mgot. destruct K as (Ka & Kb & Kc). rewrite <- (app_nil_r (mtr s)).
        apply (Inv_tail s pre suf rest th t (MTail x n) nx [] th); rewrite ?P; cbn; auto.
        rewrite app_nil_r. exact (m_lin _ _ _ _ _ I).
      + (* MSwing *)
        destruct (mtail s =? tp) eqn:E; injection H as <-.
        * apply Nat.eqb_eq in E. subst tp.
          apply (Inv_tail s pre suf rest th t MIdle n [RetPush t true] (fupd th t Idle)); rewrite ?P; cbn; auto.
          -- eapply lins_snoc; [exact (m_lin _ _ _ _ _ I)|]. apply lin_ret_push. auto.
          -- intros. apply fupd_neq; auto.
          -- apply fupd_eq.
        * apply (Inv_goe s pre suf rest th t MIdle (RetPush t true) Idle); rewrite ?P; cbn; auto; try discriminate.
          apply lin_ret_push. auto.
      + (* QHead *)
        injection H as <-. apply (Inv_go s pre suf rest th); rewrite ?P; cbn; auto.
        * intros h E; injection E as <-. auto.
        * assert (ND := m_nd _ _ _ _ _ I). inversion ND; auto.
      + (* QTail *)
        injection H as <-. apply (Inv_go s pre suf rest th); rewrite ?P; cbn; auto.
        split; auto. intros N. assert (CH := m_ch _ _ _ _ _ I). destruct pre as [|p0 pre].
        * cbn in CH. injection CH as C1 C2. rewrite C2. intros [E|Hin]; [congruence|auto].
        * cbn in CH. injection CH as C1 C2. intros Hin. apply K. rewrite <- C2. apply in_or_app. right. exact Hin.
      + (* QNext *)
        destruct K as [K1 K2]. destruct (HZ hp eq_refl) as [H1 H2].
        destruct (mnext s hp) as [m|] eqn:E.
        * injection H as <-. apply (Inv_go s pre suf rest th); rewrite ?P; cbn; auto.
          repeat split; auto; congruence.
        * destruct H1 as [H1|H1]; [|congruence].
          destruct (linked_none_last _ _ _ (m_lnk _ _ _ _ _ I) H1 E) as (pf & Hpf).
          assert (HR : rest = [] /\ mhead s = hp).
          { destruct pf as [|p0 pf]; cbn in Hpf; injection Hpf as C1 C2; auto.
            exfalso. apply K1. rewrite C2. apply in_or_app; cbn; auto. }
          destruct HR as [-> HH]. assert (CH := m_ch _ _ _ _ _ I).
          assert (TT : mtail s = hp) by (destruct TI as [TI|[]]; congruence).
          destruct (hp =? tp) eqn:ET; injection H as <-.
          -- apply Nat.eqb_eq in ET. subst tp.
             apply (Inv_goe s pre suf [] th t (QChk hp hp None) (SeeEmpty t) SawEmpty); rewrite ?P; cbn; auto.
             ++ repeat split; auto; congruence.
             ++ rewrite Nat.eqb_refl. reflexivity.
             ++ apply lin_see_empty. auto.
          -- exfalso. apply Nat.eqb_neq in ET. apply (K2 ET). cbn; auto.
      + (* QChk *)
        destruct K as (K1 & K2 & K3 & K4).
        destruct (mhead s =? hp) eqn:EH.
        * apply Nat.eqb_eq in EH. destruct (hp =? tp) eqn:ET.
          -- apply Nat.eqb_eq in ET. subst tp. destruct nx as [m|]; injection H as <-.
             ++ apply (Inv_go s pre suf rest th); rewrite ?P; cbn; auto. split; eauto.
             ++ apply (Inv_goe s pre suf rest th t MIdle (RetPop t None) Idle); rewrite ?P; cbn; auto; try discriminate.
                apply lin_fail_seen. auto.
          -- apply Nat.eqb_neq in ET. injection H as <-. apply (Inv_go s pre suf rest th); rewrite ?P; cbn; auto.
             ++ split; auto. split; [apply K2; auto|]. destruct nx as [m|]; [eauto|]. exfalso. apply (K4 ET eq_refl).
             ++ destruct nx; auto.
        * injection H as <-. apply (Inv_go s pre suf rest th); rewrite ?P; cbn; auto; try discriminate.
          destruct nx; auto. destruct (hp =? tp); auto.
      + (* QHelp *)
        destruct K as (-> & m & -> & Km). destruct (mtail s =? tp) eqn:E; injection H as <-;
          [|apply (Inv_go s pre suf rest th); rewrite ?P; cbn; auto; discriminate].
        apply Nat.eqb_eq in E. subst tp. unfold mgot. rewrite <- (app_nil_r (mtr s)).
        apply (Inv_tail s pre suf rest th t QHead m [] th); rewrite ?P; cbn; auto.
        rewrite app_nil_r. exact (m_lin _ _ _ _ _ I).
      + (* QData *)
        destruct K as (K1 & K2 & m & -> & Km). injection H as <-.
        apply (Inv_go s pre suf rest th); rewrite ?P; cbn [mown priv hazard mknow stok]; auto.
      + (* QCas *)
        destruct (mhead s =? hp) eqn:E; injection H as <-; [|apply (Inv_go s pre suf rest th); rewrite ?P; cbn; auto; discriminate].
        apply Nat.eqb_eq in E. subst hp. destruct K as (K1 & K2 & K3).
        assert (L2 := m_lnk _ _ _ _ _ I). assert (CH := m_ch _ _ _ _ _ I).
        destruct rest as [|m r]; cbn [linked] in L2; [congruence|]. destruct L2 as [L3 L4].
        assert (m = nx) by congruence. subst m. assert (V := K3 (or_introl eq_refl)). clear K3.
        destruct pre as [|p0 pre]; [exfalso; apply K1; cbn in CH; injection CH as C1 C2; rewrite C1; cbn; auto|].
        cbn in CH. injection CH as -> CH. assert (ND := m_nd _ _ _ _ _ I).
        clear OW HZ. exists pre, suf, r, (fupd th t (DidPop v)). destruct I.
        assert (IN : forall a, In a (nx :: r) -> In a (mhead s :: nx :: r)) by (intros; right; auto).
        constructor; cbn [mdata mnext alive mhead mtail mp mtr]; auto.
        * inversion ND; auto.
        * eapply lins_snoc; [exact m_lin0|]. cbn [map]. rewrite V. destruct T as [T|T]; [apply lin_pop|apply lin_pop_seen]; auto.
        * intros u. cs u t; [cbn; auto|apply m_th0].
        * intros u m. cs u t; cbn.
          -- intros E; injection E as <-. split; [apply m_alive0; cbn; auto|inversion ND; auto].
          -- intros Hm. destruct (m_own0 u m Hm). split; auto. 
        * assert (F : forall u m, mown (mp s u) = Some m -> m <> mhead s).
          { intros u m Hm ->. destruct (m_own0 u _ Hm) as [_ Hn]. apply Hn. cbn; auto. }
          intros u w m. cs u t; cs w t; auto; cbn; intros; [| |eauto].
          -- exfalso. apply (F w m); auto; congruence.
          -- exfalso. apply (F u m); auto; congruence.
        * intros u h. cs u t; cbn; [discriminate|]. intros Hh. destruct (m_haz0 u h Hh) as [H1 H2]. split.
          -- change (In h (nx :: r) \/ mnext s h <> None).
             destruct H1 as [[<-|H1]|H1]; auto. right. congruence.
          -- intros w. cs w t; [discriminate|auto].
        * intros u. cs u t; [exact Logic.I|]. assert (Ku := m_know0 u).
          destruct (mp s u); cbn [mknow] in *; cbn [mdata mnext mhead mtail]; auto.
          -- intros Hin. apply Ku. right; auto.
          -- destruct Ku as (Ka & Kb). split; auto. intros Hin; apply Ka; right; auto.
          -- destruct Ku as (Ka & Kb & Kc & Kd). repeat split; auto. intros Hin; apply Ka; right; auto.
          -- destruct Ku as (Ka & Kb & Kc). repeat split; auto. intros Hin; apply Ka; right; auto.
          -- destruct Ku as (Ka & Kb & Kc). repeat split; auto.
      + (* QFree *)
        injection H as <-. destruct (OW hp eq_refl) as [On1 On2].
        assert (U : forall u m, u <> t -> mown (mp s u) = Some m -> m <> hp).
        { intros u m N Hm ->. apply N. apply (m_uni _ _ _ _ _ I u t hp); auto. rewrite P; auto. }
        clear OW HZ. exists pre, suf, rest, (fupd th t Idle). destruct I.
        constructor; cbn [mdata mnext alive mhead mtail mp mtr]; auto.
        * eapply lins_snoc; [exact m_lin0|]. apply lin_ret_pop. auto.
        * intros u. cs u t; [cbn; auto|apply m_th0].
        * intros m Hm. rewrite fupd_neq; auto. intro; subst; auto.
        * intros u m. cs u t; [discriminate|]. intros Hm. destruct (m_own0 u m Hm). split; auto.
          rewrite fupd_neq; auto. apply (U u); auto.
        * intros u w m. cs u t; cs w t; auto; cbn; intros; try discriminate. eauto.
        * intros u h. cs u t; cbn; [discriminate|]. intros Hh. destruct (m_haz0 u h Hh) as [H1 H2]. split; auto.
          intros w. cs w t; [discriminate|auto].
        * intros u. cs u t; [exact Logic.I|exact (m_know0 u)].
  Qed.

  Lemma reach_from : forall l s s', MInv s -> no_early_reuse s l -> exec mstep s l = Some s' -> MInv s'.
  Proof.
    intros l. induction l as [|a r IH]; intros s s' I NR H; cbn in H; [injection H as <-; auto|].
    cbn [no_early_reuse] in NR. destruct NR as [N1 N2]. destruct (mstep s a) as [s1|] eqn:E; [|discriminate].
    apply (IH s1); auto. eapply Inv_step; eauto.
  Qed.

  Lemma reach : forall d0 x0 d l s, no_early_reuse (ms_init d0 x0 d) l -> exec mstep (ms_init d0 x0 d) l = Some s -> MInv s.
  Proof. intros. eapply reach_from; eauto. apply MInv_init. Qed.

  Lemma MInv_lin : forall s, MInv s -> exists q, linearizable None false (mtr s) q.
  Proof. intros s (pre & suf & rest & th & I). exists (map (mdata s) rest), th. exact (m_lin _ _ _ _ _ I). Qed.

  (** A running thread can always execute its next access. *)
  Lemma MInv_enabled : forall s t addr, MInv s -> mp s t <> MIdle -> alive s addr = false ->
    exists s', mstep s (MStep t addr) = Some s'.
  Proof.
    intros s t addr (pre & suf & rest & th & I) N LA. assert (K := m_know _ _ _ _ _ I t). cbn. rewrite LA.
    destruct (mp s t); cbn [mknow] in K; eauto; try congruence.
    - destruct (mtail s =? tp); [destruct nx|]; eauto.
    - destruct (mnext s tp); eauto.
    - destruct (mtail s =? tp); eauto.
    - destruct (mtail s =? tp); eauto.
    - destruct (mnext s hp); [|destruct (hp =? tp)]; eauto.
    - destruct (mhead s =? hp); [destruct (hp =? tp); [destruct nx|]|]; eauto.
    - destruct K as (_ & m & -> & _). destruct (mtail s =? tp); eauto.
    - destruct K as (_ & _ & m & -> & _). eauto.
    - destruct (mhead s =? hp); eauto.
  Qed.

  (** Nodes are allocated once, linked once and freed once. *)
  Lemma MInv_free : forall s t hp v, MInv s -> mp s t = QFree hp v ->
    alive s hp = true /\ ~ reaches (mnext s) (mhead s) hp /\ (forall u w, u <> t -> mp s u <> QFree hp w).
  Proof.
    intros s t hp v (pre & suf & rest & th & I) P. assert (O := m_own _ _ _ _ _ I t hp). rewrite P in O.
    destruct (O eq_refl) as [O1 O2]. split; auto. split.
    - rewrite (linked_reaches _ _ _ (m_lnk _ _ _ _ _ I)). exact O2.
    - intros u w N E. apply N. apply (m_uni _ _ _ _ _ I u t hp); [rewrite E|rewrite P]; auto.
  Qed.
End Proofs.

(** A thread running alone completes its operation. *)
Section Solo.
  Context {A : Type}.
  Notation ms := (ms A).
  Variables (t addr : nat).

  Definition solo (s : ms) : Prop :=
    exists k s', exec mstep s (repeat (MStep t addr) k) = Some s' /\ mp s' t = MIdle.

  Lemma solo_idle : forall s, mp s t = MIdle -> solo s.
  Proof. intros s H. exists 0, s. split; auto. Qed.

  Lemma solo_step : forall s s1, mstep s (MStep t addr) = Some s1 -> solo s1 -> solo s.
  Proof. intros s s1 H (k & s' & E & P). exists (S k), s'. cbn [repeat exec]. rewrite H. auto. Qed.

  Ltac st P := eapply solo_step; [cbn; rewrite P; try reflexivity|].

  Lemma solo_swing : forall s n tp, mp s t = MSwing n tp -> solo s.
  Proof.
    intros s n tp P. st P; [|]. instantiate (1 := if mtail s =? tp then _ else _). destruct (mtail s =? tp); reflexivity.
    apply solo_idle. destruct (mtail s =? tp); cbn; apply fupd_eq.
  Qed.

  Lemma solo_mtail : forall suf s x n, mp s t = MTail x n -> linked (mnext s) (mtail s :: suf) -> solo s.
  Proof.
    intros suf. induction suf as [|m suf IH]; intros s x n P L.
    - cbn in L. st P. eapply solo_step; [cbn; rewrite fupd_eq; reflexivity|].
      eapply solo_step; [cbn; rewrite fupd_eq, L, Nat.eqb_refl; reflexivity|].
      eapply solo_step; [cbn; rewrite fupd_eq, L; reflexivity|].
      eapply solo_swing. cbn. apply fupd_eq.
    - cbn [linked] in L. destruct L as [L1 L2]. st P. eapply solo_step; [cbn; rewrite fupd_eq; reflexivity|].
      eapply solo_step; [cbn; rewrite fupd_eq, L1, Nat.eqb_refl; reflexivity|].
      eapply solo_step; [cbn; rewrite fupd_eq, Nat.eqb_refl; reflexivity|].
      eapply IH; [cbn; apply fupd_eq|exact L2].
  Qed.

  Lemma linked_suffix : forall nx pre a suf, linked nx (pre ++ a :: suf) -> linked nx (a :: suf).
  Proof.
    intros nx pre. induction pre as [|b r IH]; intros a suf H; [exact H|].
    apply IH. destruct r as [|c r]; cbn in H; cbn; tauto.
  Qed.

  Lemma solo_mtail_inv : forall s x n, MInv s -> mp s t = MTail x n -> solo s.
  Proof.
    intros s x n (pre & suf & rest & th & I) P. apply (solo_mtail suf s x n P).
    assert (L := m_lnk _ _ _ _ _ I). rewrite <- (m_ch _ _ _ _ _ I) in L. eapply linked_suffix; eauto.
  Qed.

  Lemma solo_qfree : forall s hp v, mp s t = QFree hp v -> solo s.
  Proof. intros s hp v P. st P. apply solo_idle. cbn. apply fupd_eq. Qed.

  Lemma solo_qhead2 : forall (s : ms) nx, mp s t = QHead -> mnext s (mhead s) = Some nx -> mtail s <> mhead s -> solo s.
  Proof.
    intros s nx P L N. st P. eapply solo_step; [cbn; rewrite fupd_eq; reflexivity|].
    assert (N' : (mhead s =? mtail s) = false) by (apply Nat.eqb_neq; auto).
    eapply solo_step; [cbn; rewrite fupd_eq, L; reflexivity|].
    eapply solo_step; [cbn; rewrite fupd_eq, Nat.eqb_refl, N'; reflexivity|].
    eapply solo_step; [cbn; rewrite fupd_eq; reflexivity|].
    eapply solo_step; [cbn; rewrite fupd_eq, Nat.eqb_refl; reflexivity|].
    eapply solo_qfree. cbn. apply fupd_eq.
  Qed.

  Lemma solo_qhead : forall s, MInv s -> mp s t = QHead -> solo s.
  Proof.
    intros s (pre & suf & rest & th & I) P. assert (L := m_lnk _ _ _ _ _ I). assert (ND := m_nd _ _ _ _ _ I).
    assert (CH := m_ch _ _ _ _ _ I). destruct (Nat.eq_dec (mtail s) (mhead s)) as [ET|NT].
    - st P. eapply solo_step; [cbn; rewrite fupd_eq; reflexivity|]. rewrite ET.
      destruct rest as [|m r]; cbn [linked] in L.
      + eapply solo_step; [cbn; rewrite fupd_eq, L, Nat.eqb_refl; reflexivity|].
        eapply solo_step; [cbn; rewrite fupd_eq, !Nat.eqb_refl; reflexivity|].
        apply solo_idle. cbn. apply fupd_eq.
      + destruct L as [L1 L2].
        eapply solo_step; [cbn; rewrite fupd_eq, L1; reflexivity|].
        eapply solo_step; [cbn; rewrite fupd_eq, !Nat.eqb_refl; reflexivity|].
        eapply solo_step; [cbn; rewrite fupd_eq, ET, Nat.eqb_refl; reflexivity|].
        eapply solo_qhead2; [cbn; apply fupd_eq|cbn; exact L1|cbn].
        inversion ND; subst. intro; subst. apply H1. cbn; auto.
    - destruct pre as [|p0 pre]; cbn in CH; injection CH as C1 C2; [congruence|].
      destruct rest as [|m r]; [destruct pre; discriminate|]. cbn [linked] in L. destruct L as [L1 L2].
      eapply solo_qhead2; eauto.
  Qed.

  Lemma MInv_solo : forall s, MInv s -> alive s addr = false -> (forall u, hazard (mp s u) <> Some addr) -> solo s.
  Proof.
    intros s I LA NH.
    assert (ST : forall s', mstep s (MStep t addr) = Some s' -> MInv s').
    { intros s' E. eapply Inv_step; [exact I| |exact E]. intros t0 a0 x E0 _ u. injection E0 as <- <-. apply NH. }
    assert (ST' : forall (s1 s' : ms), MInv s1 -> (forall x, mp s1 t <> MAlloc x) -> mstep s1 (MStep t addr) = Some s' -> MInv s').
    { intros s1 s' I1 NA E. eapply Inv_step; [exact I1| |exact E]. intros t0 a0 x E0 X. injection E0 as <- <-. destruct (NA x X). }
    assert (HC : forall (s1 : ms) x n tp, MInv s1 -> mp s1 t = MCas x n tp -> solo s1).
    { intros s1 x n tp I1 P. destruct (mnext s1 tp) eqn:E.
      - assert (E1 : mstep s1 (MStep t addr) = Some (mgo s1 t (MTail x n))) by (cbn; rewrite P, E; reflexivity).
        eapply solo_step; [exact E1|]. eapply solo_mtail_inv; [|cbn; apply fupd_eq].
        eapply ST'; [exact I1| |exact E1]. rewrite P. discriminate.
      - eapply solo_step; [cbn; rewrite P, E; reflexivity|]. eapply solo_swing. cbn. apply fupd_eq. }
    assert (HH : forall (s1 : ms) x n tp nx, MInv s1 -> mp s1 t = MHelp x n tp nx -> solo s1).
    { intros s1 x n tp nx I1 P.
      assert (E1 : exists s2, mstep s1 (MStep t addr) = Some s2 /\ mp s2 t = MTail x n).
      { cbn; rewrite P. destruct (mtail s1 =? tp); eexists; (split; [reflexivity|cbn; apply fupd_eq]). }
      destruct E1 as (s2 & E1 & P2). eapply solo_step; [exact E1|]. eapply solo_mtail_inv; [|exact P2].
      eapply ST'; [exact I1| |exact E1]. rewrite P. discriminate. }
    assert (HK : forall (s1 : ms) x n tp nx, MInv s1 -> mp s1 t = MChk x n tp nx -> solo s1).
    { intros s1 x n tp nx I1 P.
      assert (E1 : exists s2, mstep s1 (MStep t addr) = Some s2 /\
                 (mp s2 t = MTail x n \/ mp s2 t = MCas x n tp \/ exists m, mp s2 t = MHelp x n tp m)).
      { cbn; rewrite P. destruct (mtail s1 =? tp); [destruct nx|]; eexists; (split; [reflexivity|cbn; rewrite fupd_eq; eauto]). }
      destruct E1 as (s2 & E1 & P2).
      assert (I2 : MInv s2) by (eapply ST'; [exact I1| |exact E1]; rewrite P; discriminate).
      eapply solo_step; [exact E1|]. destruct P2 as [P2|[P2|[m P2]]]; [eapply solo_mtail_inv|eapply HC|eapply HH]; eauto. }
    assert (QC : forall (s1 : ms) hp nx v, MInv s1 -> mp s1 t = QCas hp nx v -> solo s1).
    { intros s1 hp nx v I1 P. destruct (mhead s1 =? hp) eqn:E.
      - eapply solo_step; [cbn; rewrite P, E; reflexivity|]. eapply solo_qfree. cbn. apply fupd_eq.
      - assert (E1 : mstep s1 (MStep t addr) = Some (mgo s1 t QHead)) by (cbn; rewrite P, E; reflexivity).
        eapply solo_step; [exact E1|]. eapply solo_qhead; [|cbn; apply fupd_eq].
        eapply ST'; [exact I1| |exact E1]. rewrite P. discriminate. }
    assert (QD : forall (s1 : ms) hp nx, MInv s1 -> mp s1 t = QData hp nx -> solo s1).
    { intros s1 hp nx I1 P. assert (exists m, nx = Some m) as [m ->].
      { destruct I1 as (pre & suf & rest & th & I1). assert (K := m_know _ _ _ _ _ I1 t). rewrite P in K. cbn in K.
        destruct K as (_ & _ & m & -> & _). eauto. }
      assert (E1 : mstep s1 (MStep t addr) = Some (mgo s1 t (QCas hp m (mdata s1 m)))) by (cbn; rewrite P; reflexivity).
      eapply solo_step; [exact E1|]. eapply QC; [|cbn; apply fupd_eq].
      eapply ST'; [exact I1| |exact E1]. rewrite P. discriminate. }
    assert (QH : forall (s1 : ms) hp tp nx, MInv s1 -> mp s1 t = QHelp hp tp nx -> solo s1).
    { intros s1 hp tp nx I1 P. assert (exists m, nx = Some m) as [m ->].
      { destruct I1 as (pre & suf & rest & th & I1). assert (K := m_know _ _ _ _ _ I1 t). rewrite P in K. cbn in K.
        destruct K as (_ & m & -> & _). eauto. }
      assert (E1 : exists s2, mstep s1 (MStep t addr) = Some s2 /\ mp s2 t = QHead).
      { cbn; rewrite P. destruct (mtail s1 =? tp); eexists; (split; [reflexivity|cbn; apply fupd_eq]). }
      destruct E1 as (s2 & E1 & P2). eapply solo_step; [exact E1|]. eapply solo_qhead; [|exact P2].
      eapply ST'; [exact I1| |exact E1]. rewrite P. discriminate. }
    assert (QK : forall (s1 : ms) hp tp nx, MInv s1 -> mp s1 t = QChk hp tp nx -> solo s1).
    { intros s1 hp tp nx I1 P.
      assert (E1 : exists s2, mstep s1 (MStep t addr) = Some s2 /\
                 (mp s2 t = QHead \/ mp s2 t = MIdle \/ mp s2 t = QHelp hp tp nx \/ mp s2 t = QData hp nx)).
      { cbn; rewrite P. destruct (mhead s1 =? hp); [destruct (hp =? tp); [destruct nx|]|]; eexists;
          (split; [reflexivity|cbn; rewrite fupd_eq; eauto]). }
      destruct E1 as (s2 & E1 & P2).
      assert (I2 : MInv s2) by (eapply ST'; [exact I1| |exact E1]; rewrite P; discriminate).
      eapply solo_step; [exact E1|]. destruct P2 as [P2|[P2|[P2|P2]]];
        [eapply solo_qhead|eapply solo_idle|eapply QH|eapply QD]; eauto. }
    assert (QN : forall (s1 : ms) hp tp, MInv s1 -> mp s1 t = QNext hp tp -> solo s1).
    { intros s1 hp tp I1 P.
      assert (E1 : exists s2 nx, mstep s1 (MStep t addr) = Some s2 /\ mp s2 t = QChk hp tp nx).
      { cbn; rewrite P. destruct (mnext s1 hp); [|destruct (hp =? tp)]; do 2 eexists; (split; [reflexivity|cbn; apply fupd_eq]). }
      destruct E1 as (s2 & nx & E1 & P2).
      assert (I2 : MInv s2) by (eapply ST'; [exact I1| |exact E1]; rewrite P; discriminate).
      eapply solo_step; [exact E1|]. eapply QK; eauto. }
    destruct (mp s t) as [|x|x n|x n|x n tp|x n tp nx|x n tp|x n tp nx|n tp| |hp|hp tp|hp tp nx|hp tp nx|hp nx|hp nx v|hp v] eqn:P.
    - apply solo_idle; auto.
    - assert (E1 : exists s1, mstep s (MStep t addr) = Some s1 /\ mp s1 t = MInit x addr).
      { cbn. rewrite P, LA. eexists; split; [reflexivity|cbn; apply fupd_eq]. }
      destruct E1 as (s1 & E1 & P1). eapply solo_step; [exact E1|]. assert (I1 := ST _ E1).
      assert (E2 : exists s2, mstep s1 (MStep t addr) = Some s2 /\ mp s2 t = MTail x addr).
      { cbn. rewrite P1. eexists; split; [reflexivity|cbn; apply fupd_eq]. }
      destruct E2 as (s2 & E2 & P2). eapply solo_step; [exact E2|]. eapply solo_mtail_inv; [|exact P2].
      eapply ST'; [exact I1| |exact E2]. rewrite P1; discriminate.
    - assert (E1 : exists s1, mstep s (MStep t addr) = Some s1 /\ mp s1 t = MTail x n).
      { cbn. rewrite P. eexists; split; [reflexivity|cbn; apply fupd_eq]. }
      destruct E1 as (s1 & E1 & P1). eapply solo_step; [exact E1|]. eapply solo_mtail_inv; eauto.
    - eapply solo_mtail_inv; eauto.
    - assert (E1 : exists s1, mstep s (MStep t addr) = Some s1 /\ mp s1 t = MChk x n tp (mnext s tp)).
      { cbn. rewrite P. eexists; split; [reflexivity|cbn; apply fupd_eq]. }
      destruct E1 as (s1 & E1 & P1). eapply solo_step; [exact E1|]. eapply HK; eauto.
    - eapply HK; eauto.
    - eapply HC; eauto.
    - eapply HH; eauto.
    - eapply solo_swing; eauto.
    - eapply solo_qhead; eauto.
    - assert (E1 : exists s1, mstep s (MStep t addr) = Some s1 /\ mp s1 t = QNext hp (mtail s)).
      { cbn. rewrite P. eexists; split; [reflexivity|cbn; apply fupd_eq]. }
      destruct E1 as (s1 & E1 & P1). eapply solo_step; [exact E1|]. eapply QN; eauto.
    - eapply QN; eauto.
    - eapply QK; eauto.
    - eapply QH; eauto.
    - eapply QD; eauto.
    - eapply QC; eauto.
    - eapply solo_qfree; eauto.
  Qed.
End Solo.
