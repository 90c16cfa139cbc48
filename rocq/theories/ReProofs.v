(** Repeated runs: the invariant. *)
From Coq Require Import List Arith Bool Lia.
From Verif Require Import Base NetModel NetSpec NetProofs NetProofs2 NetProofs3 NetProofs4 NetProps ReModel ReSpec.
Import ListNotations.

(** Concatenations over the runs. *)
Lemma fm_ext : forall {T} (g h : nat -> list T) a k, (forall r, a <= r -> r < a + k -> g r = h r) -> flat_map g (seq a k) = flat_map h (seq a k).
Proof.
  intros T g h a k. revert a. induction k as [|k IH]; intros a H; simpl; auto. rewrite (H a) by lia. f_equal. apply IH. intros. apply H; lia.
Qed.
Lemma fm_nil : forall {T} (g : nat -> list T) a k, (forall r, a <= r -> r < a + k -> g r = []) -> flat_map g (seq a k) = [].
Proof. intros T g a k H. rewrite (fm_ext g (fun _ => []) a k H). induction (seq a k); auto. Qed.
Lemma fm_split : forall {T} (g : nat -> list T) r k, r < k ->
  flat_map g (seq 0 k) = flat_map g (seq 0 r) ++ g r ++ flat_map g (seq (S r) (k - S r)).
Proof.
  intros T g r k H. replace k with (r + S (k - S r)) at 1 by lia. rewrite seq_app, flat_map_app. simpl. auto.
Qed.
Lemma fm_push : forall {T} (g h : nat -> list T) r k x, r < k -> h r = g r ++ x -> (forall i, i <> r -> h i = g i) ->
  (forall i, r < i -> i < k -> g i = []) -> flat_map h (seq 0 k) = flat_map g (seq 0 k) ++ x.
Proof.
  intros T g h r k x R H O E. rewrite (fm_split h r k R), (fm_split g r k R), H.
  rewrite (fm_ext h g 0 r) by (intros; apply O; lia).
  rewrite (fm_nil h (S r)) by (intros; rewrite O by lia; apply E; lia).
  rewrite (fm_nil g (S r)) by (intros; apply E; lia). rewrite !app_nil_r, app_assoc. auto.
Qed.
Lemma fm_pop : forall {T} (g h : nat -> list T) r k x, r < k -> g r = x ++ h r -> (forall i, i <> r -> h i = g i) ->
  (forall i, i < r -> g i = []) -> flat_map g (seq 0 k) = x ++ flat_map h (seq 0 k).
Proof.
  intros T g h r k x R H O E. rewrite (fm_split h r k R), (fm_split g r k R), H.
  rewrite (fm_nil g 0 r) by (intros; apply E; lia). rewrite (fm_nil h 0 r) by (intros; rewrite O by lia; apply E; lia).
  rewrite (fm_ext h g (S r)) by (intros; apply O; lia). simpl. rewrite app_assoc. auto.
Qed.
Lemma fm_nonempty : forall {T} (g : nat -> list T) k x l, flat_map g (seq 0 k) = x :: l -> exists r, r < k /\ g r <> [].
Proof.
  intros T g k x l H. assert (I : In x (flat_map g (seq 0 k))) by (rewrite H; left; auto).
  apply in_flat_map in I. destruct I as (r & A & B). apply in_seq in A. exists r. split; [lia|]. intros E. rewrite E in B. destruct B.
Qed.

Definition node_of (a : act) : nat := match a with Get v _ | Put v _ _ | Next v | Fin v => v end.

Section Proofs.
  Context {X St : Type}.
  Variables (n : nat) (chs : list chan) (first : nat -> St)
            (reboot : nat -> St -> St * list (list (req X)))
            (svc0 : nat -> St -> nat -> X -> St * list (list (req X)) * bool)
            (eosn0 : nat -> St -> nat -> St * list (list (req X))).
  Notation NR := (NR n chs reboot svc0 eosn0).
  Notation N := (NR first).
  Notation mstep := (mstep n chs first reboot svc0 eosn0).
  Notation m_init := (m_init n chs first reboot svc0 eosn0).
  Notation st := (st X St).

  (** States that agree on the nodes in [P]. *)
  Record simv (P : nat -> Prop) (s t : st) : Prop := {
    v_q : forall c, q s c = q t c; v_hs : forall c, hs s c = hs t c;
    v_hl : forall v, hl s v = hl t v; v_hp : forall v, hp s v = hp t v;
    v_nd : forall v, P v -> nd s v = nd t v }.

  Lemma step_other : forall f s a s' w, step (NR f) s a = Some s' -> w <> node_of a -> nd s' w = nd s w.
  Proof.
    intros f s a s' w E D. destruct a as [v c|v k j|v|v]; simpl in E, D.
    - destruct (ph (nd s v)); try discriminate. destruct (pend (nd s v)); try discriminate. destruct (q s c); try discriminate.
      destruct (_ && _); try discriminate. injection E as <-. simpl. rewrite fupd_neq; auto.
    - destruct (pend (nd s v)) as [|g p]; try discriminate. destruct (nth_error g k); try discriminate.
      destruct (resolve _ _ _ _) as [[c m]|]; try discriminate. destruct (_ && _); try discriminate. injection E as <-. simpl. rewrite fupd_neq; auto.
    - destruct (pend (nd s v)) as [|[|] p]; try discriminate. destruct (_ <? _); try discriminate. injection E as <-. simpl. rewrite fupd_neq; auto.
    - destruct (ph (nd s v)); try discriminate. destruct (pend (nd s v)); try discriminate. destruct (_ <? _); try discriminate.
      injection E as <-. simpl. rewrite fupd_neq; auto.
  Qed.

  Lemma step_sim : forall f g P s t a s', simv P s t -> P (node_of a) -> step (NR f) s a = Some s' ->
    exists t', step (NR g) t a = Some t' /\ simv P s' t'.
  Proof.
    intros f g P s t a s' [Q HS HL HP ND] PV E. pose proof (ND _ PV) as NV.
    assert (U : forall {A} (x y : nat -> A) k z, (forall i, x i = y i) -> forall i, fupd x k z i = fupd y k z i) by (intros; unfold fupd; destruct (i =? k); auto).
    assert (UN : forall (x y : nat -> node X St) k z, (forall v, P v -> x v = y v) -> forall v, P v -> fupd x k z v = fupd y k z v) by (intros; unfold fupd; destruct (v =? k); auto).
    destruct a as [v c|v k j|v|v]; simpl in E, PV, NV |- *; rewrite <- NV.
    - destruct (ph (nd s v)); try discriminate. destruct (pend (nd s v)); try discriminate. rewrite <- Q. destruct (q s c) as [|m r]; try discriminate.
      destruct (_ && _); try discriminate. injection E as <-. eexists. split; [reflexivity|].
      rewrite <- (HL v). constructor; simpl; intros; solve [apply UN; auto|apply U; auto|auto].
    - destruct (pend (nd s v)) as [|h p]; try discriminate. destruct (nth_error h k) as [r|]; try discriminate.
      change (resolve (NR g) v r j) with (resolve (NR f) v r j). destruct (resolve (NR f) v r j) as [[c m]|]; try discriminate.
      assert (RM : room (NR g) t c = room (NR f) s c). { unfold room. change (chan_of (NR g) c) with (chan_of (NR f) c). rewrite Q. auto. }
      rewrite RM. destruct (_ && _); try discriminate. injection E as <-. eexists. split; [reflexivity|].
      constructor; simpl; intros; rewrite <- ?Q, <- ?HS, <- ?HP; solve [apply UN; auto|apply U; auto|auto].
    - destruct (pend (nd s v)) as [|[|] p]; try discriminate. destruct (_ <? _); try discriminate. injection E as <-.
      eexists. split; [reflexivity|]. constructor; simpl; intros; auto.
    - destruct (ph (nd s v)); try discriminate. destruct (pend (nd s v)); try discriminate. destruct (_ <? _); try discriminate.
      injection E as <-. eexists. split; [reflexivity|]. constructor; simpl; intros; auto.
  Qed.

  Hypothesis W : forall f, wf (NR f).
  Hypothesis PT : forall v u c x, snd (svc0 v u c x) = false.
  Variable K : nat.

  Record Inv (s : mst X St) (B : nat -> nat -> St) (T : nat -> st) (L : nat -> list act) : Prop := {
    n_first : forall v, B 0 v = first v;
    n_exec : forall r f, (forall v, r <= run s v -> f v = B r v) -> exists t,
      exec (step (NR f)) (init_st (NR f)) (L r) = Some t /\ simv (fun v => r <= run s v) t (T r) /\
      forall v, run s v < r -> nd t v = init_node (NR f) v;
    n_past : forall r v, r < run s v -> ph (nd (T r) v) = Done /\ B (S r) v = ust (nd (T r) v);
    n_now : forall v, nd (base s) v = nd (T (run s v)) v;
    n_later : forall r v, run s v < r -> hl (T r) v = [] /\ hp (T r) v = [];
    n_empty : forall r c k, chan_of N c = Some k -> run s (src k) < r -> q (T r) c = [] /\ hs (T r) c = [];
    n_run : forall v, v < n -> run s v < K;
    n_read : forall v, hl (base s) v = flat_map (fun r => hl (T r) v) (seq 0 K);
    n_push : forall v, hp (base s) v = flat_map (fun r => hp (T r) v) (seq 0 K);
    n_sent : forall c, hs (base s) c = flat_map (fun r => hs (T r) c) (seq 0 K);
    n_held : forall c, q (base s) c = flat_map (fun r => q (T r) c) (seq 0 K) }.

  (** The run r as an execution of its own. *)
  Lemma run_reach : forall s B T L r, Inv s B T L -> exists t, exec (step (NR (B r))) (init_st (NR (B r))) (L r) = Some t /\
    simv (fun v => r <= run s v) t (T r).
  Proof. intros s B T L r I. destruct (n_exec _ _ _ _ I r (B r)) as (t & E & SM & _); eauto. Qed.

  (** A thread that ended run r left nothing of it in its input channels. *)
  Lemma past_empty : forall s B T L r c k, Inv s B T L -> chan_of N c = Some k ->
    r < run s (dst k) \/ (r = run s (dst k) /\ ph (nd (base s) (dst k)) = Done) -> q (T r) c = [].
  Proof.
    intros s B T L r c k I C H. destruct (run_reach s B T L r I) as (t & E & SM).
    assert (LE : r <= run s (dst k)) by lia.
    assert (D : ph (nd t (dst k)) = Done).
    { rewrite (v_nd _ _ _ SM) by auto. destruct H as [H|[-> H]]; [apply (n_past _ _ _ _ I); auto|]. rewrite <- (n_now _ _ _ _ I). auto. }
    rewrite <- (v_q _ _ _ SM). apply (ended_empty _ (W _) _ _ c k E C).
    apply (i_cls _ _ (reach _ _ _ E)); [congruence| |].
    - intros u c' x. apply PT.
    - apply in_ins. exists k. split; auto.
  Qed.

  (** What a thread reads is of the run it is in. *)
  Lemma head_of_run : forall s B T L v c m l, Inv s B T L -> v < n -> In c (ins N v) -> ~ In c (ended (nd (base s) v)) ->
    q (base s) c = m :: l -> exists l1, q (T (run s v)) c = m :: l1.
  Proof.
    intros s B T L v c m l I V IC NE E. apply in_ins in IC as (k & C & DK). pose proof (n_run _ _ _ _ I v V) as RK.
    destruct (q (T (run s v)) c) as [|m1 l1] eqn:EQ.
    - exfalso. pose proof E as E2. rewrite (n_held _ _ _ _ I) in E2. apply fm_nonempty in E2 as (r & RL & NZ).
      assert (RG : run s v < r).
      { destruct (lt_eq_lt_dec r (run s v)) as [[H|H]|H]; auto; exfalso; apply NZ; [|subst; auto].
        apply (past_empty s B T L r c k I C). left. rewrite DK. auto. }
      assert (RU : run s v < run s (src k)).
      { destruct (le_lt_dec r (run s (src k))); [lia|]. exfalso. apply NZ. apply (n_empty _ _ _ _ I r c k C). auto. }
      destruct (run_reach s B T L (run s v) I) as (t & X1 & SM). pose proof (reach _ _ _ X1) as J.
      assert (D : ph (nd t (src k)) = Done) by (rewrite (v_nd _ _ _ SM) by lia; apply (n_past _ _ _ _ I); auto).
      pose proof (done_eos _ t c k J C D) as DE. rewrite (i_read _ _ J c k C) in DE. rewrite (v_q _ _ _ SM), EQ, app_nil_r, DK in DE.
      apply NE. rewrite (n_now _ _ _ _ I), <- (v_nd _ _ _ SM) by lia. apply (i_ended _ _ J). apply in_on. auto.
    - exists l1. f_equal. rewrite (n_held _ _ _ _ I), (fm_split _ (run s v) K RK), EQ in E.
      rewrite (fm_nil _ 0) in E; [simpl in E; congruence|]. intros r _ HR. apply (past_empty s B T L r c k I C). left. rewrite DK. lia.
  Qed.

  Lemma step_lt : forall f s a s', step (NR f) s a = Some s' -> node_of a < n.
  Proof.
    intros f s a s' E. destruct a as [v c|v k j|v|v]; simpl in E |- *.
    - destruct (ph (nd s v)); try discriminate. destruct (pend (nd s v)); try discriminate. destruct (q s c); try discriminate.
      destruct (v <? n) eqn:V; [apply Nat.ltb_lt; auto|discriminate].
    - destruct (pend (nd s v)) as [|g p]; try discriminate. destruct (nth_error g k); try discriminate.
      destruct (resolve _ _ _ _) as [[c m]|]; try discriminate. destruct (v <? n) eqn:V; [apply Nat.ltb_lt; auto|discriminate].
    - destruct (pend (nd s v)) as [|[|] p]; try discriminate. destruct (v <? n) eqn:V; [apply Nat.ltb_lt; auto|discriminate].
    - destruct (ph (nd s v)); try discriminate. destruct (pend (nd s v)); try discriminate. destruct (v <? n) eqn:V; [apply Nat.ltb_lt; auto|discriminate].
  Qed.

  (** A step of the run r. *)
  Lemma rebuild : forall s B T L b s1 r T1, Inv s B T L -> r = run s (node_of b) ->
    step N (base s) b = Some s1 -> step N (T r) b = Some T1 ->
    nd s1 (node_of b) = nd T1 (node_of b) ->
    (forall w, w <> node_of b -> hl T1 w = hl (T r) w /\ hp T1 w = hp (T r) w) ->
    (forall c k, chan_of N c = Some k -> run s (src k) < r -> q T1 c = [] /\ hs T1 c = []) ->
    (forall v, hl s1 v = flat_map (fun i => hl (fupd T r T1 i) v) (seq 0 K)) ->
    (forall v, hp s1 v = flat_map (fun i => hp (fupd T r T1 i) v) (seq 0 K)) ->
    (forall c, hs s1 c = flat_map (fun i => hs (fupd T r T1 i) c) (seq 0 K)) ->
    (forall c, q s1 c = flat_map (fun i => q (fupd T r T1 i) c) (seq 0 K)) ->
    Inv (mkM s1 (run s)) B (fupd T r T1) (fupd L r (L r ++ [b])).
  Proof.
    intros s B T L b s1 r T1 I HR E1 E2 HN HO HE F1 F2 F3 F4. constructor; cbn [base run]; auto.
    - apply (n_first _ _ _ _ I).
    - intros i f AG. destruct (n_exec _ _ _ _ I i f AG) as (t & EX & SM & NB). destruct (Nat.eq_dec i r) as [->|NE].
      + rewrite !fupd_eq.
        assert (SM' : simv (fun v => r <= run s v) (T r) t) by (destruct SM as [A1 A2 A3 A4 A5]; constructor; intros; symmetry; auto).
        destruct (step_sim first f _ (T r) t b T1 SM') as (t' & ES & SM2); [rewrite <- HR; auto|exact E2|].
        exists t'. split; [|split].
        * apply exec_app. exists t. split; auto. cbn [exec]. rewrite ES. auto.
        * destruct SM2 as [A1 A2 A3 A4 A5]; constructor; intros; symmetry; auto.
        * intros v HV. rewrite (step_other f t b t' v ES); [apply NB; auto|]. intros ->. lia.
      + rewrite !fupd_neq by auto. eauto.
    - intros i v HI. unfold fupd. destruct (Nat.eqb_spec i r) as [->|]; [|apply (n_past _ _ _ _ I); auto].
      rewrite (step_other first (T r) b T1 v E2); [apply (n_past _ _ _ _ I); auto|]. intros ->. lia.
    - intros v. destruct (Nat.eq_dec v (node_of b)) as [->|NV]; [rewrite <- HR, fupd_eq; auto|].
      rewrite (step_other first _ b s1 v E1 NV), (n_now _ _ _ _ I). unfold fupd. destruct (Nat.eqb_spec (run s v) r) as [EQ|]; auto.
      rewrite (step_other first (T r) b T1 v E2 NV), EQ. auto.
    - intros i v HI. unfold fupd. destruct (Nat.eqb_spec i r) as [->|]; [|apply (n_later _ _ _ _ I); auto].
      destruct (HO v) as [H1 H2]; [intros ->; lia|]. rewrite H1, H2. apply (n_later _ _ _ _ I); auto.
    - intros i c k C HI. unfold fupd. destruct (Nat.eqb_spec i r) as [->|]; [apply (HE c k C); auto|]. apply (n_empty _ _ _ _ I i c k); auto.
    - apply (n_run _ _ _ _ I).
  Qed.

  (** Concatenations unchanged by a change of [T r] that does not concern them. *)
  Lemma fm_same : forall {A} (T : nat -> st) r T1 (pr : st -> list A), pr T1 = pr (T r) ->
    flat_map (fun i => pr (fupd T r T1 i)) (seq 0 K) = flat_map (fun i => pr (T i)) (seq 0 K).
  Proof. intros A T r T1 pr H. apply fm_ext. intros i _ _. unfold fupd. destruct (Nat.eqb_spec i r) as [->|]; auto. Qed.
  Lemma fm_add : forall {A} (T : nat -> st) r T1 (pr : st -> list A) x, r < K -> pr T1 = pr (T r) ++ x ->
    (forall i, r < i -> i < K -> pr (T i) = []) ->
    flat_map (fun i => pr (fupd T r T1 i)) (seq 0 K) = flat_map (fun i => pr (T i)) (seq 0 K) ++ x.
  Proof.
    intros A T r T1 pr x R H O. apply (fm_push (fun i => pr (T i)) (fun i => pr (fupd T r T1 i)) r K x R); auto.
    - rewrite fupd_eq. auto.
    - intros i NI. rewrite fupd_neq; auto.
  Qed.

  Lemma step_ok : forall s B T L b s1, Inv s B T L -> step N (base s) b = Some s1 -> exists T1, 
    Inv (mkM s1 (run s)) B (fupd T (run s (node_of b)) T1) (fupd L (run s (node_of b)) (L (run s (node_of b)) ++ [b])).
  Proof.
    intros s B T L b s1 I E. pose proof (step_lt _ _ _ _ E) as VL. pose proof (n_run _ _ _ _ I _ VL) as RK.
    pose proof (n_now _ _ _ _ I (node_of b)) as NW. set (r := run s (node_of b)) in *.
    assert (E0 := E). destruct b as [v c|v k j|v|v]; cbn [node_of] in *; simpl in E.
    - destruct (ph (nd (base s) v)) eqn:PH; try discriminate. destruct (pend (nd (base s) v)) eqn:PE; try discriminate.
      destruct (q (base s) c) as [|m l] eqn:EQ; try discriminate.
      destruct ((v <? n) && memb c (ins N v) && negb (memb c (ended (nd (base s) v)))) eqn:G; try discriminate. injection E as <-.
      pose proof G as G'. apply andb_true_iff in G' as [G' G3]. apply andb_true_iff in G' as [_ G2].
      assert (IC : In c (ins N v)) by (apply memb_In; auto).
      assert (NE : ~ In c (ended (nd (base s) v))) by (intros H; apply memb_In in H; rewrite H in G3; discriminate).
      destruct (head_of_run s B T L v c m l I VL IC NE EQ) as (l1 & EQ1).
      assert (EM : forall i, i < r -> q (T i) c = []).
      { intros i Hi. apply in_ins in IC as (k & C & DK). apply (past_empty s B T L i c k I C). left. rewrite DK. auto. }
      exists (mkSt (fupd (q (T r)) c l1) (fupd (nd (T r)) v (react N v (nd (base s) v) c m)) (hs (T r)) (fupd (hl (T r)) v (hl (T r) v ++ [(c, m)])) (hp (T r))).
      apply (rebuild s B T L (Get v c) _ r _ I eq_refl E0); cbn [q nd hs hl hp node_of].
      + simpl. rewrite <- NW, PH, PE. fold r in EQ1. rewrite EQ1, G. reflexivity.
      + rewrite !fupd_eq. auto.
      + intros w NW'. rewrite fupd_neq; auto.
      + intros d k C HR. destruct (n_empty _ _ _ _ I r d k C HR) as [Z1 Z2]. split; auto. unfold fupd. destruct (Nat.eqb_spec d c) as [->|]; auto.
        fold r in EQ1. rewrite EQ1 in Z1. discriminate.
      + intros w. unfold fupd at 1. destruct (Nat.eqb_spec w v) as [->|NV].
        * rewrite (n_read _ _ _ _ I). symmetry. apply (fm_add T r _ (fun t => hl t v)); auto; cbn [hl]; [rewrite fupd_eq; auto|].
          intros i H _. apply (n_later _ _ _ _ I). auto.
        * rewrite (n_read _ _ _ _ I). symmetry. apply (fm_same T r _ (fun t => hl t w)). cbn [hl]. rewrite fupd_neq; auto.
      + intros w. rewrite (n_push _ _ _ _ I). symmetry. apply (fm_same T r _ (fun t => hp t w)). auto.
      + intros d. rewrite (n_sent _ _ _ _ I). symmetry. apply (fm_same T r _ (fun t => hs t d)). auto.
      + intros d. unfold fupd at 1. destruct (Nat.eqb_spec d c) as [->|ND].
        * rewrite (n_held _ _ _ _ I) in EQ.
          match goal with |- _ = flat_map ?h _ => assert (X1 : flat_map (fun i => q (T i) c) (seq 0 K) = [m] ++ flat_map h (seq 0 K)) end.
          { apply (fm_pop (fun i => q (T i) c) _ r K [m]); auto.
            - rewrite fupd_eq. cbn [q]. rewrite fupd_eq. auto.
            - intros i NI. rewrite fupd_neq; auto. }
          rewrite X1 in EQ. simpl in EQ. injection EQ as EQ. auto.
        * rewrite (n_held _ _ _ _ I). symmetry. apply (fm_same T r _ (fun t => q t d)). cbn [q]. rewrite fupd_neq; auto.
    - destruct (pend (nd (base s) v)) as [|g p] eqn:PE; try discriminate. destruct (nth_error g k) as [rq|] eqn:EG; try discriminate.
      destruct (resolve N v rq j) as [[c m]|] eqn:RS; try discriminate.
      destruct ((v <? n) && room N (base s) c) eqn:G; try discriminate. injection E as <-.
      apply andb_true_iff in G as [G1 G2].
      assert (OC : In c (outs N v)) by (eapply resolves_out; eapply resolve_ok; eauto).
      apply in_outs in OC as (kc & C & SK).
      assert (RM : room N (T r) c = true).
      { unfold room in *. rewrite C in *. destruct (cap kc) as [bb|]; auto. apply Nat.ltb_lt in G2. apply Nat.ltb_lt.
        rewrite (n_held _ _ _ _ I), (fm_split _ r K RK), !app_length in G2. lia. }
      exists (mkSt (fupd (q (T r)) c (q (T r) c ++ [m])) (fupd (nd (T r)) v (mkNode (ust (nd (base s) v)) (remove_nth k g :: p) (ended (nd (base s) v)) (ph (nd (base s) v))))
                   (fupd (hs (T r)) c (hs (T r) c ++ [m])) (hl (T r)) (fupd (hp (T r)) v (hp (T r) v ++ [(c, m)]))).
      apply (rebuild s B T L (Put v k j) _ r _ I eq_refl E0); cbn [q nd hs hl hp node_of].
      + simpl. rewrite <- NW, PE, EG, RS, G1, RM. reflexivity.
      + rewrite !fupd_eq. auto.
      + intros w NW'. rewrite fupd_neq; auto.
      + intros d kd CD HR. destruct (n_empty _ _ _ _ I r d kd CD HR) as [Z1 Z2]. assert (DC : d <> c) by (intros ->; rewrite C in CD; injection CD as <-; rewrite SK in HR; unfold r in HR; lia).
        rewrite !fupd_neq; auto.
      + intros w. rewrite (n_read _ _ _ _ I). symmetry. apply (fm_same T r _ (fun t => hl t w)). auto.
      + intros w. unfold fupd at 1. destruct (Nat.eqb_spec w v) as [->|NV].
        * rewrite (n_push _ _ _ _ I). symmetry. apply (fm_add T r _ (fun t => hp t v)); auto; cbn [hp]; [rewrite fupd_eq; auto|].
          intros i H _. apply (n_later _ _ _ _ I). auto.
        * rewrite (n_push _ _ _ _ I). symmetry. apply (fm_same T r _ (fun t => hp t w)). cbn [hp]. rewrite fupd_neq; auto.
      + intros d. unfold fupd at 1. destruct (Nat.eqb_spec d c) as [->|ND].
        * rewrite (n_sent _ _ _ _ I). symmetry. apply (fm_add T r _ (fun t => hs t c)); auto; cbn [hs]; [rewrite fupd_eq; auto|].
          intros i H _. apply (n_empty _ _ _ _ I i c kc C). rewrite SK. auto.
        * rewrite (n_sent _ _ _ _ I). symmetry. apply (fm_same T r _ (fun t => hs t d)). cbn [hs]. rewrite fupd_neq; auto.
      + intros d. unfold fupd at 1. destruct (Nat.eqb_spec d c) as [->|ND].
        * rewrite (n_held _ _ _ _ I). symmetry. apply (fm_add T r _ (fun t => q t c)); auto; cbn [q]; [rewrite fupd_eq; auto|].
          intros i H _. apply (n_empty _ _ _ _ I i c kc C). rewrite SK. auto.
        * rewrite (n_held _ _ _ _ I). symmetry. apply (fm_same T r _ (fun t => q t d)). cbn [q]. rewrite fupd_neq; auto.
    - destruct (pend (nd (base s) v)) as [|[|] p] eqn:PE; try discriminate. destruct (v <? n) eqn:VN; try discriminate. injection E as <-.
      exists (mkSt (q (T r)) (fupd (nd (T r)) v (mkNode (ust (nd (base s) v)) p (ended (nd (base s) v)) (ph (nd (base s) v)))) (hs (T r)) (hl (T r)) (hp (T r))).
      apply (rebuild s B T L (Next v) _ r _ I eq_refl E0); cbn [q nd hs hl hp node_of]; auto.
      + simpl. rewrite <- NW, PE, VN. reflexivity.
      + rewrite !fupd_eq. auto.
      + intros d kd CD HR. apply (n_empty _ _ _ _ I r d kd CD HR).
      + intros w. rewrite (n_read _ _ _ _ I). symmetry. apply (fm_same T r _ (fun t => hl t w)). auto.
      + intros w. rewrite (n_push _ _ _ _ I). symmetry. apply (fm_same T r _ (fun t => hp t w)). auto.
      + intros d. rewrite (n_sent _ _ _ _ I). symmetry. apply (fm_same T r _ (fun t => hs t d)). auto.
      + intros d. rewrite (n_held _ _ _ _ I). symmetry. apply (fm_same T r _ (fun t => q t d)). auto.
    - destruct (ph (nd (base s) v)) eqn:PH; try discriminate. destruct (pend (nd (base s) v)) eqn:PE; try discriminate. destruct (v <? n) eqn:VN; try discriminate. injection E as <-.
      exists (mkSt (q (T r)) (fupd (nd (T r)) v (mkNode (ust (nd (base s) v)) [] (ended (nd (base s) v)) Done)) (hs (T r)) (hl (T r)) (hp (T r))).
      apply (rebuild s B T L (Fin v) _ r _ I eq_refl E0); cbn [q nd hs hl hp node_of]; auto.
      + simpl. rewrite <- NW, PH, PE, VN. reflexivity.
      + rewrite !fupd_eq. auto.
      + intros d kd CD HR. apply (n_empty _ _ _ _ I r d kd CD HR).
      + intros w. rewrite (n_read _ _ _ _ I). symmetry. apply (fm_same T r _ (fun t => hl t w)). auto.
      + intros w. rewrite (n_push _ _ _ _ I). symmetry. apply (fm_same T r _ (fun t => hp t w)). auto.
      + intros d. rewrite (n_sent _ _ _ _ I). symmetry. apply (fm_same T r _ (fun t => hs t d)). auto.
      + intros d. rewrite (n_held _ _ _ _ I). symmetry. apply (fm_same T r _ (fun t => q t d)). auto.
  Qed.

  (** A thread begins its next run. *)
  Lemma init_node_ext : forall f g v, f v = g v -> init_node (NR f) v = init_node (NR g) v.
  Proof.
    intros f g v H. unfold init_node. change (ins (NR g) v) with (ins (NR f) v). change (eos_group (NR g) v) with (eos_group (NR f) v).
    cbn [start boot ReModel.NR]. rewrite H. auto.
  Qed.

  Lemma again_ok : forall s B T L v s1, Inv s B T L -> mstep K s (Again v) = Some s1 -> exists B1 T1, Inv s1 B1 T1 L.
  Proof.
    intros s B T L v s1 I E. simpl in E. destruct (ph (nd (base s) v)) eqn:PH; try discriminate.
    destruct ((v <? n) && (S (run s v) <? K)) eqn:G; try discriminate. injection E as <-. apply andb_true_iff in G as [G1 G2].
    apply Nat.ltb_lt in G1, G2. set (r := S (run s v)) in *. set (nv := init_node _ v).
    exists (fupd B r (fupd (B r) v (ust (nd (base s) v)))).
    set (Tr := mkSt (q (T r)) (fupd (nd (T r)) v nv) (hs (T r)) (hl (T r)) (hp (T r))). exists (fupd T r Tr).
    assert (SAME : forall {A} (pr : st -> list A), pr Tr = pr (T r) -> flat_map (fun i => pr (T i)) (seq 0 K) = flat_map (fun i => pr (fupd T r Tr i)) (seq 0 K)).
    { intros A pr H. symmetry. apply (fm_same T r Tr pr). auto. }
    assert (NEQ : forall w, run s w <= fupd (run s) v r w) by (intros w; unfold fupd; destruct (Nat.eqb_spec w v) as [->|]; unfold r; lia).
    constructor; cbn [base run q nd hs hl hp].
    - intros w. rewrite fupd_neq by (unfold r; lia). apply (n_first _ _ _ _ I).
    - intros i f AG. destruct (Nat.eq_dec i r) as [->|NI].
      + rewrite fupd_eq. destruct (n_exec _ _ _ _ I r f) as (t & EX & SM & NB).
        { intros w HW. rewrite AG by (specialize (NEQ w); lia). rewrite fupd_eq, fupd_neq; auto. intros ->. unfold r in HW. lia. }
        exists t. split; auto. assert (FV : f v = ust (nd (base s) v)) by (rewrite AG by (rewrite fupd_eq; auto); rewrite !fupd_eq; auto).
        split.
        * destruct SM as [A1 A2 A3 A4 A5]. constructor; cbn [Tr q nd hs hl hp]; auto. intros w HW.
          destruct (Nat.eq_dec w v) as [EW|NV]; [|rewrite fupd_neq in * by auto; auto]. subst w. rewrite fupd_eq. rewrite NB by (unfold r; lia). unfold nv. apply init_node_ext. auto.
        * intros w HW. apply NB. specialize (NEQ w). lia.
      + rewrite (fupd_neq _ T) by auto. destruct (n_exec _ _ _ _ I i f) as (t & EX & SM & NB).
        { intros w HW. rewrite AG by (specialize (NEQ w); lia). rewrite fupd_neq; auto. }
        assert (EQV : forall w, i <= fupd (run s) v r w -> i <= run s w).
        { intros w. unfold fupd. destruct (Nat.eqb_spec w v) as [->|]; auto. unfold r in *. lia. }
        exists t. split; auto. split.
        * destruct SM as [A1 A2 A3 A4 A5]. constructor; auto.
        * intros w HW. apply NB. specialize (NEQ w). lia.
    - intros i w HI. destruct (Nat.eq_dec w v) as [EW|NV]; [subst w; rewrite fupd_eq in HI|rewrite fupd_neq in HI by auto].
      + rewrite (fupd_neq _ T) by lia. destruct (Nat.eq_dec i (run s v)) as [EI|NI].
        * subst i. split; [rewrite <- (n_now _ _ _ _ I); auto|]. change (S (run s v)) with r. rewrite !fupd_eq. rewrite (n_now _ _ _ _ I). auto.
        * assert (i < run s v) by (unfold r in HI; lia). rewrite fupd_neq by (unfold r; lia). apply (n_past _ _ _ _ I). auto.
      + destruct (n_past _ _ _ _ I i w HI) as [A1 A2]. split.
        * unfold fupd. destruct (Nat.eqb_spec i r) as [->|]; auto. cbn [Tr nd]. rewrite fupd_neq; auto.
        * assert (X1 : fupd B r (fupd (B r) v (ust (nd (base s) v))) (S i) w = B (S i) w).
          { unfold fupd. destruct (Nat.eqb_spec (S i) r) as [->|]; auto. destruct (Nat.eqb_spec w v); [contradiction|auto]. }
          rewrite X1, A2. f_equal. unfold fupd. destruct (Nat.eqb_spec i r) as [->|]; auto. cbn [Tr nd]. rewrite fupd_neq; auto.
    - intros w. destruct (Nat.eq_dec w v) as [->|NV].
      + rewrite !fupd_eq. cbn [Tr nd]. rewrite fupd_eq. auto.
      + rewrite !(fupd_neq _ _ v w) by auto. rewrite (n_now _ _ _ _ I). unfold fupd. destruct (Nat.eqb_spec (run s w) r) as [->|]; auto. cbn [Tr nd]. rewrite fupd_neq; auto.
    - intros i w HI. assert (run s w < i) by (specialize (NEQ w); lia). unfold fupd. destruct (Nat.eqb_spec i r) as [->|]; [cbn [Tr hl hp]|]; apply (n_later _ _ _ _ I); auto.
    - intros i c k C HI. assert (run s (src k) < i) by (specialize (NEQ (src k)); lia). unfold fupd. destruct (Nat.eqb_spec i r) as [->|]; [cbn [Tr q hs]|]; apply (n_empty _ _ _ _ I _ c k C); auto.
    - intros w HW. unfold fupd. destruct (w =? v); [auto|apply (n_run _ _ _ _ I); auto].
    - intros w. rewrite (n_read _ _ _ _ I). apply (SAME _ (fun t => hl t w)). auto.
    - intros w. rewrite (n_push _ _ _ _ I). apply (SAME _ (fun t => hp t w)). auto.
    - intros c. rewrite (n_sent _ _ _ _ I). apply (SAME _ (fun t => hs t c)). auto.
    - intros c. rewrite (n_held _ _ _ _ I). apply (SAME _ (fun t => q t c)). auto.
  Qed.

  Lemma Inv0 : 0 < K -> Inv m_init (fun _ => first) (fun _ => init_st N) (fun _ => []).
  Proof.
    intros KP. assert (Z : forall {A} (g : nat -> list A), (forall i, g i = []) -> [] = flat_map g (seq 0 K)) by (intros; symmetry; apply fm_nil; auto).
    constructor; cbn [ReModel.m_init base run init_st q nd hs hl hp]; auto; intros; try lia; try (apply Z; auto).
    exists (init_st (NR f)). split; [reflexivity|]. split; [|auto]. constructor; cbn [init_st q nd hs hl hp]; auto.
    intros v HV. apply init_node_ext. auto.
  Qed.

  Lemma exec_Inv : 0 < K -> forall l s, exec (mstep K) m_init l = Some s -> exists B T L, Inv s B T L.
  Proof.
    intros KP l s E. revert E. apply (exec_inv (mstep K) (fun s => exists B T L, Inv s B T L)).
    - intros s1 a s2 (B & T & L & I) E. destruct a as [b|v].
      + simpl in E. destruct (step N (base s1) b) as [t|] eqn:ES; [|discriminate]. injection E as <-.
        destruct (step_ok s1 B T L b t I ES) as (T1 & I1). eauto.
      + destruct (again_ok s1 B T L v s2 I E) as (B1 & T1 & I1). eauto.
    - do 3 eexists. apply Inv0. auto.
  Qed.
End Proofs.
