(** The optimiser refines: whole pipelines. *)
From Coq Require Import List Arith Bool Lia.
From Verif Require Import Base OptModel OptSpec OptProofs OptProofs2.
Import ListNotations.

Section Main.
  Context {A : Type}.
  Notation skelA := (skel A).
  (** No behaviour is lost. *)
  Variable exact : bool.

  Definition nopipe (s : skelA) : bool := match s with Pipe _ => false | _ => true end.
  Definition wfl (l : list skelA) : Prop :=
    forallb wf l = true /\ pairs_ok l = true /\ forallb nopipe l = true.
  Definition Rl (l l' : list skelA) : Prop :=
    wfl l' /\ (l <> [] -> l' <> []) /\ lwref l' l /\ (exact = true -> lwref l l') /\
    (lastb undirected l = true -> lastb undirected l' = true) /\
    (lastb stable_end l = true -> lastb stable_end l' = true) /\
    ports (Pipe l') = ports (Pipe l).
  Lemma Rl_refl : forall l, wfl l -> Rl l l.
  Proof. intros l H. repeat split; auto; try (apply H); intros; apply lsref_lwref; intros ? ? R; auto. Qed.
  Lemma Rl_trans : forall a b c, Rl a b -> Rl b c -> Rl a c.
  Proof.
    intros a b c (H1 & H2 & H3 & H3' & H4 & H5 & H6) (G1 & G2 & G3 & G3' & G4 & G5 & G6).
    split; [auto|]. split; [auto|]. split; [eapply lwref_trans; eauto|]. split; [intros; eapply lwref_trans; eauto|]. split; [auto|]. split; [auto|]. congruence.
  Qed.

  (** ** Flattening *)
  Lemma wf_pipe : forall l : list skelA, wf (Pipe l) = true <->
    forallb wf l = true /\ pairs_ok (flat_map flat l) = true /\ l <> [].
  Proof.
    intros l. cbn [wf]. rewrite !andb_true_iff, negb_true_iff, Nat.eqb_neq.
    split; intros H.
    - destruct H as ((H1 & H2) & H3). repeat split; auto. intros ->. apply H3; reflexivity.
    - destruct H as (H1 & H2 & H3). repeat split; auto. destruct l; [congruence|discriminate].
  Qed.
  Lemma flat_nopipe : forall s : skelA, forallb nopipe (flat s) = true.
  Proof.
    induction s using skel_ind'; simpl; auto. induction H; simpl; auto.
    rewrite forallb_app. now rewrite H, IHForall.
  Qed.
  Lemma flats_nopipe : forall l : list skelA, forallb nopipe (flat_map flat l) = true.
  Proof. induction l; simpl; auto. rewrite forallb_app, flat_nopipe. auto. Qed.
  Lemma flat_id : forall l : list skelA, forallb nopipe l = true -> flat_map flat l = l.
  Proof.
    induction l as [|s l IH]; simpl; auto. intros H. apply andb_true_iff in H. destruct H as (H1 & H2).
    rewrite IH by auto. destruct s; try discriminate; auto.
  Qed.
  Lemma flat_wf : forall s : skelA, wf s = true -> forallb wf (flat s) = true /\ flat s <> [] /\
    ports (Pipe (flat s)) = ports s.
  Proof.
    induction s using skel_ind'; intros Hw; try (cbn [flat]; split; [cbn [forallb]; now rewrite Hw|split; [discriminate|reflexivity]]; fail).
    apply wf_pipe in Hw. destruct Hw as (Hw & _ & Hn). cbn [flat].
    assert (G : forall l : list skelA, Forall (fun s => wf s = true -> forallb wf (flat s) = true /\ flat s <> [] /\
      ports (Pipe (flat s)) = ports s) l -> forallb wf l = true -> l <> [] ->
      forallb wf (flat_map flat l) = true /\ flat_map flat l <> [] /\ ports (Pipe (flat_map flat l)) = ports (Pipe l)).
    { clear. induction 1 as [|s l Hs HF IH]; intros Hw Hn; [congruence|]. simpl in Hw. apply andb_true_iff in Hw.
      destruct Hw as (H1 & H2). destruct (Hs H1) as (W & N & Po). cbn [flat_map].
      rewrite forallb_app, W. split.
      - destruct l; auto. apply IH; auto; discriminate.
      - destruct (flat s) as [|x r] eqn:E; [congruence|]. split; [discriminate|]. simpl. exact Po. }
    now apply G.
  Qed.
  Lemma flats_wf : forall l : list skelA, forallb wf l = true -> forallb wf (flat_map flat l) = true.
  Proof.
    induction l as [|s l IH]; simpl; auto. intros H. apply andb_true_iff in H. destruct H.
    rewrite forallb_app. apply andb_true_iff. split; auto. now apply flat_wf.
  Qed.
  Lemma flats_ports : forall l : list skelA, forallb wf l = true -> ports (Pipe (flat_map flat l)) = ports (Pipe l).
  Proof.
    intros [|s l] H; auto. simpl in H. apply andb_true_iff in H. destruct H as (H & _).
    destruct (flat_wf s H) as (_ & N & Po). cbn [flat_map]. destruct (flat s); [congruence|]. exact Po.
  Qed.
  Lemma flat_last : forall P : skelA -> bool, (forall l, P (Pipe l) = lastb P l) ->
    forall s, P s = true -> lastb P (flat s) = true.
  Proof.
    intros P HP. induction s using skel_ind'; intros Hs; try exact Hs.
    rewrite HP in Hs. cbn [flat]. apply lastb_inv in Hs. destruct Hs as (pre & s & -> & Hs).
    apply Forall_app in H. destruct H as (_ & H). inversion H as [|? ? Hx _]; subst.
    rewrite flat_map_app. cbn [flat_map]. rewrite app_nil_r. specialize (Hx Hs).
    rewrite lastb_app; auto. intros E. rewrite E in Hx. discriminate.
  Qed.
  Lemma flats_last : forall P : skelA -> bool, (forall l, P (Pipe l) = lastb P l) ->
    forall l, lastb P l = true -> lastb P (flat_map flat l) = true.
  Proof. intros P HP l H. rewrite <- HP in H. now apply (flat_last P HP (Pipe l)). Qed.

  Lemma Rl_Q : forall l l', wf (Pipe l) = true -> Rl (flat_map flat l) l' -> Q exact (Pipe l) (Pipe l').
  Proof.
    intros l l' Hw ((W1 & W2 & W3) & Hn & Hr & Hr' & Hu & Hs & Hp).
    apply wf_pipe in Hw. destruct Hw as (H1 & H2 & H3).
    assert (N : flat_map flat l <> []).
    { destruct l as [|s l]; [congruence|]. simpl in *. apply andb_true_iff in H1. destruct H1 as (H1 & _).
      destruct (flat_wf s H1) as (_ & N & _). destruct (flat s); [congruence|discriminate]. }
    split; [|split; [|split; [|split; [|split; [|split]]]]].
    - apply wf_pipe. rewrite flat_id by auto. auto.
    - intros ins outs m R M. apply pipe_inv in R. destruct (Hr _ _ _ R M) as (o & R' & M').
      exists o. split; auto. apply pipe_inv. now apply flats_run.
    - intros E ins outs m R M. apply pipe_inv in R. apply flats_run in R. destruct (Hr' E _ _ _ R M) as (o & R' & M').
      exists o. split; auto. now apply pipe_inv.
    - rewrite !undirected_pipe. intros E. apply Hu. apply flats_last; auto using undirected_pipe.
    - rewrite !stable_pipe. intros E. apply Hs. apply flats_last; auto using stable_pipe.
    - rewrite Hp. now apply flats_ports.
    - discriminate.
  Qed.

  (** ** Stages *)
  Definition same_kind (s s' : skelA) : Prop :=
    match s, s' with
    | Seq n, Seq n' => n' = n
    | Farm o e _ c, Farm o' e' _ c' => o' = o /\ e' = e /\ c' = c
    | A2A _ _, A2A _ _ => True
    | _, _ => False
    end.
  Definition P (s s' : skelA) : Prop :=
    wf s' = true /\ (wref s' s /\ (exact = true -> wref s s')) /\
    (before_a2a s = true -> sref s' s /\ (exact = true -> sref s s')) /\
    (before_a2a s = true -> before_a2a s' = true) /\
    (undirected s = true -> undirected s' = true) /\ (stable_end s = true -> stable_end s' = true) /\
    ports s' = ports s /\ same_kind s s'.
  Lemma P_refl : forall s, wf s = true -> nopipe s = true -> P s s.
  Proof.
    intros s H N. split; [auto|]. split; [split; intros; apply wref_refl|].
    split; [split; [|intros _]; intros ? ? R; auto|]. repeat split; auto.
    destruct s; simpl; auto. discriminate.
  Qed.

  Lemma wf_farm : forall o e (ws : list skelA) c, wf (Farm o e ws c) = true <->
    forallb wf ws = true /\ (o = false -> c = DefColl -> forallb undirected ws = true).
  Proof.
    intros o e ws c. cbn [wf]. rewrite andb_true_iff. split; intros (H1 & H2); split; auto.
    - intros -> ->. auto.
    - destruct o; auto. destruct c; auto.
  Qed.
  Lemma wf_a2a : forall a b : list skelA, wf (A2A a b) = true <->
    forallb wf a = true /\ forallb wf b = true /\ forallb stable_end a = true.
  Proof. intros a b. cbn [wf]. rewrite !andb_true_iff. tauto. Qed.

  Lemma farm_P : forall o e ws ws' c, wf (Farm o e ws c) = true -> Forall2 (Q exact) ws ws' -> P (Farm o e ws c) (Farm o e ws' c).
  Proof.
    intros o e ws ws' c Hw HF. apply wf_farm in Hw. destruct Hw as (H1 & H2).
    split; [|split; [|split; [|split; [|split; [|split; [|split]]]]]].
    - apply wf_farm. split; [eapply Q_wf; eauto|]. intros E1 E2. eapply Q_undirected; eauto.
    - split; [|intros Ex].
      + apply farm_weak; [eapply Q_fwd; eauto|eapply Q_ports; eauto|eapply Q_standard; eauto].
      + apply farm_weak; [eapply Q_bwd; eauto|symmetry; eapply Q_ports; eauto|eapply Q_standard'; eauto].
    - intros Hb.
      assert (E : o = false -> c = NoColl -> ws' = ws).
      { intros -> ->. eapply Q_seqs; eauto. }
      split; [|intros Ex].
      + apply farm_strong; auto; [eapply Q_fwd; eauto|eapply Q_ports; eauto|eapply Q_standard; eauto].
      + apply farm_strong; auto; [eapply Q_bwd; eauto|symmetry; eapply Q_ports; eauto|eapply Q_standard'; eauto|].
        intros E1 E2. symmetry; auto.
    - destruct o; auto. destruct c; auto. simpl. intros E. rewrite (Q_seqs _ _ _ HF E). auto.
    - destruct o; auto. destruct c; auto. simpl. eapply Q_undirected; eauto.
    - destruct o; auto.
    - reflexivity.
    - simpl; auto.
  Qed.
  Lemma a2a_P : forall a a' b b', wf (A2A a b) = true -> Forall2 (Q exact) a a' -> Forall2 (Q exact) b b' -> P (A2A a b) (A2A a' b').
  Proof.
    intros a a' b b' Hw Ha Hb. apply wf_a2a in Hw. destruct Hw as (H1 & H2 & H3).
    split; [|split; [|split; [|split; [|split; [|split; [|split]]]]]].
    - apply wf_a2a. repeat split; [eapply Q_wf; eauto|eapply Q_wf; eauto|eapply Q_stable; eauto].
    - split; [|intros Ex].
      + apply a2a_weak; auto; try (eapply Q_fwd; eauto); try (eapply Q_ports; eauto). eapply Q_stable; eauto.
      + apply a2a_weak; auto; try (eapply Q_bwd; eauto); try (symmetry; eapply Q_ports; eauto). eapply Q_stable; eauto.
    - simpl. intros E. rewrite (Q_seqs _ _ _ Hb E). split; [|intros Ex].
      + apply a2a_strong; auto; try (eapply Q_fwd; eauto); try (eapply Q_ports; eauto). eapply Q_stable; eauto.
      + apply a2a_strong; auto; try (eapply Q_bwd; eauto); try (symmetry; eapply Q_ports; eauto). eapply Q_stable; eauto.
    - simpl. intros E. now rewrite (Q_seqs _ _ _ Hb E).
    - simpl. eapply Q_undirected; eauto.
    - discriminate.
    - simpl. now rewrite (Q_ports _ _ _ Ha).
    - simpl; auto.
  Qed.
  Lemma P_Q : forall s s', nopipe s = true -> is_seq s = false -> P s s' -> Q exact s s'.
  Proof.
    intros s s' N Hs (H1 & (H2 & H2') & H3 & H4 & H5 & H6 & H7 & H8). repeat split; auto.
    rewrite Hs. destruct s'; try discriminate. destruct s; try discriminate; contradiction.
  Qed.

  (** ** Pipelines stage by stage *)
  Lemma reader_runs : forall t l ins outs, reader t = true ->
    (runs (t :: l) ins outs <-> exists m, merge ins m /\ @runs A (t :: l) [m] outs).
  Proof.
    intros t l ins outs Ht. split.
    - intros R. apply runs_cons_inv in R. destruct R as (mid & R1 & R2).
      apply reader_run in R1; auto. destruct R1 as (m & M & R1). exists m. split; auto. econstructor; eauto.
    - intros (m & M & R). apply runs_cons_inv in R. destruct R as (mid & R1 & R2).
      econstructor; eauto. apply reader_run; eauto.
  Qed.
  Fixpoint chain_ok (l' l : list skelA) : Prop :=
    match l', l with
    | [], [] => True
    | s' :: r', s :: r =>
        wref s' s /\ chain_ok r' r /\
        match r', r with
        | t' :: _, t :: _ => (reader t' = true /\ reader t = true) \/ sref s' s
        | _, _ => True
        end
    | _, _ => False
    end.
  Lemma chain_lwref : forall l' l, chain_ok l' l -> lwref l' l.
  Proof.
    induction l' as [|s' l' IH]; intros [|s l] Hc ins outs m R M; try contradiction.
    - apply runs_nil_inv in R. subst. exists ins. split; auto. constructor.
    - apply runs_cons_inv in R. destruct R as (mid & R1 & R2). cbn [chain_ok] in Hc.
      destruct Hc as (Hw & Hc & Hx).
      destruct l' as [|t' l'], l as [|t l]; try contradiction.
      + apply runs_nil_inv in R2. subst. destruct (Hw _ _ _ R1 M) as (o & R & M'). exists o; split; auto.
        now apply runs_one.
      + destruct Hx as [(Ht' & Ht)|Hst].
        * apply reader_runs in R2; auto. destruct R2 as (mm & Mm & R2).
          destruct (Hw _ _ _ R1 Mm) as (mid2 & R1' & M2). destruct (IH _ Hc _ _ _ R2 M) as (outs2 & R2' & M3).
          exists outs2. split; auto. econstructor; eauto. apply reader_runs; eauto.
        * destruct (IH _ Hc _ _ _ R2 M) as (outs2 & R2' & M3).
          exists outs2. split; auto. econstructor; eauto.
  Qed.
  Lemma P_chain : forall l l', Forall2 P l l' -> pairs_ok l = true -> chain_ok l' l /\ (exact = true -> chain_ok l l').
  Proof.
    induction 1 as [|s s' l l' Hs HF IH]; intros Hp; [simpl; auto|].
    destruct Hs as (_ & (Hw & Hw') & Hst & _).
    destruct HF as [|t t' l l' Ht HF].
    - simpl. repeat split; auto.
    - cbn [pairs_ok] in Hp. apply andb_true_iff in Hp. destruct Hp as (Hp1 & Hp2).
      destruct Ht as (_ & _ & _ & _ & _ & _ & _ & Hk). destruct (IH Hp2) as (I1 & I2).
      assert (C : (reader t' = true /\ reader t = true) \/ before_a2a s = true).
      { destruct t, t'; try contradiction; auto. }
      split; [|intros Ex].
      + split; [auto|]. split; [auto|]. destruct C as [C|C]; [now left|right]. now apply Hst.
      + split; [auto|]. split; [auto|]. destruct C as [C|C]; [left; tauto|right]. now apply Hst.
  Qed.
  Lemma P_pair : forall s s' t t', P s s' -> P t t' -> pair_ok s t = true -> pair_ok s' t' = true.
  Proof.
    intros s s' t t' (_ & _ & _ & Hb & _ & _ & _ & Hk) (_ & _ & _ & _ & _ & _ & _ & Hk').
    destruct t, t'; try contradiction; auto.
    simpl in *. subst. destruct s as [|?|o e ws c|], s' as [|?|o' e' ws' c'|]; try contradiction; auto.
    destruct Hk as (-> & -> & ->). auto.
  Qed.
  Lemma P_pairs : forall l l', Forall2 P l l' -> pairs_ok l = true -> pairs_ok l' = true.
  Proof.
    induction 1 as [|s s' l l' Hs HF IH]; auto. destruct HF as [|t t' l l' Ht HF]; auto.
    intros H. cbn [pairs_ok] in *. apply andb_true_iff in H. destruct H. apply andb_true_iff. split; auto.
    eapply P_pair; eauto.
  Qed.
  Lemma P_lastb : forall (f : skelA -> bool) l l', (forall s s', P s s' -> f s = true -> f s' = true) ->
    Forall2 P l l' -> lastb f l = true -> lastb f l' = true.
  Proof.
    intros f l l' Hf. induction 1 as [|s s' l l' Hs HF IH]; auto. destruct HF; simpl in *; eauto.
  Qed.
  Lemma P_Rl : forall l l', wfl l -> Forall2 P l l' -> Rl l l'.
  Proof.
    intros l l' (W1 & W2 & W3) HF. split; [split; [|split]|split; [|split; [|split; [|split; [|split]]]]].
    - clear W2. induction HF as [|s s' r r' H HF IH]; simpl; auto. simpl in *. apply andb_true_iff in W1, W3. apply andb_true_iff.
      split; [apply H|]; tauto.
    - eapply P_pairs; eauto.
    - clear W2. induction HF as [|s s' r r' H HF IH]; simpl; auto. simpl in *. apply andb_true_iff in W1, W3. apply andb_true_iff.
      split; [|tauto]. destruct H as (_ & _ & _ & _ & _ & _ & _ & H). destruct s, s'; try contradiction; auto.
    - destruct HF; congruence || discriminate.
    - apply chain_lwref. apply (P_chain _ _ HF W2).
    - intros Ex. apply chain_lwref. apply (P_chain _ _ HF W2); auto.
    - eapply P_lastb; eauto. intros s s' H. apply H.
    - eapply P_lastb; eauto. intros s s' H. apply H.
    - destruct HF; auto. simpl. apply H.
  Qed.

  (** ** Replacing some consecutive stages *)
  Lemma pairs_cut : forall (l1 : list skelA) x y l2,
    pairs_ok ((l1 ++ [x]) ++ y :: l2) = pairs_ok (l1 ++ [x]) && (pair_ok x y && pairs_ok (y :: l2)).
  Proof.
    induction l1 as [|s l1 IH]; intros x y l2; [reflexivity|].
    cbn [app]. specialize (IH x y l2). destruct (l1 ++ [x]) as [|z r] eqn:E; [destruct l1; discriminate|].
    cbn [app pairs_ok] in *. rewrite IH. now rewrite andb_assoc.
  Qed.
  Lemma ports_app : forall (l r : list skelA), l <> [] -> ports (Pipe (l ++ r)) = ports (Pipe l).
  Proof. intros [|x l] r H; [congruence|]. reflexivity. Qed.

  (** [a] and [b] are given with their first and last stages. *)
  Lemma pairs_replace : forall (pre post a b : list skelA) xa ta xb tb,
    (exists r, a = xa :: r) -> (exists r, a = r ++ [ta]) -> (exists r, b = xb :: r) -> (exists r, b = r ++ [tb]) ->
    pairs_ok (pre ++ a ++ post) = true -> pairs_ok b = true ->
    (forall s, pair_ok s xa = true -> pair_ok s xb = true) ->
    (forall s, post <> [] -> pair_ok ta s = true -> pair_ok tb s = true) ->
    pairs_ok (pre ++ b ++ post) = true.
  Proof.
    intros pre post a b xa ta xb tb (r1 & Ea1) (r2 & Ea2) (r3 & Eb1) (r4 & Eb2) H Hb H1 H2.
    assert (Hpost : pairs_ok (b ++ post) = true).
    { destruct post as [|p post]; [now rewrite app_nil_r|].
      assert (G : pairs_ok (a ++ p :: post) = true).
      { destruct pre as [|p0 pre]; [exact H|].
        destruct (exists_last (l := p0 :: pre) ltac:(discriminate)) as (l0 & z & E). rewrite E in H.
        rewrite Ea1 in *. cbn [app] in *. rewrite pairs_cut in H. apply andb_true_iff in H. destruct H as (_ & H).
        now apply andb_true_iff in H. }
      rewrite Ea2 in G. rewrite pairs_cut in G. apply andb_true_iff in G. destruct G as (_ & G).
      apply andb_true_iff in G. destruct G as (G1 & G2).
      rewrite Eb2. rewrite pairs_cut. rewrite <- Eb2, Hb. rewrite H2; auto; discriminate. }
    destruct pre as [|p0 pre]; [exact Hpost|].
    destruct (exists_last (l := p0 :: pre) ltac:(discriminate)) as (l0 & z & E). rewrite E in *.
    rewrite Ea1 in H. cbn [app] in H. rewrite pairs_cut in H. apply andb_true_iff in H. destruct H as (G1 & H).
    apply andb_true_iff in H. destruct H as (G2 & _).
    rewrite Eb1 in *. cbn [app] in *. rewrite pairs_cut, G1, (H1 _ G2), Hpost. reflexivity.
  Qed.

  Lemma Rl_replace : forall (pre post a b : list skelA) xa ta xb tb,
    wfl (pre ++ a ++ post) ->
    (exists r, a = xa :: r) -> (exists r, a = r ++ [ta]) -> (exists r, b = xb :: r) -> (exists r, b = r ++ [tb]) ->
    (lsref b a \/ post = [] /\ lwref b a) -> (exact = true -> lsref a b \/ post = [] /\ lwref a b) ->
    forallb wf b = true -> forallb nopipe b = true -> pairs_ok b = true ->
    (forall s, pair_ok s xa = true -> pair_ok s xb = true) ->
    (forall s, post <> [] -> pair_ok ta s = true -> pair_ok tb s = true) ->
    (undirected ta = true -> undirected tb = true) -> (stable_end ta = true -> stable_end tb = true) ->
    ports xb = ports xa ->
    Rl (pre ++ a ++ post) (pre ++ b ++ post).
  Proof.
    intros pre post a b xa ta xb tb (W1 & W2 & W3) Ea1 Ea2 Eb1 Eb2 Hr Hr' B1 B2 B3 C1 C2 D1 D2 Hp.
    rewrite !forallb_app in W1, W3. apply andb_true_iff in W1, W3. destruct W1 as (W11 & W1), W3 as (W31 & W3).
    apply andb_true_iff in W1, W3. destruct W1 as (W12 & W13), W3 as (W32 & W33).
    split; [split; [|split]|split; [|split; [|split; [|split; [|split]]]]].
    - rewrite !forallb_app, W11, B1, W13; auto.
    - eapply pairs_replace with (a := a) (xa := xa) (ta := ta); eauto.
    - rewrite !forallb_app, W31, B2, W33; auto.
    - intros _. destruct Eb1 as (r & ->). destruct pre; discriminate.
    - destruct Hr as [Hr|(-> & Hr)].
      + apply lsref_lwref. now apply lsref_ctx.
      + rewrite !app_nil_r. now apply lwref_end.
    - intros Ex. destruct (Hr' Ex) as [Hx|(-> & Hx)].
      + apply lsref_lwref. now apply lsref_ctx.
      + rewrite !app_nil_r. now apply lwref_end.
    - destruct Ea2 as (r & ->), Eb2 as (r' & ->). destruct post as [|p post].
      + rewrite !app_nil_r, !app_assoc, !lastb_snoc. auto.
      + rewrite !app_assoc, !(lastb_app _ _ (p :: post)) by discriminate. auto.
    - destruct Ea2 as (r & ->), Eb2 as (r' & ->). destruct post as [|p post].
      + rewrite !app_nil_r, !app_assoc, !lastb_snoc. auto.
      + rewrite !app_assoc, !(lastb_app _ _ (p :: post)) by discriminate. auto.
    - destruct Ea1 as (r & ->), Eb1 as (r' & ->). destruct pre as [|p pre]; simpl; auto.
  Qed.

  (** ** Searching *)
  Lemma find_null_coll_spec : forall (l : list skelA) i st j, find_null_coll l i st = Some j ->
    i <= j /\ st <= j /\ exists o e ws c, nth_error l (j - i) = Some (Farm o e ws c) /\ null_coll c = true.
  Proof.
    induction l as [|s l IH]; intros i st j H; simpl in H; [discriminate|].
    assert (G : find_null_coll l (S i) st = Some j -> i <= j /\ st <= j /\
      exists o e ws c, nth_error (s :: l) (j - i) = Some (Farm o e ws c) /\ null_coll c = true).
    { intros E. destruct (IH _ _ _ E) as (H1 & H2 & o & e & ws & c & H3 & H4).
      split; [lia|]. split; [lia|]. exists o, e, ws, c. split; auto.
      replace (j - i) with (S (j - S i)) by lia. exact H3. }
    destruct s as [n|?|o e ws c|a b]; auto.
    destruct (st <=? i) eqn:Es; simpl in H; auto.
    destruct c as [| |c]; auto; injection H as <-; apply Nat.leb_le in Es; (split; [lia|]); (split; [lia|]);
      replace (i - i) with 0 by lia; do 4 eexists; split; try reflexivity.
  Qed.
  Lemma find_null_em_spec : forall (l : list skelA) i st j, find_null_em l i st = Some j ->
    i <= j /\ st <= j /\ exists o ws c, nth_error l (j - i) = Some (Farm o None ws c).
  Proof.
    induction l as [|s l IH]; intros i st j H; simpl in H; [discriminate|].
    assert (G : find_null_em l (S i) st = Some j -> i <= j /\ st <= j /\
      exists o ws c, nth_error (s :: l) (j - i) = Some (Farm o None ws c)).
    { intros E. destruct (IH _ _ _ E) as (H1 & H2 & o & ws & c & H3).
      split; [lia|]. split; [lia|]. exists o, ws, c.
      replace (j - i) with (S (j - S i)) by lia. exact H3. }
    destruct s as [n|?|o [e|] ws c|a b]; auto.
    destruct (st <=? i) eqn:Es; simpl in H; auto.
    injection H as <-; apply Nat.leb_le in Es. split; [lia|]. split; [lia|].
    replace (i - i) with 0 by lia. do 3 eexists; reflexivity.
  Qed.
  Lemma nth_split' : forall T (l : list T) i x, nth_error l i = Some x -> l = firstn i l ++ x :: skipn (S i) l.
  Proof.
    induction l as [|y l IH]; intros [|i] x H; simpl in *; try discriminate.
    - now injection H as ->.
    - f_equal. now apply IH.
  Qed.
  Lemma nth_split2 : forall T (l : list T) i x y, nth_error l i = Some x -> nth_error l (S i) = Some y ->
    l = firstn i l ++ [x; y] ++ skipn (S (S i)) l.
  Proof.
    induction l as [|z l IH]; intros [|i] x y H H'; simpl in *; try discriminate.
    - injection H as ->. destruct l; try discriminate. simpl in *. now injection H' as ->.
    - f_equal. now apply IH.
  Qed.

  (** ** Merging sequences of farms *)
  Definition may_merge (o : bool) (s : skelA) : Prop :=
    exists ws c, s = Farm o None ws c /\ null_coll c = true.
  Lemma mergeable_spec : forall o nw (s : skelA), mergeable o nw s = Ok true -> may_merge o s.
  Proof.
    intros o nw s H. destruct s as [n|l|o' e ws c|a b]; simpl in H; try (destruct o; discriminate).
    injection H as H. apply andb_true_iff in H. destruct H as (H & He). apply andb_true_iff in H.
    destruct H as (H & Hc). apply andb_true_iff in H. destruct H as (Ho & _). apply eqb_prop in Ho. subst.
    destruct e; try discriminate. exists ws, c. split; auto.
  Qed.
  Lemma all_mergeable_spec : forall o nw (l : list skelA), all_mergeable o nw l = Ok true -> Forall (may_merge o) l.
  Proof.
    induction l as [|s l IH]; simpl; intros H; constructor.
    - destruct (mergeable o nw s) as [[|]| | | |] eqn:E; try discriminate. eapply mergeable_spec; eauto.
    - destruct (mergeable o nw s) as [[|]| | | |]; try discriminate. auto.
  Qed.
  Lemma skipn_add : forall T (l : list T) a b, skipn (a + b) l = skipn a (skipn b l).
  Proof.
    intros T l a b. revert l a. induction b as [|b IH]; intros l a; [now rewrite Nat.add_0_r|].
    rewrite Nat.add_succ_r. destruct l; simpl; [now rewrite skipn_nil|apply IH].
  Qed.
  Lemma seg_join : forall T (l : list T) i j, i <= j -> forall k, j <= S k -> 
    firstn (j - i) (skipn i l) ++ segment l j k = segment l i k.
  Proof.
    intros T l i j H k H'. unfold segment.
    replace (skipn j l) with (skipn (j - i) (skipn i l)) by (rewrite <- skipn_add; replace (j - i + i) with j by lia; reflexivity).
    generalize (skipn i l). intros m. replace (S k - i) with ((j - i) + (S k - j)) by lia.
    generalize (j - i) as a, (S k - j) as b. clear. intros a b.
    revert m. induction a; intros m; simpl; auto. destruct m; simpl; [now rewrite firstn_nil|]. f_equal. apply IHa.
  Qed.
  Lemma farm_sequence_spec : forall fuel (l : list skelA) o nw a sp last lf, a <= sp ->
    Forall (may_merge o) (firstn (sp - a) (skipn a l)) ->
    (last = None /\ sp = a \/ exists x, last = Some x /\ sp = S x /\ a <= x /\ x < length l) ->
    farm_sequence fuel l o nw sp last = Ok (Some lf) ->
    a <= lf /\ lf < length l /\ Forall (may_merge o) (segment l a lf).
  Proof.
    induction fuel as [|k IH]; intros l o nw a sp last lf Ha Hm Hl H; simpl in H; [discriminate|].
    assert (Stop : last = Some lf -> a <= lf /\ lf < length l /\ Forall (may_merge o) (segment l a lf)).
    { intros E. destruct Hl as [(E1 & _)|(x & E1 & E2 & E3 & E4)]; [congruence|].
      assert (x = lf) by congruence. subst x. split; auto. split; auto. subst sp. exact Hm. }
    destruct (sp <? length l) eqn:E1; [|injection H as H; auto].
    destruct (find_null_em l 0 sp) as [nx|] eqn:E2; [|injection H as H; auto].
    destruct (find_null_em_spec _ _ _ _ E2) as (_ & G1 & o' & ws & c & G2).
    rewrite Nat.sub_0_r in G2.
    assert (G3 : nx < length l) by (apply nth_error_Some; congruence).
    destruct (all_mergeable o nw (segment l sp nx)) as [[|]| | | |] eqn:E3; simpl in H; try discriminate;
      [|injection H as H; auto].
    apply all_mergeable_spec in E3. eapply IH in H; eauto; try lia.
    - change (Forall (may_merge o) (segment l a nx)). rewrite <- (seg_join _ l a sp Ha nx) by lia.
      apply Forall_app. auto.
    - right. exists nx. repeat split; auto; lia.
  Qed.

  Lemma fold_comb_workers : forall r w w', fold_comb w r = Ok w' -> r <> [] ->
    exists ns : list (node A), w' = map Seq ns /\ forallb ncomp ns = true /\
      (forall o e ws c, last r (Pipe []) = Farm o e ws c -> forallb undirected ws = true -> forallb undirected w' = true).
  Proof.
    induction r as [|f r IH]; intros w w' H Hn; [congruence|]. simpl in H.
    destruct f as [|?|o e ws c|]; try discriminate.
    destruct (zip_comb w ws) as [w1| | | |] eqn:E; try discriminate. simpl in H.
    destruct r as [|f2 r].
    - simpl in H. injection H as <-. destruct (zip_comb_inv _ _ _ E) as (n1 & n2 & -> & -> & Hlen & ->).
      eexists; split; [reflexivity|]. split.
      + clear. revert n2. induction n1; intros [|b n2]; simpl; auto.
      + intros o' e' ws' c' El Hu. simpl in El. injection El as <- <- <- <-.
        clear -Hu Hlen. revert n2 Hu Hlen. induction n1; intros [|b n2] Hu Hlen; simpl in *; try discriminate; auto.
        apply andb_true_iff in Hu. destruct Hu as (H1 & H2). rewrite H1. simpl. apply IHn1; auto.
    - destruct (IH _ _ H ltac:(discriminate)) as (ns & H1 & H2 & H3). exists ns. split; [auto|]. split; [auto|].
      intros o' e' ws' c' El. apply (H3 o' e' ws' c'). exact El.
  Qed.
  Lemma comb_no_run : forall e (ns : list (node A)) c, forallb ncomp ns = true -> forall ins outs,
    ~ run (Farm true e (map Seq ns) c) ins outs.
  Proof.
    intros e ns c H ins outs R. inversion R; subst. destruct ns as [|n ns]; [auto|].
    simpl in *. apply andb_true_iff in H as (Hn & _).
    match goal with S : _ && forallb standard _ = true |- _ => apply andb_true_iff in S; destruct S as (S & _) end.
    rewrite Hn in *. rewrite andb_false_r in *. discriminate.
  Qed.
  Lemma fold_merge : forall r e w c w', fold_comb w r = Ok w' -> null_coll c = true -> Forall (may_merge false) r ->
    lsref [Farm false e w' (coll_of (last r (Farm false e w c)))] (Farm false e w c :: r).
  Proof.
    induction r as [|f r IH]; intros e w c w' H Hc HF.
    - simpl in H. injection H as <-. intros ? ? R; exact R.
    - inversion HF as [|? ? (ws & c2 & -> & Hc2) HF']; subst. simpl in H.
      destruct (zip_comb w ws) as [w1| | | |] eqn:E; try discriminate. simpl in H.
      intros ins outs R.
      assert (Eq : coll_of (last (Farm false None ws c2 :: r) (Farm false e w c)) =
                   coll_of (last r (Farm false e w1 c2))).
      { destruct r as [|f2 r]; [reflexivity|]. cbn [last].
        clear. revert f2. induction r; intros f2; simpl; auto. }
      rewrite Eq in R. apply (IH e w1 c2 w' H Hc2 HF') in R.
      apply (lsref_ctx [] [Farm false e w1 c2] [Farm false e w c; Farm false None ws c2] r); auto.
      now apply merge_two.
  Qed.

  Lemma last_snoc_ex : forall T (r : list T) x d, r <> [] -> last (x :: r) d = last r d.
  Proof. intros T [|y r] x d H; [congruence|]. reflexivity. Qed.

  Lemma combine_Rl : forall pre post o e ws c r f, exact = false -> wfl (pre ++ (Farm o e ws c :: r) ++ post) ->
    null_coll c = true -> r <> [] -> Forall (may_merge o) r -> combine_seq (Farm o e ws c :: r) = Ok f ->
    Rl (pre ++ (Farm o e ws c :: r) ++ post) (pre ++ [f] ++ post).
  Proof.
    intros pre post o e ws c r f Hx Hw Hc Hr HF H. unfold combine_seq in H.
    destruct (fold_comb ws r) as [w'| | | |] eqn:E; try discriminate. cbn [bind] in H.
    rewrite (last_snoc_ex _ r _ _ Hr) in H.
    destruct (exists_last Hr) as (r0 & t & Er).
    assert (Hlast : forall d, last r d = t) by (intros d; rewrite Er; apply last_last).
    rewrite Hlast in H. injection H as H.
    assert (Ht : may_merge o t). { rewrite Er in HF. apply Forall_app in HF. destruct HF as (_ & HF). now inversion HF. }
    destruct Ht as (wt & ct & Et & Hct). subst t. cbn [coll_of] in H.
    destruct (fold_comb_workers _ _ _ E Hr) as (ns & Ens & Hns & Hund).
    specialize (Hund _ _ _ _ (Hlast _)).
    assert (Hwt : wf (Farm o None wt ct) = true).
    { destruct Hw as (W & _). rewrite forallb_forall in W. apply W. rewrite Er.
      apply in_or_app. right. apply in_or_app. left. right. apply in_or_app. right. now left. }
    assert (Ef : f = Farm o e w' (if o then DefColl else ct)).
    { subst f. unfold has_coll. destruct o; simpl; [destruct ct; try discriminate; auto|].
      destruct ct; try discriminate; auto. }
    clear H. subst f. apply wf_farm in Hwt. destruct Hwt as (_ & Hwt).
    eapply Rl_replace with (xa := Farm o e ws c) (ta := Farm o None wt ct)
      (xb := Farm o e w' (if o then DefColl else ct)) (tb := Farm o e w' (if o then DefColl else ct)).
    - exact Hw.
    - eauto.
    - rewrite Er. exists (Farm o e ws c :: r0). reflexivity.
    - eauto.
    - exists []. reflexivity.
    - left. destruct o.
      + intros ins outs R. apply runs_one in R. subst w'. exfalso. eapply comb_no_run; eauto.
      + pose proof (fold_merge r e ws c w' E Hc HF) as G. rewrite Hlast in G. exact G.
    - congruence.
    - cbn [forallb]. rewrite andb_true_r. apply wf_farm. split.
      + subst w'. clear. induction ns; simpl; auto.
      + intros -> E2. apply Hund. apply Hwt; auto.
    - reflexivity.
    - reflexivity.
    - auto.
    - intros s _ G. destruct s as [n|?|? ? ? ?|a b]; auto.
      + simpl in *. destruct o; auto.
      + simpl in *. destruct o; auto. destruct ct; auto. subst w'. clear. induction ns; simpl; auto.
    - simpl. destruct o; auto. destruct ct; auto.
    - simpl. destruct o; auto.
    - reflexivity.
  Qed.

  Lemma split_segment : forall T (l : list T) i j, i <= j -> j < length l ->
    l = firstn i l ++ segment l i j ++ skipn (S j) l.
  Proof.
    intros T l i j H1 H2. rewrite app_assoc.
    assert (E : firstn i l ++ segment l i j = segment l 0 j).
    { replace (firstn i l) with (firstn (i - 0) (skipn 0 l)) by (simpl; now rewrite Nat.sub_0_r).
      apply seg_join; lia. }
    rewrite E. unfold segment. rewrite Nat.sub_0_r. simpl skipn at 1. symmetry. apply firstn_skipn.
  Qed.
  Lemma segment_cons : forall T (l : list T) i j x, nth_error l i = Some x -> i <= j ->
    segment l i j = x :: segment l (S i) j.
  Proof.
    intros T l i j x H Hj. unfold segment. replace (S j - i) with (S (S j - S i)) by lia.
    assert (E : skipn i l = x :: skipn (S i) l).
    { clear -H. revert i H. induction l; intros [|i] H; simpl in *; try discriminate.
      - now injection H as ->.
      - now apply IHl. }
    rewrite E. reflexivity.
  Qed.

  Lemma merge_loop_Rl : forall fuel l first l', exact = false -> wfl l ->
    (forall o e ws c, nth_error l first = Some (Farm o e ws c) -> null_coll c = true) ->
    merge_loop fuel l first = Ok l' -> Rl l l'.
  Proof.
    induction fuel as [|k IH]; intros l first l' Hx Hw Hc H; [discriminate|]. cbn [merge_loop] in H.
    destruct (nth_error l first) as [[n|?|o e ws c|a b]|] eqn:En; try discriminate.
    destruct (farm_sequence _ l o (length ws) (S first) None) as [last| | | |] eqn:Es; try discriminate.
    cbn [bind] in H.
    set (mid := match last with
                | Some lf => bind (combine_seq (segment l first lf)) (fun f => Ok (firstn first l ++ f :: skipn (S lf) l))
                | None => Ok l end) in *.
    destruct mid as [l1| | | |] eqn:Em; try discriminate. subst mid. cbn [bind] in H.
    assert (R1 : Rl l l1).
    { destruct last as [lf|]; [|injection Em as <-; now apply Rl_refl].
      destruct (farm_sequence_spec _ _ _ _ (S first) _ _ _ (le_n _) ltac:(rewrite Nat.sub_diag; constructor) ltac:(auto) Es)
        as (G1 & G2 & G3).
      destruct (combine_seq (segment l first lf)) as [f| | | |] eqn:Ec; try discriminate. injection Em as <-.
      rewrite (segment_cons _ _ _ _ _ En) in Ec by lia.
      assert (El : l = firstn first l ++ (Farm o e ws c :: segment l (S first) lf) ++ skipn (S lf) l).
      { rewrite <- (segment_cons _ _ _ _ _ En) by lia. apply split_segment; lia. }
      pose proof (combine_Rl (firstn first l) (skipn (S lf) l) o e ws c (segment l (S first) lf) f) as G.
      rewrite <- El in G. apply G; auto.
      - eapply Hc; eauto.
      - intros E. assert (G5 : S first < length l) by lia.
        destruct (nth_error l (S first)) as [y|] eqn:Ey; [|apply nth_error_None in Ey; lia].
        rewrite (segment_cons _ _ _ _ _ Ey) in E by lia. discriminate. }
    destruct (find_null_coll l1 0 (S first)) as [nx|] eqn:En1; [|injection H as <-; auto].
    eapply Rl_trans; [exact R1|]. apply IH in H; auto; [apply R1|].
    intros o1 e1 ws1 c1 E1. destruct (find_null_coll_spec _ _ _ _ En1) as (_ & _ & o2 & e2 & ws2 & c2 & E2 & E3).
    rewrite Nat.sub_0_r in E2. congruence.
  Qed.
  Lemma merge_step_Rl : forall l l', exact = false -> wfl l -> merge_step l = Ok l' -> Rl l l'.
  Proof.
    intros l l' Hx Hw H. unfold merge_step in H. destruct (find_null_coll l 0 0) as [f|] eqn:E.
    - eapply merge_loop_Rl; eauto. intros o1 e1 ws1 c1 E1.
      destruct (find_null_coll_spec _ _ _ _ E) as (_ & _ & o2 & e2 & ws2 & c2 & E2 & E3).
      rewrite Nat.sub_0_r in E2. congruence.
    - injection H as <-. now apply Rl_refl.
  Qed.

  (** ** Removing collectors *)
  Lemma wfl_pair : forall pre x y post, wfl (pre ++ [x; y] ++ post) ->
    pair_ok x y = true /\ wf x = true /\ wf y = true /\ nopipe x = true /\ nopipe y = true.
  Proof.
    intros pre x y post (W1 & W2 & W3). rewrite !forallb_app in W1, W3. simpl in W1, W3.
    rewrite !andb_true_iff in W1, W3. repeat split; try tauto.
    change (pre ++ [x; y] ++ post) with (pre ++ [x] ++ (y :: post)) in W2. rewrite app_assoc, pairs_cut in W2.
    rewrite !andb_true_iff in W2. tauto.
  Qed.

  Lemma rm_one : forall l i o e ws c, wfl l -> nth_error l i = Some (Farm o e ws c) -> null_coll c = true ->
    let l' :=
      if i <? length l - 1 then
        if has_coll o c then
          match nth_error l (S i) with
          | Some s2 =>
              if o then
                match s2 with
                | Seq n => firstn i l ++ Farm o e ws (Coll n) :: skipn (S (S i)) l
                | _ => l
                end
              else
                match s2 with
                | A2A _ _ => l
                | Seq n => firstn i l ++ Farm o e ws NoColl ::
                           (if nmi n then Seq n else Seq (to_mi n)) :: skipn (S (S i)) l
                | _ => firstn i l ++ Farm o e ws NoColl :: skipn (S i) l
                end
          | None => l
          end
        else l
      else if o then l else firstn i l ++ Farm o e ws NoColl :: skipn (S i) l in
    Rl l l'.
  Proof.
    intros l i o e ws c Hw Hi Hc. cbv zeta.
    destruct (i <? length l - 1) eqn:Elen.
    - destruct (has_coll o c) eqn:Hh; [|now apply Rl_refl].
      destruct (nth_error l (S i)) as [s2|] eqn:E2; [|now apply Rl_refl].
      pose proof (nth_split2 _ _ _ _ _ Hi E2) as El.
      destruct o.
      + destruct s2 as [n|?|? ? ? ?|? ?]; try (now apply Rl_refl).
        pose proof Hw as Hw'. rewrite El in Hw'. destruct (wfl_pair _ _ _ _ Hw') as (_ & W & _).
        rewrite El at 1.
        change (firstn i l ++ Farm true e ws (Coll n) :: skipn (S (S i)) l)
          with (firstn i l ++ [Farm true e ws (Coll n)] ++ skipn (S (S i)) l).
        eapply Rl_replace with (xa := Farm true e ws c) (ta := Seq n) (xb := Farm true e ws (Coll n)) (tb := Farm true e ws (Coll n)).
        * auto.
        * eexists; reflexivity.
        * exists [Farm true e ws c]; reflexivity.
        * eexists; reflexivity.
        * exists []; reflexivity.
        * left. now apply of_next.
        * intros _. left. now apply of_next_rev.
        * cbn [forallb]. rewrite andb_true_r. apply wf_farm. apply wf_farm in W. split; [tauto|discriminate].
        * reflexivity.
        * reflexivity.
        * auto.
        * intros s _ G. destruct s; auto.
        * auto.
        * auto.
        * reflexivity.
      + destruct c as [| |c]; try discriminate.
        pose proof Hw as Hw'. rewrite El in Hw'. destruct (wfl_pair _ _ _ _ Hw') as (Hp & W & W2 & N1 & N2).
        assert (W3 : wf (Farm false e ws NoColl) = true).
        { apply wf_farm. apply wf_farm in W. split; [tauto|discriminate]. }
        destruct s2 as [n|?|o2 e2 ws2 c2|? ?]; try discriminate.
        * simpl in Hp. apply negb_true_iff in Hp.
          rewrite El at 1.
          change (firstn i l ++ Farm false e ws NoColl :: (if nmi n then Seq n else Seq (to_mi n)) :: skipn (S (S i)) l)
            with (firstn i l ++ [Farm false e ws NoColl; if nmi n then Seq n else Seq (to_mi n)] ++ skipn (S (S i)) l).
          eapply Rl_replace with (xa := Farm false e ws DefColl) (ta := Seq n) (xb := Farm false e ws NoColl)
            (tb := if nmi n then Seq n else Seq (to_mi n)).
          -- auto.
          -- eexists; reflexivity.
          -- exists [Farm false e ws DefColl]; reflexivity.
          -- eexists; reflexivity.
          -- exists [Farm false e ws NoColl]; reflexivity.
          -- left. destruct (nmi n); [now apply rm_next|now apply rm_next_mi].
          -- intros _. left. destruct (nmi n); [now apply rm_next_rev|now apply rm_next_mi_rev].
          -- cbn [forallb]. rewrite W3. destruct (nmi n); reflexivity.
          -- destruct (nmi n); reflexivity.
          -- destruct (nmi n); reflexivity.
          -- auto.
          -- intros s _ G. destruct (nmi n); destruct s; auto.
          -- destruct (nmi n); auto.
          -- destruct (nmi n); auto.
          -- reflexivity.
        * rewrite El at 1. rewrite (nth_split' _ l (S i) _ E2) at 3.
          assert (Ex : skipn (S i) l = Farm o2 e2 ws2 c2 :: skipn (S (S i)) l).
          { clear -E2. revert E2. generalize (S i) as k. intros k. revert k. induction l; intros [|k] H; simpl in *; try discriminate.
            - now injection H as ->.
            - now apply IHl. }
          rewrite <- (nth_split' _ l (S i) _ E2). rewrite Ex.
          change (firstn i l ++ Farm false e ws NoColl :: Farm o2 e2 ws2 c2 :: skipn (S (S i)) l)
            with (firstn i l ++ [Farm false e ws NoColl; Farm o2 e2 ws2 c2] ++ skipn (S (S i)) l).
          eapply Rl_replace with (xa := Farm false e ws DefColl) (ta := Farm o2 e2 ws2 c2) (xb := Farm false e ws NoColl)
            (tb := Farm o2 e2 ws2 c2); auto.
          -- eexists; reflexivity.
          -- exists [Farm false e ws DefColl]; reflexivity.
          -- eexists; reflexivity.
          -- exists [Farm false e ws NoColl]; reflexivity.
          -- left. now apply rm_next.
          -- intros _. left. now apply rm_next_rev.
          -- cbn [forallb]. rewrite W3, W2. reflexivity.
        * now apply Rl_refl.
    - destruct o; [now apply Rl_refl|].
      pose proof (nth_split' _ _ _ _ Hi) as El.
      assert (Hlen : i < length l) by (apply nth_error_Some; congruence).
      apply Nat.ltb_ge in Elen.
      assert (Es : skipn (S i) l = []) by (apply skipn_all2; lia).
      rewrite Es in *.
      destruct c as [| |c]; try discriminate; [rewrite <- El; now apply Rl_refl|].
      rewrite El at 1.
      change (firstn i l ++ [Farm false e ws DefColl]) with (firstn i l ++ [Farm false e ws DefColl] ++ []).
      change (firstn i l ++ [Farm false e ws NoColl]) with (firstn i l ++ [Farm false e ws NoColl] ++ []).
      assert (W : wf (Farm false e ws DefColl) = true).
      { destruct Hw as (W & _). rewrite forallb_forall in W. apply W. eapply nth_error_In; eauto. }
      apply wf_farm in W. destruct W as (W1 & W2). specialize (W2 eq_refl eq_refl).
      eapply Rl_replace with (xa := Farm false e ws DefColl) (ta := Farm false e ws DefColl)
        (xb := Farm false e ws NoColl) (tb := Farm false e ws NoColl); auto.
      + rewrite El in Hw. exact Hw.
      + eexists; reflexivity.
      + exists []; reflexivity.
      + eexists; reflexivity.
      + exists []; reflexivity.
      + right. split; auto. intros ins outs m R M. apply runs_one in R.
        destruct (rm_last _ _ W2 _ _ _ R M) as (o' & R' & M'). exists o'. split; auto. now apply runs_one.
      + intros _. right. split; auto. intros ins outs m R M. apply runs_one in R.
        destruct (rm_last_rev _ _ W2 _ _ _ R M) as (o' & R' & M'). exists o'. split; auto. now apply runs_one.
      + cbn [forallb]. rewrite andb_true_r. apply wf_farm. split; auto.
  Qed.
  Lemma rm_loop_Rl : forall fuel l next l', wfl l -> rm_loop fuel l next = Ok l' -> Rl l l'.
  Proof.
    induction fuel as [|k IH]; intros l next l' Hw H; [discriminate|]. cbn [rm_loop] in H.
    destruct (find_null_coll l 0 next) as [i|] eqn:E; [|injection H as <-; now apply Rl_refl].
    destruct (find_null_coll_spec _ _ _ _ E) as (_ & _ & o & e & ws & c & Hi & Hc). rewrite Nat.sub_0_r in Hi.
    rewrite Hi in H. pose proof (rm_one l i o e ws c Hw Hi Hc) as R. cbv zeta in R.
    match type of H with rm_loop k ?x _ = _ => set (l1 := x) in * end. 
    eapply Rl_trans; [exact R|]. eapply IH; eauto. apply R.
  Qed.

  (** ** Merging with the emitter *)
  Lemma Ok_inj : forall T (x y : T), Ok x = Ok y -> y = x.
  Proof. congruence. Qed.
  Lemma merge_em_Rl : forall l l', wfl l -> merge_em_step l = Ok l' -> Rl l l'.
  Proof.
    intros l l' Hw H. unfold merge_em_step in H.
    assert (Same : Ok l = Ok l' -> Rl l l') by (intros G; injection G as <-; now apply Rl_refl).
    destruct (find_null_em l 0 0) as [[|p]|] eqn:E; auto.
    destruct (nth_error l p) as [prev|] eqn:E1; auto.
    destruct (nth_error l (S p)) as [[n|?|o [e|] ws c|? ?]|] eqn:E2; auto.
    destruct (is_mo prev) eqn:Emo; auto.
    pose proof (nth_split2 _ _ _ _ _ E1 E2) as El.
    pose proof Hw as Hw'. rewrite El in Hw'. destruct (wfl_pair _ _ _ _ Hw') as (Hp & W1 & W2 & N1 & N2).
    apply wf_farm in W2.
    destruct prev as [n|?|o1 e1 w1 c1|? ?]; auto.
    - destruct (nmi n && negb (ncomp n)); try discriminate.
      unfold add_emitter in H. destruct (ncomp n && negb (nmo n)); try discriminate. cbn [bind] in H. apply Ok_inj in H. subst l'.
      simpl in Emo. rewrite El at 1.
      change (firstn p l ++ Farm o (Some n) ws c :: skipn (S (S p)) l)
        with (firstn p l ++ [Farm o (Some n) ws c] ++ skipn (S (S p)) l).
      eapply Rl_replace with (xa := Seq n) (ta := Farm o None ws c) (xb := Farm o (Some n) ws c) (tb := Farm o (Some n) ws c); auto.
      + eexists; reflexivity.
      + exists [Seq n]; reflexivity.
      + eexists; reflexivity.
      + exists []; reflexivity.
      + left. now apply em_seq.
      + intros _. left. now apply em_seq_rev.
      + cbn [forallb]. rewrite andb_true_r. apply wf_farm. auto.
    - destruct (has_coll o1 c1); auto. destruct c1 as [| |n]; try discriminate.
      destruct (nmi n && negb (ncomp n)); try discriminate.
      unfold add_emitter in H. destruct (ncomp n && negb (nmo n)); try discriminate. cbn [bind] in H. apply Ok_inj in H. subst l'.
      simpl in Emo. rewrite El at 1.
      change (firstn p l ++ Farm o1 e1 w1 (removed o1) :: Farm o (Some n) ws c :: skipn (S (S p)) l)
        with (firstn p l ++ [Farm o1 e1 w1 (removed o1); Farm o (Some n) ws c] ++ skipn (S (S p)) l).
      apply wf_farm in W1.
      eapply Rl_replace with (xa := Farm o1 e1 w1 (Coll n)) (ta := Farm o None ws c) (xb := Farm o1 e1 w1 (removed o1))
        (tb := Farm o (Some n) ws c); auto.
      + eexists; reflexivity.
      + exists [Farm o1 e1 w1 (Coll n)]; reflexivity.
      + eexists; reflexivity.
      + exists [Farm o1 e1 w1 (removed o1)]; reflexivity.
      + left. now apply em_coll.
      + intros _. left. now apply em_coll_rev.
      + cbn [forallb]. rewrite andb_true_r. apply andb_true_iff. split; apply wf_farm; auto.
        split; [tauto|]. intros ->; discriminate.
  Qed.

  (** ** Recursion *)
  Lemma mapM_Forall2 : forall T U (f : T -> res U) (R : T -> U -> Prop) l l', mapM f l = Ok l' ->
    (forall x y, In x l -> f x = Ok y -> R x y) -> Forall2 R l l'.
  Proof.
    induction l as [|x l IH]; intros l' H HR; simpl in H.
    - injection H as <-. constructor.
    - destruct (f x) as [y| | | |] eqn:E; try discriminate. cbn [bind] in H.
      destruct (mapM f l) as [ys| | | |] eqn:E2; try discriminate. cbn [bind] in H. injection H as <-.
      constructor; [apply HR; auto; now left|]. apply IH; auto. intros; apply HR; auto. now right.
  Qed.

  Definition inner_of k o (w : skelA) : res skelA :=
    match w with Pipe l => bind (opt_pipe k o l) (fun l' => Ok (Pipe l')) | _ => Ok w end.
  Lemma opt_pipe_S : forall k o (l0 : list skelA), opt_pipe (S k) o l0 =
        let l := flat_map flat l0 in
        bind (mapM (fun s =>
                match s with
                | Farm ord em ws c => bind (mapM (inner_of k o) ws) (fun ws' => Ok (Farm ord em ws' c))
                | A2A a b => bind (mapM (inner_of k o) a) (fun a' => bind (mapM (inner_of k o) b) (fun b' => Ok (A2A a' b')))
                | _ => Ok s
                end) l) (fun l1 =>
        bind (if merge_farms o then merge_step l1 else Ok l1) (fun l2 =>
        bind (if introduce_a2a o then a2a_loop (S k) l2 (find_null_coll l2 0 0) else Ok l2) (fun l3 =>
        bind (if remove_coll o
              then bind (mapM (fun s => match s with Farm _ _ _ _ => opt_farm k rm_only s | _ => Ok s end) l3)
                     (fun l => rm_loop (S (length l)) l 0)
              else Ok l3) (fun l4 =>
        if merge_emitter o then merge_em_step l4 else Ok l4)))).
  Proof. reflexivity. Qed.
  Lemma opt_farm_S : forall k o (f : skelA), opt_farm (S k) o f =
        match f with
        | Farm ord em ws c =>
            bind (mapM (inner_of k o) ws) (fun ws1 =>
            bind (if remove_coll o then
                    mapM (fun w =>
                      match w with
                      | Farm false _ _ _ =>
                          bind (opt_farm k rm_only w) (fun w' =>
                            match w' with
                            | Farm o' e' ws' (Coll n) => Ok w'
                            | Farm o' e' ws' _ => Ok (Farm o' e' ws' (removed o'))
                            | _ => Ok w'
                            end)
                      | Pipe l => inner_of k rm_only w
                      | A2A a b => bind (mapM (inner_of k rm_only) a) (fun a' =>
                                   bind (mapM (inner_of k rm_only) b) (fun b' => Ok (A2A a' b')))
                      | _ => Ok w
                      end) ws1
                  else Ok ws1) (fun ws2 =>
            Ok (Farm ord em ws2 c)))
        | _ => Undef
        end.
  Proof. reflexivity. Qed.

  Definition plain_opts (o : opts) : Prop := introduce_a2a o = false /\ (exact = true -> merge_farms o = false).
  Lemma rm_plain : plain_opts rm_only.
  Proof. split; auto. Qed.

  Lemma opt_refines : forall fuel,
    (forall o l l', plain_opts o -> wf (Pipe l) = true -> opt_pipe fuel o l = Ok l' ->
       Rl (flat_map flat l) l') /\
    (forall o f f', plain_opts o -> wf f = true -> opt_farm fuel o f = Ok f' -> P f f').
  Proof.
    induction fuel as [|k (IHp & IHf)]; [split; intros; discriminate|].
    set (inner := inner_of k).
    assert (Hin : forall o w w', plain_opts o -> wf w = true -> inner o w = Ok w' -> Q exact w w').
    { intros o w w' Ho Hw H. unfold inner, inner_of in H.
      destruct w as [n|l|o1 e ws c|a b]; try (injection H as <-; now apply Q_refl).
      destruct (opt_pipe k o l) as [l'| | | |] eqn:E; try discriminate. cbn [bind] in H. injection H as <-.
      apply Rl_Q; auto. eapply IHp; eauto. }
    assert (Hins : forall o ws ws', plain_opts o -> forallb wf ws = true -> mapM (inner o) ws = Ok ws' -> Forall2 (Q exact) ws ws').
    { intros o ws ws' Ho Hw H. eapply mapM_Forall2; eauto. intros x y Hx Hy. eapply Hin; eauto.
      rewrite forallb_forall in Hw. auto. }
    split.
    - intros o l l' Ho Hw H. rewrite opt_pipe_S in H. cbv zeta in H. fold inner in H.
      apply wf_pipe in Hw. destruct Hw as (W1 & W2 & W3).
      set (L := flat_map flat l) in *.
      assert (WL : wfl L). { split; [|split]; auto. - now apply flats_wf. - apply flats_nopipe. }
      match type of H with bind (mapM ?f L) _ = _ => destruct (mapM f L) as [l1| | | |] eqn:E1; try discriminate end.
      cbn [bind] in H.
      assert (R1 : Rl L l1).
      { apply P_Rl; auto. eapply mapM_Forall2; [exact E1|]. intros x y Hx Hy.
        destruct WL as (WL & _ & NL). rewrite forallb_forall in WL, NL. specialize (WL _ Hx). specialize (NL _ Hx).
        destruct x as [n|?|o1 e ws c|a b]; try discriminate.
        - injection Hy as <-. now apply P_refl.
        - destruct (mapM (inner o) ws) as [ws'| | | |] eqn:E; try discriminate. cbn [bind] in Hy. injection Hy as <-.
          apply farm_P; auto. eapply Hins; eauto. now apply wf_farm in WL.
        - destruct (mapM (inner o) a) as [a'| | | |] eqn:Ea; try discriminate. cbn [bind] in Hy.
          destruct (mapM (inner o) b) as [b'| | | |] eqn:Eb; try discriminate. cbn [bind] in Hy. injection Hy as <-.
          pose proof WL as WL'. apply wf_a2a in WL'. destruct WL' as (Wa & Wb & _).
          apply a2a_P; auto; eapply Hins; eauto. }
      destruct (if merge_farms o then merge_step l1 else Ok l1) as [l2| | | |] eqn:E2; try discriminate. cbn [bind] in H.
      assert (R2 : Rl l1 l2).
      { destruct (merge_farms o) eqn:Em; [apply merge_step_Rl; auto; [destruct Ho as (_ & Ho); destruct exact; auto; specialize (Ho eq_refl); congruence|apply R1]|injection E2 as <-; apply Rl_refl; apply R1]. }
      rewrite (proj1 Ho) in H. cbn [bind] in H.
      match type of H with bind ?r _ = _ => destruct r as [l4| | | |] eqn:E4; try discriminate end. cbn [bind] in H.
      assert (R4 : Rl l2 l4).
      { destruct (remove_coll o); [|injection E4 as <-; apply Rl_refl; apply R2].
        match type of E4 with bind ?r _ = _ => destruct r as [l3| | | |] eqn:E3; try discriminate end. cbn [bind] in E4.
        assert (R3 : Rl l2 l3).
        { apply P_Rl; [apply R2|]. eapply mapM_Forall2; [exact E3|]. intros x y Hx Hy.
          destruct R2 as ((WL2 & _ & NL2) & _). rewrite forallb_forall in WL2, NL2. specialize (WL2 _ Hx). specialize (NL2 _ Hx).
          destruct x as [n|?|o1 e ws c|a b]; try discriminate; try (injection Hy as <-; now apply P_refl).
          apply (IHf rm_only _ _ rm_plain WL2 Hy). }
        eapply Rl_trans; [exact R3|]. eapply rm_loop_Rl; eauto. apply R3. }
      assert (R5 : Rl l4 l').
      { destruct (merge_emitter o); [apply merge_em_Rl; auto; apply R4|injection H as <-; apply Rl_refl; apply R4]. }
      eapply Rl_trans; [exact R1|]. eapply Rl_trans; [exact R2|]. eapply Rl_trans; [exact R4|]. exact R5.
    - intros o f f' Ho Hw H. rewrite opt_farm_S in H.
      destruct f as [n|?|ord e ws c|a b]; try discriminate. fold inner in H.
      destruct (mapM (inner o) ws) as [ws1| | | |] eqn:E1; try discriminate. cbn [bind] in H.
      pose proof Hw as Hw'. apply wf_farm in Hw'. destruct Hw' as (W1 & _).
      assert (Q1 : Forall2 (Q exact) ws ws1) by (eapply Hins; eauto).
      match type of H with bind ?r _ = _ => destruct r as [ws2| | | |] eqn:E2; try discriminate end. cbn [bind] in H.
      injection H as <-. apply farm_P; auto.
      assert (Q2 : Forall2 (Q exact) ws1 ws2).
      { pose proof (Q_wf _ _ _ Q1) as W2. rewrite forallb_forall in W2.
        destruct (remove_coll o).
        - eapply mapM_Forall2; [exact E2|]. intros x y Hx Hy. specialize (W2 _ Hx).
          destruct x as [n|l|[|] e1 wx c1|a b]; try (injection Hy as <-; now apply Q_refl).
          + apply (Hin rm_only _ _ rm_plain W2 Hy).
          + destruct (opt_farm k rm_only (Farm false e1 wx c1)) as [w'| | | |] eqn:Ew; try discriminate. cbn [bind] in Hy.
            pose proof (IHf rm_only _ _ rm_plain W2 Ew) as Pw.
            pose proof (P_Q (Farm false e1 wx c1) w' eq_refl eq_refl Pw) as Qw.
            destruct Pw as (Ww & _ & _ & _ & _ & _ & _ & Hk).
            destruct w' as [|?|o' e' ws' c'|]; try contradiction.
            destruct Hk as (-> & -> & ->).
            destruct c1 as [| |c1]; injection Hy as <-; try exact Qw.
            eapply Q_trans; [exact Qw|]. apply wf_farm in Ww. destruct Ww as (Wa & Wb). specialize (Wb eq_refl eq_refl).
            repeat split; auto.
            * apply wf_farm. split; auto.
            * now apply rm_last.
            * intros _. now apply rm_last_rev.
            * discriminate.
          + destruct (mapM (inner rm_only) a) as [a'| | | |] eqn:Ea; try discriminate. cbn [bind] in Hy.
            destruct (mapM (inner rm_only) b) as [b'| | | |] eqn:Eb; try discriminate. cbn [bind] in Hy. injection Hy as <-.
            pose proof W2 as W2'. apply wf_a2a in W2'. destruct W2' as (Wa & Wb & _).
            apply P_Q; auto. apply a2a_P; auto; [exact (Hins rm_only _ _ rm_plain Wa Ea)|exact (Hins rm_only _ _ rm_plain Wb Eb)].
        - injection E2 as <-. clear -W2. induction ws1; constructor; [apply Q_refl; apply W2; now left|].
          apply IHws1. intros; apply W2; now right. }
      clear -Q1 Q2. revert ws2 Q2. induction Q1; intros ws2 Q2; inversion Q2; subst; constructor; auto.
      eapply Q_trans; eauto.
  Qed.

End Main.

Lemma opt_preserves : forall A fuel o (p p' : list (skel A)) xs ys, introduce_a2a o = false -> wf (Pipe p) = true ->
  opt_pipe fuel o p = Ok p' -> behaviour p' xs ys -> behaviour p xs ys.
Proof.
  intros A fuel o p p' xs ys Ho Hw H (outs & l & R & M & ->).
  destruct (proj1 (opt_refines false fuel) o p p') as (_ & _ & G & _); auto; [split; auto; discriminate|].
  destruct (G _ _ _ R M) as (outs' & R' & M'). exists outs', l. split; auto. now apply flats_run.
Qed.
Lemma opt_exact : forall A fuel o (p p' : list (skel A)) xs ys, introduce_a2a o = false -> merge_farms o = false ->
  wf (Pipe p) = true -> opt_pipe fuel o p = Ok p' -> (behaviour p' xs ys <-> behaviour p xs ys).
Proof.
  intros A fuel o p p' xs ys Ho Hm Hw H. split; [now apply opt_preserves with fuel o|].
  intros (outs & l & R & M & ->).
  destruct (proj1 (opt_refines true fuel) o p p') as (_ & _ & _ & G & _); auto; [split; auto|].
  apply flats_run in R. destruct (G eq_refl _ _ _ R M) as (outs' & R' & M'). exists outs', l. split; auto.
Qed.
