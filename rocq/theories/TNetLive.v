(** The network on TSO: it is stuck only when the network of NetModel is, executions are finite, and
    what the threads pushed, in terms of what their code was given. *)
From Coq Require Import List Arith Lia Bool Permutation.
From Verif Require Import Base NetModel NetSpec NetProofs NetProofs2 NetProofs3 NetProofs4 TNetModel TNetChan TNetProofs TNetInv TNetSim.
Import ListNotations.

Section Live.
  Context {X St : Type}.
  Variable N : net X St.
  Variable o0 : nat -> X.
  Hypothesis HC : forall c k b, chan_of N c = Some k -> cap k = Some b -> 1 <= b.
  Hypothesis HS : forall c k, chan_of N c = Some k -> src k <> dst k.
  Notation tst := (tst X St).
  Notation st := (st X St).
  Notation rel := (rel N).

  (** ** Stuck *)
  Lemma can_choose : forall s t g v G, rel s t g -> exists sg, chosen s v G sg = true.
  Proof.
    intros s t g v G R. destruct (r_fin _ _ _ _ R) as (m & M). exists (seq m (length (sent G))). unfold chosen.
    rewrite seq_length, Nat.eqb_refl. cbn [andb]. apply andb_true_iff. split; [apply distinct_ok, seq_NoDup |].
    apply forallb_forall. intros a Ha. apply in_seq in Ha. unfold usable. rewrite M by lia. auto.
  Qed.
  Lemma can_enter : forall s t g v r gt, rel s t g -> exists sg s', enter s v r sg gt = Some s'.
  Proof. intros s t g v r gt R. destruct (can_choose s t g v (pend r) R) as (sg & H). exists sg. unfold enter. rewrite H. eauto. Qed.

  Lemma stuck_idle : forall s t g, rel s t g -> (forall a, tstep N s a = None) ->
    (forall w, sb s w = []) /\ (forall v, v < nodes N -> pcs s v = Idle).
  Proof.
    intros s t g R SK. split.
    - intros w. specialize (SK (TFlush w)). cbn [tstep] in SK. destruct (sb s w) as [| [] ]; auto; discriminate.
    - intros v V. destruct (pcs s v) as [| | c | c p | c p | k j] eqn:P; auto; exfalso.
      + destruct (can_enter s t g v (init_node N v) (got s) R) as (sg & s' & E). specialize (SK (TBoot v sg)). cbn [tstep] in SK.
        apply Nat.ltb_lt in V. rewrite V, P in SK. congruence.
      + specialize (SK (TRead v)). cbn [tstep] in SK. rewrite P in SK. destruct (see s v c (pr s c)); discriminate.
      + specialize (SK (TClear v)). cbn [tstep] in SK. rewrite P in SK. discriminate.
      + destruct (can_enter s t g v (react N v (mkNode (ust (cn s v)) [] (ended (cn s v)) (ph (cn s v))) c (mmap (view s v) p))
          (fupd (got s) v (got s v ++ [(c, mmap (view s v) p)])) R) as (sg & s' & E).
        specialize (SK (TUse v sg)). cbn [tstep] in SK. rewrite P in SK. cbn zeta in SK. congruence.
      + destruct (r_node _ _ _ _ R v) as (_ & _ & C). rewrite P in C.
        destruct C as (_ & _ & gr & Q & r & c & p & kk & PE & NE & TR & _). specialize (SK (TStore v)). cbn [tstep] in SK.
        rewrite P, PE, NE, TR in SK. discriminate.
  Qed.

  Lemma stuck_abs : forall s t g, rel s t g -> (forall a, tstep N s a = None) -> stuck N t.
  Proof using HC HS.
    intros s t g R SK. destruct (stuck_idle s t g R SK) as [SB PC]. intros b.
    destruct (step N t b) as [t' |] eqn:E; [exfalso | auto]. destruct b as [v c | v k j | v | v]; cbn [step] in E.
    - destruct (ph (nd t v)) eqn:PH; try discriminate. destruct (pend (nd t v)) eqn:PE; try discriminate.
      destruct (q t c) as [| m r] eqn:Q; try discriminate.
      destruct (v <? nodes N) eqn:V; [| discriminate]. destruct (memb c (ins N v)) eqn:MI; [| discriminate].
      destruct (memb c (ended (nd t v))) eqn:ME; [discriminate |]. pose proof V as V'. apply Nat.ltb_lt in V'. pose proof (PC v V') as P.
      destruct (r_node _ _ _ _ R v) as (_ & _ & C). rewrite P in C. destruct C as [_ C]. rewrite C in *. unfold nmap in *. cbn [ph pend ended] in *.
      pose proof MI as MI'. apply memb_In, in_ins in MI' as (k & K & D).
      specialize (SK (TTest v c)). cbn [tstep] in SK. rewrite P, PH, V, MI, ME in SK. cbn [andb negb] in SK.
      destruct (pend (cn s v)) eqn:PE'; [| discriminate]. rewrite (see_c N HC s t g c k v R K D) in SK.
      pose proof (r_ck _ _ _ _ R c k K) as CK. rewrite !SB in CK. simpl in CK. rewrite (r_q _ _ _ _ R c k K) in Q. unfold tail in Q.
      assert (L : length (skipn (ta g c) (ha g c)) <> 0) by (destruct (skipn (ta g c) (ha g c)); [discriminate | simpl; lia]).
      rewrite skipn_length in L. pose proof (ck_sp _ _ _ _ _ _ _ _ _ _ CK) as SP.
      assert (EB : length (ha g c) - kb g c = 0) by (destruct (length (ha g c) - kb g c); [auto | discriminate]).
      destruct (Nat.ltb_spec (ta g c) (kb g c)) as [L1 | L1]; [| lia].
      destruct (nth_error (ha g c) (ta g c)) eqn:NE; [discriminate |]. apply nth_error_None in NE. lia.
    - destruct (pend (nd t v)) as [| gr Q] eqn:PE; try discriminate. destruct (nth_error gr k) as [r |] eqn:NE; try discriminate.
      destruct (resolve N v r j) as [[c m] |] eqn:RS; try discriminate. destruct (v <? nodes N) eqn:V; [| discriminate].
      destruct (room N t c) eqn:RM; [| discriminate]. pose proof V as V'. apply Nat.ltb_lt in V'. pose proof (PC v V') as P.
      destruct (r_node _ _ _ _ R v) as (_ & _ & C). rewrite P in C. destruct C as [_ C]. rewrite C in PE. unfold nmap in PE. cbn [pend] in PE.
      destruct (pend (cn s v)) as [| gr' Q'] eqn:PE'; [discriminate |]. injection PE as <- <-.
      rewrite nth_error_map in NE. destruct (nth_error gr' k) as [r' |] eqn:NE'; [| discriminate]. injection NE as <-.
      rewrite resolve_map in RS. destruct (tresolve N v r' j) as [[c' p] |] eqn:TR; [| discriminate]. injection RS as -> _.
      destruct (tresolve_out N _ _ _ _ _ TR) as (kk & K & S).
      specialize (SK (TChk v k j)). cbn [tstep] in SK. rewrite P, PE', NE', TR, V in SK.
      pose proof (r_ck _ _ _ _ R c kk K) as CK. rewrite !SB in CK. simpl in CK. unfold see, ld in SK. rewrite SB in SK. simpl in SK.
      rewrite (ck_room (cap kk) (fun b Hb => HC c kk b K Hb) _ _ _ _ _ _ _ CK) in SK; [discriminate |].
      unfold room in RM. rewrite K in RM. unfold bounded. destruct (cap kk) as [b |]; auto. apply Nat.ltb_lt in RM.
      rewrite (r_q _ _ _ _ R c kk K), map_length in RM. unfold tail in RM. rewrite skipn_length in RM. destruct CK. lia.
    - destruct (pend (nd t v)) as [| [|] Q] eqn:PE; try discriminate. destruct (v <? nodes N) eqn:V; [| discriminate].
      pose proof V as V'. apply Nat.ltb_lt in V'. pose proof (PC v V') as P.
      destruct (r_node _ _ _ _ R v) as (_ & _ & C). rewrite P in C. destruct C as [_ C]. rewrite C in PE. unfold nmap in PE. cbn [pend] in PE.
      destruct (pend (cn s v)) as [| [|] Q'] eqn:PE'; try discriminate.
      specialize (SK (TNext v)). cbn [tstep] in SK. rewrite P, PE', V in SK. discriminate.
    - destruct (ph (nd t v)) eqn:PH; try discriminate. destruct (pend (nd t v)) eqn:PE; try discriminate. destruct (v <? nodes N) eqn:V; [| discriminate].
      pose proof V as V'. apply Nat.ltb_lt in V'. pose proof (PC v V') as P.
      destruct (r_node _ _ _ _ R v) as (_ & _ & C). rewrite P in C. destruct C as [_ C]. rewrite C in PE, PH. unfold nmap in PE, PH. cbn [pend ph] in PE, PH.
      destruct (pend (cn s v)) eqn:PE'; try discriminate.
      specialize (SK (TFin v)). cbn [tstep] in SK. rewrite P, PH, PE', V in SK. discriminate.
  Qed.

  (** ** Direct invariants *)
  Record uinv (s : tst) : Prop := {
    u_out : forall v, nodes N <= v -> sb s v = [] /\ pcs s v = Boot;
    u_boot : forall v, pcs s v = Boot -> got s v = [] /\ put s v = [];
    u_ust : forall v, ust (cn s v) = ufold N v (start N v) (got s v) }.

  Lemma uinv_init : uinv (tinit N o0).
  Proof. constructor; simpl; auto. Qed.
  Lemma react_ust : forall v n c m, ust (react N v n c m) = ufold N v (ust n) [(c, m)].
  Proof.
    intros v n c [x |]; simpl.
    - destruct (svc N v (ust n) c x) as [[u o] []]; auto.
    - destruct (eosn N v (ust n) c) as [u o]. destruct (forallb _ _); auto.
  Qed.
  Lemma uinv_pc : forall s v p, uinv s -> v < nodes N -> p <> Boot -> uinv (setpc s v p).
  Proof.
    intros s v p [A B C] V NB. constructor; cbn [setpc sb pcs got put cn]; auto.
    - intros w W. destruct (A w W). split; auto. rewrite fupd_neq by lia. auto.
    - intros w. destruct (Nat.eq_dec w v) as [-> | Nw]; [rewrite fupd_eq; congruence | rewrite fupd_neq by auto; auto].
  Qed.
  Lemma uinv_enter : forall s v r sg gt s', uinv s -> v < nodes N -> enter s v r sg gt = Some s' ->
    (forall w, w <> v -> gt w = got s w) -> ust r = ufold N v (start N v) (gt v) -> uinv s'.
  Proof.
    intros s v r sg gt s' [A B C] V E GT U. unfold enter in E. destruct (chosen s v (pend r) sg); [| discriminate]. injection E as <-.
    constructor; cbn [sb pcs got put cn].
    - intros w W. rewrite !fupd_neq by lia. auto.
    - intros w. destruct (Nat.eq_dec w v) as [-> | Nw]; [rewrite fupd_eq; discriminate | rewrite fupd_neq by auto]. rewrite GT by auto. auto.
    - intros w. destruct (Nat.eq_dec w v) as [-> | Nw]; [rewrite fupd_eq; auto | rewrite fupd_neq by auto; rewrite GT by auto; auto].
  Qed.
  Lemma nin_boot : forall s v, uinv s -> pcs s v <> Boot -> v < nodes N.
  Proof. intros s v U H. destruct (Nat.lt_ge_cases v (nodes N)); auto. exfalso. apply H. apply (u_out _ U). auto. Qed.

  Lemma uinv_step : forall s a s', uinv s -> tstep N s a = Some s' -> uinv s'.
  Proof.
    intros s a s' U E. destruct a as [v sg | v c | v | v | v sg | v k j | v | v | v | v]; cbn [tstep] in E.
    - destruct (Nat.ltb_spec v (nodes N)) as [V | V]; [| discriminate]. destruct (pcs s v) eqn:P; try discriminate.
      eapply uinv_enter; eauto. rewrite (proj1 (u_boot _ U v P)). unfold init_node. destruct (ins N v); auto.
    - destruct (pcs s v) eqn:P; try discriminate. destruct (ph (cn s v)); try discriminate. destruct (pend (cn s v)); try discriminate.
      destruct ((v <? nodes N) && memb c (ins N v) && negb (memb c (ended (cn s v)))); [| discriminate].
      destruct (see s v c (pr s c)); [| discriminate]. injection E as <-. apply uinv_pc; auto; [| discriminate]. eapply nin_boot; eauto; congruence.
    - destruct (pcs s v) eqn:P; try discriminate. destruct (see s v c (pr s c)); injection E as <-.
      + apply uinv_pc; auto; [| discriminate]. eapply nin_boot; eauto; congruence.
      + destruct U. constructor; auto.
    - destruct (pcs s v) eqn:P; try discriminate. assert (V : v < nodes N) by (eapply nin_boot; eauto; congruence). injection E as <-.
      destruct U as [A B C]. constructor; cbn [sb pcs got put cn]; auto.
      + intros w W. rewrite !fupd_neq by lia. auto.
      + intros w. destruct (Nat.eq_dec w v) as [-> | Nw]; [rewrite fupd_eq; discriminate | rewrite fupd_neq by auto; auto].
    - destruct (pcs s v) eqn:P; try discriminate. assert (V : v < nodes N) by (eapply nin_boot; eauto; congruence).
      eapply uinv_enter; eauto.
      + intros w Nw. apply fupd_neq. auto.
      + rewrite fupd_eq, react_ust, ufold_app. cbn [ust]. rewrite (u_ust _ U v). auto.
    - destruct (pcs s v) eqn:P; try discriminate. destruct (pend (cn s v)) as [| gr]; try discriminate. destruct (nth_error gr k) as [r |]; try discriminate.
      destruct (tresolve N v r j) as [[c p] |]; try discriminate. destruct (v <? nodes N); [| discriminate].
      destruct (see s v c (pw s c)); [discriminate |]. injection E as <-. apply uinv_pc; auto; [| discriminate]. eapply nin_boot; eauto; congruence.
    - destruct (pcs s v) eqn:P; try discriminate. assert (V : v < nodes N) by (eapply nin_boot; eauto; congruence).
      destruct (pend (cn s v)) as [| gr]; try discriminate. destruct (nth_error gr k) as [r |]; try discriminate.
      destruct (tresolve N v r j) as [[c p] |]; try discriminate. injection E as <-. destruct U as [A B C]. constructor; cbn [sb pcs got put cn].
      + intros w W. rewrite !fupd_neq by lia. auto.
      + intros w. destruct (Nat.eq_dec w v) as [-> | Nw]; [rewrite fupd_eq; discriminate | rewrite !fupd_neq by auto; auto].
      + intros w. destruct (Nat.eq_dec w v) as [-> | Nw]; [rewrite fupd_eq; apply C | rewrite fupd_neq by auto; apply C].
    - destruct (pcs s v) eqn:P; try discriminate. destruct (pend (cn s v)) as [| [|]]; try discriminate. destruct (v <? nodes N); [| discriminate].
      injection E as <-. destruct U as [A B C]. constructor; cbn [sb pcs got put cn]; auto.
      intros w. destruct (Nat.eq_dec w v) as [-> | Nw]; [rewrite fupd_eq; apply C | rewrite fupd_neq by auto; apply C].
    - destruct (pcs s v) eqn:P; try discriminate. destruct (ph (cn s v)); try discriminate. destruct (pend (cn s v)); try discriminate. destruct (v <? nodes N); [| discriminate].
      injection E as <-. destruct U as [A B C]. constructor; cbn [sb pcs got put cn]; auto.
      intros w. destruct (Nat.eq_dec w v) as [-> | Nw]; [rewrite fupd_eq; apply C | rewrite fupd_neq by auto; apply C].
    - destruct (sb s v) as [| e l] eqn:B; [discriminate |].
      assert (V : v < nodes N) by (destruct (Nat.lt_ge_cases v (nodes N)); auto; rewrite (proj1 (u_out _ U v H)) in B; discriminate).
      destruct U as [A B' C]. destruct e; injection E as <-; constructor; cbn [sb pcs got put cn]; auto; intros w W; rewrite fupd_neq by lia; auto.
  Qed.
  Lemma uinv_reach : forall l s, exec (tstep N) (tinit N o0) l = Some s -> uinv s.
  Proof. intros l s. apply (exec_inv (tstep N) uinv uinv_step). apply uinv_init. Qed.

  (** ** Finite executions *)
  Definition phi1 (s : tst) (t : st) (v : nat) : nat :=
    length (sb s v) +
    match pcs s v with
    | Boot | Use _ _ => 4 + length (sent (pend (nd t v)))
    | Idle => 3 | Seen _ => 2 | Got _ _ => 1 | Avail _ _ => 1
    end.
  Definition phi (s : tst) (t : st) : nat := list_sum (map (phi1 s t) (seq 0 (nodes N))).

  Lemma phi_dec : forall s s' t v, v < nodes N -> phi1 s' t v < phi1 s t v ->
    (forall w, w <> v -> phi1 s' t w = phi1 s t w) -> phi s' t < phi s t.
  Proof.
    intros s s' t v V L O. unfold phi. apply (sum_dec (seq 0 (nodes N)) (phi1 s' t) (phi1 s t) v).
    - apply seq_NoDup.
    - apply in_seq. lia.
    - auto.
    - intros w Nw. rewrite O; auto.
  Qed.

  Lemma enter_phi : forall s t v r sg gt s', nd t v = r -> enter s v r sg gt = Some s' -> v < nodes N ->
    (pcs s v = Boot \/ exists c p, pcs s v = Use c p) -> phi s' t < phi s t.
  Proof.
    intros s t v r sg gt s' ND E V P. unfold enter in E. destruct (chosen s v (pend r) sg) eqn:CH; [| discriminate]. injection E as <-.
    unfold chosen in CH. apply andb_true_iff in CH as [CH _]. apply andb_true_iff in CH as [LN _]. apply Nat.eqb_eq in LN.
    apply (phi_dec _ _ t v V).
    - unfold phi1. cbn [sb pcs]. rewrite !fupd_eq, app_length. unfold writes. rewrite map_length, combine_length, LN, ND.
      destruct P as [-> | (c & p & ->)]; lia.
    - intros w Nw. unfold phi1. cbn [sb pcs]. rewrite !fupd_neq by auto. auto.
  Qed.
  Lemma setpc_phi : forall s t v p, v < nodes N ->
    (match p with Seen _ => 2 | Got _ _ => 1 | Avail _ _ => 1 | _ => 9 end <
     match pcs s v with Idle => 3 | Seen _ => 2 | _ => 0 end) -> phi (setpc s v p) t < phi s t.
  Proof.
    intros s t v p V L. apply (phi_dec _ _ t v V).
    - unfold phi1. cbn [setpc sb pcs]. rewrite fupd_eq. destruct p, (pcs s v); lia.
    - intros w Nw. unfold phi1. cbn [setpc sb pcs]. rewrite fupd_neq by auto. auto.
  Qed.

  Lemma sim_dec : forall s t g a s', uinv s -> rel s t g -> tstep N s a = Some s' ->
    exists t' g', ((t' = t /\ phi s' t < phi s t) \/ exists b, step N t b = Some t') /\ rel s' t' g'.
  Proof using HC HS.
    intros s t g a s' U R E. destruct a as [v sg | v c | v | v | v sg | v k j | v | v | v | v].
    - destruct (sim_boot N HC HS _ _ _ _ _ _ R E) as (g' & H). exists t, g'. split; [left; split; auto | auto].
      cbn [tstep] in E. destruct (Nat.ltb_spec v (nodes N)); [| discriminate]. destruct (pcs s v) eqn:P; try discriminate.
      apply (enter_phi s t v (init_node N v) sg (got s) s'); auto. destruct (r_node _ _ _ _ R v) as (_ & _ & C). rewrite P in C. apply C.
    - pose proof E as E'. apply (sim_test N HC _ _ _ _ _ _ R) in E. exists t, g. split; [left; split; auto | auto].
      cbn [tstep] in E'. destruct (pcs s v) eqn:P; try discriminate. assert (V : v < nodes N) by (eapply nin_boot; eauto; congruence).
      destruct (ph (cn s v)); try discriminate. destruct (pend (cn s v)); try discriminate.
      destruct ((v <? nodes N) && memb c (ins N v) && negb (memb c (ended (cn s v)))); [| discriminate].
      destruct (see s v c (pr s c)); [| discriminate]. injection E' as <-. apply setpc_phi; auto. rewrite P. lia.
    - pose proof E as E'. apply (sim_read N HC _ _ _ _ _ R) in E. exists t, g. split; [left; split; auto | auto].
      cbn [tstep] in E'. destruct (pcs s v) eqn:P; try discriminate. assert (V : v < nodes N) by (eapply nin_boot; eauto; congruence).
      destruct (see s v c (pr s c)); injection E' as <-.
      + apply setpc_phi; auto. rewrite P. lia.
      + apply r_bad in E. discriminate.
    - destruct (sim_clear N HC HS _ _ _ _ _ R E) as (t' & g' & (c & H) & R'). exists t', g'. split; [right; eauto | auto].
    - pose proof E as E'. destruct (sim_use N HC HS _ _ _ _ _ _ R E) as (g' & H). exists t, g'. split; [left; split; auto | auto].
      cbn [tstep] in E'. destruct (pcs s v) eqn:P; try discriminate. assert (V : v < nodes N) by (eapply nin_boot; eauto; congruence).
      cbn zeta in E'. refine (enter_phi s t v _ sg _ s' _ E' V _); [| right; eauto].
      destruct (r_node _ _ _ _ R v) as (_ & _ & C). rewrite P in C. destruct C as (_ & C1 & C2 & C3 & O).
      assert (MV : mmap (view s v) p = mmap (cur g) p).
      { destruct p as [a |]; auto. simpl. f_equal. apply (r_view _ _ _ _ R). rewrite (O a eq_refl). auto. }
      rewrite MV, C1. apply react_pend; reflexivity.
    - pose proof E as E'. apply (sim_chk N HC _ _ _ _ _ _ _ R) in E. exists t, g. split; [left; split; auto | auto].
      cbn [tstep] in E'. destruct (pcs s v) eqn:P; try discriminate. assert (V : v < nodes N) by (eapply nin_boot; eauto; congruence).
      destruct (pend (cn s v)) as [| gr]; try discriminate. destruct (nth_error gr k) as [r |]; try discriminate.
      destruct (tresolve N v r j) as [[c p] |]; try discriminate. destruct (v <? nodes N); [| discriminate].
      destruct (see s v c (pw s c)); [discriminate |]. injection E' as <-. apply setpc_phi; auto. rewrite P. lia.
    - destruct (sim_store N HC HS _ _ _ _ _ R E) as (t' & g' & (k & j & H) & R'). exists t', g'. split; [right; eauto | auto].
    - destruct (sim_next N _ _ _ _ _ R E) as (t' & H & R'). exists t', g. split; [right; eauto | auto].
    - destruct (sim_fin N _ _ _ _ _ R E) as (t' & H & R'). exists t', g. split; [right; eauto | auto].
    - pose proof E as E'. destruct (sim_flush N HC HS _ _ _ _ _ R E) as (g' & H). exists t, g'. split; [left; split; auto | auto].
      cbn [tstep] in E'. destruct (sb s v) as [| e l] eqn:B; [discriminate |].
      assert (V : v < nodes N) by (destruct (Nat.lt_ge_cases v (nodes N)) as [? | G]; auto; rewrite (proj1 (u_out _ U v G)) in B; discriminate).
      apply (phi_dec _ _ t v V).
      + unfold phi1. destruct e; injection E' as <-; cbn [sb pcs]; rewrite fupd_eq, B; simpl; lia.
      + intros w Nw. unfold phi1. destruct e; injection E' as <-; cbn [sb pcs]; rewrite fupd_neq by auto; auto.
  Qed.

  Lemma no_infinite_t : acyclic N -> forall m s t g, meas N t = m -> uinv s -> rel s t g -> forall f : nat -> tact,
    exists k, exec (tstep N) s (map f (seq 0 k)) = None.
  Proof using HC HS.
    intros AC m. induction (lexlt_wf (nodes N) m) as [m _ IH]. intros s t g EM U R.
    remember (phi s t) as n eqn:En. revert s g U R En. induction n as [n IHn] using lt_wf_ind. intros s g U R En f.
    destruct (tstep N s (f 0)) as [s' |] eqn:E; [| exists 1; simpl; rewrite E; auto].
    assert (exists k, exec (tstep N) s' (map (fun i => f (S i)) (seq 0 k)) = None) as (k & Hk).
    { pose proof (uinv_step _ _ _ U E) as U'. destruct (sim_dec s t g (f 0) s' U R E) as (t' & g' & [[-> L] | (b & H)] & R').
      - apply (IHn (phi s' t)) with (g := g'); auto. lia.
      - apply (IH (meas N t')) with (t := t') (g := g'); auto. rewrite <- EM. eapply step_meas; eauto. }
    exists (S k). cbn [seq map]. rewrite <- seq_shift, map_map. cbn [exec]. rewrite E. exact Hk.
  Qed.

  (** ** What was pushed *)
  Lemma progress_rest : forall v A p h, progress N v (A ++ p) p h -> realizes N v A h.
  Proof.
    intros v A [| b B] h H; simpl in H; [rewrite app_nil_r in H; auto |].
    destruct H as (D & b0 & ps & P1 & p2 & EA & PB & -> & RD & F).
    assert (L : length A = length D) by (apply (f_equal (@length _)) in EA; rewrite !app_length in EA; simpl in EA; lia).
    assert (A = D /\ b :: B = b0 :: B) as [-> EB].
    { revert EA L. clear. revert D. induction A as [| x A IH]; intros [| y D] EA L; try discriminate; simpl in *; auto.
      injection EA as -> EA. destruct (IH D EA) as [-> ->]; auto. }
    injection EB as <-. apply Permutation_length in PB. rewrite app_length in PB.
    destruct ps; [| simpl in PB; lia]. inversion F; subst. rewrite app_nil_r. auto.
  Qed.

  Lemma react_replies : forall v n c m,
    pend (react N v n c m) = replies N v (ust n) [(c, m)] ++ match ph (react N v n c m) with Running => [] | _ => [eos_group N v] end.
  Proof.
    intros v n c [x |]; simpl.
    - destruct (svc N v (ust n) c x) as [[u o] []]; simpl; rewrite ?app_nil_r; auto.
    - destruct (eosn N v (ust n) c) as [u o]. destruct (forallb _ _); simpl; rewrite ?app_nil_r; auto.
  Qed.

  Lemma tpushes : wf N -> forall s t g v, uinv s -> rel s t g -> inv N t -> v < nodes N -> exists rest,
    realizes N v (boot N v ++ replies N v (start N v) (got s v) ++ match ph (cn s v) with Running => [] | _ => [eos_group N v] end) (put s v ++ rest) /\
    (pend (cn s v) = [] -> pcs s v <> Boot -> rest = []).
  Proof.
    intros W s t g v U R I V. destruct (r_node _ _ _ _ R v) as (_ & _ & C). pose proof (r_hl _ _ _ _ R v) as HL. pose proof (r_hp _ _ _ _ R v) as HP.
    assert (MAIN : nd t v = nmap (cur g) (cn s v) -> hl t v = got s v -> exists rest,
      realizes N v (boot N v ++ replies N v (start N v) (got s v) ++ match ph (cn s v) with Running => [] | _ => [eos_group N v] end) (put s v ++ rest) /\
      (pend (cn s v) = [] -> pcs s v <> Boot -> rest = [])).
    { intros C1 H1. destruct (pushes_asked N W t v I V) as (rest & R1 & R2). unfold asked in R1. rewrite C1, H1, HP in R1.
      exists rest. split; [exact R1 |]. intros PE _. apply R2. rewrite C1. unfold nmap. cbn [pend]. rewrite PE. auto. }
    destruct (pcs s v) as [| | c | c p | c p | k j] eqn:P; rewrite ?app_nil_r in HL.
    - destruct (u_boot _ U v P) as [G0 P0]. destruct C as [C1 C2]. rewrite G0, P0, C2. simpl. rewrite app_nil_r.
      destruct (realizes_exists N v (boot N v)) as (rest & RR).
      { intros g0 r Hg Hr. pose proof (wf_boot N W v V) as OK. unfold ok_groups in OK. rewrite Forall_forall in OK. specialize (OK _ Hg).
        rewrite Forall_forall in OK. specialize (OK _ Hr). destruct r as [j [x |] | x]; simpl in OK; try contradiction.
        - destruct (nth_error (outs N v) j) as [c |] eqn:E; [exists (c, Item x); split; auto | apply nth_error_None in E; lia].
        - destruct (outs N v) as [| c l] eqn:E; [contradiction |]. exists (c, Item x). split; auto. rewrite E. left; auto. }
      exists rest. split; [exact RR |]. intros _ F. congruence.
    - destruct C as [_ C]. auto.
    - destruct C as [C _]. auto.
    - destruct C as [C _]. auto.
    - destruct C as (_ & C1 & C2 & C3 & _). exists []. split; [| auto]. rewrite app_nil_r, C2, app_nil_r.
      apply (progress_rest v _ (pend (nd t v))). rewrite <- HP. pose proof (i_prog _ _ I v) as PR.
      assert (EQ : asked N t v = (boot N v ++ replies N v (start N v) (got s v)) ++ pend (nd t v)); [| rewrite <- EQ; auto].
      unfold asked. rewrite HL, replies_app, <- (u_ust _ U v). rewrite C1, react_replies. cbn [nmap ust]. rewrite <- !app_assoc. auto.
    - destruct C as (_ & C & _). auto.
  Qed.
End Live.
