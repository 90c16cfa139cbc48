(** C58: running the same network several times. *)
From Coq Require Import List Arith Bool Lia.
From Verif Require Import Base NetModel NetSpec NetProofs NetProofs2 NetProofs3 NetProofs4 NetProps ReModel ReSpec ReProofs ReProofs2.
Import ListNotations.

Section Props.
  Context {X St : Type}.
  Variables (n : nat) (chs : list chan) (first : nat -> St)
            (reboot : nat -> St -> St * list (list (req X)))
            (svc0 : nat -> St -> nat -> X -> St * list (list (req X)) * bool)
            (eosn0 : nat -> St -> nat -> St * list (list (req X))).
  Notation NR := (NR n chs reboot svc0 eosn0).
  Notation mstep := (mstep n chs first reboot svc0 eosn0).
  Notation m_init := (m_init n chs first reboot svc0 eosn0).
  Notation separate := (separate n chs first reboot svc0 eosn0).

  (** The code of the nodes is well formed whatever states a run begins with; no svc returns EOS. *)
  Definition re_ok : Prop := (forall f, wf (NR f)) /\ (forall v u c x, snd (svc0 v u c x) = false).

  (** At any time, for any interleaving (threads may be in different runs): the state is what
      separate executions of the network leave when put one after the other. *)
  Theorem re_separate : re_ok -> forall K l s, 0 < K -> exec (mstep K) m_init l = Some s ->
    exists F T L, separate K s F T L.
  Proof.
    intros [W PT] K l s KP E. destruct (exec_Inv n chs first reboot svc0 eosn0 W PT K KP l s E) as (B & T & L & I).
    destruct (Inv_separate n chs first reboot svc0 eosn0 K s B T L I) as (T' & S & _). eauto.
  Qed.

  (** A thread never begins a run before its predecessors did, and channels never hold values of a
      run their reader has finished. *)
  Theorem re_order : re_ok -> forall K l s c k, 0 < K -> exec (mstep K) m_init l = Some s ->
    nth_error chs c = Some k -> ph (nd (base s) (dst k)) = Done -> run s (dst k) <= run s (src k) /\
    (run s (dst k) = run s (src k) -> q (base s) c = []).
  Proof.
    intros [W PT] K l s c k KP E C D. destruct (exec_Inv n chs first reboot svc0 eosn0 W PT K KP l s E) as (B & T & L & I).
    assert (R1 : run s (dst k) <= run s (src k)).
    { destruct (le_lt_dec (run s (dst k)) (run s (src k))) as [|LT]; auto. exfalso.
      destruct (run_reach _ _ _ _ _ _ _ s B T L (run s (dst k)) I) as (t & EX & SM). pose proof (reach _ _ _ EX) as J.
      assert (DT : ph (nd t (dst k)) = Done) by (rewrite (v_nd _ _ _ SM) by auto; rewrite <- (n_now _ _ _ _ _ _ _ _ _ _ _ I); auto).
      assert (IE : In c (ended (nd t (dst k)))).
      { apply (i_cls _ _ J); [congruence|intros u c' x; apply PT|]. apply in_ins. exists k. auto. }
      apply (i_ended _ _ J), in_on in IE.
      assert (H : hs t c = []) by (rewrite (v_hs _ _ _ SM); apply (n_empty _ _ _ _ _ _ _ _ _ _ _ I _ c k C); auto).
      rewrite (i_read _ _ J c k C) in H. apply app_eq_nil in H as [H _]. rewrite H in IE. destruct IE. }
    split; auto. intros EQ. destruct (wf_ends _ (W first) c k C) as [_ HD]. cbn in HD.
    rewrite (n_held _ _ _ _ _ _ _ _ _ _ _ I). apply fm_nil. intros r _ HR.
    destruct (le_lt_dec r (run s (dst k))) as [LE|GT].
    - apply (past_empty _ _ first _ _ _ W PT K s B T L r c k I C). destruct (Nat.eq_dec r (run s (dst k))); [right; auto|left; lia].
    - apply (n_empty _ _ _ _ _ _ _ _ _ _ _ I r c k C). lia.
  Qed.

  (** No deadlock, although the threads may be in different runs and the channels bounded. *)
  Theorem re_no_deadlock : re_ok -> acyclic (NR first) -> forall K l s, 0 < K -> exec (mstep K) m_init l = Some s ->
    all_ended n K s \/ exists a s', mstep K s a = Some s'.
  Proof.
    intros [W PT] AC K l s KP E. destruct (exec_Inv n chs first reboot svc0 eosn0 W PT K KP l s E) as (B & T & L & I).
    eapply (progress n chs first reboot svc0 eosn0 K W PT AC); eauto.
  Qed.

  (** There is no infinite execution. *)
  Theorem re_terminates : acyclic (NR first) -> forall K, 0 < K -> forall f : nat -> mact,
    exists k, exec (mstep K) m_init (map f (seq 0 k)) = None.
  Proof. intros AC K KP f. eapply (finite n chs first reboot svc0 eosn0 K AC); eauto. Qed.

  (** When all runs ended: every run is a complete execution of the network, begun in the states
      the previous one ended in, and every channel was read to the end mark in every run. *)
  Theorem re_complete : re_ok -> forall K l s, 0 < K -> exec (mstep K) m_init l = Some s -> all_ended n K s ->
    (forall c, q (base s) c = []) /\
    exists F T L, separate K s F T L /\ forall r, r < K -> all_done (NR (F r)) (T r) /\
      forall c k, nth_error chs c = Some k ->
        exists xs, on c (hp (T r) (src k)) = map Item xs ++ [Eos] /\ on c (hl (T r) (dst k)) = map Item xs ++ [Eos].
  Proof.
    intros OK K l s KP E AE. destruct (re_separate OK K l s KP E) as (F & T & L & S). destruct OK as [W PT].
    assert (AD : forall r, r < K -> all_done (NR (F r)) (T r)).
    { intros r R v V. destruct (AE v V) as [D RV]. destruct (Nat.eq_dec r (run s v)) as [->|NE].
      - rewrite <- (s_now _ _ _ _ _ _ _ _ _ _ _ S). auto.
      - apply (s_carry _ _ _ _ _ _ _ _ _ _ _ S). lia. }
    assert (FC : forall r c k, r < K -> nth_error chs c = Some k -> q (T r) c = [] /\
      exists xs, on c (hp (T r) (src k)) = map Item xs ++ [Eos] /\ on c (hl (T r) (dst k)) = map Item xs ++ [Eos]).
    { intros r c k R C. apply (net_final_channels (NR (F r)) (W _) (L r) (T r) c k); auto.
      - apply (s_exec _ _ _ _ _ _ _ _ _ _ _ S). auto.
      - intros u c' x. apply PT. }
    split.
    - intros c. rewrite (s_held _ _ _ _ _ _ _ _ _ _ _ S). apply fm_nil. intros r _ R.
      destruct (nth_error chs c) as [k|] eqn:C; [apply (FC r c k); auto|].
      pose proof (s_exec _ _ _ _ _ _ _ _ _ _ _ S r R) as EX.
      assert (Z : chan_of (NR (F r)) c = None -> q (T r) c = []); [|apply Z; auto]. intros CN.
      revert EX. apply (exec_inv (step (NR (F r))) (fun t => q t c = [])); [|reflexivity].
      intros t a t' Q ST. destruct a as [v d|v i j|v|v]; simpl in ST.
      + destruct (ph (nd t v)); try discriminate. destruct (pend (nd t v)); try discriminate. destruct (q t d) eqn:EQ; try discriminate.
        destruct (_ && _); try discriminate. injection ST as <-. cbn [q]. rewrite fupd_neq; auto. intros ->. congruence.
      + destruct (pend (nd t v)) as [|g p]; try discriminate. destruct (nth_error g i); try discriminate.
        destruct (resolve _ _ _ _) as [[d m]|] eqn:RS; try discriminate. destruct (_ && _); try discriminate. injection ST as <-. cbn [q].
        rewrite fupd_neq; auto. intros ->. apply resolve_ok, resolves_out, in_outs in RS as (k & CK & _). congruence.
      + destruct (pend (nd t v)) as [|[|] p]; try discriminate. destruct (_ <? _); try discriminate. injection ST as <-. auto.
      + destruct (ph (nd t v)); try discriminate. destruct (pend (nd t v)); try discriminate. destruct (_ <? _); try discriminate. injection ST as <-. auto.
    - exists F, T, L. split; auto. intros r R. split; [auto|]. intros c k C. apply (FC r c k R C).
  Qed.
End Props.

(** ** A source and a sink that adds what it reads, over a channel of one slot; three runs.  The
    source sends its state and the next number, and adds ten to its state; the sink keeps its sum. *)
Definition d_chs : list chan := [mkChan 0 1 (Some 1)].
Definition d_reboot (v u : nat) : nat * list (list (req nat)) :=
  match v with 0 => (u + 10, [[To 0 (Item u)]; [To 0 (Item (S u))]]) | _ => (u, []) end.
Definition d_svc (early : bool) (v u c x : nat) : nat * list (list (req nat)) * bool := (u + x, [], early).
Definition d_eosn (v u c : nat) : nat * list (list (req nat)) := (u, []).

Lemma d_chan : forall b f c k, chan_of (NR 2 d_chs d_reboot (d_svc b) d_eosn f) c = Some k -> c = 0 /\ k = mkChan 0 1 (Some 1).
Proof. intros b f [|c] k H; [injection H as <-; auto|]. unfold chan_of in H. simpl in H. destruct c; discriminate. Qed.

Lemma d_wf : forall b f, wf (NR 2 d_chs d_reboot (d_svc b) d_eosn f).
Proof.
  intros b f. constructor.
  - intros c k K. destruct (d_chan b f c k K) as [-> ->]. simpl. lia.
  - intros c k b' K H. destruct (d_chan b f c k K) as [-> ->]. injection H as <-. lia.
  - intros [|[|v]] V; simpl in V; [| |lia]; repeat constructor.
  - intros v u c x V. constructor.
  - intros v u c V. constructor.
Qed.
Example d_ok : re_ok 2 d_chs d_reboot (d_svc false) d_eosn.
Proof. split; [apply d_wf|reflexivity]. Qed.
Example d_acyclic : acyclic (NR 2 d_chs d_reboot (d_svc false) d_eosn (fun _ => 0)).
Proof. intros c k K. destruct (d_chan _ _ c k K) as [-> ->]. simpl. lia. Qed.

Notation d_step b := (mstep 2 d_chs (fun _ => 0) d_reboot (d_svc b) d_eosn).
Notation d_init b := (m_init 2 d_chs (fun _ => 0) d_reboot (d_svc b) d_eosn).
(** The source begins its second run while the sink is still in the first. *)
Definition d_src : list mact := [Act (Put 0 0 0); Act (Next 0)].
Definition d_snk : list mact := [Act (Get 1 0)].
Definition d_two : list mact :=
  d_src ++ d_snk ++ d_src ++ d_snk ++ d_src ++ [Act (Fin 0); Again 0] ++ d_snk ++ [Act (Next 1); Act (Fin 1)] ++ d_src ++
  [Again 1] ++ d_snk ++ d_src ++ d_snk ++ d_src ++ [Act (Fin 0)] ++ d_snk ++ [Act (Next 1); Act (Fin 1)].
Example d_runs : option_map (fun s => (map (hl (base s)) [1], map (run s) [0; 1], map (fun v => ust (nd (base s) v)) [0; 1], map (fun v => ph (nd (base s) v)) [0; 1]))
    (exec (d_step false 2) (d_init false) d_two) =
  Some ([[(0, Item 0); (0, Item 1); (0, Eos); (0, Item 10); (0, Item 11); (0, Eos)]], [1; 1], [20; 22], [Done; Done]).
Proof. vm_compute. reflexivity. Qed.

(** ** A node whose svc returns EOS before the end of its input: the rest of the input of the first
    run stays in its channel and is read in the second run. *)
Definition re_early_stop_claim : Prop := forall n chs first reboot svc0 eosn0, (forall f, wf (NR (X := nat) (St := nat) n chs reboot svc0 eosn0 f)) ->
  acyclic (NR n chs reboot svc0 eosn0 first) -> forall K l s, 0 < K ->
  exec (mstep n chs first reboot svc0 eosn0 K) (m_init n chs first reboot svc0 eosn0) l = Some s ->
  exists F T L, separate n chs first reboot svc0 eosn0 K s F T L.

Definition e_chs : list chan := [mkChan 0 1 (Some 3)].
Notation eN f := (NR 2 e_chs d_reboot (d_svc true) d_eosn f).
Lemma e_chan : forall f c k, chan_of (eN f) c = Some k -> c = 0 /\ k = mkChan 0 1 (Some 3).
Proof. intros f [|c] k H; [injection H as <-; auto|]. unfold chan_of in H. simpl in H. destruct c; discriminate. Qed.
Lemma e_wf : forall f, wf (eN f).
Proof.
  intros f. constructor.
  - intros c k K. destruct (e_chan f c k K) as [-> ->]. simpl. lia.
  - intros c k b' K H. destruct (e_chan f c k K) as [-> ->]. injection H as <-. lia.
  - intros [|[|v]] V; simpl in V; [| |lia]; repeat constructor.
  - intros v u c x V. constructor.
  - intros v u c V. constructor.
Qed.

Definition e_run : list mact :=
  d_src ++ d_src ++ d_src ++ [Act (Fin 0)] ++ d_snk ++ [Act (Next 1); Act (Fin 1); Again 0; Again 1] ++ d_snk.

(** In one run the sink reads at most one value, which is one the source sends in this run. *)
Lemma e_reads : forall f l t, exec (step (eN f)) (init_st (eN f)) l = Some t ->
  length (hl t 1) <= 1 /\ forall c x, In (c, Item x) (hl t 1) -> f 0 <= x.
Proof.
  intros f l t E.
  enough (P : (hl t 1 <> [] -> ph (nd t 1) <> Running) /\ length (hl t 1) <= 1 /\ (forall c x, In (c, Item x) (hl t 1) -> f 0 <= x) /\
    (forall c x, In (Item x) (q t c) -> f 0 <= x) /\ (forall v g j x, In g (pend (nd t v)) -> In (To j (Item x)) g -> f 0 <= x) /\
    (forall v g x, In g (pend (nd t v)) -> ~ In (Any x) g)) by tauto.
  assert (RN : forall {A} k (l : list A) x, In x (remove_nth k l) -> In x l).
  { intros A k l0 x H. unfold remove_nth in H. apply in_app_or in H as [H|H]; [rewrite <- (firstn_skipn k l0); apply in_or_app; auto|].
    rewrite <- (firstn_skipn (S k) l0). apply in_or_app. auto. }
  assert (EG : forall v j x, ~ In (To j (Item x)) (eos_group (eN f) v) /\ ~ In (Any x) (eos_group (eN f) v)).
  { intros v j x. unfold eos_group. split; intros H; apply in_map_iff in H as (y & H & _); discriminate. }
  revert E. apply (exec_inv (step (eN f)) (fun t => (hl t 1 <> [] -> ph (nd t 1) <> Running) /\ length (hl t 1) <= 1 /\ (forall c x, In (c, Item x) (hl t 1) -> f 0 <= x) /\
    (forall c x, In (Item x) (q t c) -> f 0 <= x) /\ (forall v g j x, In g (pend (nd t v)) -> In (To j (Item x)) g -> f 0 <= x) /\
    (forall v g x, In g (pend (nd t v)) -> ~ In (Any x) g))).
  - intros s a s' (A1 & A2 & A3 & A4 & A5 & A6) ST. destruct a as [v c|v k j|v|v]; simpl in ST.
    + destruct (ph (nd s v)) eqn:PH; try discriminate. destruct (pend (nd s v)); try discriminate. destruct (q s c) as [|m r] eqn:EQ; try discriminate.
      destruct (_ && _) eqn:G; try discriminate. injection ST as <-. cbn [hl nd q].
      assert (V1 : v <> 1 -> fupd (hl s) v (hl s v ++ [(c, m)]) 1 = hl s 1 /\ forall y, fupd (nd s) v y 1 = nd s 1) by (intros; rewrite !fupd_neq by auto; split; auto; intros; rewrite fupd_neq; auto).
      assert (PD : forall w g, In g (pend (fupd (nd s) v (react (eN f) v (nd s v) c m) w)) -> In g (pend (nd s w)) \/ In g [eos_group (eN f) v]).
      { intros w g. unfold fupd. destruct (w =? v); auto. unfold react. destruct m; cbn [svc eosn ReModel.NR d_svc d_eosn]; [cbn; tauto|]. destruct (forallb _ _); cbn; tauto. }
      assert (QC : forall d x, In (Item x) (fupd (q s) c r d) -> f 0 <= x).
      { intros d x. unfold fupd. destruct (Nat.eqb_spec d c) as [->|]; [|apply A4]. intros H. apply (A4 c). rewrite EQ. right. auto. }
      assert (P5 : forall w g j x, In g (pend (fupd (nd s) v (react (eN f) v (nd s v) c m) w)) -> In (To j (Item x)) g -> f 0 <= x).
      { intros w g j x H1 H2. apply PD in H1 as [H1|[<-|[]]]; [eapply A5; eauto|]. exfalso. apply (proj1 (EG v j x)); auto. }
      assert (P6 : forall w g x, In g (pend (fupd (nd s) v (react (eN f) v (nd s v) c m) w)) -> ~ In (Any x) g).
      { intros w g x H1 H2. apply PD in H1 as [H1|[<-|[]]]; [eapply A6; eauto|]. apply (proj2 (EG v 0 x)); auto. }
      destruct (Nat.eq_dec v 1) as [->|NV].
      * assert (HE : hl s 1 = []) by (destruct (hl s 1); auto; exfalso; apply A1; auto; discriminate).
        rewrite !fupd_eq, HE. cbn [app]. split; [|split; [|split; [|split; [|split]]]]; auto.
        -- intros _. destruct m as [x|]; simpl; [discriminate|]. destruct (e_chan f c (mkChan 0 1 (Some 3))) as [-> _]; [|simpl; discriminate].
           apply andb_true_iff in G as [G _]. apply andb_true_iff in G as [_ G]. apply memb_In, in_ins in G as (k & G & _). destruct (e_chan f c k G) as [-> ->]. reflexivity.
        -- intros c' x [H|[]]. injection H as <- ->. apply (A4 c). rewrite EQ. left. auto.
      * destruct (V1 NV) as [-> V2]. rewrite V2. auto 8.
    + destruct (pend (nd s v)) as [|g p] eqn:PE; try discriminate. destruct (nth_error g k) as [rq|] eqn:EG'; try discriminate.
      destruct (resolve (eN f) v rq j) as [[c m]|] eqn:RS; try discriminate. destruct (_ && _); try discriminate. injection ST as <-. cbn [hl nd q].
      apply nth_error_In in EG' as IG.
      assert (PD : forall w h y, In h (pend (fupd (nd s) v (mkNode (ust (nd s v)) (remove_nth k g :: p) (ended (nd s v)) (ph (nd s v))) w)) -> In y h -> exists h', In h' (pend (nd s w)) /\ In y h').
      { intros w h y. unfold fupd. destruct (Nat.eqb_spec w v) as [->|]; [|eauto]. rewrite PE. cbn [pend]. intros [<-|H] HY; [exists g|exists h]; simpl; eauto. }
      split; [|split; [|split; [|split; [|split]]]]; auto.
      * unfold fupd. destruct (Nat.eqb_spec 1 v) as [<-|]; auto.
      * intros d x. unfold fupd. destruct (Nat.eqb_spec d c) as [->|]; [|apply A4]. intros H. apply in_app_or in H as [H|[->|[]]]; [apply (A4 c); auto|].
        destruct rq as [i m'|y].
        -- simpl in RS. destruct (nth_error _ i); [|discriminate]. injection RS as _ ->. apply (A5 v g i x); auto. rewrite PE. left. auto.
        -- exfalso. apply (A6 v g y); auto. rewrite PE. left. auto.
      * intros w h i x H1 H2. destruct (PD w h _ H1 H2) as (h' & B1 & B2). eapply A5; eauto.
      * intros w h x H1 H2. destruct (PD w h _ H1 H2) as (h' & B1 & B2). eapply A6; eauto.
    + destruct (pend (nd s v)) as [|[|] p] eqn:PE; try discriminate. destruct (_ <? _); try discriminate. injection ST as <-. cbn [hl nd q].
      assert (PD : forall w h, In h (pend (fupd (nd s) v (mkNode (ust (nd s v)) p (ended (nd s v)) (ph (nd s v))) w)) -> In h (pend (nd s w))).
      { intros w h. unfold fupd. destruct (Nat.eqb_spec w v) as [->|]; auto. rewrite PE. simpl. auto. }
      split; [|split; [|split; [|split; [|split]]]]; eauto. unfold fupd. destruct (Nat.eqb_spec 1 v) as [<-|]; auto.
    + destruct (ph (nd s v)) eqn:PH; try discriminate. destruct (pend (nd s v)) eqn:PE; try discriminate. destruct (_ <? _); try discriminate. injection ST as <-. cbn [hl nd q].
      assert (PD : forall w h, In h (pend (fupd (nd s) v (mkNode (ust (nd s v)) [] (ended (nd s v)) Done) w)) -> In h (pend (nd s w))).
      { intros w h. unfold fupd. destruct (Nat.eqb_spec w v) as [->|]; auto. simpl. tauto. }
      split; [|split; [|split; [|split; [|split]]]]; eauto. unfold fupd. destruct (Nat.eqb_spec 1 v) as [<-|]; auto. simpl. discriminate.
  - cbn [init_st hl q nd]. split; [|split; [|split; [|split; [|split]]]]; try (simpl; tauto).
    + simpl. lia.
    + intros [|[|v]] g j x; unfold init_node; simpl; [|tauto|intros [<-|[]] []]. intros [<-|[<-|[<-|[]]]] [H|H]; try (destruct H; fail); try discriminate; try (injection H as _ H; lia).
    + intros [|[|v]] g x; unfold init_node; simpl; [|tauto|intros [<-|[]] []]. intros [<-|[<-|[<-|[]]]] [H|H]; try discriminate; try (destruct H).
Qed.

Theorem re_early_stop_refuted : ~ re_early_stop_claim.
Proof.
  intros H. pose (ms := mstep 2 e_chs (fun _ => 0) d_reboot (d_svc true) d_eosn 2). pose (mi := m_init 2 e_chs (fun _ => 0) d_reboot (d_svc true) d_eosn).
  assert (X1 : option_map (fun s => (hl (base s) 1, hl (base s) 0, run s 0, run s 1)) (exec ms mi e_run) = Some ([(0, Item 0); (0, Item 1)], [], 1, 1)) by (vm_compute; reflexivity).
  destruct (exec ms mi e_run) as [s|] eqn:E; [|discriminate]. injection X1 as X1 X0 R0 R1.
  destruct (H 2 e_chs (fun _ => 0) d_reboot (d_svc true) d_eosn e_wf) with (K := 2) (l := e_run) (s := s) as (F & T & L & S); auto.
  { intros c k K. destruct (e_chan _ c k K) as [-> ->]. simpl. lia. }
  pose proof (s_exec _ _ _ _ _ _ _ _ _ _ _ S 0 ltac:(lia)) as E0. pose proof (s_exec _ _ _ _ _ _ _ _ _ _ _ S 1 ltac:(lia)) as E1.
  destruct (e_reads _ _ _ E0) as [L0 _]. destruct (e_reads _ _ _ E1) as [L1 G1].
  assert (U : F 1 0 = 10).
  { destruct (s_carry _ _ _ _ _ _ _ _ _ _ _ S 0 0) as [_ ->]; [lia|]. pose proof (reach _ _ _ E0) as J. rewrite (i_ust _ _ J 0).
    assert (Z : hl (T 0) 0 = []).
    { pose proof (s_read _ _ _ _ _ _ _ _ _ _ _ S 0) as Q. rewrite X0 in Q. simpl in Q. symmetry in Q. apply app_eq_nil in Q. tauto. }
    rewrite Z. simpl. rewrite (s_first _ _ _ _ _ _ _ _ _ _ _ S). reflexivity. }
  pose proof (s_read _ _ _ _ _ _ _ _ _ _ _ S 1) as Q. rewrite X1 in Q. simpl in Q. rewrite app_nil_r in Q.
  destruct (hl (T 0) 1) as [|a [|b h]]; [|injection Q as <- Q|simpl in L0; lia].
  - simpl in Q. rewrite <- Q in L1. simpl in L1. lia.
  - specialize (G1 0 1). rewrite U in G1. rewrite <- Q in G1. assert (10 <= 1) by (apply G1; left; auto). lia.
Qed.

Print Assumptions re_separate.
Print Assumptions re_order.
Print Assumptions re_no_deadlock.
Print Assumptions re_terminates.
Print Assumptions re_complete.
Print Assumptions re_early_stop_refuted.
