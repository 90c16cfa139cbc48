(** C63: a network of node threads on TSO hardware, with its real channel accesses.  The user's code
    (svc, eosnotify, initial sends) is arbitrary, and so is the choice of the objects it sends. *)
From Coq Require Import List Arith Lia Bool Permutation.
From Verif Require Import Base NetModel NetSpec NetProofs NetProofs2 NetProofs3 NetProofs4 NetProps
  TNetModel TNetSpec TNetChan TNetProofs TNetInv TNetSim TNetLive.
Import ListNotations.

Section Props.
  Context {X St : Type}.
  Variable N : net X St.
  Variable o0 : nat -> X.

  Lemma wf_hc : wf N -> forall c k b, chan_of N c = Some k -> cap k = Some b -> 1 <= b.
  Proof. intros W. apply (wf_cap N W). Qed.

  Lemma reached : wf N -> no_loop N -> forall s, treach N o0 s -> exists l' t g,
    exec (step N) (init_st N) l' = Some t /\ inv N t /\ rel N s t g /\ uinv N s.
  Proof.
    intros W L s (l & E). destruct (sim N o0 (wf_hc W) L l s E) as (l' & t & g & E' & R).
    exists l', t, g. split; [auto |]. split; [eapply reach; eauto |]. split; [auto | eapply uinv_reach; eauto].
  Qed.
  Lemma not_use : forall s t g v, rel N s t g -> ph (cn s v) <> Running -> hl t v = got s v /\ nd t v = nmap (cur g) (cn s v).
  Proof.
    intros s t g v R P. destruct (r_node _ _ _ _ R v) as (_ & _ & C). rewrite (r_hl _ _ _ _ R).
    destruct (pcs s v); rewrite ?app_nil_r; split; try tauto.
    destruct C as [_ C]. rewrite C in P. exfalso. apply P. auto.
  Qed.

  (** It behaves as the network of NetModel, whose channels are atomic queues of values: there is an
      execution of that network in which every thread pushed the same messages, and read the same
      messages up to the one whose object it has not yet loaded. *)
  Theorem tnet_refines : wf N -> no_loop N -> forall s, treach N o0 s ->
    exists l t, exec (step N) (init_st N) l = Some t /\
      forall v, hp t v = put s v /\ exists r, hl t v = got s v ++ r /\ length r <= 1.
  Proof.
    intros W L s H. destruct (reached W L s H) as (l' & t & g & E & _ & R & _). exists l', t. split; [auto |].
    intros v. split; [apply (r_hp _ _ _ _ R) |]. exists (match pcs s v with Use c p => [(c, mmap (cur g) p)] | _ => [] end).
    split; [apply (r_hl _ _ _ _ R) |]. destruct (pcs s v); simpl; lia.
  Qed.

  (** svc is never given the null pointer. *)
  Theorem tnet_never_null : wf N -> no_loop N -> forall s, treach N o0 s -> bad s = false.
  Proof. intros W L s H. destruct (reached W L s H) as (l' & t & g & _ & _ & R & _). apply (r_bad _ _ _ _ R). Qed.

  (** On every channel svc of the consumer is given, in order, the values the producer pushed: the
      objects contain what the producer stored. *)
  Theorem tnet_channels_fifo : wf N -> no_loop N -> forall s c k, treach N o0 s -> chan_of N c = Some k ->
    prefix (on c (got s (dst k))) (on c (put s (src k))).
  Proof.
    intros W L s c k H K. destruct (reached W L s H) as (l' & t & g & E & I & R & _).
    pose proof (net_channels_fifo N l' t c k E K) as F. rewrite (r_hp _ _ _ _ R), (r_hl _ _ _ _ R) in F. rewrite F.
    unfold on. rewrite filter_app, map_app, <- app_assoc. eexists. reflexivity.
  Qed.

  (** What a node pushed is what its code asked for on what it was given: group after group, every
      request once; [rest] is what is still to be pushed. *)
  Theorem tnet_pushes_follow_code : wf N -> no_loop N -> forall s v, treach N o0 s -> v < nodes N ->
    exists rest, realizes N v (asks N s v) (put s v ++ rest) /\
      (pend (cn s v) = [] -> pcs s v <> Boot -> rest = []).
  Proof.
    intros W L s v H V. destruct (reached W L s H) as (l' & t & g & E & I & R & U). eapply tpushes; eauto.
  Qed.

  (** On every channel the mark is sent at most once, after all the items; a node that runs has sent
      none, a node that ended has sent it. *)
  Theorem tnet_one_mark : wf N -> no_loop N -> forall s c k, treach N o0 s -> chan_of N c = Some k ->
    exists xs, match ph (cn s (src k)) with
               | Running => on c (put s (src k)) = map Item xs
               | Closing => on c (put s (src k)) = map Item xs \/ on c (put s (src k)) = map Item xs ++ [Eos]
               | Done => on c (put s (src k)) = map Item xs ++ [Eos]
               end.
  Proof.
    intros W L s c k H K. destruct (reached W L s H) as (l' & t & g & E & I & R & U).
    destruct (net_one_mark N W l' t c k E K) as (xs & M). rewrite (r_hp _ _ _ _ R) in M. exists xs.
    destruct (ph (cn s (src k))) eqn:P.
    - assert (V : src k < nodes N) by (apply (wf_ends N W c k K)).
      destruct (tpushes N W s t g (src k) U R I V) as (rest & RE & _). rewrite P, app_nil_r in RE.
      assert (NE : ~ In (c, Eos) (put s (src k))).
      { intros IE. destruct (realizes_eos N (src k) _ _ c RE) as (g0 & j & G1 & G2 & _); [apply in_or_app; auto |].
        eapply (ok_no_eos N (src k)); [| exact G1 | exact G2]. apply Forall_app. split; [apply (wf_boot N W); auto | apply ok_replies; auto]. }
      rewrite <- in_on in NE. destruct (ph (nd t (src k))); [auto | destruct M as [M | M]; auto |]; exfalso; apply NE; rewrite M; apply in_or_app; right; left; auto.
    - destruct (not_use s t g (src k) R) as [_ ND]; [congruence |]. rewrite ND in M. cbn [nmap ph] in M. rewrite P in M. auto.
    - destruct (not_use s t g (src k) R) as [_ ND]; [congruence |]. rewrite ND in M. cbn [nmap ph] in M. rewrite P in M. auto.
  Qed.

  (** A node that reads its whole input ends only after the mark of every input channel. *)
  Theorem tnet_ends_after_inputs : wf N -> no_loop N -> forall s v c k, treach N o0 s -> patient N v ->
    ph (cn s v) <> Running -> chan_of N c = Some k -> dst k = v -> In (c, Eos) (got s v).
  Proof.
    intros W L s v c k H PT P K D. destruct (reached W L s H) as (l' & t & g & E & I & R & U).
    destruct (not_use s t g v R P) as [HL ND]. rewrite <- HL. eapply net_ends_after_inputs; eauto. rewrite ND. auto.
  Qed.

  (** Acyclic networks: a reachable state where no thread can move is one where all have ended. *)
  Theorem tnet_no_deadlock : wf N -> acyclic N ->
    (forall c k b, chan_of N c = Some k -> cap k = Some b -> patient N (dst k)) ->
    forall s, treach N o0 s -> tstuck N s -> tdone N s.
  Proof.
    intros W AC PT s H SK. assert (L : no_loop N) by (intros c k K; pose proof (AC c k K); lia).
    destruct (reached W L s H) as (l' & t & g & E & I & R & U).
    destruct (stuck_idle N s t g R SK) as [_ PC].
    destruct (net_no_deadlock N W AC PT l' t E) as [D | (a & t' & ST)]; [| rewrite (stuck_abs N (wf_hc W) L s t g R SK) in ST; discriminate].
    intros v V. specialize (D v V). destruct (r_node _ _ _ _ R v) as (_ & _ & C). rewrite (PC v V) in C. destruct C as [_ C]. rewrite C in D. exact D.
  Qed.

  (** Cycles closed by unbounded channels: in a state where no thread can move, the threads that have
      not ended wait on channels whose memory holds no pointer. *)
  Theorem tnet_stuck_is_idle : wf N -> no_loop N -> bounded_upwards N -> forall s, treach N o0 s -> tstuck N s ->
    forall v, v < nodes N -> ph (cn s v) = Done \/
      (waiting s v /\ forall c k, chan_of N c = Some k -> dst k = v -> blank s c).
  Proof.
    intros W L BU s H SK v V. destruct (reached W L s H) as (l' & t & g & E & I & R & U).
    destruct (stuck_idle N s t g R SK) as [SB PC]. pose proof (stuck_abs N (wf_hc W) L s t g R SK) as SA.
    destruct (r_node _ _ _ _ R v) as (_ & _ & C). rewrite (PC v V) in C. destruct C as [_ C].
    destruct (net_stuck_is_idle N W BU l' t E SA v V) as [D | (P & PE & Q)]; rewrite C in *; cbn [nmap ph pend] in *.
    - left. auto.
    - right. split.
      + split; [auto |]. split; [auto |]. destruct (pend (cn s v)); [auto | discriminate].
      + intros c k K D i. specialize (Q c k K D). rewrite (r_q _ _ _ _ R c k K) in Q. unfold tail in Q.
        pose proof (r_ck _ _ _ _ R c k K) as CK. rewrite !SB in CK. simpl in CK.
        pose proof (ck_sc _ _ _ _ _ _ _ _ _ _ CK) as SC. pose proof (ck_le1 _ _ _ _ _ _ _ _ _ _ CK). pose proof (ck_le2 _ _ _ _ _ _ _ _ _ _ CK).
        pose proof (ck_le3 _ _ _ _ _ _ _ _ _ _ CK).
        assert (ta g c - ka g c = 0) by (destruct (ta g c - ka g c); [auto | discriminate]).
        apply (f_equal (@length _)) in Q. rewrite map_length, skipn_length in Q. simpl in Q.
        apply (ck_none _ _ _ _ _ _ _ _ _ _ CK). intros j J. lia.
  Qed.

  (** Acyclic networks: there is no infinite execution, whatever the scheduling and the delays of the
      stores (a test that fails is not a step). *)
  Theorem tnet_terminates : wf N -> acyclic N -> forall f : nat -> tact,
    exists k, exec (tstep N) (tinit N o0) (map f (seq 0 k)) = None.
  Proof.
    intros W AC f. assert (L : no_loop N) by (intros c k K; pose proof (AC c k K); lia).
    eapply (no_infinite_t N (wf_hc W) L AC); [reflexivity | apply uinv_init | apply rel_init, (wf_hc W)].
  Qed.

  Lemma done_abs : forall s t g, rel N s t g -> tdone N s -> all_done N t.
  Proof.
    intros s t g R D v V. destruct (not_use s t g v R) as [_ C]; [rewrite (D v V); discriminate |]. rewrite C. apply (D v V).
  Qed.

  (** When all have ended, every channel into a node that reads its whole input was read to its end,
      and every item a node sent was given, once, to svc of one of its successors. *)
  Theorem tnet_final_channels : wf N -> no_loop N -> forall s c k, treach N o0 s -> tdone N s ->
    chan_of N c = Some k -> patient N (dst k) ->
    exists xs, on c (put s (src k)) = map Item xs ++ [Eos] /\ on c (got s (dst k)) = map Item xs ++ [Eos].
  Proof.
    intros W L s c k H D K PT. destruct (reached W L s H) as (l' & t & g & E & I & R & U).
    destruct (net_final_channels N W l' t c k E (done_abs s t g R D) K PT) as (_ & xs & M). exists xs.
    rewrite (r_hp _ _ _ _ R) in M. destruct (not_use s t g (dst k) R) as [HL _].
    - rewrite (D (dst k)) by (apply (wf_ends N W c k K)). discriminate.
    - rewrite HL in M. exact M.
  Qed.
  Theorem tnet_final_items : wf N -> no_loop N -> forall s v, treach N o0 s -> tdone N s -> v < nodes N ->
    (forall c k, chan_of N c = Some k -> src k = v -> patient N (dst k)) ->
    Permutation (sent (boot N v ++ replies N v (start N v) (got s v)))
                (flat_map (fun c => items (treceived N s c)) (outs N v)).
  Proof.
    intros W L s v H D V PT. destruct (reached W L s H) as (l' & t & g & E & I & R & U).
    pose proof (net_final_items N W l' t v E (done_abs s t g R D) V PT) as P. unfold requests in P.
    destruct (not_use s t g v R) as [HL _]; [rewrite (D v V); discriminate |]. rewrite HL in P. rewrite P.
    apply Permutation_refl'. apply flat_map_ext. intros c. unfold received, treceived. destruct (chan_of N c) as [k |] eqn:K; auto.
    destruct (not_use s t g (dst k) R) as [HL' _]; [rewrite (D (dst k)) by (apply (wf_ends N W c k K)); discriminate |]. rewrite HL'. auto.
  Qed.
End Props.

(** ** The hypotheses are met: the diamond of NetProps, run on TSO *)
Definition cands (v n : nat) : list tact :=
  [TBoot v (seq n 0); TBoot v (seq n 4); TRead v; TClear v; TUse v []; TUse v [n]; TStore v; TNext v; TFin v;
   TTest v 0; TTest v 1; TTest v 2; TTest v 3; TChk v 1 1; TChk v 0 0; TChk v 0 1; TFlush v].
Fixpoint pick (s : tst nat nat) (l : list tact) : option (tact * tst nat nat) :=
  match l with
  | [] => None
  | a :: l' => match tstep diamond s a with Some s' => Some (a, s') | None => pick s l' end
  end.
(** One action of thread 3, 2, 1 or 0 if enabled, then the others in turn. *)
Fixpoint drive (fuel n : nat) (s : tst nat nat) : list tact :=
  match fuel with
  | 0 => []
  | S f =>
      match pick s (flat_map (fun v => cands v n) [(n mod 4); (n + 1) mod 4; (n + 2) mod 4; (n + 3) mod 4]) with
      | Some (a, s') => a :: drive f (n + 5) s'
      | None => []
      end
  end.
Definition garbage : nat -> nat := fun a => a + 1000.
Definition diamond_sched : list tact := drive 300 0 (tinit diamond garbage).

Example tdiamond_done : exists s, exec (tstep diamond) (tinit diamond garbage) diamond_sched = Some s /\
  tdone diamond s /\ tstuck diamond s /\ ust (cn s 3) = 20 /\ length diamond_sched > 90 /\
  on 2 (got s 3) ++ on 3 (got s 3) = on 2 (put s 1) ++ on 3 (put s 2).
Proof.
  eexists. split; [vm_compute; reflexivity |]. split.
  - intros v V. simpl in V. do 4 (destruct v as [| v]; [reflexivity |]). lia.
  - split.
    + intros a. destruct a as [v sg | v c | v | v | v sg | v k j | v | v | v | v]; do 4 (try (destruct v as [| v]; [reflexivity |]));
        simpl; try reflexivity; destruct v; reflexivity.
    + split; [vm_compute; reflexivity |]. split; [vm_compute; lia | vm_compute; reflexivity].
Qed.
Example diamond_no_loop : no_loop diamond.
Proof. intros c k K. pose proof (diamond_acyclic c k K). lia. Qed.

Print Assumptions tnet_refines.
Print Assumptions tnet_never_null.
Print Assumptions tnet_channels_fifo.
Print Assumptions tnet_pushes_follow_code.
Print Assumptions tnet_one_mark.
Print Assumptions tnet_ends_after_inputs.
Print Assumptions tnet_no_deadlock.
Print Assumptions tnet_stuck_is_idle.
Print Assumptions tnet_terminates.
Print Assumptions tnet_final_channels.
Print Assumptions tnet_final_items.
