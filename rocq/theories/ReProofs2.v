(** Repeated runs: the runs are separate executions, no deadlock, termination. *)
From Coq Require Import List Arith Bool Lia.
From Verif Require Import Base NetModel NetSpec NetProofs NetProofs2 NetProofs3 NetProofs4 NetProofs5 NetProps ReModel ReSpec ReProofs.
Import ListNotations.

Section Proofs.
  Context {X St : Type}.
  Variables (n : nat) (chs : list chan) (first : nat -> St)
            (reboot : nat -> St -> St * list (list (req X)))
            (svc0 : nat -> St -> nat -> X -> St * list (list (req X)) * bool)
            (eosn0 : nat -> St -> nat -> St * list (list (req X))).
  Notation NR := (NR n chs reboot svc0 eosn0).
  Notation N := (NR first).
  Notation mstep := (mstep n chs first reboot svc0 eosn0).
  Notation m_init := (m_init n chs first reboot svc0 eosn0).
  Notation st := (st X St).
  Notation Inv := (Inv n chs first reboot svc0 eosn0).
  Notation separate := (separate n chs first reboot svc0 eosn0).
  Variable K : nat.

  Lemma Inv_separate : forall s B T L, Inv K s B T L -> exists T', separate K s B T' L /\ forall r, simv (fun v => r <= run s v) (T' r) (T r).
  Proof.
    intros s B T L I.
    exists (fun r => match exec (step (NR (B r))) (init_st (NR (B r))) (L r) with Some t => t | None => init_st N end).
    assert (Z : forall r, exists t, exec (step (NR (B r))) (init_st (NR (B r))) (L r) = Some t /\ simv (fun v => r <= run s v) t (T r) /\
       forall v, run s v < r -> nd t v = init_node (NR (B r)) v).
    { intros r. apply (n_exec _ _ _ _ _ _ _ _ _ _ _ I r (B r)). auto. }
    assert (FM : forall {A} (pr pr' : nat -> list A), (forall r, pr r = pr' r) -> flat_map pr (seq 0 K) = flat_map pr' (seq 0 K)).
    { intros A pr pr' H. apply fm_ext. auto. }
    split; [constructor|].
    - apply (n_first _ _ _ _ _ _ _ _ _ _ _ I).
    - intros r _. destruct (Z r) as (t & -> & _). auto.
    - intros r v H. destruct (Z r) as (t & -> & SM & _). rewrite (v_nd _ _ _ SM) by lia. apply (n_past _ _ _ _ _ _ _ _ _ _ _ I); auto.
    - intros v. destruct (Z (run s v)) as (t & -> & SM & _). rewrite (v_nd _ _ _ SM) by lia. apply (n_now _ _ _ _ _ _ _ _ _ _ _ I).
    - intros r v _ H. destruct (Z r) as (t & -> & SM & NB). rewrite (v_hl _ _ _ SM), (v_hp _ _ _ SM). destruct (n_later _ _ _ _ _ _ _ _ _ _ _ I r v H). auto.
    - intros v. rewrite (n_read _ _ _ _ _ _ _ _ _ _ _ I). apply FM. intros r. destruct (Z r) as (t & -> & SM & _). rewrite (v_hl _ _ _ SM). auto.
    - intros v. rewrite (n_push _ _ _ _ _ _ _ _ _ _ _ I). apply FM. intros r. destruct (Z r) as (t & -> & SM & _). rewrite (v_hp _ _ _ SM). auto.
    - intros c. rewrite (n_sent _ _ _ _ _ _ _ _ _ _ _ I). apply FM. intros r. destruct (Z r) as (t & -> & SM & _). rewrite (v_hs _ _ _ SM). auto.
    - intros c. rewrite (n_held _ _ _ _ _ _ _ _ _ _ _ I). apply FM. intros r. destruct (Z r) as (t & -> & SM & _). rewrite (v_q _ _ _ SM). auto.
    - intros r. destruct (Z r) as (t & -> & SM & _). auto.
  Qed.

  Lemma least : forall (P : nat -> bool) (g : nat -> nat) m, (exists v, v < m /\ P v = true) ->
    exists v, v < m /\ P v = true /\ forall w, w < m -> P w = true -> g v <= g w.
  Proof.
    intros P g m. induction m as [|m IH]; intros (v & V & H); [lia|].
    destruct (existsb P (seq 0 m)) eqn:EX.
    - apply existsb_exists in EX as (w & HW & PW). apply in_seq in HW. destruct IH as (u & U & PU & MN); [exists w; split; [lia|auto]|].
      destruct (P m) eqn:PM; [destruct (le_lt_dec (g u) (g m))|].
      + exists u. split; [lia|]. split; auto. intros x HX PX. destruct (Nat.eq_dec x m) as [->|]; [auto|apply MN; auto; lia].
      + exists m. split; [lia|]. split; auto. intros x HX PX. destruct (Nat.eq_dec x m) as [->|]; [auto|]. assert (g u <= g x) by (apply MN; auto; lia). lia.
      + exists u. split; [lia|]. split; auto. intros x HX PX. destruct (Nat.eq_dec x m) as [->|]; [congruence|apply MN; auto; lia].
    - assert (V' : v = m).
      { destruct (Nat.eq_dec v m); auto. exfalso. assert (existsb P (seq 0 m) = true); [|congruence]. apply existsb_exists. exists v. split; auto. apply in_seq. lia. }
      subst v. exists m. split; [lia|]. split; auto. intros x HX PX. destruct (Nat.eq_dec x m) as [->|]; auto.
      exfalso. assert (existsb P (seq 0 m) = true); [|congruence]. apply existsb_exists. exists x. split; auto. apply in_seq. lia.
  Qed.

  Lemma all_or_one : forall (P : nat -> bool) m, (forall v, v < m -> P v = false) \/ exists v, v < m /\ P v = true.
  Proof.
    intros P m. destruct (existsb P (seq 0 m)) eqn:E.
    - right. apply existsb_exists in E as (v & H & PV). apply in_seq in H. exists v. split; [lia|auto].
    - left. intros v H. destruct (P v) eqn:PV; auto. assert (existsb P (seq 0 m) = true); [|congruence]. apply existsb_exists. exists v. split; auto. apply in_seq. lia.
  Qed.

  Hypothesis W : forall f, wf (NR f).
  Hypothesis PT : forall v u c x, snd (svc0 v u c x) = false.
  Hypothesis AC : acyclic N.

  (** A step the oldest run can do, the network can do. *)
  Lemma enabled : forall s B T L r t a t', Inv K s B T L -> (forall w, w < n -> r <= run s w) ->
    exec (step (NR (B r))) (init_st (NR (B r))) (L r) = Some t -> simv (fun v => r <= run s v) t (T r) ->
    step (NR (B r)) t a = Some t' -> exists s1, step N (base s) a = Some s1.
  Proof using W PT.
    intros s B T L r t a t' I GE EX SM ES. pose proof (reach _ _ _ EX) as J.
    pose proof (step_lt _ _ _ _ _ _ _ _ _ ES) as VL.
    assert (RA : run s (node_of a) = r).
    { destruct (le_lt_dec (run s (node_of a)) r) as [LE|LT]; [specialize (GE _ VL); lia|]. exfalso.
      destruct (n_past _ _ _ _ _ _ _ _ _ _ _ I r (node_of a) LT) as [DN _]. rewrite <- (v_nd _ _ _ SM) in DN by lia.
      pose proof (i_done _ _ J _ DN) as PN. destruct a as [v c|v k j|v|v]; simpl in ES, DN, PN; rewrite ?DN, ?PN in ES; discriminate. }
    assert (NW : nd (base s) (node_of a) = nd t (node_of a)) by (rewrite (v_nd _ _ _ SM) by auto; rewrite (n_now _ _ _ _ _ _ _ _ _ _ _ I), RA; auto).
    pose proof (n_run _ _ _ _ _ _ _ _ _ _ _ I _ VL) as RK. rewrite RA in RK.
    destruct a as [v c|v k j|v|v]; cbn [node_of] in *; simpl in ES |- *; rewrite NW.
    - destruct (ph (nd t v)); try discriminate. destruct (pend (nd t v)); try discriminate. destruct (q t c) as [|m l] eqn:EQ; try discriminate.
      change (ins (NR (B r)) v) with (ins N v) in ES.
      destruct ((v <? n) && memb c (ins N v) && negb (memb c (ended (nd t v)))) eqn:G; try discriminate.
      destruct (q (base s) c) as [|m' l'] eqn:EB; [|eauto]. exfalso.
      rewrite (n_held _ _ _ _ _ _ _ _ _ _ _ I), (fm_split _ r K RK), <- (v_q _ _ _ SM), EQ in EB.
      apply app_eq_nil in EB as [_ EB]. discriminate.
    - destruct (pend (nd t v)) as [|g p]; try discriminate. destruct (nth_error g k) as [rq|]; try discriminate.
      change (resolve (NR (B r)) v rq j) with (resolve N v rq j) in ES. destruct (resolve N v rq j) as [[c m]|] eqn:RS; try discriminate.
      assert (OC : In c (outs N v)) by (eapply resolves_out; eapply resolve_ok; eauto). apply in_outs in OC as (kc & C & SK).
      assert (RM : room N (base s) c = room (NR (B r)) t c).
      { unfold room. change (chan_of (NR (B r)) c) with (chan_of N c). rewrite C. destruct (cap kc); auto. f_equal. f_equal.
        rewrite (n_held _ _ _ _ _ _ _ _ _ _ _ I), (fm_split _ r K RK), (v_q _ _ _ SM).
        rewrite (fm_nil _ 0), (fm_nil _ (S r)); [rewrite app_nil_r; auto| |].
        - intros i H _. apply (n_empty _ _ _ _ _ _ _ _ _ _ _ I i c kc C). rewrite SK. lia.
        - intros i _ H. apply (past_empty _ _ first _ _ _ W PT K s B T L i c kc I C). left.
          destruct (wf_ends _ (W first) c kc C) as [_ HD]. specialize (GE _ HD). lia. }
      rewrite RM. destruct (_ && _); [eauto|discriminate].
    - destruct (pend (nd t v)) as [|[|] p]; try discriminate. destruct (v <? n); [eauto|discriminate].
    - destruct (ph (nd t v)); try discriminate. destruct (pend (nd t v)); try discriminate. destruct (v <? n); [eauto|discriminate].
  Qed.

  Lemma progress : forall s B T L, Inv K s B T L -> all_ended n K s \/ exists a s', mstep K s a = Some s'.
  Proof using W PT AC.
    intros s B T L I.
    set (final := fun v => match ph (nd (base s) v) with Done => S (run s v) =? K | _ => false end).
    destruct (all_or_one (fun v => negb (final v)) n) as [ALL|ONE].
    { left. intros v V. specialize (ALL v V). apply negb_false_iff in ALL. unfold final in ALL. destruct (ph (nd (base s) v)); try discriminate.
      apply Nat.eqb_eq in ALL. auto. }
    right. destruct (least _ (run s) n ONE) as (v & V & NF & MN). 
    pose proof (n_run _ _ _ _ _ _ _ _ _ _ _ I v V) as RV.
    destruct (Nat.eq_dec (match ph (nd (base s) v) with Done => 1 | _ => 0 end) 1) as [PH|PH].
    { exists (Again v). simpl. unfold final in NF. destruct (ph (nd (base s) v)); try discriminate. apply negb_true_iff, Nat.eqb_neq in NF.
      replace (v <? n) with true by (symmetry; apply Nat.ltb_lt; auto). replace (S (run s v) <? K) with true by (symmetry; apply Nat.ltb_lt; lia). simpl. eauto. }
    assert (GE : forall w, w < n -> run s v <= run s w).
    { intros w HW. destruct (negb (final w)) eqn:FW; [apply MN; auto|]. apply negb_false_iff in FW. unfold final in FW.
      destruct (ph (nd (base s) w)); try discriminate. apply Nat.eqb_eq in FW. lia. }
    destruct (run_reach _ _ _ _ _ _ _ s B T L (run s v) I) as (t & EX & SM).
    destruct (net_no_deadlock (NR (B (run s v))) (W _)) with (l := L (run s v)) (s := t) as [D|(a & t' & ES)]; auto.
    - intros c k b C _ u c' x. apply PT.
    - exfalso. specialize (D v V). rewrite (v_nd _ _ _ SM) in D by auto. rewrite <- (n_now _ _ _ _ _ _ _ _ _ _ _ I) in D. rewrite D in PH. auto.
    - destruct (enabled s B T L (run s v) t a t' I GE EX SM ES) as (s1 & E1). exists (Act a). simpl. rewrite E1. simpl. eauto.
  Qed.

  (** Executions are finite. *)
  Lemma finite : forall d m s, (forall v, v < n -> run s v < K) -> n * K - list_sum (map (run s) (seq 0 n)) <= d -> meas N (base s) = m -> forall f : nat -> mact,
    exists k, exec (mstep K) s (map f (seq 0 k)) = None.
  Proof using AC.
    assert (SB : forall (g : nat -> nat) m, (forall v, v < m -> g v < K) -> list_sum (map g (seq 0 m)) <= m * K).
    { intros g m H. apply sum_le_const. intros v HV. specialize (H v HV). lia. }
    assert (SU : forall g v, v < n -> (forall w, w < n -> g w < K) -> S (g v) < K -> list_sum (map (fupd g v (S (g v))) (seq 0 n)) = S (list_sum (map g (seq 0 n)))).
    { intros g v V _ _. clear - V. revert v V. induction n as [|m IH]; intros v V; [lia|]. rewrite seq_S, !map_app, !list_sum_app. simpl.
      destruct (Nat.eq_dec v m) as [->|NE].
      - rewrite fupd_eq. rewrite (map_ext_in _ g); [lia|]. intros a H. apply in_seq in H. rewrite fupd_neq by lia. auto.
      - rewrite IH by lia. rewrite fupd_neq by lia. lia. }
    induction d as [d IHd] using lt_wf_ind. intros m. induction (lexlt_wf n m) as [m _ IHm]. intros s RK HD EM f.
    destruct (mstep K s (f 0)) as [s'|] eqn:E; [|exists 1; simpl; rewrite E; auto].
    assert (G : exists k, exec (mstep K) s' (map (fun i => f (S i)) (seq 0 k)) = None).
    { destruct (f 0) as [a|v]; simpl in E.
      - destruct (step N (base s) a) as [t|] eqn:ES; [|discriminate]. injection E as <-.
        apply (IHm (meas N t)) with (s := mkM t (run s)); auto. rewrite <- EM. apply (step_meas N AC (base s) a t ES).
      - destruct (ph (nd (base s) v)); try discriminate. destruct ((v <? n) && (S (run s v) <? K)) eqn:GG; try discriminate. injection E as <-.
        apply andb_true_iff in GG as [G1 G2]. apply Nat.ltb_lt in G1, G2.
        assert (RK' : forall w, w < n -> fupd (run s) v (S (run s v)) w < K) by (intros w HW; unfold fupd; destruct (w =? v); auto).
        pose proof (SB _ n RK') as LE. rewrite SU in LE by auto.
        eapply (IHd (d - 1)); [lia|exact RK'| |reflexivity]. cbn [run]. rewrite SU by auto. lia. }
    destruct G as (k & G). exists (S k). cbn [seq map]. rewrite <- seq_shift, map_map. cbn [exec]. rewrite E. exact G.
  Qed.
End Proofs.
