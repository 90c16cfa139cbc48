(** Accelerator: no deadlock, termination, complete runs. *)
From Coq Require Import List Arith Bool Lia.
From Verif Require Import Base NetModel NetSpec NetProofs NetProofs2 NetProofs3 NetProofs4 AccModel AccSpec AccProofs.
Import ListNotations.

Section Proofs.
  Context {X St : Type}.
  Variables (n : nat) (chs : list chan) (st0 : nat -> St) (boot0 : nat -> list (list (req X)))
            (svc0 : nat -> St -> nat -> X -> St * list (list (req X)) * bool)
            (eosn0 : nat -> St -> nat -> St * list (list (req X))).
  Notation N := (N n chs st0 boot0 svc0 eosn0).
  Notation stream := (stream n chs st0 boot0 svc0 eosn0).
  Notation astep := (astep n chs st0 boot0 svc0 eosn0).
  Notation a_init := (a_init n chs st0 boot0 svc0 eosn0).
  Notation ci := (in_chan n chs st0 boot0 svc0 eosn0).
  Notation co := (out_chan n chs st0 boot0 svc0 eosn0).
  Notation snk := (host_in n).
  Notation sim := (sim n chs st0 boot0 svc0 eosn0).
  Hypothesis OK : acc_ok n chs st0 boot0 svc0 eosn0.

  Lemma stream_bu : forall xs, bounded_upwards (stream xs).
  Proof using OK. intros xs c k b K C. split; [apply (stream_acyclic _ _ _ _ _ _ OK xs c k K)|eapply (stream_patient _ _ _ _ _ _ OK xs); eauto]. Qed.

  Lemma co_cap : forall c k b, chan_of N c = Some k -> cap k = Some b -> dst k <> snk.
  Proof using OK.
    intros c k b K C D. pose proof (dstS_co _ _ _ _ _ _ OK c k K D) as ->. rewrite (ok_unbounded _ _ _ _ _ _ OK k K) in C. discriminate.
  Qed.

  (** A node other than the last one with something to send can move, or one further up can. *)
  Lemma busy_up : forall xs t, inv (stream xs) t -> forall d v, nodes N - v <= d -> v < nodes N -> v <> snk -> pend (nd t v) <> [] ->
    exists a, step N t a <> None /\ (node_of a = v \/ (node_of a <> 0 /\ node_of a <> snk)).
  Proof using OK.
    intros xs t I. pose proof (stream_wf _ _ _ _ _ _ OK xs) as W. pose proof (stream_bu xs) as BU.
    induction d as [|d IH]; intros v Hd Hv VS Hp; [lia|].
    destruct (pend (nd t v)) as [|g p] eqn:EP; [congruence|]. clear Hp.
    assert (LV : (v <? nodes N) = true) by (apply Nat.ltb_lt; auto).
    destruct g as [|r g].
    { exists (Next v). split; [|left; auto]. cbn [step]. rewrite EP, LV. discriminate. }
    destruct (pend_resolves _ W t v (r :: g) p r I Hv EP (or_introl eq_refl)) as (c & m & R).
    destruct (room N t c) eqn:RM.
    { exists (Put v 0 0). split; [|left; auto]. cbn [step]. rewrite EP. cbn [nth_error]. change (resolve N v r 0) with (resolve (stream xs) v r 0). rewrite R, LV, RM. discriminate. }
    apply resolve_ok in R as RR. pose proof (resolves_out _ _ _ _ _ RR) as OC. apply in_outs in OC as (k & K & SK).
    change (chan_of N c = Some k) in K. unfold room in RM. rewrite K in RM. destruct (cap k) as [b|] eqn:CK; [|discriminate].
    apply Nat.ltb_ge in RM. pose proof (wf_cap _ W c k b K CK) as B1. destruct (BU c k b K CK) as [UP PT].
    destruct (wf_ends _ W c k K) as [_ DW]. pose proof (co_cap c k b K CK) as DS. set (w := dst k) in *.
    assert (LW : (w <? nodes N) = true) by (apply Nat.ltb_lt; auto).
    assert (NE : ~ In c (ended (nd t w))).
    { intros C. apply (i_ended _ _ I) in C. eapply (no_eos_yet _ W t v (r :: g) p r c m I Hv EP); [left; auto|auto|].
      apply in_on. rewrite <- SK, <- (i_push _ _ I c k K), (i_read _ _ I c k K). apply in_or_app. left. apply in_on. auto. }
    assert (W0 : w <> 0) by lia.
    destruct (pend (nd t w)) as [|g' p'] eqn:EW.
    - destruct (ph (nd t w)) eqn:PW.
      + destruct (q t c) as [|m' r'] eqn:EQ; [simpl in RM; lia|].
        exists (Get w c). split; [|right; auto]. cbn [step]. rewrite PW, EW, EQ, LW.
        replace (memb c (ins N w)) with true by (symmetry; apply memb_In, in_ins; eauto).
        replace (memb c (ended (nd t w))) with false
          by (symmetry; apply not_true_is_false; intros C; apply memb_In in C; auto).
        discriminate.
      + exists (Fin w). split; [|right; auto]. cbn [step]. rewrite PW, EW, LW. discriminate.
      + exfalso. apply NE. apply (i_cls _ _ I w); auto; [congruence|]. apply in_ins. eauto.
    - destruct (IH w) as (a & A & B); auto; [lia|congruence|]. exists a. split; auto. right. destruct B as [->|B]; auto.
  Qed.

  (** Steps of internal nodes of the stream are steps of the threads. *)
  Lemma thr_of_sim : forall s rest t a, sim s rest t -> node_of a <> 0 -> node_of a <> snk -> step N t a <> None -> astep s (Thr a) <> None.
  Proof using Type.
    intros s rest t a [A1 A2 A3 A4 A5 A6 A7] N0 NS E. destruct (step N t a) as [t'|] eqn:ES; [|congruence].
    destruct (step_transfer n chs st0 boot0 svc0 eosn0 t (net s) t' a) as (u & U & _); auto.
    { symmetry. apply A5; auto. }
    cbn [AccModel.astep]. apply Nat.eqb_neq in N0, NS. unfold host_out. rewrite N0, NS, U. discriminate.
  Qed.

  Definition quiet (s : ast X St) : Prop := forall b, astep s (Thr b) = None.

  Lemma closed_in : forall s, cons n chs st0 boot0 svc0 eosn0 s -> closed s = true <-> In Eos (offloaded (hist s)).
  Proof using Type.
    intros s K. split.
    - intros C. destruct (c_offe _ _ _ _ _ _ _ K C) as (xs & ->). apply in_or_app. right. left. auto.
    - intros H. destruct (closed s) eqn:C; auto. destruct (c_offi _ _ _ _ _ _ _ K C) as (xs & E). rewrite E in H.
      apply in_map_iff in H. destruct H as (x & F & _). discriminate.
  Qed.
  Lemma drained_in : forall s, cons n chs st0 boot0 svc0 eosn0 s -> drained n s = true <-> In Eos (loaded (hist s)).
  Proof using Type.
    intros s K. unfold drained. rewrite (c_ld _ _ _ _ _ _ _ K), existsb_exists. split.
    - intros ((c & m) & H & M). apply in_map_iff in H. destruct H as (m' & F & H). injection F as <- <-. destruct m'; [discriminate|auto].
    - intros H. exists (co, Eos). split; auto. apply in_map_iff. eauto.
  Qed.

  Lemma offload_room : forall l s m r, exec astep a_init l = Some s -> cur s = Some (Off m r) -> quiet s -> room N (net s) ci = true.
  Proof using OK.
    intros l s m r E C QT. destruct (acc_reach _ _ _ _ _ _ OK l s E) as [K SI]. pose proof (c_cur _ _ _ _ _ _ _ K) as KC. rewrite C in KC.
    destruct (SI []) as (l' & t & EX & SM); [auto|]. pose proof (reach _ _ _ EX) as I.
    pose proof (s_src _ _ _ _ _ _ _ _ _ SM) as S0. rewrite KC in S0. unfold src_node in S0. cbn [map app] in S0. rewrite (eos_group0 _ _ _ _ _ _ OK) in S0.
    destruct (busy_up _ t I (nodes N) 0) as (a & A & B); [lia|simpl; lia|unfold host_in; lia|rewrite S0; discriminate|].
    destruct B as [B|[B0 BS]].
    - rewrite <- (room_q n chs st0 boot0 svc0 eosn0 (net s) t ci) by (apply (s_q _ _ _ _ _ _ _ _ _ SM)).
      destruct a as [v c|v k j|v|v]; cbn [node_of] in B; subst v; cbn [step] in A; rewrite S0 in A; cbn [ph pend] in A; try congruence.
      destruct k as [|[|k]]; cbn [nth_error] in A; try congruence. unfold resolve in A. change (outs N 0) with (outs N host_out) in A.
      rewrite (outs0 _ _ _ _ _ _ OK) in A. cbn [nth_error option_map] in A. rewrite lt0 in A. destruct (room N t ci); auto.
    - exfalso. eapply thr_of_sim in A; eauto.
  Qed.

  Lemma quiet_nodes : forall l s, exec astep a_init l = Some s -> quiet s -> forall v, 0 < v -> v <= n ->
    ph (nd (net s) v) = Done \/
    (ph (nd (net s) v) = Running /\ pend (nd (net s) v) = [] /\ forall c k, chan_of N c = Some k -> dst k = v -> q (net s) c = []).
  Proof using OK.
    intros l s E QT v V0 VN. destruct (acc_reach _ _ _ _ _ _ OK l s E) as [K SI].
    destruct (SI []) as (l' & t & EX & SM); [auto|]. pose proof (reach _ _ _ EX) as I.
    assert (NV : v <> 0) by lia. assert (NS : v <> snk) by (unfold host_in; lia). assert (LV : v < nodes N) by (simpl; lia).
    assert (LB : (v <? nodes N) = true) by (apply Nat.ltb_lt; auto).
    pose proof (s_nd _ _ _ _ _ _ _ _ _ SM v NV NS) as ND. pose proof (s_q _ _ _ _ _ _ _ _ _ SM) as SQ. rewrite <- ND, <- SQ.
    assert (QS : forall a, node_of a = v -> step N t a = None).
    { intros a EA. destruct (step N t a) eqn:ES; auto. exfalso. apply (thr_of_sim s [] t a SM); rewrite ?EA; auto. congruence. }
    destruct (pend (nd t v)) as [|g p] eqn:EP.
    - destruct (ph (nd t v)) eqn:PV; auto.
      + right. split; [auto|]. split; [auto|]. intros c k KC DK.
        destruct (in_dec Nat.eq_dec c (ended (nd t v))) as [IE|NE].
        { rewrite <- DK in IE. eapply (ended_empty _ (stream_wf _ _ _ _ _ _ OK _) _ t c k EX); eauto. }
        destruct (q t c) as [|m r] eqn:EQ; [auto|exfalso].
        specialize (QS (Get v c) eq_refl). cbn [step] in QS. rewrite PV, EP, EQ, LB in QS.
        replace (memb c (ins N v)) with true in QS by (symmetry; apply memb_In, in_ins; eauto).
        replace (memb c (ended (nd t v))) with false in QS
          by (symmetry; apply not_true_is_false; intros C; apply memb_In in C; auto).
        discriminate.
      + specialize (QS (Fin v) eq_refl). cbn [step] in QS. rewrite PV, EP, LB in QS. discriminate.
    - exfalso. destruct (busy_up _ t I (nodes N) v) as (a & A & B); [lia|auto|auto|congruence|].
      destruct B as [B|[B0 BS]]; [apply A; apply QS; auto|]. eapply thr_of_sim in A; eauto.
  Qed.

  Lemma load_ready : forall l s c, exec astep a_init l = Some s -> cur s = Some c -> (forall m r, c <> Off m r) -> closed s = true -> quiet s ->
    q (net s) co <> [].
  Proof using OK.
    intros l s c E C NO CL QT Q0. destruct (acc_reach _ _ _ _ _ _ OK l s E) as [K SI]. pose proof (c_cur _ _ _ _ _ _ _ K) as KC. rewrite C in KC.
    assert (D : drained n s = false) by (destruct c; auto; exfalso; eapply NO; eauto).
    destruct (SI []) as (l' & t & EX & SM); [auto|]. pose proof (reach _ _ _ EX) as I.
    pose proof (s_src _ _ _ _ _ _ _ _ _ SM) as S0. rewrite CL in S0. pose proof (s_snk _ _ _ _ _ _ _ _ _ SM) as S1. rewrite D in S1.
    unfold src_node in S0. unfold snk_node in S1.
    destruct (done_or_moves _ (stream_wf _ _ _ _ _ _ OK _) (stream_bu _) (stream_acyclic _ _ _ _ _ _ OK _) t I) as [AD|(a & A)].
    - assert (P : ph (nd t snk) = Done) by (apply AD; simpl; unfold host_in; lia). rewrite S1 in P. discriminate.
    - rewrite step_same in A. destruct (Nat.eq_dec (node_of a) 0) as [N0|N0]; [|destruct (Nat.eq_dec (node_of a) snk) as [NS|NS]].
      + destruct a as [v d|v k j|v|v]; cbn [node_of] in N0; subst v; cbn [step] in A; rewrite S0 in A; apply A; reflexivity.
      + destruct a as [v d|v k j|v|v]; cbn [node_of] in NS; subst v; cbn [step] in A; rewrite S1 in A; cbn [ph pend] in A; try congruence.
        destruct (q t d) as [|m r] eqn:QD; [congruence|]. apply A. replace (memb d (ins N snk)) with false; [rewrite andb_false_r; reflexivity|].
        symmetry. apply not_true_is_false. intros M. apply memb_In in M. rewrite (insS _ _ _ _ _ _ OK) in M. destruct M as [<-|[]].
        rewrite (s_q _ _ _ _ _ _ _ _ _ SM), Q0 in QD. discriminate.
      + eapply thr_of_sim in A; eauto.
  Qed.

  (** ** Termination *)
  Lemma thr_finite : forall (s : ast X St) (f : nat -> act), exists k, exec astep s (map (fun i => Thr (f i)) (seq 0 k)) = None.
  Proof using OK.
    intros s f. destruct (no_infinite N (ok_acyclic _ _ _ _ _ _ OK) _ (net s) eq_refl f) as (k & K). exists k.
    assert (G : forall l (s : ast X St), exec (step N) (net s) l = None -> exec astep s (map Thr l) = None).
    { induction l as [|a l IH]; intros u; [discriminate|]. cbn [exec map AccModel.astep]. intros H.
      destruct (_ || _); auto. destruct (step N (net u) a) as [u'|] eqn:EU; auto. cbn [option_map]. apply IH. exact H. }
    rewrite <- (map_map f Thr). apply G. auto.
  Qed.

  (** ** Complete runs *)
  Lemma hl_done : forall t a t' v, step N t a = Some t' -> ph (nd t v) = Done -> pend (nd t v) = [] -> hl t' v = hl t v /\ nd t' v = nd t v.
  Proof using Type.
    intros t a t' v E D P. assert (G : node_of a <> v).
    { intros <-. destruct a as [v c|v k j|v|v]; cbn [step node_of] in *; rewrite ?D, ?P in E; discriminate. }
    destruct a as [w c|w k j|w|w]; cbn [step node_of] in *.
    - destruct (ph (nd t w)); try discriminate. destruct (pend (nd t w)); try discriminate. destruct (q t c); try discriminate.
      destruct (_ && _); [|discriminate]. injection E as <-. cbn [hl nd]. rewrite !fupd_neq by auto. auto.
    - destruct (pend (nd t w)); try discriminate. destruct (nth_error l k); try discriminate. destruct (resolve N w r j) as [[c m]|]; try discriminate.
      destruct (_ && _); [|discriminate]. injection E as <-. cbn [hl nd]. rewrite !fupd_neq by auto. auto.
    - destruct (pend (nd t w)) as [|[|] ?]; try discriminate. destruct (_ <? _); [|discriminate]. injection E as <-. cbn [hl nd]. rewrite !fupd_neq by auto. auto.
    - destruct (ph (nd t w)); try discriminate. destruct (pend (nd t w)); try discriminate. destruct (_ <? _); [|discriminate]. injection E as <-.
      cbn [hl nd]. rewrite !fupd_neq by auto. auto.
  Qed.
  Lemma hl_done_exec : forall l t t' v, exec (step N) t l = Some t' -> ph (nd t v) = Done -> pend (nd t v) = [] -> hl t' v = hl t v.
  Proof using Type.
    induction l as [|a l IH]; intros t t' v E D P; cbn [exec] in E; [injection E as <-; auto|].
    destruct (step N t a) as [u|] eqn:EU; [|discriminate]. destruct (hl_done t a u v EU D P) as [H1 H2]. rewrite <- H1. apply IH; auto; rewrite H2; auto.
  Qed.

  Lemma complete_run : forall l s, exec astep a_init l = Some s -> drained n s = true ->
    exists l' t, exec (step (stream (items (offloaded (hist s))))) (init_st (stream (items (offloaded (hist s))))) l' = Some t /\
      all_done (stream (items (offloaded (hist s)))) t /\ hl t snk = map (pair co) (loaded (hist s)).
  Proof using OK.
    intros l s E D. destruct (acc_reach _ _ _ _ _ _ OK l s E) as [K SI]. destruct (SI []) as (l' & t & EX & SM); [auto|].
    rewrite app_nil_r in EX. set (xs := items (offloaded (hist s))) in *.
    destruct (can_finish _ (stream_wf _ _ _ _ _ _ OK xs) (stream_bu xs) (stream_acyclic _ _ _ _ _ _ OK xs) _ t eq_refl (reach _ _ _ EX)) as (l2 & t2 & E2 & AD).
    exists (l' ++ l2), t2. split; [apply exec_app; eauto|]. split; auto.
    pose proof (s_snk _ _ _ _ _ _ _ _ _ SM) as S1. rewrite D in S1. 
    rewrite (hl_done_exec l2 t t2 snk E2); try (rewrite S1; reflexivity). rewrite (s_hl _ _ _ _ _ _ _ _ _ SM). apply (c_ld _ _ _ _ _ _ _ K).
  Qed.

  (** ** What the calls return *)
  Definition honest (s : ast X St) : Prop := forall c r, In (c, r) (hist s) ->
    match c with
    | Off _ None => ok r = true
    | Load None => exists m, got r = Some m /\ ok r = is_item m
    | Load _ => forall m, got r = Some m -> ok r = is_item m
    | LoadNb => ok r = match got r with Some _ => true | None => false end
    | _ => True
    end.

  Lemma honest_step : forall s a s', honest s -> astep s a = Some s' -> honest s'.
  Proof using Type.
    intros s a s' H E. destruct a as [b|c|]; cbn [AccModel.astep] in E.
    - destruct (_ || _); [discriminate|]. destruct (step N (net s) b); [|discriminate]. injection E as <-. exact H.
    - destruct (cur s); [discriminate|]. destruct (match c with Off _ _ => closed s | _ => drained n s end); [discriminate|]. injection E as <-. exact H.
    - destruct (cur s) as [[m r|r|]|] eqn:CU; try discriminate.
      + destruct (over r) eqn:OV; [|destruct (room N (net s) ci)]; injection E as <-; try exact H; unfold returns; intros c0 r0 HI; cbn [hist] in HI;
          apply in_app_or in HI; (destruct HI as [HI|[HI|[]]]; [exact (H _ _ HI)|]); injection HI as <- <-; destruct r; simpl; auto; discriminate.
      + destruct (over r) eqn:OV; [|destruct (q (net s) co) as [|m q']]; injection E as <-; try exact H; unfold returns; intros c0 r0 HI; cbn [hist] in HI;
          apply in_app_or in HI; (destruct HI as [HI|[HI|[]]]; [exact (H _ _ HI)|]); injection HI as <- <-; destruct r; simpl; eauto; try discriminate; intros m0 F; congruence.
      + destruct (q (net s) co) as [|m q']; injection E as <-; unfold returns; intros c0 r0 HI; cbn [hist] in HI;
          apply in_app_or in HI; (destruct HI as [HI|[HI|[]]]; [exact (H _ _ HI)|]); injection HI as <- <-; simpl; auto.
  Qed.
  Lemma honest_reach : forall l s, exec astep a_init l = Some s -> honest s.
  Proof using Type. intros l s E. eapply (exec_inv astep honest); eauto; [apply honest_step|intros c r []]. Qed.
End Proofs.
