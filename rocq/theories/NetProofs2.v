(** Networks: end of stream, absence of deadlock, final states. *)
From Coq Require Import List Arith Bool Lia Permutation.
From Verif Require Import Base NetModel NetSpec NetProofs.
Import ListNotations.

Section Proofs.
  Context {X St : Type}.
  Variable N : net X St.
  Notation st := (st X St).
  Notation inv := (inv N).

  Lemma resolves_eos : forall v r c, resolves N v r (c, Eos) -> exists j, r = To j Eos /\ nth_error (outs N v) j = Some c.
  Proof.
    intros v [j m|x] c [H1 H2]; simpl in *.
    - subst. eauto.
    - discriminate.
  Qed.
  Lemma forall2_eos : forall v ps p c, Forall2 (resolves N v) ps p -> In (c, Eos) p ->
    exists j, In (To j Eos) ps /\ nth_error (outs N v) j = Some c.
  Proof.
    induction 1 as [|r cm ps p H F IH]; simpl; [tauto|]. intros [->|K].
    - apply resolves_eos in H as (j & -> & E). eauto.
    - destruct (IH K) as (j & H1 & H2). eauto.
  Qed.
  Lemma realizes_eos : forall v G P c, realizes N v G P -> In (c, Eos) P ->
    exists g j, In g G /\ In (To j Eos) g /\ nth_error (outs N v) j = Some c.
  Proof.
    induction 1 as [|g g' p G P PG F R IH]; simpl; [tauto|]. rewrite in_app_iff. intros [K|K].
    - destruct (forall2_eos _ _ _ _ F K) as (j & H1 & H2). exists g, j. split; [auto|]. split; [|auto].
      rewrite PG. auto.
    - destruct (IH K) as (g0 & j & H1 & H2 & H3). exists g0, j. auto.
  Qed.
  Lemma ok_no_eos : forall v G g j, ok_groups N v G -> In g G -> ~ In (To j Eos) g.
  Proof.
    intros v G g j O I K. unfold ok_groups in O. rewrite Forall_forall in O. specialize (O g I).
    rewrite Forall_forall in O. apply (O _ K).
  Qed.

  Lemma split_last : forall {T} (D : list T) b B U E, D ++ b :: B = U ++ E -> length E <= 1 ->
    exists U', U = D ++ U' /\ b :: B = U' ++ E.
  Proof.
    induction D as [|d D IH]; intros b B U E H L; simpl in *.
    - exists U. auto.
    - destruct U as [|u U]; simpl in H.
      + destruct E as [|e E]; [discriminate|]. destruct E; simpl in L; [|lia]. injection H as _ H.
        destruct D; discriminate.
      + injection H as -> H. destruct (IH _ _ _ _ H L) as (U' & -> & E'). eauto.
  Qed.

  Lemma eos_group_nodup : forall v, NoDup (eos_group N v).
  Proof.
    intros v. unfold eos_group. generalize (seq_NoDup (length (outs N v)) 0).
    induction 1; simpl; constructor; auto. intros K. apply in_map_iff in K as (y & E & K). injection E as ->. auto.
  Qed.

  Lemma asked_split : forall (W : wf N) s v, v < nodes N -> exists U E, asked N s v = U ++ E /\ ok_groups N v U /\
    (E = [] \/ E = [eos_group N v]).
  Proof.
    intros W s v Hv. exists (boot N v ++ replies N v (start N v) (hl s v)),
      (match ph (nd s v) with Running => [] | _ => [eos_group N v] end).
    split; [unfold asked; rewrite app_assoc; reflexivity|]. split.
    - apply Forall_app. split; [apply (wf_boot N W); auto|apply ok_replies; auto].
    - destruct (ph (nd s v)); auto.
  Qed.

  (** While a node has a request left for channel c, it has not sent its mark on c. *)
  Lemma no_eos_yet : forall (W : wf N) s v g p r c m, inv s -> v < nodes N -> pend (nd s v) = g :: p -> In r g ->
    resolves N v r (c, m) -> ~ In (c, Eos) (hp s v).
  Proof.
    intros W s v g p r c m I Hv EP IR HR K. pose proof (i_prog _ _ I v) as PR. rewrite EP in PR.
    destruct PR as (D & b0 & ps & P1 & p2 & EA & PB & EH & RD & F).
    destruct (asked_split W s v Hv) as (U & E & EU & OU & CE). rewrite EU in EA.
    symmetry in EA. apply split_last in EA as (U' & -> & EB); [|destruct CE as [->| ->]; simpl; lia].
    rewrite EH, in_app_iff in K. destruct K as [K|K].
    - destruct (realizes_eos _ _ _ _ RD K) as (g0 & j & H1 & H2 & _).
      eapply ok_no_eos; [exact OU| |exact H2]. apply in_or_app. auto.
    - destruct (forall2_eos _ _ _ _ F K) as (j & H1 & H2).
      assert (Hb : In (To j Eos) b0) by (rewrite PB; apply in_or_app; auto).
      destruct U' as [|u U'].
      + simpl in EB. destruct CE as [->| ->]; [discriminate|]. injection EB as -> ->.
        assert (Hr : In r (eos_group N v)) by (rewrite PB; apply in_or_app; auto).
        unfold eos_group in Hr. apply in_map_iff in Hr as (i & <- & _). destruct HR as [HR _]. simpl in HR.
        assert (i = j).
        { apply (proj1 (NoDup_nth_error (outs N v)) (outs_nodup N v)); [|congruence].
          apply nth_error_Some. congruence. }
        subst i. pose proof (eos_group_nodup v) as ND. rewrite PB in ND.
        clear - ND H1 IR. induction ps as [|a ps IH]; simpl in *; [tauto|]. inversion ND; subst.
        destruct H1 as [->|H1]; [apply H2; apply in_or_app; auto|auto].
      + injection EB as -> _. eapply ok_no_eos; [exact OU| |exact Hb]. apply in_or_app. right. left. auto.
  Qed.

  (** Nothing follows the mark of a channel. *)
  Definition shape (l : list (msg X)) : Prop :=
    exists xs, l = map Item xs \/ l = map Item xs ++ [Eos].

  Lemma shape_init : shape [].
  Proof. exists []. auto. Qed.
  Lemma shape_snoc : forall l m, shape l -> ~ In Eos l -> shape (l ++ [m]).
  Proof.
    intros l m (xs & [->| ->]) NE.
    - destruct m as [x|]; [exists (xs ++ [x])|exists xs]; [left|right; reflexivity]. rewrite map_app. reflexivity.
    - exfalso. apply NE, in_or_app. right. left. auto.
  Qed.
  Lemma shape_app : forall l1 l2, shape (l1 ++ l2) -> In Eos l1 -> l2 = [].
  Proof.
    intros l1 l2 (xs & H) I. destruct l2 as [|m l2]; [auto|exfalso].
    destruct (exists_last (l := m :: l2) ltac:(discriminate)) as (l3 & m3 & E3). rewrite E3 in H.
    rewrite app_assoc in H.
    assert (NI : forall ys, ~ In Eos (map (@Item X) ys)).
    { intros ys K. apply in_map_iff in K as (y & E & _). discriminate. }
    destruct H as [H|H].
    - apply (NI xs). rewrite <- H. apply in_or_app. left. apply in_or_app. auto.
    - apply app_inj_tail in H as [H _]. apply (NI xs). rewrite <- H. apply in_or_app. auto.
  Qed.

  Lemma shape_step : forall (W : wf N) s a s', inv s -> (forall c, shape (hs s c)) -> step N s a = Some s' ->
    forall c, shape (hs s' c).
  Proof.
    intros W s a s' I H E c. destruct a as [v c1|v k j|v|v]; cbn [step] in E.
    - destruct (ph (nd s v)), (pend (nd s v)), (q s c1); try discriminate.
      destruct (_ && _); [|discriminate]. injection E as <-. apply H.
    - destruct (pend (nd s v)) as [|g p] eqn:EP; try discriminate. destruct (nth_error g k) as [r|] eqn:EG; try discriminate.
      destruct (resolve N v r j) as [[c1 m]|] eqn:ER; try discriminate. destruct (v <? nodes N) eqn:HV; simpl in E; [|discriminate].
      apply Nat.ltb_lt in HV. destruct (room N s c1); [|discriminate].
      injection E as <-. cbn [hs]. destruct (Nat.eq_dec c c1) as [->|NC]; [|rewrite fupd_neq by auto; apply H].
      rewrite fupd_eq. apply shape_snoc; [apply H|]. apply resolve_ok in ER as RR.
      pose proof (resolves_out _ _ _ _ _ RR) as OC. apply in_outs in OC as (kc & KC & SC).
      rewrite (i_push _ _ I c1 kc KC), SC. intros K. apply in_on in K. revert K.
      eapply no_eos_yet; eauto. eapply nth_error_In; eauto.
    - destruct (pend (nd s v)) as [|[|? ?] ?]; try discriminate. destruct (_ <? _); [|discriminate]. injection E as <-. apply H.
    - destruct (ph (nd s v)), (pend (nd s v)); try discriminate. destruct (_ <? _); [|discriminate]. injection E as <-. apply H.
  Qed.

  Lemma reach_shape : forall (W : wf N) l s, exec (step N) (init_st N) l = Some s -> forall c, shape (hs s c).
  Proof.
    intros W l s E. apply (exec_inv (step N) (fun s => inv s /\ forall c, shape (hs s c))) in E.
    - apply E.
    - intros s0 a s1 [I H] E0. split; [eapply inv_step; eauto|eapply shape_step; eauto].
    - split; [apply inv_init|]. intros c. apply shape_init.
  Qed.

  (** A node that has finished has sent its mark on every output channel; a running one on none. *)
  Lemma realizes_in : forall v G P g j c, realizes N v G P -> In g G -> In (To j Eos) g ->
    nth_error (outs N v) j = Some c -> In (c, Eos) P.
  Proof.
    induction 1 as [|g0 g' p G P PG F R IH]; simpl; [tauto|]. intros [->|K] HJ HN; apply in_or_app; [left|right; auto].
    rewrite PG in HJ. clear - F HJ HN. induction F as [|r cm ps p H F IH]; simpl in *; [tauto|].
    destruct HJ as [->|HJ]; [|auto]. left. destruct cm as [c' m']. simpl in H. destruct H as [H ->]. congruence.
  Qed.

  Lemma done_eos : forall s c k, inv s -> chan_of N c = Some k -> ph (nd s (src k)) = Done -> In Eos (hs s c).
  Proof.
    intros s c k I K D. rewrite (i_push _ _ I c k K). apply in_on.
    pose proof (i_prog _ _ I (src k)) as PR. rewrite (i_done _ _ I _ D) in PR. simpl in PR.
    assert (O : In c (outs N (src k))) by (apply in_outs; eauto).
    apply In_nth_error in O as (j & J).
    eapply realizes_in with (g := eos_group N (src k)); eauto.
    - unfold asked. rewrite D. apply in_or_app. right. apply in_or_app. right. left. auto.
    - unfold eos_group. apply in_map_iff. exists j. split; [auto|]. apply in_seq. split; [lia|]. simpl.
      apply nth_error_Some. congruence.
  Qed.

  Lemma running_no_eos : forall (W : wf N) s c k, inv s -> chan_of N c = Some k -> ph (nd s (src k)) = Running ->
    ~ In Eos (hs s c).
  Proof.
    intros W s c k I K D. rewrite (i_push _ _ I c k K). intros KE. apply in_on in KE.
    pose proof (i_prog _ _ I (src k)) as PR.
    assert (OA : ok_groups N (src k) (asked N s (src k))).
    { destruct (wf_ends N W c k K) as [Hv _]. unfold asked. rewrite D, app_nil_r. apply Forall_app.
      split; [apply (wf_boot N W); auto|apply ok_replies; auto]. }
    destruct (pend (nd s (src k))) as [|g p]; simpl in PR.
    - destruct (realizes_eos _ _ _ _ PR KE) as (g & j & H1 & H2 & _). eapply ok_no_eos; eauto.
    - destruct PR as (Dn & b0 & ps & P1 & p2 & EA & PB & EH & RD & F). rewrite EA in OA.
      rewrite EH, in_app_iff in KE. destruct KE as [KE|KE].
      + destruct (realizes_eos _ _ _ _ RD KE) as (g0 & j & H1 & H2 & _).
        eapply ok_no_eos; [exact OA| |exact H2]. apply in_or_app. auto.
      + destruct (forall2_eos _ _ _ _ F KE) as (j & H1 & H2). 
        assert (Hb : In (To j Eos) b0) by (rewrite PB; apply in_or_app; auto).
        eapply ok_no_eos; [exact OA| |exact Hb]. apply in_or_app. right. left. auto.
  Qed.

  (** A channel whose mark was read is empty. *)
  Lemma ended_empty : forall (W : wf N) l s c k, exec (step N) (init_st N) l = Some s -> chan_of N c = Some k ->
    In c (ended (nd s (dst k))) -> q s c = [].
  Proof.
    intros W l s c k E K H. pose proof (reach _ _ _ E) as I. pose proof (reach_shape W l s E c) as SH.
    rewrite (i_read _ _ I c k K) in SH. eapply shape_app; eauto. apply in_on. apply (i_ended _ _ I). auto.
  Qed.

  Lemma pend_resolves : forall (W : wf N) s v g p r, inv s -> v < nodes N -> pend (nd s v) = g :: p -> In r g ->
    exists c m, resolve N v r 0 = Some (c, m).
  Proof.
    intros W s v g p r I Hv EP IR. pose proof (i_prog _ _ I v) as PR. rewrite EP in PR.
    destruct PR as (D & b0 & ps & P1 & p2 & EA & PB & _).
    assert (Hb : In r b0) by (rewrite PB; apply in_or_app; auto).
    assert (Ha : In b0 (asked N s v)) by (rewrite EA; apply in_or_app; right; left; auto).
    destruct (asked_split W s v Hv) as (U & E & EU & OU & CE). rewrite EU in Ha. apply in_app_or in Ha as [Ha|Ha].
    - unfold ok_groups in OU. rewrite Forall_forall in OU. specialize (OU _ Ha). rewrite Forall_forall in OU.
      specialize (OU _ Hb). destruct r as [j [x|]|x]; simpl in OU |- *.
      + apply nth_error_Some in OU. destruct (nth_error (outs N v) j); [simpl; eauto|congruence].
      + tauto.
      + destruct (outs N v); [congruence|simpl; eauto].
    - destruct CE as [->| ->]; [destruct Ha|]. destruct Ha as [<-|[]]. unfold eos_group in Hb.
      apply in_map_iff in Hb as (j & <- & Hj). apply in_seq in Hj as [_ Hj]. simpl in Hj.
      simpl. apply nth_error_Some in Hj. destruct (nth_error (outs N v) j); [simpl; eauto|congruence].
  Qed.

  (** A node with something to send can move, or the node at the other end of the full channel can,
      and so on. *)
  Lemma busy_moves : forall (W : wf N) (BU : bounded_upwards N) s, inv s -> forall d v, nodes N - v <= d -> v < nodes N ->
    pend (nd s v) <> [] -> exists a, step N s a <> None.
  Proof.
    intros W BU s I. induction d as [|d IH]; intros v Hd Hv Hp; [lia|].
    destruct (pend (nd s v)) as [|g p] eqn:EP; [congruence|]. clear Hp.
    assert (LV : (v <? nodes N) = true) by (apply Nat.ltb_lt; auto).
    destruct g as [|r g].
    { exists (Next v). cbn [step]. rewrite EP, LV. discriminate. }
    destruct (pend_resolves W s v (r :: g) p r I Hv EP (or_introl eq_refl)) as (c & m & R).
    destruct (room N s c) eqn:RM.
    { exists (Put v 0 0). cbn [step]. rewrite EP. cbn [nth_error]. rewrite R, LV, RM. discriminate. }
    apply resolve_ok in R as RR. pose proof (resolves_out _ _ _ _ _ RR) as OC. apply in_outs in OC as (k & K & SK).
    unfold room in RM. rewrite K in RM. destruct (cap k) as [b|] eqn:CK; [|discriminate].
    apply Nat.ltb_ge in RM. pose proof (wf_cap N W c k b K CK) as B1. destruct (BU c k b K CK) as [UP PT].
    destruct (wf_ends N W c k K) as [_ DW]. set (w := dst k) in *.
    assert (LW : (w <? nodes N) = true) by (apply Nat.ltb_lt; auto).
    assert (NE : ~ In c (ended (nd s w))).
    { intros C. apply (i_ended _ _ I) in C. eapply (no_eos_yet W s v (r :: g) p r c m I Hv EP); [left; auto|auto|].
      apply in_on. rewrite <- SK, <- (i_push _ _ I c k K), (i_read _ _ I c k K). apply in_or_app. left. apply in_on. auto. }
    destruct (pend (nd s w)) as [|g' p'] eqn:EW.
    - destruct (ph (nd s w)) eqn:PW.
      + destruct (q s c) as [|m' r'] eqn:EQ; [simpl in RM; lia|].
        exists (Get w c). cbn [step]. rewrite PW, EW, EQ, LW.
        replace (memb c (ins N w)) with true by (symmetry; apply memb_In, in_ins; eauto).
        replace (memb c (ended (nd s w))) with false
          by (symmetry; apply not_true_is_false; intros C; apply memb_In in C; auto).
        discriminate.
      + exists (Fin w). cbn [step]. rewrite PW, EW, LW. discriminate.
      + exfalso. apply NE. apply (i_cls _ _ I w); auto; [congruence|]. apply in_ins. eauto.
    - apply (IH w); auto; [lia|congruence].
  Qed.

  (** States without any enabled step. *)
  Lemma stuck_nodes : forall (W : wf N) (BU : bounded_upwards N) s, inv s -> stuck N s -> forall v, v < nodes N ->
    ph (nd s v) = Done \/
    (ph (nd s v) = Running /\ pend (nd s v) = [] /\ forall c, In c (ins N v) -> ~ In c (ended (nd s v)) -> q s c = []).
  Proof.
    intros W BU s I SK v Hv. assert (LV : (v <? nodes N) = true) by (apply Nat.ltb_lt; auto).
    destruct (pend (nd s v)) as [|g p] eqn:EP.
    - destruct (ph (nd s v)) eqn:PV; auto.
      + right. split; [auto|]. split; [auto|]. intros c Hc Ne. destruct (q s c) as [|m r] eqn:EQ; [auto|exfalso].
        specialize (SK (Get v c)). cbn [step] in SK. rewrite PV, EP, EQ, LV in SK.
        replace (memb c (ins N v)) with true in SK by (symmetry; apply memb_In; auto).
        replace (memb c (ended (nd s v))) with false in SK
          by (symmetry; apply not_true_is_false; intros C; apply memb_In in C; auto).
        discriminate.
      + specialize (SK (Fin v)). cbn [step] in SK. rewrite PV, EP, LV in SK. discriminate.
    - destruct (busy_moves W BU s I (nodes N) v) as (a & A); [lia|auto|congruence|]. exfalso. apply A, SK.
  Qed.

  Lemma stuck_done : forall (W : wf N) (BU : bounded_upwards N) (AC : acyclic N) s, inv s -> stuck N s -> all_done N s.
  Proof.
    intros W BU AC s I SK v. induction v as [v IH] using lt_wf_ind. intros Hv.
    destruct (stuck_nodes W BU s I SK v Hv) as [D|(PV & EP & EQ)]; [auto|exfalso].
    destruct (i_run _ _ I v PV) as (c & Hc & Ne). apply in_ins in Hc as Hc'. destruct Hc' as (k & K & DK).
    pose proof (AC c k K) as UP. assert (D : ph (nd s (src k)) = Done) by (apply IH; lia).
    pose proof (done_eos s c k I K D) as HE. rewrite (i_read _ _ I c k K), DK, (EQ c Hc Ne), app_nil_r in HE.
    apply in_on in HE. apply (i_ended _ _ I) in HE. auto.
  Qed.
End Proofs.
