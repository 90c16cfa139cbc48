(** Networks: completion, and what each node receives in a finished run. *)
From Coq Require Import List Arith Bool Lia Permutation.
From Verif Require Import Base NetModel NetSpec NetProofs NetProofs2 NetProofs3.
Import ListNotations.

Section Proofs.
  Context {X St : Type}.
  Variable N : net X St.
  Notation st := (st X St).
  Notation inv := (inv N).

  (** ** Completion *)
  Lemma done_or_moves : forall (W : wf N) (BU : bounded_upwards N) (AC : acyclic N) s, inv s ->
    all_done N s \/ exists a, step N s a <> None.
  Proof.
    intros W BU AC s I.
    assert (H : forall d, d <= nodes N -> (forall v, v < d -> ph (nd s v) = Done) \/ exists a, step N s a <> None).
    { induction d as [|v IH]; intros Hd; [left; lia|]. destruct IH as [IH|IH]; [lia| |right; auto].
      assert (LV : (v <? nodes N) = true) by (apply Nat.ltb_lt; lia).
      destruct (pend (nd s v)) as [|g p] eqn:EP.
      2:{ right. apply (busy_moves N W BU s I (nodes N) v); [lia|lia|congruence]. }
      destruct (ph (nd s v)) eqn:PV.
      - right. destruct (i_run _ _ I v PV) as (c & Hc & Ne). apply in_ins in Hc as Hc'. destruct Hc' as (k & K & DK).
        pose proof (AC c k K) as UP. assert (D : ph (nd s (src k)) = Done) by (apply IH; lia).
        pose proof (done_eos N s c k I K D) as HE. rewrite (i_read _ _ I c k K), DK in HE.
        destruct (q s c) as [|m r] eqn:EQ.
        { rewrite app_nil_r in HE. apply in_on in HE. apply (i_ended _ _ I) in HE. tauto. }
        exists (Get v c). cbn [step]. rewrite PV, EP, EQ, LV.
        replace (memb c (ins N v)) with true by (symmetry; apply memb_In; auto).
        replace (memb c (ended (nd s v))) with false
          by (symmetry; apply not_true_is_false; intros C; apply memb_In in C; auto).
        discriminate.
      - right. exists (Fin v). cbn [step]. rewrite PV, EP, LV. discriminate.
      - left. intros u Hu. destruct (Nat.eq_dec u v) as [->|NU]; [auto|]. apply IH. lia. }
    destruct (H (nodes N) (le_n _)) as [D|D]; [left; exact D|right; exact D].
  Qed.

  Lemma can_finish : forall (W : wf N) (BU : bounded_upwards N) (AC : acyclic N) m s, meas N s = m -> inv s ->
    exists l s', exec (step N) s l = Some s' /\ all_done N s'.
  Proof.
    intros W BU AC m. induction (lexlt_wf (nodes N) m) as [m _ IH]. intros s EM I.
    destruct (done_or_moves W BU AC s I) as [D|(a & A)].
    - exists [], s. auto.
    - destruct (step N s a) as [s1|] eqn:E; [|congruence].
      destruct (IH (meas N s1)) with (s := s1) as (l & s' & H1 & H2); auto.
      + rewrite <- EM. eapply step_meas; eauto.
      + eapply inv_step; eauto.
      + exists (a :: l), s'. split; [|auto]. cbn [exec]. rewrite E. auto.
  Qed.

  (** ** What is received *)
  Lemma items_app : forall l1 l2 : list (msg X), items (l1 ++ l2) = items l1 ++ items l2.
  Proof. intros. apply flat_map_app. Qed.
  Lemma sent_app : forall G1 G2 : list (list (req X)), sent (G1 ++ G2) = sent G1 ++ sent G2.
  Proof. intros. apply flat_map_app. Qed.
  Lemma sent_to_app : forall i (G1 G2 : list (list (req X))), sent_to i (G1 ++ G2) = sent_to i G1 ++ sent_to i G2.
  Proof. intros. apply flat_map_app. Qed.

  Lemma eos_group_items : forall v, sent [eos_group N v] = [].
  Proof.
    intros v. unfold sent, eos_group. simpl. rewrite app_nil_r. induction (seq 0 (length (outs N v))); simpl; auto.
  Qed.
  Lemma eos_group_to : forall v i, sent_to i [eos_group N v] = [].
  Proof.
    intros v i. unfold sent_to, eos_group. simpl. rewrite app_nil_r. induction (seq 0 (length (outs N v))); simpl; auto.
  Qed.

  Lemma flat_map_perm : forall {S T} (f : S -> list T) l l', Permutation l l' -> Permutation (flat_map f l) (flat_map f l').
  Proof.
    induction 1; simpl; auto.
    - apply Permutation_app_head. auto.
    - rewrite !app_assoc. apply Permutation_app_tail, Permutation_app_comm.
    - etransitivity; eauto.
  Qed.

  Lemma realizes_items : forall v G P, realizes N v G P -> Permutation (sent G) (items (map snd P)).
  Proof.
    induction 1 as [|g g' p G P PG F R IH]; [reflexivity|]. rewrite map_app, items_app. cbn [sent flat_map].
    apply Permutation_app; [|exact IH]. rewrite (flat_map_perm item_of _ _ PG).
    clear - F. induction F as [|r [c m] ps p H F IH]; [reflexivity|]. cbn [flat_map map snd items].
    apply Permutation_app; [|exact IH]. destruct r as [j m'|x]; simpl in H; destruct H as [_ ->]; [destruct m'|]; reflexivity.
  Qed.

  Lemma split_channels : forall (cs : list nat) (P : list (nat * msg X)), NoDup cs -> (forall cm, In cm P -> In (fst cm) cs) ->
    Permutation (items (map snd P)) (flat_map (fun c => items (on c P)) cs).
  Proof.
    intros cs P ND. induction P as [|[c m] P IH]; intros H.
    - simpl. clear. induction cs; simpl; auto.
    - assert (Hc : In c cs) by (apply (H (c, m)); left; auto).
      replace (items (map snd ((c, m) :: P))) with (items [m] ++ items (map snd P))
        by (rewrite <- items_app; reflexivity).
      rewrite IH by (intros; apply H; right; auto).
      apply in_split in Hc as (c1 & c2 & ->).
      assert (N1 : ~ In c c1 /\ ~ In c c2).
      { apply NoDup_remove_2 in ND. rewrite in_app_iff in ND. tauto. }
      assert (NO : forall l, ~ In c l -> flat_map (fun c0 => items (on c0 ((c, m) :: P))) l = flat_map (fun c0 => items (on c0 P)) l).
      { clear. induction l as [|a l IH]; intros NI; [reflexivity|]. cbn [flat_map]. f_equal.
        - unfold on. cbn [filter fst]. replace (c =? a) with false; [reflexivity|]. symmetry. apply Nat.eqb_neq.
          intros ->. apply NI. left. auto.
        - apply IH. intros K. apply NI. right. auto. }
      rewrite !flat_map_app. cbn [flat_map]. rewrite !NO by tauto.
      replace (on c ((c, m) :: P)) with (m :: on c P) by (unfold on; cbn [filter fst]; rewrite Nat.eqb_refl; reflexivity).
      replace (items (m :: on c P)) with (items [m] ++ items (on c P)) by (rewrite <- items_app; reflexivity).
      rewrite !app_assoc. apply Permutation_app_tail. apply Permutation_app_tail. apply Permutation_app_comm.
  Qed.

  Lemma realizes_chans : forall v G P cm, realizes N v G P -> In cm P -> In (fst cm) (outs N v).
  Proof.
    induction 1 as [|g g' p G P PG F R IH]; simpl; [tauto|]. rewrite in_app_iff. intros [K|K]; [|auto].
    clear - F K. induction F as [|r [c m] ps p H F IH]; simpl in *; [tauto|]. destruct K as [<-|K]; [|auto].
    eapply resolves_out; eauto.
  Qed.

  Lemma perm_le1 : forall {T} (l l' : list T), Permutation l l' -> length l <= 1 -> l = l'.
  Proof.
    intros T l l' P L. destruct l as [|a [|b l]]; simpl in L; [| |lia].
    - apply Permutation_nil in P. auto.
    - apply Permutation_length_1_inv in P. auto.
  Qed.

  Lemma group_to_le1 : forall i (g : list (req X)), (forall x, ~ In (Any x) g) -> NoDup (map port g) ->
    length (flat_map (item_to i) g) <= 1 /\ (~ In i (map port g) -> flat_map (item_to i) g = []).
  Proof.
    intros i. induction g as [|r g IH]; intros NA ND; [simpl; split; [lia|auto]|].
    cbn [map] in ND. inversion ND as [|? ? NI ND']; subst. destruct IH as [IH1 IH2]; auto.
    { intros x K. apply (NA x). right. auto. }
    destruct r as [j [x|]|x]; simpl in *.
    - destruct (Nat.eqb_spec j i) as [->|NE]; simpl.
      + rewrite IH2 by auto. simpl. split; [lia|]. intros K. exfalso. apply K. auto.
      + split; [auto|]. intros K. apply IH2. auto.
    - split; auto.
    - exfalso. apply (NA x). auto.
  Qed.

  Lemma realizes_to : forall v G P i c, realizes N v G P -> directed G -> nth_error (outs N v) i = Some c ->
    items (on c P) = sent_to i G.
  Proof.
    intros v G P i c R D E. induction R as [|g g' p G P PG F R IH]; [reflexivity|].
    inversion D as [|? ? [NA ND] D']; subst.
    unfold on. rewrite filter_app, map_app, items_app. fold (on c p) (on c P). rewrite IH by auto.
    cbn [sent_to flat_map]. f_equal.
    rewrite (perm_le1 _ _ (flat_map_perm (item_to i) _ _ PG)) by (apply group_to_le1; auto).
    assert (NA' : forall x, ~ In (Any x) g') by (intros x K; apply (NA x); rewrite PG; auto).
    clear - F E NA'. induction F as [|r [c1 m] ps p H F IH]; [reflexivity|].
    cbn [flat_map]. rewrite <- IH by (intros x K; apply (NA' x); right; auto).
    destruct r as [j m'|x]; [|exfalso; apply (NA' x); left; auto]. simpl in H. destruct H as [H ->].
    unfold on. cbn [filter fst]. destruct (Nat.eqb_spec c1 c) as [->|NE].
    - assert (j = i).
      { apply (proj1 (NoDup_nth_error (outs N v)) (outs_nodup N v)); [|congruence]. apply nth_error_Some. congruence. }
      subst j. cbn [map snd]. destruct m' as [x|]; simpl; [rewrite Nat.eqb_refl|]; reflexivity.
    - assert (j <> i) by congruence. destruct m' as [x|]; simpl; [|reflexivity].
      replace (j =? i) with false by (symmetry; apply Nat.eqb_neq; auto). reflexivity.
  Qed.

  Definition all_patient : Prop := forall v, patient N v.

  (** In a finished run every channel was read to its end. *)
  Lemma finished_channel : forall (W : wf N) l s c k, exec (step N) (init_st N) l = Some s -> all_done N s ->
    chan_of N c = Some k -> patient N (dst k) ->
    q s c = [] /\ hs s c = on c (hl s (dst k)) /\ exists xs, hs s c = map Item xs ++ [Eos].
  Proof.
    intros W l s c k E D K PT. pose proof (reach N _ _ E) as I. destruct (wf_ends N W c k K) as [S1 S2].
    assert (EN : In c (ended (nd s (dst k)))).
    { apply (i_cls _ _ I); auto; [rewrite (D _ S2); discriminate|]. apply in_ins. eauto. }
    pose proof (ended_empty N W l s c k E K EN) as Q. pose proof (i_read _ _ I c k K) as R. rewrite Q, app_nil_r in R.
    split; [auto|]. split; [auto|].
    destruct (reach_shape N W l s E c) as (xs & [H|H]); [|eauto].
    exfalso. pose proof (done_eos N s c k I K (D _ S1)) as HE. rewrite H in HE. apply in_map_iff in HE as (y & Y & _). discriminate.
  Qed.

  Lemma asked_done : forall s v, ph (nd s v) = Done -> asked N s v = requests N s v ++ [eos_group N v].
  Proof. intros s v D. unfold asked, requests. rewrite D, app_assoc. reflexivity. Qed.

  Lemma finished_items : forall (W : wf N) l s v, exec (step N) (init_st N) l = Some s -> all_done N s ->
    (forall c k, chan_of N c = Some k -> src k = v -> patient N (dst k)) -> v < nodes N ->
    Permutation (sent (requests N s v)) (flat_map (fun c => items (received N s c)) (outs N v)).
  Proof.
    intros W l s v E D PT Hv. pose proof (reach N _ _ E) as I. pose proof (i_prog _ _ I v) as PR.
    rewrite (i_done _ _ I v (D v Hv)) in PR. simpl in PR. rewrite (asked_done s v (D v Hv)) in PR.
    pose proof (realizes_items _ _ _ PR) as P1. rewrite sent_app, eos_group_items, app_nil_r in P1. rewrite P1.
    rewrite (split_channels (outs N v)); [|apply outs_nodup|intros; eapply realizes_chans; eauto].
    match goal with |- Permutation ?a ?b => replace b with a; [reflexivity|] end. rewrite !flat_map_concat_map. f_equal. apply map_ext_in. intros c Hc.
    apply in_outs in Hc as (k & K & SK). unfold received. rewrite K.
    destruct (finished_channel W l s c k E D K (PT c k K SK)) as (_ & H & _).
    rewrite <- H, (i_push _ _ I c k K), SK. reflexivity.
  Qed.

  Lemma finished_to : forall (W : wf N) l s v i c k, exec (step N) (init_st N) l = Some s -> all_done N s ->
    v < nodes N -> nth_error (outs N v) i = Some c -> chan_of N c = Some k -> patient N (dst k) ->
    directed (requests N s v) -> on c (hl s (dst k)) = map Item (sent_to i (requests N s v)) ++ [Eos].
  Proof.
    intros W l s v i c k E D Hv HN K PT DI. pose proof (reach N _ _ E) as I. pose proof (i_prog _ _ I v) as PR.
    rewrite (i_done _ _ I v (D v Hv)) in PR. simpl in PR. rewrite (asked_done s v (D v Hv)) in PR.
    assert (OC : In c (outs N v)) by (eapply nth_error_In; eauto). apply in_outs in OC as (k' & K' & SK).
    assert (k' = k) by congruence. subst k'.
    destruct (finished_channel W l s c k E D K PT) as (_ & H & xs & HX).
    assert (DA : directed (requests N s v ++ [eos_group N v])).
    { apply Forall_app. split; [auto|]. constructor; [|constructor]. unfold eos_group. split.
      - intros x KX. apply in_map_iff in KX as (j & J & _). discriminate.
      - rewrite map_map. simpl. rewrite map_id. apply seq_NoDup. }
    pose proof (realizes_to _ _ _ _ _ PR DA HN) as RT. rewrite sent_to_app, eos_group_to, app_nil_r in RT.
    rewrite <- SK, <- (i_push _ _ I c k K), HX, items_app in RT. simpl in RT. rewrite app_nil_r in RT.
    rewrite SK in RT. rewrite <- RT, <- H, HX. f_equal. f_equal. unfold items. clear. induction xs; simpl; congruence.
  Qed.
End Proofs.
