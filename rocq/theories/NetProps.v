(** Networks of nodes: the theorems.  Vocabulary in NetSpec.v; the user's code (svc, eosnotify,
    initial sends) is arbitrary. *)
From Coq Require Import List Arith Bool Lia Permutation.
From Verif Require Import Base NetModel NetSpec NetProofs NetProofs2 NetProofs3 NetProofs4 NetProofs5.
Import ListNotations.

Section Props.
  Context {X St : Type}.
  Variable N : net X St.

  (** In every reachable state, on every channel: what its producer pushed, in order, is what its
      consumer read, in order, followed by what is in the channel. *)
  Theorem net_channels_fifo : forall l s c k, exec (step N) (init_st N) l = Some s -> chan_of N c = Some k ->
    on c (hp s (src k)) = on c (hl s (dst k)) ++ q s c.
  Proof.
    intros l s c k E K. pose proof (reach N _ _ E) as I. rewrite <- (i_push _ _ I c k K). apply (i_read _ _ I c k K).
  Qed.

  (** In every reachable state, what a node pushed is what its code asked for on what it read:
      group after group, every request once.  [rest] is what is still to be pushed; nothing when
      the node is ready to read again.  The mark on every output is asked when the node closes. *)
  Theorem net_pushes_follow_code : wf N -> forall l s v, exec (step N) (init_st N) l = Some s -> v < nodes N ->
    exists rest,
      realizes N v (requests N s v ++ match ph (nd s v) with Running => [] | _ => [eos_group N v] end) (hp s v ++ rest) /\
      (pend (nd s v) = [] -> rest = []).
  Proof.
    intros W l s v E Hv. destruct (pushes_asked N W s v (reach N _ _ E) Hv) as (rest & R & H). exists rest. split; [|auto].
    unfold requests. unfold asked in R. rewrite app_assoc in R. exact R.
  Qed.

  (** On every channel the end-of-stream mark is sent at most once, after all the items; a node
      that runs has sent none, a node that ended has sent it on all its outputs. *)
  Theorem net_one_mark : wf N -> forall l s c k, exec (step N) (init_st N) l = Some s -> chan_of N c = Some k ->
    exists xs, match ph (nd s (src k)) with
               | Running => on c (hp s (src k)) = map Item xs
               | Closing => on c (hp s (src k)) = map Item xs \/ on c (hp s (src k)) = map Item xs ++ [Eos]
               | Done => on c (hp s (src k)) = map Item xs ++ [Eos]
               end.
  Proof.
    intros W l s c k E K. pose proof (reach N _ _ E) as I. rewrite <- (i_push _ _ I c k K).
    destruct (reach_shape N W l s E c) as (xs & H). exists xs. destruct (ph (nd s (src k))) eqn:P; auto.
    - destruct H as [H|H]; auto. exfalso. apply (running_no_eos N W s c k I K P). rewrite H. apply in_or_app. right. left. auto.
    - destruct H as [H|H]; auto. pose proof (done_eos N s c k I K P) as HE. rewrite H in HE.
      apply in_map_iff in HE as (y & Y & _). discriminate.
  Qed.

  (** A node that reads its whole input ends only after the mark of every input channel. *)
  Theorem net_ends_after_inputs : wf N -> forall l s v c k, exec (step N) (init_st N) l = Some s -> patient N v ->
    ph (nd s v) <> Running -> chan_of N c = Some k -> dst k = v -> In (c, Eos) (hl s v).
  Proof.
    intros W l s v c k E PT P K DK. pose proof (reach N _ _ E) as I. apply (i_ended _ _ I). apply (i_cls _ _ I v P PT).
    apply in_ins. eauto.
  Qed.

  (** Acyclic networks: a reachable state where no thread can move is a state where all have ended. *)
  Theorem net_no_deadlock : wf N -> acyclic N ->
    (forall c k b, chan_of N c = Some k -> cap k = Some b -> patient N (dst k)) ->
    forall l s, exec (step N) (init_st N) l = Some s -> all_done N s \/ exists a s', step N s a = Some s'.
  Proof.
    intros W AC PT l s E. assert (BU : bounded_upwards N) by (intros c k b K C; split; [apply (AC c k K)|eapply PT; eauto]).
    destruct (done_or_moves N W BU AC s (reach N _ _ E)) as [D|(a & A)]; [auto|right].
    destruct (step N s a) as [s'|] eqn:ES; [eauto|congruence].
  Qed.

  (** Acyclic networks: there is no infinite execution, whatever the scheduling. *)
  Theorem net_terminates : acyclic N -> forall f : nat -> act,
    exists k, exec (step N) (init_st N) (map f (seq 0 k)) = None.
  Proof. intros AC f. eapply no_infinite; eauto. Qed.

  (** Networks with cycles, where the nodes send a bounded number of messages. *)
  Theorem net_terminates_bounded : wf N -> forall K,
    (forall l s v, exec (step N) (init_st N) l = Some s -> v < nodes N -> length (concat (requests N s v)) <= K) ->
    forall f : nat -> act, exists k, exec (step N) (init_st N) (map f (seq 0 k)) = None.
  Proof. intros W K HK. apply (bounded_finite N W K HK). Qed.

  (** Cycles closed by unbounded channels: in a state where no thread can move, the threads that
      have not ended wait for a message on empty channels. *)
  Theorem net_stuck_is_idle : wf N -> bounded_upwards N -> forall l s, exec (step N) (init_st N) l = Some s -> stuck N s ->
    forall v, v < nodes N -> ph (nd s v) = Done \/
      (ph (nd s v) = Running /\ pend (nd s v) = [] /\ forall c k, chan_of N c = Some k -> dst k = v -> q s c = []).
  Proof.
    intros W BU l s E SK v Hv. destruct (stuck_nodes N W BU s (reach N _ _ E) SK v Hv) as [D|(P & EP & Q)]; [auto|right].
    split; [auto|]. split; [auto|]. intros c k K DK.
    destruct (in_dec Nat.eq_dec c (ended (nd s v))) as [IE|NE].
    - subst v. eapply ended_empty; eauto.
    - apply Q; auto. apply in_ins. eauto.
  Qed.

  (** When all have ended, every channel into a node that reads its whole input was read to its
      end, and every item a node sent was read, once, by one of its successors. *)
  Theorem net_final_channels : wf N -> forall l s c k, exec (step N) (init_st N) l = Some s -> all_done N s ->
    chan_of N c = Some k -> patient N (dst k) ->
    q s c = [] /\ exists xs, on c (hp s (src k)) = map Item xs ++ [Eos] /\ on c (hl s (dst k)) = map Item xs ++ [Eos].
  Proof.
    intros W l s c k E D K PT. destruct (finished_channel N W l s c k E D K PT) as (Q & H & xs & HX). split; [auto|].
    exists xs. rewrite <- (i_push _ _ (reach N _ _ E) c k K), <- H. auto.
  Qed.
  Theorem net_final_items : wf N -> forall l s v, exec (step N) (init_st N) l = Some s -> all_done N s -> v < nodes N ->
    (forall c k, chan_of N c = Some k -> src k = v -> patient N (dst k)) ->
    Permutation (sent (requests N s v)) (flat_map (fun c => items (received N s c)) (outs N v)).
  Proof. intros W l s v E D Hv PT. eapply finished_items; eauto. Qed.
End Props.

(** ** A diamond: node 0 sends 1, 2, 3 to any of nodes 1 and 2, which double, and node 3 sums. *)
Definition diamond : net nat nat :=
  mkNet 4 [mkChan 0 1 (Some 1); mkChan 0 2 (Some 1); mkChan 1 3 (Some 1); mkChan 2 3 None] (fun _ => 0)
    (fun v => match v with 0 => [[Any 1]; [Any 2]; [To 0 (Item 3); To 1 (Item 4)]] | _ => [] end)
    (fun v u c x => match v with 3 => (u + x, [], false) | _ => (u, [[To 0 (Item (2 * x))]], false) end)
    (fun _ u _ => (u, [])).

Lemma diamond_chan : forall c k, chan_of diamond c = Some k ->
  (c = 0 /\ k = mkChan 0 1 (Some 1)) \/ (c = 1 /\ k = mkChan 0 2 (Some 1)) \/
  (c = 2 /\ k = mkChan 1 3 (Some 1)) \/ (c = 3 /\ k = mkChan 2 3 None).
Proof.
  intros c k H. unfold chan_of in H. simpl in H. do 4 (destruct c as [|c]; [injection H as <-; tauto|]). destruct c; discriminate.
Qed.
Example diamond_wf : wf diamond.
Proof.
  constructor.
  - intros c k H. apply diamond_chan in H as [[_ ->]|[[_ ->]|[[_ ->]|[_ ->]]]]; simpl; lia.
  - intros c k b H E. apply diamond_chan in H as [[_ ->]|[[_ ->]|[[_ ->]|[_ ->]]]]; simpl in E; try discriminate; injection E as <-; lia.
  - intros v Hv. simpl in Hv. destruct v as [|v]; simpl; [|constructor].
    repeat constructor; simpl; try discriminate; vm_compute; lia.
  - intros v u c x Hv. simpl in Hv. do 3 (destruct v as [|v]; [repeat constructor; simpl; vm_compute; lia|]).
    destruct v; [constructor|lia].
  - constructor.
Qed.
Example diamond_patient : forall v, patient diamond v.
Proof. intros v u c x. simpl. do 4 (destruct v as [|v]; [reflexivity|]). reflexivity. Qed.
Example diamond_acyclic : acyclic diamond.
Proof. intros c k H. apply diamond_chan in H as [[_ ->]|[[_ ->]|[[_ ->]|[_ ->]]]]; simpl; lia. Qed.
Example diamond_bounded : bounded_upwards diamond.
Proof. intros c k b H _. split; [eapply diamond_acyclic; eauto|apply diamond_patient]. Qed.

Definition diamond_run : list act :=
  [Put 0 0 0; Next 0; Get 1 0; Put 0 0 1; Next 0; Put 0 0 0; Put 1 0 0; Next 1; Get 3 2; Get 2 1; Put 0 0 0; Next 0;
   Get 1 0; Put 1 0 0; Next 1; Put 2 0 0; Next 2; Get 3 3; Get 2 1; Put 2 0 0; Next 2; Get 3 2; Get 3 3;
   Put 0 1 0; Put 0 0 0; Next 0; Fin 0; Get 2 1; Put 2 0 0; Next 2; Get 1 0; Put 1 0 0; Next 1; Fin 2; Fin 1;
   Get 3 2; Get 3 3; Next 3; Fin 3].
Example diamond_done : exists s, exec (step diamond) (init_st diamond) diamond_run = Some s /\ all_done diamond s /\
  ust (nd s 3) = 20 /\ hl s 3 = [(2, Item 2); (3, Item 4); (2, Item 6); (3, Item 8); (2, Eos); (3, Eos)].
Proof.
  eexists. split; [vm_compute; reflexivity|]. split.
  - intros v Hv. simpl in Hv. do 4 (destruct v as [|v]; [reflexivity|]). lia.
  - split; reflexivity.
Qed.

(** ** The hypotheses on bounded channels cannot be dropped. *)
(** A cycle of bounded channels may deadlock. *)
Definition net_cycle_no_deadlock_claim : Prop := forall (N : net nat nat), wf N -> (forall v, patient N v) ->
  forall l s, exec (step N) (init_st N) l = Some s -> stuck N s -> forall v, v < nodes N -> pend (nd s v) = [].
Definition ring : net nat nat :=
  mkNet 2 [mkChan 0 1 (Some 1); mkChan 1 0 (Some 1)] (fun _ => 0)
    (fun v => match v with 0 => [[To 0 (Item 1)]; [To 0 (Item 2)]; [To 0 (Item 3)]; [To 0 (Item 4)]] | _ => [] end)
    (fun v u c x => (u, [[To 0 (Item x)]], false)) (fun _ u _ => (u, [])).
Theorem net_cycle_no_deadlock_refuted : ~ net_cycle_no_deadlock_claim.
Proof.
  intros H.
  assert (W : wf ring).
  { constructor.
    - intros [|[|c]] k E; try (injection E as <-; simpl; lia). unfold chan_of in E. simpl in E. destruct c; discriminate.
    - intros [|[|c]] k b E C; try (injection E as <-; injection C as <-; lia). unfold chan_of in E. simpl in E. destruct c; discriminate.
    - intros v Hv. simpl in Hv. destruct v as [|[|v]]; [| |lia]; repeat constructor; simpl; vm_compute; lia.
    - intros v u c x Hv. simpl in Hv. destruct v as [|[|v]]; [| |lia]; repeat constructor; simpl; vm_compute; lia.
    - constructor. }
  destruct (exec (step ring) (init_st ring)
    [Put 0 0 0; Next 0; Get 1 0; Put 0 0 0; Next 0; Put 1 0 0; Next 1; Get 1 0; Put 0 0 0; Next 0]) as [s|] eqn:E; [|vm_compute in E; discriminate].
  assert (P0 : pend (nd s 0) = [[To 0 (Item 4)]]) by (vm_compute in E; injection E as <-; reflexivity).
  assert (SK : stuck ring s).
  { vm_compute in E. injection E as <-. intros a. destruct a as [v c|v k j|v|v]; simpl.
    - destruct v as [|[|v]]; try reflexivity.
    - destruct v as [|[|v]]; try reflexivity; destruct k as [|k]; try reflexivity; destruct k; reflexivity.
    - destruct v as [|[|v]]; reflexivity.
    - destruct v as [|[|v]]; reflexivity. }
  assert (HV : 0 < nodes ring) by (simpl; lia).
  pose proof (H ring W (fun v u c x => eq_refl) _ s E SK 0 HV) as HP. rewrite P0 in HP. discriminate.
Qed.

(** A node that returns EOS while its bounded input channel fills up leaves its producer waiting
    for ever. *)
Definition net_early_stop_claim : Prop := forall (N : net nat nat), wf N -> acyclic N ->
  forall l s, exec (step N) (init_st N) l = Some s -> stuck N s -> all_done N s.
Definition early : net nat nat :=
  mkNet 2 [mkChan 0 1 (Some 1)] (fun _ => 0)
    (fun v => match v with 0 => [[To 0 (Item 1)]; [To 0 (Item 2)]; [To 0 (Item 3)]] | _ => [] end)
    (fun v u c x => (u, [], true)) (fun _ u _ => (u, [])).
Theorem net_early_stop_refuted : ~ net_early_stop_claim.
Proof.
  intros H.
  assert (W : wf early).
  { constructor.
    - intros [|c] k E; try (injection E as <-; simpl; lia). unfold chan_of in E. simpl in E. destruct c; discriminate.
    - intros [|c] k b E C; try (injection E as <-; injection C as <-; lia). unfold chan_of in E. simpl in E. destruct c; discriminate.
    - intros v Hv. simpl in Hv. destruct v as [|[|v]]; [| |lia]; repeat constructor; simpl; vm_compute; lia.
    - constructor.
    - constructor. }
  assert (AC : acyclic early).
  { intros [|c] k E; try (injection E as <-; simpl; lia). unfold chan_of in E. simpl in E. destruct c; discriminate. }
  destruct (exec (step early) (init_st early) [Put 0 0 0; Next 0; Get 1 0; Put 0 0 0; Next 0; Next 1; Fin 1]) as [s|] eqn:E;
    [|vm_compute in E; discriminate].
  assert (P0 : ph (nd s 0) = Closing) by (vm_compute in E; injection E as <-; reflexivity).
  assert (SK : stuck early s).
  { vm_compute in E. injection E as <-. intros a. destruct a as [v c|v k j|v|v]; simpl.
    - destruct v as [|[|v]]; try reflexivity.
    - destruct v as [|[|v]]; try reflexivity; destruct k as [|k]; try reflexivity; destruct k; reflexivity.
    - destruct v as [|[|v]]; reflexivity.
    - destruct v as [|[|v]]; reflexivity. }
  assert (HV : 0 < nodes early) by (simpl; lia).
  pose proof (H early W AC _ s E SK 0 HV) as HP. congruence.
Qed.

Print Assumptions net_channels_fifo.
Print Assumptions net_pushes_follow_code.
Print Assumptions net_one_mark.
Print Assumptions net_ends_after_inputs.
Print Assumptions net_no_deadlock.
Print Assumptions net_terminates.
Print Assumptions net_terminates_bounded.
Print Assumptions net_stuck_is_idle.
Print Assumptions net_final_channels.
Print Assumptions net_final_items.
Print Assumptions net_cycle_no_deadlock_refuted.
Print Assumptions net_early_stop_refuted.
