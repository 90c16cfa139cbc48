(** C12: queues made of several sub-queues (scalableMPMCqueue, multiSWSR).
    Model: ScalModel.v.  Histories and linearizability: LinSpec.v. *)
From Coq Require Import List Arith Bool ZArith Lia Permutation.
From Verif Require Import Base LinSpec LinFacts Tracks ScalModel ScalProofs.
Import ListNotations.

(** No operation is running. *)
Definition all_returned {A} (s : sst A) : Prop := forall t, sp s t = SIdle.
(** An execution that starts no push. *)
Definition only_pops {A} (l : list (sact A)) : Prop := forall t x, ~ In (SPush t x) l.
(** Operations never overlap a running push with a running pop / never overlap at all. *)
Notation pushes_and_pops_in_phases := (fun n => phased n (scal_init false)).
Notation one_operation_at_a_time := (fun n => serial n (scal_init false)).

(** Every schedule, both modes, any number of sub-queues and threads: the pushed values are the returned values,
    plus those still stored, plus those of operations that have not returned; nothing appears twice. *)
Theorem scal_no_loss_no_dup : forall A n rel l (s : sst A), 1 <= n ->
  exec (sstep n rel) (scal_init rel) l = Some s ->
  exists running, Permutation (pushed (str s)) (returned (str s) ++ running ++ contents n s).
Proof.
  intros A n rel l s Hn H. destruct (sreach n rel Hn l s H) as (infl & incs & I).
  exists (map snd infl). exact (v_val _ _ _ _ _ I).
Qed.

(** ... and when all operations have returned, exactly the stored values are missing. *)
Theorem scal_no_loss_no_dup_quiescent : forall A n rel l (s : sst A), 1 <= n ->
  exec (sstep n rel) (scal_init rel) l = Some s -> all_returned s ->
  Permutation (pushed (str s)) (returned (str s) ++ contents n s).
Proof.
  intros A n rel l s Hn H Q. destruct (sreach n rel Hn l s H) as (infl & incs & I).
  pose proof (v_val _ _ _ _ _ I) as V.
  assert (E : infl = []) by (destruct I; eapply tracks_empty; eauto; intros t; rewrite Q; auto).
  rewrite E in V. exact V.
Qed.

(** The property: once all operations have returned, if a pushed value has not been returned then some
    continuation made of pops only returns one. *)
Definition scal_complete_claim (n : nat) (rel : bool) : Prop := forall A l (s : sst A),
  exec (sstep n rel) (scal_init rel) l = Some s -> all_returned s ->
  length (returned (str s)) < length (pushed (str s)) ->
  exists l' s', only_pops l' /\ exec (sstep n rel) s l' = Some s' /\
    length (returned (str s)) < length (returned (str s')).

(** Relaxed mode and multiSWSR: a thread that keeps calling pop gets a value within [n] calls. *)
Theorem scal_relaxed_complete : forall A n l (s : sst A) t, 1 <= n ->
  exec (sstep n true) (scal_init true) l = Some s -> all_returned s ->
  length (returned (str s)) < length (pushed (str s)) ->
  exists k l' s' w, k < n /\ Forall (fun a => a = SPop t \/ a = SRun t) l' /\
    exec (sstep n true) s l' = Some s' /\ all_returned s' /\
    str s' = str s ++ missed t k ++ [CallPop t; LinPop t; RetPop t (Some w)].
Proof.
  intros A n l s t Hn H Q L. apply (relaxed_complete n Hn l s t H Q).
  intros E. pose proof (scal_no_loss_no_dup_quiescent A n true l s Hn H Q) as P.
  apply Permutation_length in P. rewrite E, app_nil_r in P. lia.
Qed.

Lemma fold_missed : forall A t k z, fold_left (@pstep A) (missed t k) z = z.
Proof. intros A t k. induction k as [|k IH]; intros z; cbn; auto. Qed.
Lemma flat_missed : forall A t k,
  flat_map (fun e : ev A => match e with RetPop _ (Some v) => [v] | _ => [] end) (missed t k) = [].
Proof. intros A t k. induction k as [|k IH]; cbn; auto. Qed.

(** ... hence by popping long enough it gets all of them. *)
Theorem scal_relaxed_drained : forall A n l (s : sst A) t, 1 <= n ->
  exec (sstep n true) (scal_init true) l = Some s -> all_returned s ->
  exists l' s', Forall (fun a => a = SPop t \/ a = SRun t) l' /\ exec (sstep n true) s l' = Some s' /\
    all_returned s' /\ Permutation (pushed (str s)) (returned (str s')).
Proof.
  intros A n l s t Hn H Q.
  remember (length (contents n s)) as m eqn:Em. revert l s H Q Em. induction m as [|m IH]; intros l s H Q Em.
  - exists [], s. repeat split; auto. pose proof (scal_no_loss_no_dup_quiescent A n true l s Hn H Q) as P.
    destruct (contents n s); [|discriminate]. rewrite app_nil_r in P. exact P.
  - pose proof (scal_no_loss_no_dup_quiescent A n true l s Hn H Q) as P.
    destruct (relaxed_complete n Hn l s t H Q) as (k & l1 & s1 & w & Hk & F & E & Q1 & T).
    { intros C. rewrite C in Em. discriminate. }
    assert (R1 : exec (sstep n true) (scal_init true) (l ++ l1) = Some s1) by (apply exec_app; eauto).
    assert (P1 := scal_no_loss_no_dup_quiescent A n true _ s1 Hn R1 Q1).
    assert (PM : pushed (str s1) = pushed (str s)).
    { rewrite T. unfold pushed. rewrite !fold_left_app. rewrite fold_missed. cbn. reflexivity. }
    assert (RM : returned (str s1) = returned (str s) ++ [w]).
    { rewrite T. unfold returned. rewrite !flat_map_app. cbn. rewrite flat_missed. reflexivity. }
    rewrite <- PM. destruct (IH _ s1 R1 Q1) as (l2 & s2 & F2 & E2 & Q2 & P2).
    { apply Permutation_length in P, P1. rewrite PM, RM, !app_length in P1. rewrite app_length in P. cbn [length] in P1. lia. }
    exists (l1 ++ l2), s2. split; [apply Forall_app; auto|]. split; [apply exec_app; eauto|auto].
Qed.

Theorem scal_relaxed_complete_claim : forall n, 1 <= n -> scal_complete_claim n true.
Proof.
  intros n Hn A l s H Q L.
  destruct (scal_relaxed_complete A n l s 0 Hn H Q L) as (k & l' & s' & w & Hk & F & E & _ & T).
  exists l', s'. repeat split; auto.
  - intros t x Hin. rewrite Forall_forall in F. destruct (F _ Hin); discriminate.
  - rewrite T. unfold returned. rewrite !flat_map_app, !app_length. cbn. lia.
Qed.

(** FIFO mode: true when no pop overlaps a push (first pop call already succeeds). *)
Theorem scal_fifo_complete_partial : forall A n l (s : sst A) t, 1 <= n ->
  pushes_and_pops_in_phases n l ->
  exec (sstep n false) (scal_init false) l = Some s -> all_returned s ->
  length (returned (str s)) < length (pushed (str s)) ->
  exists s' w, exec (sstep n false) s (SPop t :: repeat (SRun t) 6) = Some s' /\
    str s' = str s ++ [CallPop t; LinPop t; RetPop t (Some w)].
Proof.
  intros A n l s t Hn PH H Q L. apply (strict_complete n Hn l s t PH H Q).
  intros E. pose proof (scal_no_loss_no_dup_quiescent A n false l s Hn H Q) as P.
  apply Permutation_length in P. rewrite E, app_nil_r in P. lia.
Qed.

(** FIFO mode used by one operation at a time is an exact FIFO queue: pop fails only when it is empty. *)
Theorem scal_fifo_order_partial : forall A n l (s : sst A), 1 <= n ->
  one_operation_at_a_time n l ->
  exec (sstep n false) (scal_init false) l = Some s ->
  exists q, linearizable None false (str s) q.
Proof. intros A n l s Hn. apply serial_lin; auto. Qed.

(** FIFO mode in general: false.  A pop that overtakes a push which has its ticket but has not stored yet
    burns that ticket; the value stored later can never be popped until another push happens. *)
Definition stranding : list (sact nat) :=
  [SPush 0 7; SRun 0;                                  (* push(7) takes ticket 1 and is delayed *)
   SPush 1 8; SRun 1; SRun 1; SRun 1;                  (* push(8) completes *)
   SPop 2; SRun 2; SRun 2; SRun 2; SRun 2; SRun 2;     (* pop takes ticket 1, finds nothing: false *)
   SPop 2; SRun 2; SRun 2; SRun 2; SRun 2; SRun 2; SRun 2;   (* pop returns 8 *)
   SRun 0; SRun 0].                                    (* push(7) completes *)

Example stranding_history :
  option_map (@str nat) (exec (sstep 4 false) (scal_init false) stranding) =
  Some [CallPush 0 7; CallPush 1 8; LinPush 1; RetPush 1 true; CallPop 2; RetPop 2 None;
        CallPop 2; LinPop 2; RetPop 2 (Some 8); LinPush 0; RetPush 0 true].
Proof. vm_compute. reflexivity. Qed.

Theorem scal_fifo_complete_refuted : ~ scal_complete_claim 4 false.
Proof.
  intros C. destruct (exec (sstep 4 false) (scal_init false) stranding) as [s|] eqn:E; [|vm_compute in E; discriminate].
  assert (Q : forall t, option_map (fun z => sp z t) (exec (sstep 4 false) (scal_init false) stranding) = Some SIdle)
    by (intros [|[|[|t]]]; vm_compute; reflexivity).
  assert (V : option_map (fun z => (enq z, deq z, returned (str z), pushed (str z))) (exec (sstep 4 false) (scal_init false) stranding)
              = Some (2, 3, [8], [8; 7])) by (vm_compute; reflexivity).
  rewrite E in V, Q. cbn [option_map] in V, Q. injection V as V1 V2 V3 V4.
  assert (Q' : forall t, sp s t = SIdle) by (intros t; specialize (Q t); congruence).
  assert (K : stuck s s) by (unfold stuck; rewrite V1, V2; repeat split; [lia|intros t; rewrite Q'; exact I]).
  assert (L : length (returned (str s)) < length (pushed (str s))) by (rewrite V3, V4; cbn; lia).
  destruct (C nat stranding s E Q' L) as (l' & s' & OP & E' & L').
  destruct (stuck_exec 4 ltac:(lia) l' s s s' K OP E') as (_ & _ & R & _). rewrite R in L'. lia.
Qed.

(** Non-vacuity: in the relaxed mode with 4 sub-queues, a state where three pops miss before one succeeds... *)
Example relaxed_case :
  let pre := [SPush 0 7; SRun 0; SRun 0; SRun 0; SPop 1; SRun 1; SPop 2; SRun 2; SRun 1; SRun 1; SRun 1; SRun 2; SRun 2;
              SPush 0 8; SRun 0; SRun 0; SRun 0] in
  let pop k := concat (repeat [SPop 1; SRun 1; SRun 1; SRun 1] k) in
  option_map (fun s => (contents 4 s, returned (str s))) (exec (sstep 4 true) (scal_init true) (pre ++ pop 3)) = Some ([8], [7]) /\
  option_map (fun s => (contents 4 s, returned (str s))) (exec (sstep 4 true) (scal_init true) (pre ++ pop 4 ++ [SRun 1])) = Some ([], [7; 8]).
Proof. vm_compute. auto. Qed.
(** ... and in FIFO mode, phases and one operation at a time. *)
Example phased_case : pushes_and_pops_in_phases 2 [SPush 0 7; SRun 0; SPush 1 8; SRun 1; SRun 1; SRun 1; SRun 0; SRun 0] /\
  one_operation_at_a_time 2 [SPush 0 7; SRun 0; SRun 0; SRun 0; SPush 1 8; SRun 1; SRun 1; SRun 1; SPop 0].
Proof.
  split; cbn; repeat split; auto; intros; unfold fupd;
    repeat match goal with |- context [?u =? ?k] => destruct (u =? k) end; cbn; auto; try discriminate.
Qed.

Print Assumptions scal_no_loss_no_dup.
Print Assumptions scal_no_loss_no_dup_quiescent.
Print Assumptions scal_relaxed_complete.
Print Assumptions scal_relaxed_drained.
Print Assumptions scal_relaxed_complete_claim.
Print Assumptions scal_fifo_complete_partial.
Print Assumptions scal_fifo_order_partial.
Print Assumptions scal_fifo_complete_refuted.
