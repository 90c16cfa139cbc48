(** C21: the freeze/thaw handshake.  [armed s] says that wait_freezing has returned 0 and the controller has
    not thawed, stopped or waited since; [fgstep] is the model restricted to controllers that call thaw only
    then (and do not call stop). *)
From Coq Require Import List Arith Bool Lia.
From Verif Require Import Base FreezeModel FreezeProofs FreezeProofs2.
Import ListNotations.

(** When wait_freezing has returned 0, the node is asleep, and it has completed exactly one run for its
    start and one for each thaw. *)
Theorem freeze_wait_freezing_run_complete : forall l s,
  exec fgstep ft_init l = Some s -> armed s = true ->
  (wp s = WSleep \/ wp s = WWake) /\ freezing s = 1 /\ runs s = S (thaws s).
Proof.
  intros l s E A. assert (I := FI_exec _ _ E). destruct (fi_arm _ I A) as (F & K & Ie & W).
  destruct (fi_fz _ I F) as (G & P). assert (C := fi_c _ I). unfold cinv in C.
  destruct P as [P|[P|(P & [Q|Q])]]; [| |congruence|congruence]; rewrite P in C; split; auto; split; auto;
    destruct C as [C|C] || idtac; try tauto; intuition lia.
Qed.

Lemma thaws_const l : forall s s', (forall b, ~ In (CThaw b) l) -> exec fgstep s l = Some s' -> thaws s' = thaws s.
Proof.
  induction l as [|a l IH]; intros s s' N E; cbn in E; [injection E as <-; reflexivity|].
  destruct (fgstep s a) as [s1|] eqn:Q; [|discriminate].
  rewrite (IH s1 s') by (auto; intros b H; apply (N b); right; exact H).
  assert (Q1 := fgstep_fstep _ _ _ Q). destruct a as [ok|r0| | | | | |ag| |]; cbn in Q1; try (destruct (N ag); left; reflexivity).
  - destruct (wp s); try discriminate. injection Q1 as <-. reflexivity.
  - destruct (wp s); try discriminate. injection Q1 as <-. reflexivity.
  - unfold wstep, sleep_or_go in Q1. cbn in Q1.
    destruct (wp s) as [| |r| | | | | |]; try discriminate; [destruct r, (stp s)| | | |]; try injection Q1 as <-; try reflexivity;
      destruct (freezing s =? 1); try reflexivity; cbn; destruct (freezing s); reflexivity.
  - destruct (wp s); try discriminate; injection Q1 as <-; reflexivity.
  - destruct (kp s); try discriminate; injection Q1 as <-; reflexivity.
  - unfold kstep, wf_test in Q1. destruct (kp s); try discriminate; try (injection Q1 as <-; try destruct (frozen s), inwait; reflexivity).
    destruct (wp s); try discriminate; injection Q1 as <-; reflexivity.
  - destruct (kp s); try discriminate; injection Q1 as <-; reflexivity.
  - destruct (kp s); try discriminate; injection Q1 as <-; reflexivity.
  - destruct (kp s); try discriminate; injection Q1 as <-; reflexivity.
Qed.

(** One thaw, one run: between a thaw and the next return of wait_freezing the node completes exactly one run. *)
Theorem freeze_thaw_one_run : forall l1 s1 b l2 s2,
  exec fgstep ft_init l1 = Some s1 -> armed s1 = true ->
  (forall c, ~ In (CThaw c) l2) -> exec fgstep s1 (CThaw b :: l2) = Some s2 -> armed s2 = true ->
  runs s2 = S (runs s1).
Proof.
  intros l1 s1 b l2 s2 E1 A1 N E2 A2.
  assert (E : exec fgstep ft_init (l1 ++ CThaw b :: l2) = Some s2) by (apply exec_app; eauto).
  destruct (freeze_wait_freezing_run_complete _ _ E1 A1) as (_ & _ & R1).
  destruct (freeze_wait_freezing_run_complete _ _ E A2) as (_ & _ & R2).
  cbn [exec] in E2. destruct (fgstep s1 (CThaw b)) as [s'|] eqn:Q; [|discriminate].
  apply thaws_const in E2; [|exact N]. cbn in Q. rewrite A1 in Q. destruct (kp s1); try discriminate. injection Q as <-.
  cbn in E2. lia.
Qed.

(** No wake-up is lost: a worker that is asleep has announced it, and then the controller is not asleep; a
    controller asleep in wait_freezing waits for a worker that is neither asleep nor finished, as long as the node is
    to freeze. *)
Theorem freeze_no_lost_wakeup : forall l s, exec fgstep ft_init l = Some s ->
  (wp s = WSleep -> freezing s = 1 /\ frozen s = true /\ forall b, kp s <> KWfSleep b) /\
  (forall b, kp s = KWfSleep b -> freezing s <> 0 -> wp s <> WSleep /\ wp s <> WDone).
Proof.
  intros l s E. assert (I := FI_exec _ _ E). assert (C := fi_c _ I). unfold cinv in C. split.
  - intros P. rewrite P in C. destruct C as (C1 & C2 & C3). split; [exact C1|]. split; [exact C2|].
    intros b K. rewrite (fi_ks _ I b K) in C2. discriminate.
  - intros b K F. assert (Z := fi_ks _ I b K). split; intros P; rewrite P in C.
    + destruct C as (_ & C & _). congruence.
    + destruct C as (C1 & C2). assert (freezing s = 1) as Q by lia. rewrite (C2 Q) in Z. discriminate.
Qed.

(** wait() ends: after it has been called at most 149 steps other than spurious wakeups are possible, and until it has
    returned one is possible (the runs of svc are assumed to return). *)
Theorem freeze_wait_terminates : forall l1 s1 l2 s2,
  exec fgstep ft_init l1 = Some s1 -> waited s1 = true ->
  exec fgstep s1 l2 = Some s2 ->
  (Forall (fun a => spurious a = false) l2 -> length l2 <= 149) /\
  (kp s2 <> KEnd -> exists a s3, spurious a = false /\ fgstep s2 a = Some s3).
Proof.
  intros l1 s1 l2 s2 E1 W E2. assert (I1 := FI_exec _ _ E1). split.
  - intros F. assert (K := wait_bounded _ _ _ I1 W F E2). pose proof (fmu_bound s1). lia.
  - intros N. assert (I2 : FI s2) by (revert E2; apply (exec_inv fgstep FI FI_step); exact I1).
    apply wait_live; auto.
    clear N E1 I1 I2. revert s1 W E2. induction l2 as [|a l IH]; intros s1 W E2; cbn in E2; [congruence|].
    destruct (fgstep s1 a) as [s'|] eqn:Q; [|discriminate]. eapply IH; [|exact E2].
    assert (Q1 := fgstep_fstep _ _ _ Q). clear - Q1 W. destruct s1 as [st f fz ie w k r t ar wt]. cbn in W. subst wt.
    destruct a as [ok|r0| | | | | |ag| |]; cbn in Q1.
    + destruct w; try discriminate. injection Q1 as <-. reflexivity.
    + destruct w; try discriminate. injection Q1 as <-. reflexivity.
    + unfold wstep, sleep_or_go in Q1. cbn in Q1.
      destruct w as [| |q| | | | | |]; try discriminate; [destruct q, st| | | |]; try injection Q1 as <-; try reflexivity;
        destruct (f =? 1); try reflexivity; cbn; destruct f; reflexivity.
    + destruct w; try discriminate. injection Q1 as <-. reflexivity.
    + destruct k; try discriminate. injection Q1 as <-. reflexivity.
    + unfold kstep, wf_test in Q1. cbn in Q1. destruct k; try discriminate; try (injection Q1 as <-; try destruct fz, inwait; reflexivity).
      destruct w; try discriminate. injection Q1 as <-. reflexivity.
    + destruct k; try discriminate. injection Q1 as <-. reflexivity.
    + destruct k; try discriminate. injection Q1 as <-. reflexivity.
    + destruct k; try discriminate. injection Q1 as <-. reflexivity.
    + destruct k; try discriminate. injection Q1 as <-. reflexivity.
Qed.

(** Calling wait() after wait_freezing ends the node without a further run: the runs are those that were asked for. *)
Theorem freeze_wait_when_frozen_no_further_run : forall l1 s1 l2 s2,
  exec fgstep ft_init l1 = Some s1 -> armed s1 = true ->
  exec fgstep s1 (CWait :: l2) = Some s2 -> runs s2 = S (thaws s1).
Proof.
  intros l1 s1 l2 s2 E1 A E2. destruct (freeze_wait_freezing_run_complete _ _ E1 A) as (P & _ & R).
  rewrite <- R. cbn [exec] in E2. destruct (fgstep s1 CWait) as [s'|] eqn:Q; [|discriminate].
  apply fgexec_fexec in E2. cbn in Q. destruct (kp s1); try discriminate. injection Q as <-.
  apply past_exec in E2; [exact E2|]. split; [reflexivity|]. cbn. destruct P as [-> | ->]; exact I.
Qed.

(** Two thaws with a wait_freezing after each, then wait: three runs. *)
Definition one_run : list fact := [AInit true; ARun REos; AWorker].
Definition fz_two_thaws : list fact :=
  one_run ++ [CWaitFreezing; AKStep; CThaw true; CWaitFreezing; AKStep; AWorker; AWorker] ++ one_run ++
  [AKStep; CThaw true; AWorker; AWorker; AInit true; ARun RNoFreeze; AWorker; AWorker] ++ one_run ++ [AWSpurious; CWaitFreezing; AKStep].
Example freeze_two_thaws :
  option_map (fun s => (armed s, runs s, thaws s, wp s)) (exec fgstep ft_init fz_two_thaws) = Some (true, 3, 2, WWake).
Proof. reflexivity. Qed.
Example freeze_then_wait :
  option_map (fun s => (kp s, runs s, wp s)) (exec fgstep ft_init (fz_two_thaws ++ [CWait; AKStep; AWorker; AKStep; AKStep; AWorker; AWorker; AWorker; AKStep]))
  = Some (KEnd, 3, WDone).
Proof. reflexivity. Qed.
Example freeze_controller_asleep :
  option_map (fun s => (kp s, freezing s, wp s)) (exec fgstep ft_init [CWaitFreezing; AKStep; AInit true]) = Some (KWfSleep false, 1, WRun).
Proof. reflexivity. Qed.

(** ** Findings *)

(** Full statement: each thaw leads to a run before wait() returns. *)
Definition freeze_thaw_then_wait_claim : Prop :=
  forall l s, exec fgstep ft_init l = Some s -> kp s = KEnd -> initerr s = false -> runs s = S (thaws s).

(** A thaw followed directly by wait(): wait sets the stop flag before the worker has left the freezing point, and
    the run that was asked for never happens. *)
Theorem freeze_thaw_then_wait_refuted : ~ freeze_thaw_then_wait_claim.
Proof.
  intros C.
  pose (l := one_run ++ [CWaitFreezing; AKStep; CThaw true; CWait; AWorker; AWorker; AWorker; AWorker; AKStep; AKStep; AKStep; AKStep]).
  assert (X : option_map (fun s => (kp s, initerr s, runs s, thaws s)) (exec fgstep ft_init l) = Some (KEnd, false, 1, 1)) by reflexivity.
  destruct (exec fgstep ft_init l) as [s|] eqn:E; [|discriminate]. cbn in X. injection X as X1 X2 X3 X4.
  assert (K := C l s E X1 X2). lia.
Qed.

(** run_and_wait_end on a frozen farm or pipeline is stop(), thaw(), wait() (farm.hpp L1415-L1421): the node never runs. *)
Theorem freeze_run_and_wait_end_never_runs : forall l1 s1 l2 s2,
  exec fgstep ft_init l1 = Some s1 -> armed s1 = true ->
  exec fstep s1 (CStop :: CThaw false :: CWait :: l2) = Some s2 -> runs s2 = runs s1.
Proof.
  intros l1 s1 l2 s2 E1 A E2. destruct (freeze_wait_freezing_run_complete _ _ E1 A) as (P & _ & _).
  cbn [exec] in E2. destruct (fstep s1 CStop) as [s'|] eqn:Q; [|discriminate].
  assert (K := past_exec (CThaw false :: CWait :: l2) s' s2). cbn [exec] in K.
  cbn in Q. destruct (kp s1); try discriminate. injection Q as <-.
  apply K in E2; [exact E2|]. split; [reflexivity|]. cbn. destruct P as [-> | ->]; exact I.
Qed.
Example freeze_run_and_wait_end_case :
  option_map (fun s => (kp s, runs s)) (exec fstep ft_init (one_run ++ [CWaitFreezing; AKStep; CStop; CThaw false; CWait; AWorker; AWorker; AWorker; AKStep; AKStep]))
  = Some (KEnd, 1).
Proof. reflexivity. Qed.

(** Without the discipline: every thaw yields a run, even when it is called before the node has frozen. *)
Definition freeze_early_thaw_claim : Prop :=
  forall l s, exec fstep ft_init l = Some s -> armed s = true -> runs s = S (thaws s).
(** Two thaws in a row yield one run. *)
Theorem freeze_early_thaw_refuted : ~ freeze_early_thaw_claim.
Proof.
  intros C.
  pose (l := [AInit true; CThaw true; CThaw true; ARun REos; AWorker; AWorker] ++ one_run ++ [CWaitFreezing; AKStep]).
  assert (X : option_map (fun s => (armed s, runs s, thaws s)) (exec fstep ft_init l) = Some (true, 2, 2)) by reflexivity.
  destruct (exec fstep ft_init l) as [s|] eqn:E; [|discriminate]. cbn in X. injection X as X1 X2 X3.
  assert (K := C l s E X1). lia.
Qed.

(** After thaw(false), the default, wait_freezing never returns. *)
Theorem freeze_wait_freezing_after_last_thaw_blocks : forall l1 s1 l2 s2,
  exec fgstep ft_init l1 = Some s1 -> armed s1 = true ->
  exec fgstep s1 (CThaw false :: l2) = Some s2 -> armed s2 = false.
Proof.
  intros l1 s1 l2 s2 E1 A E2. assert (I1 := FI_exec _ _ E1).
  cbn [exec] in E2. destruct (fgstep s1 (CThaw false)) as [s'|] eqn:Q; [|discriminate].
  assert (I' := FI_step _ _ _ I1 Q). cbn in Q. rewrite A in Q. destruct (kp s1) eqn:K; try discriminate. injection Q as Q.
  assert (Z : freezing s' = 0 /\ frozen s' = false /\ armed s' = false) by (subst s'; cbn; auto). clear Q.
  assert (Y : FI s2 /\ freezing s2 = 0 /\ frozen s2 = false /\ armed s2 = false); [|tauto].
  revert E2. apply (exec_inv fgstep (fun s => FI s /\ freezing s = 0 /\ frozen s = false /\ armed s = false)); [|split; assumption].
  clear. intros s a t (I & Z1 & Z2 & Z3) Q. split; [exact (FI_step _ _ _ I Q)|].
  assert (C := fi_c _ I). unfold cinv in C. clear I. destruct s as [st f fz ie w k r th ar wt]. cbn in *. subst.
  destruct a as [ok|r0| | | | | |ag| |]; cbn in Q; try discriminate.
  - destruct w; try discriminate. injection Q as <-. auto.
  - destruct w; try discriminate. injection Q as <-. auto.
  - unfold wstep in Q; cbn in Q. destruct w as [| |q| | | | | |]; try discriminate.
    + destruct q, st; injection Q as <-; cbn; auto.
    + injection Q as <-. cbn; auto.
    + injection Q as <-. cbn; auto.
    + injection Q as <-. cbn; auto.
    + lia.
  - destruct w; try discriminate. injection Q as <-. auto.
  - destruct k; try discriminate. injection Q as <-. auto.
  - unfold kstep, wf_test in Q; cbn in Q. destruct k; try discriminate; try (injection Q as <-; cbn; auto; fail).
    destruct w; try discriminate. injection Q as <-. auto.
  - destruct k; try discriminate. injection Q as <-. auto.
  - destruct k; try discriminate. injection Q as <-. auto.
Qed.
Example freeze_last_thaw_case :
  option_map (fun s => (kp s, wp s, runs s))
    (exec fgstep ft_init (one_run ++ [CWaitFreezing; AKStep; CThaw false; CWaitFreezing; AKStep; AWorker; AWorker] ++ one_run ++ [AWorker; AWorker; AKSpurious; AKStep]))
  = Some (KWfSleep false, WDone, 2).
Proof. reflexivity. Qed.

Print Assumptions freeze_wait_freezing_run_complete.
Print Assumptions freeze_thaw_one_run.
Print Assumptions freeze_no_lost_wakeup.
Print Assumptions freeze_wait_terminates.
Print Assumptions freeze_wait_when_frozen_no_further_run.
Print Assumptions freeze_thaw_then_wait_refuted.
Print Assumptions freeze_run_and_wait_end_never_runs.
Print Assumptions freeze_early_thaw_refuted.
Print Assumptions freeze_wait_freezing_after_last_thaw_blocks.
