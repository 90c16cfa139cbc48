(** Termination of wait() and the end of a frozen node. *)
From Coq Require Import List Arith Bool Lia.
From Verif Require Import Base FreezeModel FreezeProofs.
Import ListNotations.

(** ** Termination of wait() *)
Definition wm (p : wpc) : nat :=
  match p with WInit => 9 | WRun => 8 | WLock _ => 7 | WWake => 6 | WSleep => 5 | WCheck => 4 | WExit => 3 | WFin => 2 | WDone => 1 end.
Definition km (p : kpc) (fz : bool) : nat :=
  match p with
  | KIdle => 7 | KW1 => 6
  | KWf _ => if fz then 3 else 5
  | KWfSleep _ => if fz then 3 else 4
  | KWfWake _ => if fz then 3 else 5
  | KThaw => 2 | KJoin => 1 | KEnd => 0 end.
Definition fmu (s : ft) : nat := 20 * km (kp s) (frozen s) + wm (wp s).

Definition spurious (a : fact) : bool := match a with AWSpurious | AKSpurious => true | _ => false end.

Lemma fmu_dec s a s' : FI s -> waited s = true -> fgstep s a = Some s' -> spurious a = false -> fmu s' < fmu s /\ waited s' = true.
Proof.
  intros I W E N. destruct s as [st f fz ie w k r t ar wt]. destruct I as [i1 i2 i3 i4 i5 i6 i7].
  unfold cinv in i1. cbn in i1, i2, i3, i4, i5, i6, i7, W. subst wt. destruct (i5 eq_refl) as (-> & NI).
  unfold fmu. destruct a as [ok|r0| | | | | |ag| |]; cbn in E, N; try discriminate.
  - destruct w; try discriminate. injection E as <-. destruct ok; cbn; split; auto; lia.
  - destruct w; try discriminate. injection E as <-. cbn; split; auto; lia.
  - unfold wstep in E; cbn in E. destruct w; try discriminate.
    + destruct r0; injection E as <-; cbn; split; auto; lia.
    + injection E as <-. unfold sleep_or_go; cbn. destruct (Nat.eqb_spec f 1) as [->|]; cbn; split; auto; [|lia].
      assert (fz = true) as -> by intuition lia.
      assert (km (signal_k k) true <= km k true) by (destruct k; cbn; lia). lia.
    + injection E as <-. cbn; split; auto; lia.
    + injection E as <-. destruct (f =? 0); cbn; split; auto; lia.
    + injection E as <-. cbn; split; auto.
      assert (km (signal_k k) true <= km k fz) by (destruct k, fz; cbn; lia). lia.
  - unfold kstep in E; cbn in E. destruct k; try discriminate.
    + injection E as <-. unfold wf_test; cbn. destruct i7 as ((_ & B) & _). rewrite (B eq_refl). destruct fz; cbn; split; auto; lia.
    + injection E as <-. unfold wf_test; cbn. destruct i7 as ((_ & B) & _). rewrite (B eq_refl). destruct fz; cbn; split; auto; lia.
    + injection E as <-. destruct (f =? 0), fz; cbn; split; auto; lia.
    + injection E as <-. destruct w; cbn; split; auto; lia.
    + destruct w; try discriminate. injection E as <-. cbn; split; auto; lia.
  - destruct k; try discriminate; destruct NI; reflexivity.
  - destruct ar; [|discriminate]. destruct k; try discriminate; destruct NI; reflexivity.
  - destruct k; try discriminate; destruct NI; reflexivity.
Qed.

Lemma fmu_bound s : fmu s <= 149.
Proof. unfold fmu. destruct (kp s), (frozen s), (wp s); cbn; lia. Qed.

Lemma wait_bounded l : forall s s', FI s -> waited s = true -> Forall (fun a => spurious a = false) l ->
  exec fgstep s l = Some s' -> length l + fmu s' <= fmu s.
Proof.
  induction l as [|a l IH]; intros s s' I W F E; cbn in E.
  - injection E as <-. cbn. lia.
  - destruct (fgstep s a) as [s1|] eqn:Q; [|discriminate]. inversion F; subst.
    destruct (fmu_dec _ _ _ I W Q) as (D & W1); [assumption|].
    assert (K := IH s1 s' (FI_step _ _ _ I Q) W1 H2 E). cbn [length]. lia.
Qed.

(** Something other than a spurious wakeup can happen until wait() has returned. *)
Lemma wait_live s : FI s -> waited s = true -> kp s <> KEnd -> exists a s', spurious a = false /\ fgstep s a = Some s'.
Proof.
  intros I W N. destruct s as [st f fz ie w k r t ar wt]. destruct I as [i1 i2 i3 i4 i5 i6 i7].
  unfold cinv in i1. cbn in *. subst wt. destruct (i5 eq_refl) as (-> & NI).
  destruct k; try (exists AKStep; eexists; split; [reflexivity|]; cbn; reflexivity); try (destruct NI; reflexivity); [| |destruct N; reflexivity].
  - (* asleep in wait_freezing: the worker can move *)
    assert (Z := i3 _ eq_refl). subst fz. destruct i7 as ((_ & B) & C). specialize (B eq_refl). subst inwait.
    specialize (C eq_refl).
    destruct w; try (exists AWorker; eexists; split; [reflexivity|]; cbn; reflexivity).
    + exists (AInit true). eexists. split; reflexivity.
    + exists (ARun REos). eexists. split; reflexivity.
    + exists AWorker. destruct r0; eexists; split; reflexivity.
    + destruct i1 as (_ & Z & _). discriminate.
    + destruct i1 as (L & Z). assert (f = 1) as Q by lia. specialize (Z Q). discriminate.
  - destruct i7 as (_ & ->).
    destruct w; try (exists AWorker; eexists; split; [reflexivity|]; cbn; reflexivity).
    + exists (AInit true). eexists. split; reflexivity.
    + exists (ARun REos). eexists. split; reflexivity.
    + exists AWorker. destruct r0; eexists; split; reflexivity.
    + destruct i1 as (Z & _). discriminate.
    + exists AKStep. eexists. split; reflexivity.
Qed.

(** Once the worker is past its run and told to stop, it never runs again. *)
Definition past (s : ft) : Prop :=
  stp s = true /\ match wp s with WInit | WRun | WLock _ => False | _ => True end.

Lemma past_step s a s' : past s -> fstep s a = Some s' -> past s' /\ runs s' = runs s.
Proof.
  intros (P1 & P2) E. destruct s as [st f fz ie w k r t ar wt]. cbn in P1, P2. subst st.
  unfold past. destruct a as [ok|r0| | | | | |ag| |]; cbn in E.
  - destruct w; try discriminate; contradiction.
  - destruct w; try discriminate; contradiction.
  - unfold wstep in E; cbn in E. destruct w; try discriminate; try contradiction; injection E as <-.
    + unfold sleep_or_go; cbn. destruct (f =? 1); cbn; auto.
    + cbn; auto.
    + destruct (f =? 0); cbn; auto.
    + cbn; auto.
  - destruct w; try discriminate. injection E as <-. cbn; auto.
  - destruct k; try discriminate. injection E as <-. cbn; auto.
  - unfold kstep in E; cbn in E. destruct k; try discriminate.
    + injection E as <-. unfold wf_test; cbn. destruct fz, inwait; cbn; auto.
    + injection E as <-. unfold wf_test; cbn. destruct fz, inwait; cbn; auto.
    + injection E as <-. cbn; auto.
    + injection E as <-. cbn. destruct w; cbn; auto.
    + destruct w; try discriminate. injection E as <-. cbn; auto.
  - destruct k; try discriminate. injection E as <-. cbn; auto.
  - destruct k; try discriminate. injection E as <-. cbn. destruct w; cbn; auto.
  - destruct k; try discriminate. injection E as <-. cbn; auto.
  - destruct k; try discriminate. injection E as <-. cbn; auto.
Qed.

Lemma past_exec l s s' : past s -> exec fstep s l = Some s' -> runs s' = runs s.
Proof.
  intros P E. assert (K : past s' /\ runs s' = runs s); [|tauto].
  revert E. apply (exec_inv fstep (fun x => past x /\ runs x = runs s)).
  - intros x a y (A & B) E. destruct (past_step _ _ _ A E). split; [assumption|congruence].
  - auto.
Qed.

Lemma fgstep_fstep s a s' : fgstep s a = Some s' -> fstep s a = Some s'.
Proof. destruct a; cbn; auto; try discriminate. destruct (armed s); auto; discriminate. Qed.
Lemma fgexec_fexec l s s' : exec fgstep s l = Some s' -> exec fstep s l = Some s'.
Proof.
  revert s. induction l as [|a l IH]; intros s; cbn; [auto|].
  destruct (fgstep s a) eqn:Q; [|discriminate]. rewrite (fgstep_fstep _ _ _ Q). apply IH.
Qed.

