(** A task farm (ff_taskf), run again and again: C72. *)
From Coq Require Import List Arith Bool Lia.
From Verif Require Import Base TkfModel TkfSpec TkfProofs.
Import ListNotations.

(** Whatever the rounds and the schedule: no task is run twice or without having been submitted,
    every task of a round has been run and its closure deleted when wait() (or run_then_freeze())
    returns, and the scheduler never counts below zero. *)
Theorem taskf_wait_partial : forall n cap l acts s,
  proper n l -> exec (step n cap) (init l) acts = Some s ->
  each_once s /\ waited l s /\ lp s <> LUb.
Proof. intros n cap l acts s P E. apply (Inv_safe n). eapply Inv_exec; eauto. Qed.

(** No schedule goes on for ever: a bound on the number of steps of all the threads. *)
Theorem taskf_finite : forall n cap l acts s,
  proper n l -> exec (step n cap) (init l) acts = Some s ->
  length acts <= fold_right (fun r a => 7 * k r + 7 * n + 8 + a) 0 l.
Proof.
  intros n cap l acts s P E. pose proof (work_exec n cap l P acts _ _ (Inv_init n l P) E).
  pose proof (work_init n l). lia.
Qed.

(** As long as no thaw was lost, some thread can move until the last wait() has returned. *)
Theorem taskf_progress_partial : forall n cap l acts s,
  cap <> Some 0 -> proper n l -> exec (step n cap) (init l) acts = Some s ->
  lost s = false -> rounds s <> [] -> can_move n cap s.
Proof. intros n cap l acts s C P E. apply (Inv_move n cap l); auto. eapply Inv_exec; eauto. Qed.

(** One round: when no thread can move any more, wait() has returned and every task has been run. *)
Theorem taskf_one_round : forall n cap r acts s,
  cap <> Some 0 -> 0 < run_with n r -> exec (step n cap) (init [r]) acts = Some s ->
  ~ can_move n cap s ->
  rounds s = [] /\ (forall t, In t (ran s) <-> t < k r) /\ NoDup (ran s).
Proof.
  intros n cap r acts s C P E M.
  assert (Pr : proper n [r]) by (constructor; auto).
  assert (R : rounds s = []).
  { destruct (rounds s) eqn:R; auto. exfalso. apply M. eapply taskf_progress_partial; eauto.
    - eapply fresh_exec; eauto.
    - congruence. }
  destruct (taskf_wait_partial _ _ _ _ _ Pr E) as ((N & _ & _ & S) & W & _).
  pose proof (Inv_exec n cap [r] Pr acts s E) as J. destruct J.
  destruct I_rounds as (dn & El & Nx & _). rewrite R, app_nil_r in El. subst dn. unfold offd in Nx. rewrite R in Nx. simpl in Nx.
  split; [exact R|split; [|exact N]]. intros t. split.
  - intros T. apply S in T. lia.
  - intros T. destruct (W t) as (X & _); auto. unfold returned. rewrite R. simpl. lia.
Qed.

(** Finding: the statement without the hypothesis on thaws is false.  wait() waits for the
    scheduler's thread only (ff/taskf.hpp:183-188, ff/lb.hpp:1299-1306).  A worker that has not woken
    up yet in the first round is thawed again by the second run(): the two thaws are one
    (freezing = 2 both times, ff/node.hpp:417-432), the worker reads the GO_OUT of the first round,
    sleeps, and never sees the task of the second round: wait() does not return. *)
Definition taskf_again_claim : Prop := forall n cap l acts s,
  cap <> Some 0 -> proper n l -> exec (step n cap) (init l) acts = Some s ->
  rounds s <> [] -> can_move n cap s.

Definition one_task : round := mkRound true 1 0.
Definition first_round : list act :=
  [Main; Main; Main; Main; Main; LStep; LIn; LPut 0; LIn; WStep 0; WStep 0; WStep 0; LBack 0;
   LStep; LStep; LStep; LStep; WStep 0; WStep 0; Main].
Definition second_round : list act :=
  [Main; Main; Main; Main; Main; LStep; LIn; LPut 1; LIn; WStep 1; WStep 1; WStep 1; WStep 0].

(** A test that no thread of a farm with two workers can move. *)
Definition none (o : option st) : bool := match o with None => true | _ => false end.
Definition stuck (cap : option nat) (s : st) : bool :=
  match lp s with LRun | LSleep => true | _ => false end && (running s =? 2)
  && forallb (fun a => none (step 2 cap s a)) [Main; LIn; LBack 0; LBack 1; LStep; WStep 0; WStep 1].
Lemma stuck_ok : forall cap s, stuck cap s = true -> ~ can_move 2 cap s.
Proof.
  intros cap s E (a & s' & M). unfold stuck in E. rewrite !andb_true_iff in E. destruct E as ((L & R) & E). apply Nat.eqb_eq in R.
  rewrite forallb_forall in E.
  assert (N : In a [Main; LIn; LBack 0; LBack 1; LStep; WStep 0; WStep 1] -> False) by (intros I; apply E in I; rewrite M in I; discriminate).
  destruct a as [| |i|i| |i]; try (apply N; simpl; tauto).
  - destruct i as [|[|i]]; try (apply N; simpl; tauto). simpl in M. unfold lback_step in M. rewrite R in M. destruct (lp s); discriminate.
  - simpl in M. unfold lput_step in M. destruct (lp s); discriminate.
  - destruct i as [|[|i]]; try (apply N; simpl; tauto). discriminate.
Qed.

Theorem taskf_again_refuted : ~ taskf_again_claim.
Proof.
  intros H.
  assert (C : match exec (step 2 None) (init [one_task; one_task]) (first_round ++ second_round) with
              | Some s => stuck None s && negb (length (rounds s) =? 0) | None => false end = true) by (vm_compute; reflexivity).
  destruct (exec _ _ _) as [s|] eqn:E; [|discriminate]. apply andb_true_iff in C. destruct C as (C & R).
  assert (P : proper 2 [one_task; one_task]) by (repeat constructor).
  apply (stuck_ok _ _ C). eapply (H 2 None _ _ s); [discriminate|exact P|exact E|]. destruct (rounds s); [discriminate|congruence].
Qed.

(** Finding: run_then_freeze() when no task has been submitted starts the scheduler with no worker;
    it then increments and dereferences the end iterator of an empty queue (ff/taskf.hpp:171-177,
    ff/lb.hpp:312-322, 1394-1400). *)
Theorem taskf_empty_ub : forall n cap, exists acts s,
  exec (step n cap) (init [mkRound false 0 0]) acts = Some s /\ lp s = LUb.
Proof.
  intros n cap. exists [Main; Main; LStep; LIn].
  assert (R : run_with n (mkRound false 0 0) = 0) by (destruct n; reflexivity).
  set (r := mkRound false 0 0) in *.
  set (s1 := mkSt [r] MLb 0 [Eos] 0 LSleep false true 0 0 false (fun _ => worker0) [] [] false).
  set (s2 := mkSt [r] MWait 0 [Eos] 0 LSleep true false 0 0 false (fun _ => worker0) [] [] false).
  assert (E1 : step n cap (init [r]) Main = Some s1) by reflexivity.
  assert (E2 : step n cap s1 Main = Some s2) by (unfold step, main_step, s1; cbn [rounds mp]; rewrite R; reflexivity).
  assert (E3 : step n cap s2 LStep = Some (begin_run s2)) by reflexivity.
  assert (E4 : step n cap (begin_run s2) LIn = Some (set_lp (begin_run s2) LUb)) by reflexivity.
  clearbody s1. exists (set_lp (begin_run s2) LUb). split; [|reflexivity].
  unfold exec. rewrite E1, E2, E3, E4. reflexivity.
Qed.

(** ** The hypotheses are met *)
Example proper_rounds : proper 2 [one_task; mkRound false 3 2; mkRound true 0 0].
Proof. repeat constructor. Qed.

(** Two workers, channels of capacity 1, a round of two tasks submitted after run(): both are run,
    the two workers end, wait() returns. *)
Definition round2 : round := mkRound true 2 0.
Definition whole : list act :=
  [Main; Main; Main; Main; Main; LStep; LIn; LPut 0; LIn; LPut 1; Main; WStep 0; WStep 0; WStep 1; WStep 1; WStep 0; LBack 0;
   LIn; WStep 1; LBack 1; LStep; LStep; LStep; LStep; Main; WStep 0; WStep 1; WStep 0; WStep 1].
Example whole_run : exists s, exec (step 2 (Some 1)) (init [round2]) whole = Some s
  /\ rounds s = [] /\ ran s = [1; 0] /\ freed s = [1; 0] /\ lost s = false.
Proof. eexists. split; [vm_compute; reflexivity|]. vm_compute. auto. Qed.

Example whole_run_stops : forall s, exec (step 2 (Some 1)) (init [round2]) whole = Some s -> ~ can_move 2 (Some 1) s.
Proof.
  intros s E. apply stuck_ok.
  assert (C : match exec (step 2 (Some 1)) (init [round2]) whole with Some s => stuck (Some 1) s | None => false end = true) by (vm_compute; reflexivity).
  rewrite E in C. exact C.
Qed.

(** A round with no task ends through the end marks of the workers. *)
Example no_tasks : exists s, exec (step 1 None) (init [mkRound true 0 0])
  [Main; Main; Main; LStep; LIn; LStep; LStep; WStep 0; WStep 0; LBack 0; LStep; Main] = Some s /\ rounds s = [].
Proof. eexists. split; [vm_compute; reflexivity|]. vm_compute. auto. Qed.

Print Assumptions taskf_wait_partial.
Print Assumptions taskf_finite.
Print Assumptions taskf_progress_partial.
Print Assumptions taskf_one_round.
Print Assumptions taskf_again_refuted.
Print Assumptions taskf_empty_ub.
