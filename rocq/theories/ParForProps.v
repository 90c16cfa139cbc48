(** Properties C22-C25, C44, C45: parallel_for and parallel_reduce. *)
From Coq Require Import List ZArith Lia Bool Permutation.
From Verif Require Import Base ParForSpec ParForModel.
From Verif Require ParForLoop ParForMain ParForDyn ParForStatic.
Import ListNotations.
Local Open Scope Z_scope.

(** The sequential loop of the specification visits exactly first, first+step, ... below last,
    each once. *)
Theorem sequential_loop_spec : forall first last step i, 1 <= step ->
  count_occ Z.eq_dec (loop first last step) i =
  if (first <=? i) && (i <? last) && ((i - first) mod step =? 0) then 1%nat else 0%nat.
Proof. intros. apply ParForLoop.loop_count. assumption. Qed.

(** C22.  Dynamic scheduling (grain >= 1), on any ParallelFor object whatever loops it ran
    before, for every interleaving of the workers (with or without scheduler thread): when
    the call returns every index has been run exactly once. *)
Theorem parfor_dynamic_exactly_once :
  forall maxnw data first last step grain nw used lg data',
  reach_table maxnw data -> (1 <= nw <= maxnw)%nat -> first < last -> 1 <= step -> 1 <= grain ->
  parfor_run first last step grain (fun _ => body_plain step) nw data used lg data' ->
  ran_exactly_once lg first last step /\
  (1 <= used <= nw)%nat /\ (forall e, In e lg -> (fst e < used)%nat).
Proof.
  intros maxnw data first last step grain nw used lg d' H1 H2 H3 H4 H5 H6.
  destruct (ParForMain.dynamic_main _ _ _ _ _ _ _ _ _ _ H1 H2 H3 H4 H5 H6) as (A & B & C).
  split; [apply ParForLoop.once_of_perm; exact A|]. split; assumption.
Qed.

(** C22, termination.  Setting up the loop never fails.  Without scheduler thread, every
    worker that has not ended can always move, and the number of steps of any interleaving
    is bounded by a constant plus 12 per spurious failure of compare_exchange_weak; with the
    scheduler thread, someone can move until the loop is over, within 3*tasks steps. *)
Theorem parfor_dynamic_terminates : forall maxnw data first last step grain nw,
  reach_table maxnw data -> (1 <= nw <= maxnw)%nat -> first < last -> 1 <= step -> 1 <= grain ->
  exists u, setloop first last step grain nw data = Done u /\
  forall spinwait,
    (exists B, forall l s,
       exec (cstep step (s_chunk u) false (body_plain step)) (conc_start step spinwait u) l = Some s ->
       Z.of_nat (length l) <= B + 12 * Z.of_nat (length (filter (fun a => negb (w_ok a)) l)) /\
       forall w p, nth_error (pcs s) w = Some p -> p <> WEnd ->
         exists s', cstep step (s_chunk u) false (body_plain step) s (W w true 0) = Some s') /\
    (forall l s,
       exec (sstep step (s_chunk u) (body_plain step)) (sched_start step spinwait u) l = Some s ->
       Z.of_nat (length l) <= 3 * s_total u /\
       (d_out s = false -> exists a s', sstep step (s_chunk u) (body_plain step) s a = Some s')).
Proof. exact ParForMain.dynamic_terminates_main. Qed.

(** Executable versions of the two kinds of run, for the examples below. *)
Definition demo_conc first last step chunk (F_of : setup -> Z -> Z -> list Z) nw data l
  : option (setup * cst) :=
  match setloop first last step chunk nw data with
  | Done u => option_map (pair u)
                (exec (cstep step (s_chunk u) (s_static u) (F_of u)) (conc_start step false u) l)
  | _ => None
  end.

Definition endedb (s : cst) : bool :=
  forallb (fun p => match p with WEnd => true | _ => false end) (pcs s).

Lemma demo_conc_run : forall first last step chunk F_of nw data l used lg d',
  match demo_conc first last step chunk F_of nw data l with
  | Some (u, s) => (s_nw u, (1 <? s_nw u)%nat, endedb s, log s, cells s) = (used, true, true, lg, d')
  | None => False
  end -> parfor_run first last step chunk F_of nw data used lg d'.
Proof.
  intros first last step chunk F_of nw data l used lg d' H. unfold demo_conc in H.
  destruct (setloop first last step chunk nw data) as [u| |] eqn:Eu; try contradiction.
  destruct (exec _ _ l) as [s|] eqn:Ex; simpl in H; [|contradiction].
  injection H as <- N E <- <-. eapply run_conc; eauto.
  - apply Nat.ltb_lt. exact N.
  - intros p Hp. unfold endedb in E. rewrite forallb_forall in E. apply E in Hp.
    destruct p; auto; discriminate.
Qed.

Definition demo_sched first last step chunk (F_of : setup -> Z -> Z -> list Z) nw data l
  : option (setup * sst) :=
  match setloop first last step chunk nw data with
  | Done u => option_map (pair u)
                (exec (sstep step (s_chunk u) (F_of u)) (sched_start step false u) l)
  | _ => None
  end.

Lemma demo_sched_run : forall first last step chunk F_of nw data l used lg d',
  match demo_sched first last step chunk F_of nw data l with
  | Some (u, s) => (s_nw u, (1 <? s_nw u)%nat, Z.of_nat (s_nw u) <? s_total u, d_out s, d_log s, d_cells s)
                   = (used, true, true, true, lg, d')
  | None => False
  end -> parfor_run first last step chunk F_of nw data used lg d'.
Proof.
  intros first last step chunk F_of nw data l used lg d' H. unfold demo_sched in H.
  destruct (setloop first last step chunk nw data) as [u| |] eqn:Eu; try contradiction.
  destruct (exec _ _ l) as [s|] eqn:Ex; simpl in H; [|contradiction].
  injection H as <- N T E <- <-. eapply run_sched; eauto.
  - apply Nat.ltb_lt. exact N.
  - apply Z.ltb_lt. exact T.
Qed.

Definition two : list cell := repeat cell0 2.
Definition go (w k : nat) : list act := repeat (W w true 0) k.

(** Non-vacuity: 0..5 with grain 1 on a new two-worker object; worker 1 runs out of work and
    steals index 1 from worker 0. *)
Example parfor_dynamic_conc_nonvacuous : exists data',
  reach_table 2 two /\
  parfor_run 0 5 1 1 (fun _ => body_plain 1) 2 two 2
             [(1%nat, 2); (1%nat, 3); (1%nat, 4); (1%nat, 1); (0%nat, 0)] data'.
Proof.
  eexists. split; [apply rt_new|].
  eapply (demo_conc_run) with (l := go 1 20 ++ go 0 3). vm_compute. reflexivity.
Qed.

Example parfor_dynamic_sched_nonvacuous : exists data',
  reach_table 2 two /\
  parfor_run 0 5 1 1 (fun _ => body_plain 1) 2 two 2
             [(1%nat, 2); (0%nat, 0); (0%nat, 1); (0%nat, 3); (1%nat, 4)] data'.
Proof.
  eexists. split; [apply rt_new|].
  eapply demo_sched_run with
    (l := [Worker 1; Worker 0; Sched 0; Worker 0; Sched 0; Sched 1; Worker 0; Worker 1; Sched 0; Sched 1]).
  vm_compute. reflexivity.
Qed.

(** C23.  Default static scheduling, empty ranges included, whatever the table: every worker
    runs one contiguous block, the blocks in worker order are the sequential loop, hence every
    index is run exactly once. *)
Theorem parfor_static_partition : forall first last step nw data used lg data',
  1 <= step -> (1 <= nw)%nat -> last - first < 2 ^ 64 ->
  parfor_run first last step 0 (fun _ => body_plain step) nw data used lg data' ->
  used = nw /\ (forall e, In e lg -> (fst e < nw)%nat) /\
  flat_map (fun w => ran_by w lg) (seq 0 nw) = loop first last step /\
  ran_exactly_once lg first last step.
Proof.
  intros first last step nw data used lg d' H1 H2 H3 H4.
  destruct (ParForMain.static_main _ _ _ _ _ _ _ _ H1 H2 H3 H4) as (A & B & C).
  split; [exact A|]. split; [exact B|]. split; [exact C|].
  apply ParForLoop.once_of_perm. rewrite <- C. apply ParForStatic.log_split. exact B.
Qed.

(** C23, termination of the run. *)
Theorem parfor_static_terminates : forall first last step nw data,
  1 <= step -> (1 <= nw)%nat -> last - first < 2 ^ 64 ->
  exists u, setloop first last step 0 nw data = Done u /\ s_nw u = nw /\
  forall spinwait l s,
    exec (cstep step (s_chunk u) true (body_plain step)) (conc_start step spinwait u) l = Some s ->
    Z.of_nat (length l) <=
      9 * Z.of_nat nw + 3 * Z.of_nat (length (filter (fun a => negb (w_ok a)) l)) /\
    forall w, (w < nw)%nat -> nth_error (pcs s) w <> Some WEnd ->
      exists s', cstep step (s_chunk u) true (body_plain step) s (W w true 0) = Some s'.
Proof. exact ParForMain.static_terminates_main. Qed.

Example parfor_static_nonvacuous : exists data',
  parfor_run (-3) 5 2 0 (fun _ => body_plain 2) 3 [] 3
             [(2%nat, 3); (0%nat, -3); (0%nat, -1); (1%nat, 1)] data'.
Proof.
  eexists. eapply demo_conc_run with (l := go 2 3 ++ go 0 3 ++ go 1 3). vm_compute. reflexivity.
Qed.

Example parfor_static_empty_nonvacuous : exists data',
  parfor_run 7 2 3 0 (fun _ => body_plain 3) 2 [] 2 [] data'.
Proof.
  eexists. eapply demo_conc_run with (l := go 1 3 ++ go 0 3). vm_compute. reflexivity.
Qed.

(** C24.  Static scheduling with a grain (parallel_for_static).  The property as documented:
    every index exactly once, on any object, for any range and step. *)
Definition parfor_grain_claim : Prop :=
  forall maxnw data first last step grain nw,
  reach_table maxnw data -> (1 <= nw <= maxnw)%nat -> first < last -> 1 <= step -> 1 <= grain ->
  (exists u, setloop first last step (- grain) nw data = Done u) /\
  forall used lg data',
  parfor_run first last step (- grain) (fun u => body_static step (- grain) (s_nw u))
             nw data used lg data' ->
  ran_exactly_once lg first last step.

(** The part that holds: step 1 and a non-negative range (or a single worker), on a table not
    shrunk by an earlier loop with fewer workers. *)
Theorem parfor_grain_partial : forall data first last step grain nw,
  first < last -> 1 <= step -> 1 <= grain -> (1 <= nw <= length data)%nat ->
  (step = 1 /\ 0 <= first) \/ nw = 1%nat ->
  (exists u, setloop first last step (- grain) nw data = Done u) /\
  forall used lg data',
  parfor_run first last step (- grain) (fun u => body_static step (- grain) (s_nw u))
             nw data used lg data' ->
  ran_exactly_once lg first last step /\
  (1 <= used <= nw)%nat /\ (forall e, In e lg -> (fst e < used)%nat).
Proof.
  intros data first last step grain nw H1 H2 H3 H4 H5.
  split; [apply ParForMain.grain_done; assumption|].
  intros used lg d' R.
  destruct (ParForMain.grain_main _ _ _ _ _ _ _ _ _ H1 H2 H3 (proj1 H4) H5 R) as (A & B & C).
  split; [apply ParForLoop.once_of_perm; exact A|]. split; assumption.
Qed.

Example parfor_grain_nonvacuous : exists data',
  parfor_run 0 7 1 (-2) (fun u => body_static 1 (-2) (s_nw u)) 2 two 2
             [(0%nat, 0); (0%nat, 1); (0%nat, 4); (0%nat, 5); (1%nat, 2); (1%nat, 3); (1%nat, 6)] data'.
Proof.
  eexists. eapply demo_conc_run with (l := go 0 3 ++ go 1 3). vm_compute. reflexivity.
Qed.

(** With step 2 the workers of a two-worker object run 0,4 and 1,5 instead of 0,2,4,6. *)
Theorem parfor_grain_step_refuted : exists lg data',
  reach_table 2 two /\
  parfor_run 0 8 2 (-1) (fun u => body_static 2 (-1) (s_nw u)) 2 two 2 lg data' /\
  map snd lg = [0; 4; 1; 5] /\ ~ ran_exactly_once lg 0 8 2.
Proof.
  do 2 eexists. split; [apply rt_new|]. split.
  - eapply demo_conc_run with (l := go 0 3 ++ go 1 3). vm_compute. reflexivity.
  - split; [reflexivity|]. intros H. specialize (H 1). vm_compute in H. discriminate.
Qed.

(** From a negative first index the last iterations are silently dropped. *)
Theorem parfor_grain_negative_refuted : exists lg data',
  reach_table 2 two /\
  parfor_run (-2) 4 1 (-1) (fun u => body_static 1 (-1) (s_nw u)) 2 two 2 lg data' /\
  map snd lg = [-2; 0; -1; 1] /\ ~ ran_exactly_once lg (-2) 4 1.
Proof.
  do 2 eexists. split; [apply rt_new|]. split.
  - eapply demo_conc_run with (l := go 0 3 ++ go 1 3). vm_compute. reflexivity.
  - split; [reflexivity|]. intros H. specialize (H 2). vm_compute in H. discriminate.
Qed.

(** After a loop with one worker on a two-worker object the table has one cell, and the
    grained loop indexes past its end. *)
Theorem parfor_grain_shrunk_refuted : exists data,
  reach_table 2 data /\ setloop 0 4 1 (-1) 2 data = OutOfBounds.
Proof.
  eexists. split.
  - eapply (rt_loop 2 two (mkCall 0 4 1 0 1)); simpl.
    + apply rt_new.
    + lia.
    + lia.
    + reflexivity.
    + eapply run_seq; vm_compute; reflexivity.
  - vm_compute. reflexivity.
Qed.

Theorem parfor_grain_claim_refuted : ~ parfor_grain_claim.
Proof.
  intros C. destruct parfor_grain_step_refuted as (lg & d' & RT & R & _ & N).
  destruct (C 2%nat two 0 8 2 1 2%nat RT ltac:(lia) ltac:(lia) ltac:(lia) ltac:(lia)) as [_ K].
  apply N. eapply K. exact R.
Qed.

(** The one-shot function ff::parallel_for(first,last,step,grain,body) passes a negative grain
    through (documented as static scheduling) but uses the plain body: iterations are run
    several times. *)
Theorem parfor_oneshot_negative_grain_refuted : exists lg data',
  parfor_run 0 4 1 (-1) (fun _ => body_plain 1) 2 two 2 lg data' /\
  map snd lg = [0; 1; 2; 3; 1; 2; 3] /\ ~ ran_exactly_once lg 0 4 1.
Proof.
  do 2 eexists. split.
  - eapply demo_conc_run with (l := go 0 3 ++ go 1 3). vm_compute. reflexivity.
  - split; [reflexivity|]. intros H. specialize (H 1). vm_compute in H. discriminate.
Qed.

(** C25.  parallel_reduce with an associative and commutative operation and its identity:
    the sequential reduction, for dynamic scheduling and every interleaving. *)
Theorem parallel_reduce_dynamic :
  forall (T : Type) (op : T -> T -> T) (e : T) (g : Z -> T) (var : T)
         maxnw data first last step grain nw used lg data',
  (forall x y z, op (op x y) z = op x (op y z)) -> (forall x, op x e = x) ->
  (forall x y, op x y = op y x) ->
  reach_table maxnw data -> (1 <= nw <= maxnw)%nat -> first < last -> 1 <= step -> 1 <= grain ->
  parfor_run first last step grain (fun _ => body_plain step) nw data used lg data' ->
  reduce_result (fun acc i => op acc (g i)) op e var used lg =
  reduce_seq op g var (loop first last step).
Proof.
  intros T op e g var maxnw data first last step grain nw used lg d' A U C H1 H2 H3 H4 H5 H6.
  destruct (ParForMain.dynamic_main _ _ _ _ _ _ _ _ _ _ H1 H2 H3 H4 H5 H6) as (P & B & W).
  apply ParForMain.reduce_any; try assumption. apply B.
Qed.

(** C25.  With the default static scheduling commutativity is not needed. *)
Theorem parallel_reduce_static :
  forall (T : Type) (op : T -> T -> T) (e : T) (g : Z -> T) (var : T)
         data first last step nw used lg data',
  (forall x y z, op (op x y) z = op x (op y z)) -> (forall x, op x e = x) ->
  1 <= step -> (1 <= nw)%nat -> last - first < 2 ^ 64 ->
  parfor_run first last step 0 (fun _ => body_plain step) nw data used lg data' ->
  reduce_result (fun acc i => op acc (g i)) op e var used lg =
  reduce_seq op g var (loop first last step).
Proof.
  intros T op e g var data first last step nw used lg d' A U H1 H2 H3 H4.
  destruct (ParForMain.static_main _ _ _ _ _ _ _ _ H1 H2 H3 H4) as (-> & B & C).
  apply ParForMain.reduce_blocks; assumption.
Qed.

(** Dynamic scheduling does need it: concatenation, two workers. *)
Example parallel_reduce_dynamic_needs_comm : exists lg data',
  parfor_run 0 5 1 1 (fun _ => body_plain 1) 2 two 2 lg data' /\
  reduce_result (fun acc i => acc ++ [i]) (@app Z) [] [] 2 lg = [0; 2; 3; 4; 1].
Proof.
  do 2 eexists. split.
  - eapply demo_conc_run with (l := go 1 20 ++ go 0 3). vm_compute. reflexivity.
  - vm_compute. reflexivity.
Qed.

(** C44.  An empty range: the static loop runs nothing ([parfor_static_partition] with
    last <= first); the dynamic and the grained loop hit an assert. *)
Definition parfor_empty_claim : Prop := forall first last step chunk nw data,
  last <= first -> 1 <= step -> (1 <= nw <= length data)%nat ->
  exists u, setloop first last step chunk nw data = Done u.

Theorem parfor_empty_partial : forall first last step nw data used lg data',
  last <= first -> 1 <= step -> (1 <= nw)%nat ->
  parfor_run first last step 0 (fun _ => body_plain step) nw data used lg data' -> lg = [].
Proof. exact ParForMain.static_empty_main. Qed.

Theorem parfor_empty_refuted : forall first last step grain nw data,
  last <= first -> 1 <= step -> 1 <= grain -> (1 <= nw)%nat ->
  setloop first last step grain nw data = Abort /\
  setloop first last step (- grain) nw data = Abort.
Proof. exact ParForMain.empty_abort. Qed.

(** C45.  "No more than chunk iterations at a time is assigned to one worker": with 3 chunks of
    3 iterations and two workers the chunk is doubled and worker 1 gets 6 iterations. *)
Theorem parfor_chunk_bound_partial : forall first last step grain nw data u,
  first < last -> 1 <= step -> 1 <= grain -> (1 <= nw)%nat ->
  setloop first last step grain nw data = Done u ->
  s_chunk u = grain \/ s_chunk u = 2 * grain.
Proof. exact ParForMain.chunk_le_double. Qed.

Theorem parfor_chunk_bound_refuted : exists u,
  setloop 0 9 1 3 2 two = Done u /\
  conc_start 1 false u =
    mkCst [mkCell 0 3 3; mkCell 0 9 9] [WRun 0 3; WRun 3 9] [].
Proof. eexists. split; vm_compute; reflexivity. Qed.

Print Assumptions parfor_dynamic_exactly_once.
Print Assumptions parfor_dynamic_terminates.
Print Assumptions parfor_static_partition.
Print Assumptions parfor_static_terminates.
Print Assumptions parfor_grain_partial.
Print Assumptions parfor_grain_claim_refuted.
Print Assumptions parallel_reduce_dynamic.
Print Assumptions parallel_reduce_static.
Print Assumptions parfor_empty_refuted.
Print Assumptions parfor_chunk_bound_partial.
