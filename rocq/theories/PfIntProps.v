(** C62: the index arithmetic of parallel_for with 64-bit longs and doubles. *)
From Coq Require Import List ZArith Lia Bool.
From Verif Require Import Base ParForSpec ParForModel PfIntSpec PfIntModel PfIntProofs PfIntRun.
Import ListNotations.
Local Open Scope Z_scope.

(** The number of iterations (or of chunks) computed with doubles is the exact ceiling of a/b when
    a < 2^53, whatever b. *)
Theorem pfint_ceil_partial : forall a b, 0 <= a < 2 ^ 53 -> 1 <= b ->
  (lrint_ceil a b - 1) * b < a <= lrint_ceil a b * b.
Proof. intros a b Ha Hb. rewrite lrint_ceil_exact by auto. apply ceil_div_bounds. lia. Qed.
Example pfint_ceil_ex : lrint_ceil (2 ^ 53 - 1) 3 = 3002399751580331 /\ lrint_ceil 10 3 = 4.
Proof. split; vm_compute; reflexivity. Qed.

(** ... and not beyond: one iteration is lost for a = 2^53 + 1. *)
Definition pfint_ceil_claim : Prop := forall a b, 0 <= a < 2 ^ 63 -> 1 <= b < 2 ^ 63 ->
  (lrint_ceil a b - 1) * b < a <= lrint_ceil a b * b.
Theorem pfint_ceil_refuted : ~ pfint_ceil_claim.
Proof.
  intros H. pose proof (H (2 ^ 53 + 1) 1 ltac:(split; [lia | reflexivity]) ltac:(lia)) as (_ & A).
  assert (E : lrint_ceil (2 ^ 53 + 1) 1 = 2 ^ 53) by (vm_compute; reflexivity). rewrite E in A. lia.
Qed.

(** The table of a loop is computed without overflow and as with unbounded integers. *)
Theorem pfint_setup_partial : forall first last step grain nw data,
  fits64 first last step grain -> (1 <= nw)%nat -> Z.of_nat nw <= 2 ^ 8 ->
  m_setloop first last step grain nw data = Some (setloop first last step grain nw data).
Proof.
  intros first last step grain nw data [H1 H2 H3 H4 H5 H6] W1 W2. apply m_setloop_eq; auto.
Qed.
Example pfint_fits_ex : fits64 (- 1000) (2 ^ 52) 3 1000.
Proof. constructor; vm_compute; congruence. Qed.
Example pfint_setup_ex : exists u, m_setloop (- 1000) 100000 3 7 4 [] = Some (Done u) /\ s_total u = 4810.
Proof. eexists. split; vm_compute; reflexivity. Qed.

(** Workers without scheduler thread: neither the start of the loop, nor any step of a worker in
    any state that can be reached, nor the loop over a range given to the body overflows. *)
Theorem pfint_workers_partial : forall first last step grain maxnw nw data u spinwait F,
  fits64 first last step grain -> (1 <= nw)%nat -> Z.of_nat nw <= 2 ^ 8 -> reach_table maxnw data ->
  setloop first last step grain nw data = Done u ->
  m_conc_start step spinwait u = Some (conc_start step spinwait u) /\
  forall l s, exec (cstep step (s_chunk u) (s_static u) F) (conc_start step spinwait u) l = Some s ->
    (forall a, m_cstep step (s_chunk u) (s_static u) F s a = Some (cstep step (s_chunk u) (s_static u) F s a)) /\
    (forall w x y, nth_error (pcs s) w = Some (WRun x y) -> m_body step x y = Some (loop x y step)).
Proof.
  intros first last step grain maxnw nw data u spinwait F HF W1 W2 R E.
  apply (conc_main first last step grain maxnw nw data u HF W1 W2 R E).
Qed.

(** The same with the scheduler thread. *)
Theorem pfint_sched_partial : forall first last step grain maxnw nw data u spinwait F,
  fits64 first last step grain -> (1 <= nw)%nat -> Z.of_nat nw <= 2 ^ 8 -> reach_table maxnw data ->
  setloop first last step grain nw data = Done u ->
  m_sched_start step spinwait u = Some (sched_start step spinwait u) /\
  forall l s, exec (sstep step (s_chunk u) F) (sched_start step spinwait u) l = Some s ->
    (forall a, m_sstep step (s_chunk u) F s a = Some (sstep step (s_chunk u) F s a)) /\
    (forall q x y, In q (d_wq s) -> In (x, y) q -> m_body step x y = Some (loop x y step)).
Proof.
  intros first last step grain maxnw nw data u spinwait F HF W1 W2 R E.
  apply (sched_main first last step grain maxnw nw data u HF W1 W2 R E).
Qed.
Definition ex_u : setup :=
  match setloop 0 20 1 3 2 (repeat cell0 2) with Done u => u | _ => mkSetup [] 0 0 0 false end.
Example pfint_run_ex : fits64 0 20 1 3 /\ reach_table 2 (repeat cell0 2) /\
  setloop 0 20 1 3 2 (repeat cell0 2) = Done ex_u /\
  option_map log (exec (cstep 1 (s_chunk ex_u) false (body_plain 1)) (conc_start 1 false ex_u)
    [W 0 true 0; W 0 true 0; W 0 true 0; W 0 true 0; W 0 true 0; W 0 true 0]) =
  Some (map (pair 0%nat) [0; 1; 2; 3; 4; 5]) /\
  option_map d_log (exec (sstep 1 (s_chunk ex_u) (body_plain 1)) (sched_start 1 false ex_u)
    [Worker 1; Sched 1; Worker 1]) = Some (map (pair 1%nat) [9; 10; 11; 12; 13; 14]).
Proof.
  split; [constructor; vm_compute; congruence |]. split; [constructor |].
  split; [vm_compute; reflexivity |]. split; vm_compute; reflexivity.
Qed.

(** With a caller alone (one worker), the loop over the whole range. *)
Theorem pfint_sequential_partial : forall first last step grain, fits64 first last step grain ->
  m_body step first last = Some (loop first last step).
Proof.
  intros first last step grain [H1 H2 H3 H4 H5 H6]. apply (body_ok step first last); auto; [| left; lia].
  destruct (h3 grain step H3 H2) as (CC & _).
  assert (E4 : (2 * grain + 4) * step = 2 * (grain * step) + 4 * step) by ring. rewrite E4 in H6. lia.
Qed.

(** "Every range of longs is covered": false.  Beyond 2^53 iterations the last index is in no
    worker's range. *)
Definition pfint_cover_claim : Prop := forall first last nw u i,
  - 2 ^ 63 <= first -> last < 2 ^ 63 -> (1 <= nw)%nat -> Z.of_nat nw <= 2 ^ 8 ->
  m_setloop first last 1 0 nw [] = Some (Done u) -> first <= i < last ->
  exists c, In c (s_data u) /\ lo c <= i < hi c.
Theorem pfint_cover_refuted : ~ pfint_cover_claim.
Proof.
  intros H.
  set (u := mkSetup [mkCell 1 0 (2 ^ 52); mkCell 1 (2 ^ 52) (2 ^ 53)] (2 ^ 52) 2 2 true).
  assert (E : m_setloop 0 (2 ^ 53 + 1) 1 0 2 [] = Some (Done u)) by (vm_compute; reflexivity).
  destruct (H 0 (2 ^ 53 + 1) 2%nat u (2 ^ 53) ltac:(lia) ltac:(lia) ltac:(lia) ltac:(vm_compute; congruence) E ltac:(lia))
    as (c & Hc & L). simpl in Hc. destruct Hc as [<- | [<- | []]]; simpl in L; lia.
Qed.

(** "No call overflows": false.  The largest grain, meant as one chunk for all, overflows in the
    computation of the end of the first chunk. *)
Definition pfint_no_overflow_claim : Prop := forall first last step grain nw,
  - 2 ^ 63 <= first -> first < last -> last < 2 ^ 63 -> 1 <= step < 2 ^ 63 -> 0 <= grain < 2 ^ 63 ->
  (1 <= nw)%nat -> Z.of_nat nw <= 2 ^ 8 -> m_setloop first last step grain nw [] <> None.
Theorem pfint_no_overflow_refuted : ~ pfint_no_overflow_claim.
Proof.
  intros H. apply (H 1 100 1 (2 ^ 63 - 1) 4%nat); try lia; try (vm_compute; congruence).
Qed.

Print Assumptions pfint_ceil_partial.
Print Assumptions pfint_ceil_refuted.
Print Assumptions pfint_setup_partial.
Print Assumptions pfint_workers_partial.
Print Assumptions pfint_sched_partial.
Print Assumptions pfint_sequential_partial.
Print Assumptions pfint_cover_refuted.
Print Assumptions pfint_no_overflow_refuted.
