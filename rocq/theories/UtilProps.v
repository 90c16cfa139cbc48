(** Properties C42 (size helpers) and C35 (thread-to-core mapping). *)
From Coq Require Import ZArith List Bool Lia.
From Verif Require Import UtilModel.
From Verif Require UtilProofs.
Import ListNotations.
Local Open Scope Z_scope.

(** Specification vocabulary. *)
Definition power_of_two (x : Z) : Prop := exists k, 0 <= k /\ x = 2 ^ k.
Definition least (P : Z -> Prop) (x : Z) : Prop := P x /\ forall y, P y -> x <= y.

(** ** C42 *)

(** isPowerOf2 decides powers of two, for 32-bit arguments. *)
Theorem isPowerOf2_partial : forall x, 0 <= x < 2 ^ 32 -> (isPowerOf2 x = true <-> power_of_two x).
Proof. exact UtilProofs.isPowerOf2_spec. Qed.

(** It is called with size_t values (mapper.hpp, MPMCqueues.hpp) and then answers wrongly. *)
Theorem isPowerOf2_size_t_refuted :
  exists x, 0 <= x < 2 ^ 64 /\ isPowerOf2 x = true /\ ~ power_of_two x.
Proof.
  exists (2 ^ 32 + 4). split; [lia|]. split; [vm_compute; reflexivity|].
  intros (k & Hk & E). destruct (Z.le_gt_cases k 32) as [L|G].
  - apply (Z.pow_le_mono_r 2) in L; lia.
  - assert (2 ^ 33 <= 2 ^ k) by (apply Z.pow_le_mono_r; lia). lia.
Qed.

(** nextPowerOf2 returns the least power of two >= x whenever its precondition (x not a power
    of two, as its own test sees it) holds and x <= 2^63. *)
Theorem nextPowerOf2_partial : forall x, 0 < x <= 2 ^ 63 -> isPowerOf2 x = false ->
  exists p, nextPowerOf2 x = Ret p /\ least (fun y => power_of_two y /\ x <= y) p.
Proof.
  intros x Hx E. unfold nextPowerOf2. rewrite E.
  destruct (UtilProofs.np2_value x Hx) as (k & Hk & EL & G & M).
  exists (2 ^ k). rewrite EL. split; [reflexivity|]. split; [split; [exists k; split; [lia|reflexivity]|exact G]|].
  intros y [(k' & Hk' & ->) L]. apply M; assumption.
Qed.

(** Above 2^63 the loop never ends, whatever number of iterations is granted. *)
Theorem nextPowerOf2_diverges_refuted : forall x, 2 ^ 63 < x < 2 ^ 64 -> forall fuel, np2_loop fuel x 1 = None.
Proof. intros x Hx fuel. exact (UtilProofs.np2_loop_diverges fuel x 0 Hx ltac:(lia)). Qed.

(** The fuel of the model is not a restriction: any terminating call terminates within it. *)
Theorem nextPowerOf2_fuel : forall f x, 0 <= x < 2 ^ 64 -> np2_loop f x 1 <> None ->
  np2_loop 66 x 1 = np2_loop f x 1.
Proof. exact UtilProofs.np2_loop_fuel. Qed.

(** The rounding idiom of the callers. *)
Theorem roundPow2_least : forall x, 0 < x < 2 ^ 32 ->
  exists p, roundPow2 x = Ret p /\ least (fun y => power_of_two y /\ x <= y) p.
Proof.
  intros x Hx. destruct (UtilProofs.roundPow2_spec x Hx) as (k & Hk & E & G & M).
  exists (2 ^ k). split; [exact E|]. split; [split; [exists k; split; [lia|reflexivity]|exact G]|].
  intros y [(k' & Hk' & ->) L]. apply M; assumption.
Qed.

(** nextMultipleOfIf returns the least multiple >= x unless 32 bits overflow. *)
Theorem nextMultipleOfIf_partial : forall x m, 0 < m -> 0 <= x -> x + m <= 2 ^ 32 ->
  exists r, nextMultipleOfIf x m = Some r /\ least (fun y => (m | y) /\ x <= y) r.
Proof.
  intros x m Hm Hx Hb. destruct (UtilProofs.nextMultipleOfIf_spec x m Hm Hx Hb) as (r & E & D & L & M).
  exists r. split; [exact E|]. split; [split; assumption|]. intros y [D' L']. apply M; assumption.
Qed.

Theorem nextMultipleOfIf_refuted : exists x m r,
  0 < m < 2 ^ 32 /\ 0 <= x < 2 ^ 32 /\ nextMultipleOfIf x m = Some r /\ r < x.
Proof. exists (2 ^ 32 - 1), 2, 0. repeat split; try lia; vm_compute; reflexivity. Qed.

(** The alignment test accepts exactly the powers of two that are multiples of the word size. *)
Theorem alignment_test_exact : forall a n, 0 <= n < 64 -> 0 <= a < 2 ^ 64 ->
  (isPowerOfTwoMultiple a (2 ^ n) = true <-> exists k, n <= k /\ a = 2 ^ k).
Proof. exact UtilProofs.isPowerOfTwoMultiple_spec. Qed.

Example helpers_nonvacuous :
  nextPowerOf2 37 = Ret 64 /\ roundPow2 64 = Ret 64 /\ nextPowerOf2 (2 ^ 40 + 3) = Ret (2 ^ 41) /\
  nextMultipleOfIf 37 8 = Some 40 /\ isPowerOfTwoMultiple 64 8 = true /\ isPowerOfTwoMultiple 24 8 = false.
Proof. repeat (split; [vm_compute; reflexivity|]); vm_compute; reflexivity. Qed.

(** ** C35 *)

(** Every id ever returned is the id of an existing core, and no read leaves the list, for every
    history of list settings (accepted or rejected) and queries. *)
Theorem mapper_ids_exist : forall nc m (l : list mop),
  0 < Z.of_nat nc < 2 ^ 32 -> mk_mapper nc = Some m -> Forall UtilProofs.mop_ok l ->
  Forall (fun r => exists c, r = Some c /\ 0 <= c < Z.of_nat nc) (snd (mrun m l)).
Proof.
  intros nc m l Hn E F. destruct (UtilProofs.mk_mapper_wf nc Hn) as (m' & E' & W & N).
  rewrite E in E'. injection E' as <-. rewrite <- N. apply UtilProofs.mrun_ok; assumption.
Qed.

(** The documented rule: thread t gets entry (t mod length) of the list. *)
Definition mapper_cyclic_claim : Prop := forall nc m ids,
  0 < Z.of_nat nc < 2 ^ 32 -> mk_mapper nc = Some m -> ids <> [] ->
  Forall (fun c => 0 <= c < Z.of_nat nc) ids -> Z.of_nat (length ids) < 2 ^ 32 ->
  forall t, core_of (fst (set_str m ids)) (Z.of_nat t) = nth_error ids (t mod length ids)%nat.

(** True for the first [length] threads, and for every thread when the length is a power of two;
    a valid list is accepted. *)
Theorem mapper_cyclic_partial : forall nc m ids,
  0 < Z.of_nat nc < 2 ^ 32 -> mk_mapper nc = Some m -> ids <> [] ->
  Forall (fun c => 0 <= c < Z.of_nat nc) ids -> Z.of_nat (length ids) < 2 ^ 32 ->
  snd (set_str m ids) = Z.of_nat (length ids) /\
  (forall t, (t < length ids)%nat -> core_of (fst (set_str m ids)) (Z.of_nat t) = nth_error ids t) /\
  (forall k t, length ids = Nat.pow 2 k ->
     core_of (fst (set_str m ids)) (Z.of_nat t) = nth_error ids (t mod length ids)%nat).
Proof.
  intros nc m ids Hn E N F B. destruct (UtilProofs.mk_mapper_wf nc Hn) as (m' & E' & W & Ec).
  rewrite E in E'. injection E' as <-. apply UtilProofs.set_str_map; auto. rewrite Ec. exact F.
Qed.

Theorem mapper_cyclic_claim_refuted : ~ mapper_cyclic_claim.
Proof.
  intros C. specialize (C 4%nat). destruct (mk_mapper 4) as [m|] eqn:E; [|vm_compute in E; discriminate].
  specialize (C m [3; 1; 2] ltac:(simpl; lia) eq_refl ltac:(discriminate)).
  vm_compute in E. injection E as <-.
  assert (F : Forall (fun c => 0 <= c < Z.of_nat 4) [3; 1; 2]) by (repeat constructor; simpl; lia).
  specialize (C F ltac:(simpl; lia) 4%nat). vm_compute in C. discriminate.
Qed.

(** The round-robin getCoreId() called n times from a fresh mapper returns getCoreId(0), ..., getCoreId(n-1). *)
Theorem mapper_round_robin : forall nc m n,
  0 < Z.of_nat nc < 2 ^ 32 -> mk_mapper nc = Some m ->
  snd (mrun m (repeat Next n)) = map (fun i => core_of m (Z.of_nat i)) (seq 0 n).
Proof.
  intros nc m n Hn E. destruct (UtilProofs.mk_mapper_wf nc Hn) as (m' & E' & W & Ec).
  rewrite E in E'. injection E' as <-. rewrite (UtilProofs.rr_calls n m W).
  assert (R : rrcnt m = 0).
  { unfold mk_mapper in E. destruct (padded _) as [[? ?]|]; [|discriminate]. injection E as <-. reflexivity. }
  rewrite R. reflexivity.
Qed.

(** Setting a list with the vector overload limits all later vector settings to that size (rounded
    up): a valid 4-entry list is silently ignored after a valid 1-entry one. *)
Theorem mapper_vector_shrinks_refuted : exists m,
  mk_mapper 4 = Some m /\
  let m1 := set_vec m [2] in let m2 := set_vec m1 [0; 1; 2; 3] in
  clist m1 = [2] /\ clist m2 = [2] /\ clist (set_vec m [0; 1; 2; 3]) = [0; 1; 2; 3].
Proof. eexists. split; [vm_compute; reflexivity|]. vm_compute. repeat split. Qed.

Example mapper_nonvacuous : exists m, mk_mapper 6 = Some m /\
  snd (mrun m [CoreOf 7; SetStr [5; 0; 3]; Next; Next; Next; Next; Next; SetVec [9]; CoreOf 2])
  = [Some 1; Some 5; Some 0; Some 3; Some 5; Some 5; Some 3].
Proof. eexists. split; [vm_compute; reflexivity|]. vm_compute. reflexivity. Qed.

Print Assumptions isPowerOf2_partial.
Print Assumptions nextPowerOf2_partial.
Print Assumptions nextMultipleOfIf_partial.
Print Assumptions alignment_test_exact.
Print Assumptions mapper_ids_exist.
Print Assumptions mapper_cyclic_partial.
Print Assumptions mapper_round_robin.
