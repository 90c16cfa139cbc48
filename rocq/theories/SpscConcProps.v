(** Properties C01, C02, C03 (concurrent part), C06 (concurrent part). *)
From Coq Require Import List Arith Lia.
From Verif Require Import Base SpscSeqModel.
From Verif Require SpscConcModel SpscConcProofs SpscTsoModel SpscTsoProofs
                   LamportConcModel LamportConcProofs.
Import ListNotations.

Section C01.
Import SpscConcModel.

(** The push in progress that has already stored its value, if any. *)
Definition in_flight {A} (s : st A) : list A :=
  match pp s with PInc x => [x] | _ => [] end.

(** C01.  For every size n >= 1 and every interleaving [l] of the two threads: what pop
    returned so far is a prefix of what push accepted so far (completed pushes, plus the one
    that has stored but not yet returned), so nothing is lost, duplicated, reordered or
    invented; with no pop in progress at most n values are in the ring; and both indices stay
    inside the array. *)
Theorem spsc_conc_fifo : forall (A : Type) (n : nat) (l : list (act A)) (s : st A),
  1 <= n -> exec (step n) init_st l = Some s ->
  prefix (pops (tr s)) (map (@Some A) (pushes (tr s) ++ in_flight s)) /\
  (cp s = CIdle -> length (pushes (tr s) ++ in_flight s) <= length (pops (tr s)) + n) /\
  (pp s = PIdle -> length (pops (tr s)) <= length (pushes (tr s))) /\
  pw s < n /\ pr s < n.
Proof. intros A n l s Hn. exact (SpscConcProofs.fifo_api n Hn l s). Qed.

(** Non-vacuity: an interleaved run of a 2-slot ring with a pop overlapping a push. *)
Example spsc_conc_fifo_nonvacuous : exists s : st nat,
  exec (step 2) init_st
    [CallPush 7; P; CallPop; P; C; C; P; C; CallPush 8; P; P; P; C; CallPop; C; C; C; C;
     CallPop; C]
  = Some s /\ tr s = [EPush 7; EPush 8; EPop (Some 7); EPop (Some 8); EPopEmpty].
Proof. eexists. split; vm_compute; reflexivity. Qed.

(** C03, concurrent part: at the instant a pop decides to return false every accepted value
    has been taken; at the instant a push decides to return false the ring holds n values. *)
Theorem spsc_conc_pop_fails_only_empty : forall (A : Type) n l (s s' : st A),
  1 <= n -> exec (step n) init_st l = Some s ->
  step n s C = Some s' -> tr s' = tr s ++ [EPopEmpty] ->
  taken s = length (pushes (tr s) ++ in_flight s).
Proof.
  intros A n l s s' Hn H E T.
  change (in_flight s) with (SpscConcProofs.pend s).
  rewrite <- (SpscConcProofs.stored_eq n Hn l s H).
  exact (SpscConcProofs.fail_empty n Hn l s s' H E T).
Qed.

Theorem spsc_conc_push_fails_only_full : forall (A : Type) n l (s s' : st A) x,
  1 <= n -> exec (step n) init_st l = Some s ->
  step n s P = Some s' -> tr s' = tr s ++ [EPushFull x] ->
  length (pushes (tr s) ++ in_flight s) = taken s + n.
Proof.
  intros A n l s s' x Hn H E T.
  change (in_flight s) with (SpscConcProofs.pend s).
  rewrite <- (SpscConcProofs.stored_eq n Hn l s H).
  exact (SpscConcProofs.fail_full n Hn l s s' x H E T).
Qed.

Example spsc_conc_failures_nonvacuous : exists s1 s2 s1' s2' : st nat,
  exec (step 1) init_st [CallPush 7; P; P; P; CallPush 8] = Some s1 /\
  step 1 s1 P = Some s1' /\ tr s1' = tr s1 ++ [EPushFull 8] /\
  exec (step 1) init_st [CallPop] = Some s2 /\
  step 1 s2 C = Some s2' /\ tr s2' = tr s2 ++ [EPopEmpty].
Proof. do 4 eexists. repeat (split; [vm_compute; reflexivity|]); vm_compute; reflexivity. Qed.

(** Wait-freedom: whatever the other thread does, a call in progress can always take its next
    step, and finishes after at most 3 (push) or 4 (pop) steps of its own. *)
Theorem spsc_conc_wait_free : forall (A : Type) n (s : st A),
  (pp s <> PIdle -> exists s', step n s P = Some s' /\
      SpscConcProofs.pleft s' < SpscConcProofs.pleft s) /\
  (cp s <> CIdle -> exists s', step n s C = Some s' /\
      SpscConcProofs.cleft s' < SpscConcProofs.cleft s) /\
  (forall s', step n s C = Some s' -> pp s' = pp s) /\
  (forall s', step n s P = Some s' -> cp s' = cp s).
Proof. intros A n s. exact (SpscConcProofs.wait_free n s). Qed.
End C01.

Section C02.
Import SpscTsoModel.

Definition tso_in_flight (s : st) : list (nat * nat) :=
  match pp s with PInc a v => [(a, v)] | _ => [] end.

(** C02.  On the TSO machine, for every interleaving of program steps and store-buffer drains:
    the (address, content) pairs obtained by the consumer (content read through the popped
    pointer after pop returned) form a prefix of the (address, content) pairs pushed. *)
Theorem spsc_tso_fifo_publication : forall (n : nat) (l : list act) (s : st),
  1 <= n -> exec (step n) init_st l = Some s ->
  prefix (pops (tr s)) (map (@Some _) (pushes (tr s) ++ tso_in_flight s)) /\
  (cp s = CIdle -> length (pushes (tr s) ++ tso_in_flight s) <= length (pops (tr s)) + n) /\
  pw s < n /\ pr s < n.
Proof. intros n l s Hn. exact (SpscTsoProofs.fifo_api n Hn l s). Qed.

Example spsc_tso_nonvacuous : exists s : st,
  exec (step 2) init_st
    [CallPush 7 70; P; P; P; P; CallPop; C; CallPush 8 80; P; P; DrainP; CallPop; C;
     DrainP; P; P; CallPop; C; C; C; C; C; DrainP; DrainP; CallPop; C; C; C; C; C; DrainC]
  = Some s /\
  tr s = [EPush 7 70; EPopEmpty; EPopEmpty; EPush 8 80; EPop (Some (7, 70)); EPop (Some (8, 80))].
Proof. eexists. split; vm_compute; reflexivity. Qed.
End C02.

Section C06.
Import LamportConcModel.

(** C06, concurrent part: the Lamport ring is a FIFO of capacity n-1 for all interleavings. *)
Theorem lamport_conc_fifo : forall (A : Type) (n : nat) (l : list (act A)) (s : st A),
  2 <= n -> exec (step n) init_st l = Some s ->
  prefix (pops (tr s)) (map (@Some A) (pushes (tr s))) /\
  length (pushes (tr s)) <= length (pops (tr s)) + (n - 1) /\ pw s < n /\ pr s < n.
Proof. intros A n l s Hn. exact (LamportConcProofs.fifo n Hn l s). Qed.

Example lamport_conc_nonvacuous : exists s : st nat,
  exec (step 2) init_st
    [CallPush 7; P; CallPop; C; P; P; CallPush 8; P; CallPop; C; C; C; CallPush 8; P; P; P;
     CallPop; C; C; C]
  = Some s /\ tr s = [EPopEmpty; EPush 7; EPushFull 8; EPop (Some 7); EPush 8; EPop (Some 8)].
Proof. eexists. split; vm_compute; reflexivity. Qed.
End C06.

Print Assumptions spsc_conc_fifo.
Print Assumptions spsc_conc_pop_fails_only_empty.
Print Assumptions spsc_conc_push_fails_only_full.
Print Assumptions spsc_conc_wait_free.
Print Assumptions spsc_tso_fifo_publication.
Print Assumptions lamport_conc_fifo.
