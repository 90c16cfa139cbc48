(** Properties C03 (sequential part), C04, C05, C06 (sequential part). *)
From Coq Require Import List Arith Lia Bool.
From Verif Require Import Base SpscSeqModel SpscSpec SpscSeqProofs.
Import ListNotations.

(** C03/C04.  Any history of push, pop, empty, available, length, top, reset on a freshly
    initialised ring of any size n >= 1 gives exactly the results of a FIFO list of capacity n
    (so push fails iff n items are stored, pop/empty fail iff none, length() is exact), and no
    access leaves the array.  The only precondition is that reset(true), which starts at
    slot 7, is used on rings of at least 8 slots. *)
Theorem spsc_seq_refines_fifo : forall (A : Type) (n : nat) (b : bool) (l : list (op A)),
  1 <= n -> (b = true -> 8 <= n) -> Forall (fun o => o = OReset true -> 8 <= n) l ->
  exists r0 r', init n b = Some r0 /\ run r0 l = Ok (r', snd (spec_run n [] l)).
Proof.
  intros A n b l Hn Hb Hl. apply ring_refines; auto.
  eapply Forall_impl; [|exact Hl]. intros [ | | | | | | [|] ] H; simpl; auto.
Qed.

Example spsc_seq_refines_fifo_nonvacuous :
  exists r0 r', init 2 false = Some r0 /\
   run r0 [OPush 1; OPush 2; OPush 3; OLength; OPop; OPush 4; OPop; OPop; OPop; OEmpty]
   = Ok (r', [RBool true; RBool true; RBool false; RNat 2; RVal (Some 1); RBool true;
              RVal (Some 2); RVal (Some 4); RVal None; RBool true]).
Proof.
  destruct (spsc_seq_refines_fifo nat 2 false
    [OPush 1; OPush 2; OPush 3; OLength; OPop; OPush 4; OPop; OPop; OPop; OEmpty])
    as (r0 & r' & E1 & E2); try (intros; discriminate); auto.
  - repeat constructor; discriminate.
  - exists r0, r'. split; auto.
Qed.

(** Finding: reset(true)/init(true) on a ring of fewer than 8 slots makes the very next call
    access outside the array. *)
Theorem spsc_reset_lineend_refuted :
  exists (n : nat) (r0 : ring nat), 1 <= n /\ init n true = Some r0 /\ run r0 [OPush 1] = UB.
Proof. exists 4. eexists. split; [lia|]. split; reflexivity. Qed.

(** C05, full claim: after any history, an accepted batch is appended to the queue content,
    i.e. every later history behaves as the FIFO holding the old content then the batch. *)
Definition multipush_fifo_claim : Prop :=
  forall (n : nat) (l l' : list (op nat)) (r0 r r' : ring nat) outs (data : list nat),
  init n false = Some r0 -> run r0 l = Ok (r, outs) ->
  Forall (fun o => o <> OReset true) l -> Forall (fun o => o <> OReset true) l' ->
  multipush r data = Ok (r', true) ->
  exists r'', run r' l' = Ok (r'', snd (spec_run n (fst (spec_run n [] l) ++ data) l')).

(** Finding: false.  Two items are pushed and popped, then a batch [3;4] is accepted, then 5
    is pushed: the write index after the batch is wrong, and 5 is never found by pop. *)
Theorem spsc_multipush_refuted : ~ multipush_fifo_claim.
Proof.
  intro C.
  destruct (C 8 [OPush 1; OPush 2; OPop; OPop] [OPush 5; OPop; OPop; OPop]
              (mkRing (repeat None 8) 0 0 8) (mkRing (repeat None 8) 2 2 8)
              (mkRing [None; None; Some 3; Some 4; None; None; None; None] 2 6 8)
              [RBool true; RBool true; RVal (Some 1); RVal (Some 2)] [3; 4])
    as (r'' & E); try reflexivity.
  - repeat constructor; discriminate.
  - repeat constructor; discriminate.
  - vm_compute in E. discriminate.
Qed.

(** Finding: the index can leave the array: the next push writes out of bounds. *)
Theorem spsc_multipush_oob_refuted :
  exists (r0 r1 r2 : ring nat) o1,
    init 4 false = Some r0 /\
    run r0 [OPush 1; OPop; OPush 2; OPop; OPush 3; OPop] = Ok (r1, o1) /\
    multipush r1 [4; 5] = Ok (r2, true) /\
    run r2 [OPush 6] = UB.
Proof. do 4 eexists. repeat (split; [vm_compute; reflexivity|]); vm_compute; reflexivity. Qed.

(** C05, true part: when the write index is at slot 0 (e.g. on a fresh or reset ring) and the
    batch fits, multipush appends it and every later history behaves as the FIFO.
    Missing with respect to the full claim: any other write position (where it is false). *)
Theorem spsc_multipush_partial :
  forall (A : Type) (n : nat) (r0 r : ring A) (l l' : list (op A)) outs (data : list A),
  init n false = Some r0 -> run r0 l = Ok (r, outs) ->
  Forall (fun o => o <> OReset true) l -> Forall (fun o => o <> OReset true) l' ->
  pwrite r = 0 -> data <> [] -> length data < n ->
  length (fst (spec_run n [] l)) + length data <= n ->
  exists r1 r2, multipush r data = Ok (r1, true) /\
    run r1 l' = Ok (r2, snd (spec_run n (fst (spec_run n [] l) ++ data) l')).
Proof.
  intros A n r0 r l l' outs data Hi Hr Hl Hl' W ND LD LF.
  assert (OKs : forall l0 : list (op A), Forall (fun o => o <> OReset true) l0 ->
     Forall (op_ok n) l0).
  { intros l0 H0. eapply Forall_impl; [|exact H0].
    intros [ | | | | | | [|] ] H; simpl; auto; congruence. }
  assert (R : rep n r0 []).
  { unfold init in Hi. destruct (Nat.eqb_spec n 0); [discriminate|].
    injection Hi as <-. apply rep_reset; auto; try lia; discriminate. }
  destruct (run_refines n l r0 [] R (OKs l Hl)) as (r' & E & Hrep).
  rewrite E in Hr. injection Hr as -> _.
  destruct (multipush_at_zero n r _ data Hrep W ND LD LF) as (r1 & E1 & Hrep1).
  destruct (run_refines n l' r1 _ Hrep1 (OKs l' Hl')) as (r2 & E2 & _). eauto.
Qed.

Example spsc_multipush_partial_nonvacuous :
  exists r1 r2 : ring nat, exists r0, init 4 false = Some r0 /\
    multipush r0 [1; 2; 3] = Ok (r1, true) /\
    run r1 [OPush 4; OPush 5; OPop; OPop] = Ok (r2, [RBool true; RBool false; RVal (Some 1); RVal (Some 2)]).
Proof. do 3 eexists. repeat (split; [vm_compute; reflexivity|]); vm_compute; reflexivity. Qed.

(** C05: wherever the write index is, a batch that does not fit is refused and changes nothing. *)
Theorem spsc_multipush_refuses_overflow :
  forall (A : Type) (n : nat) (r0 r : ring A) (l : list (op A)) outs (data : list A),
  init n false = Some r0 -> run r0 l = Ok (r, outs) -> Forall (fun o => o <> OReset true) l ->
  data <> [] -> n < length (fst (spec_run n [] l)) + length data ->
  multipush r data = Ok (r, false).
Proof.
  intros A n r0 r l outs data Hi Hr Hl ND LF.
  assert (OK : Forall (op_ok n) l).
  { eapply Forall_impl; [|exact Hl].
    intros [ | | | | | | [|] ] H; simpl; auto; congruence. }
  assert (R : rep n r0 []).
  { unfold init in Hi. destruct (Nat.eqb_spec n 0); [discriminate|].
    injection Hi as <-. apply rep_reset; auto; try lia; discriminate. }
  destruct (run_refines n l r0 [] R OK) as (r' & E & Hrep).
  rewrite E in Hr. injection Hr as -> _. exact (multipush_full n r _ data Hrep ND LF).
Qed.

Example spsc_multipush_refuses_nonvacuous :
  exists (r0 r : ring nat) outs, init 4 false = Some r0 /\
    run r0 [OPush 1; OPush 2; OPop; OPush 3] = Ok (r, outs) /\ multipush r [4; 5; 6] = Ok (r, false).
Proof. do 3 eexists. repeat (split; [vm_compute; reflexivity|]); vm_compute; reflexivity. Qed.

(** C06, sequential: the Lamport ring of size n >= 2 is a FIFO of capacity n-1 for every
    history of push, pop, empty, available, reset. *)
Theorem lamport_seq_refines_fifo : forall (A : Type) (n : nat) (l : list (op A)),
  2 <= n -> Forall (fun o => o <> OLength /\ o <> OTop) l ->
  exists r', lrun (linit n) l = Ok (r', snd (spec_run (n - 1) [] l)).
Proof.
  intros A n l Hn Hl. apply lamport_refines; auto.
  eapply Forall_impl; [|exact Hl]. intros [] [H1 H2]; simpl; auto; congruence.
Qed.

Example lamport_seq_nonvacuous : exists r', lrun (linit 3)
   [OPush 1; OPush 2; OPush 3; OPop; OPush 4; OPop; OPop; OPop]
   = Ok (r', [RBool true; RBool true; RBool false; RVal (Some 1); RBool true;
              RVal (Some 2); RVal (Some 4); RVal None]).
Proof.
  destruct (lamport_seq_refines_fifo nat 3
   [OPush 1; OPush 2; OPush 3; OPop; OPush 4; OPop; OPop; OPop]) as (r' & E); auto.
  - repeat constructor; discriminate.
  - exists r'; exact E.
Qed.

(** C06 length(): exact whenever at least one item is stored ... *)
Theorem lamport_length_partial :
  forall (A : Type) (n : nat) (l : list (op A)) (r : ring A) outs,
  2 <= n -> Forall (fun o => o <> OLength /\ o <> OTop) l ->
  lrun (linit n) l = Ok (r, outs) ->
  fst (spec_run (n - 1) [] l) <> [] ->
  llength r = Ok (length (fst (spec_run (n - 1) [] l))).
Proof.
  intros A n l r outs Hn Hl E Q.
  assert (R : lrep n (linit n) (@nil A)) by (apply lrep_reset; auto).
  destruct (lrun_refines n l _ _ R) as (r' & E' & H').
  - eapply Forall_impl; [|exact Hl]. intros [] [H1 H2]; simpl; auto; congruence.
  - rewrite E in E'. injection E' as <- _. now apply lrep_length with (n := n).
Qed.

Example lamport_length_nonvacuous : exists r outs,
  lrun (linit 3) [OPush 1; OPop; OPush 2; OPush 3] = Ok (r, outs) /\ llength r = Ok 2.
Proof. do 2 eexists. split; vm_compute; reflexivity. Qed.

(** ... but not when empty: the ring is empty, yet length() returns the ring size. *)
Theorem lamport_length_refuted : exists (r : ring nat) outs,
  lrun (linit 2) [OPush 1; OPop; OPush 2; OPop; OEmpty] = Ok (r, outs) /\
  nth_error outs 4 = Some (RBool true) /\ llength r = Ok 2.
Proof. do 2 eexists. repeat (split; [vm_compute; reflexivity|]); vm_compute; reflexivity. Qed.

Print Assumptions spsc_seq_refines_fifo.
Print Assumptions spsc_reset_lineend_refuted.
Print Assumptions spsc_multipush_refuted.
Print Assumptions spsc_multipush_oob_refuted.
Print Assumptions spsc_multipush_partial.
Print Assumptions spsc_multipush_refuses_overflow.
Print Assumptions lamport_seq_refines_fifo.
Print Assumptions lamport_length_partial.
Print Assumptions lamport_length_refuted.
