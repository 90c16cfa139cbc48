(** C61: all_gather gives one task of every input channel. *)
From Coq Require Import List Arith Bool Lia.
From Verif Require Import Base AgModel AgSpec AgProofs AgProofs2.
Import ListNotations.

Section Props.
  Context {X : Type}.

  (** Every channel carries m values and then the mark, svc calls all_gather for every task, no
      feedback.  For every interleaving, in the collector (Gt) and in the emitter (Lb): the k-th call
      returns 0 and the k-th value of each channel, in channel order; when the node ends it has made
      m calls. *)
  Theorem all_gather_rows_partial : forall var n m (xs : nat -> list X) l t,
    0 < n -> (forall c, c < n -> length (xs c) = m) ->
    exec (step var n 0) init_st l = Some t -> Forall gathers l ->
    (forall c, c < n -> prefix (sent t c) (full (xs c))) ->
    exists k, k <= m /\ rows t = map (fun j => (row_of n xs j, true)) (seq 0 k) /\
              (over t = true -> k = m).
  Proof.
    intros var n m xs l t Hn Hl E F P. destruct (rows_ok var n m xs Hn Hl l t F E P) as (R & L & O).
    exists (nrow t). split; auto. split; auto. intros H. apply O; auto.
  Qed.

  (** Same setting, once the producers have pushed everything: the node is never stuck before it
      ends, and takes finitely many steps: it ends. *)
  Theorem all_gather_ends_partial : forall var n m (xs : nat -> list X) l t,
    0 < n -> (forall c, c < n -> length (xs c) = m) ->
    exec (step var n 0) init_st l = Some t -> Forall gathers l ->
    (forall c, c < n -> sent t c = full (xs c)) ->
    (over t = false -> exists a t', own a /\ gathers a /\ step var n 0 t a = Some t') /\
    exists B, forall l' t', Forall own l' -> exec (step var n 0) t l' = Some t' -> length l' <= B.
  Proof.
    intros var n m xs l t Hn Hl E F D. split.
    - intros O. eapply progress; eauto. eapply AgProofs.inv_exec; eauto.
    - exists (meas n t). intros l' t' F' E'. pose proof (own_bound var n 0 l' t t' (pl_exec _ _ _ _ _ E) F' E'). lia.
  Qed.

  (** Any streams, svc calls all_gather for some tasks and not for others, no feedback: between two
      calls of svc, what svc has seen of channel c, in order, is what was read from c, and that is the
      beginning of what was pushed on c: no task is lost, duplicated or reordered. *)
  Theorem all_gather_no_loss_partial : forall var n l (t : st X) c,
    exec (step var n 0) init_st l = Some t -> at_ t = Idle -> c < n ->
    column c (log t) = vals (got t c) /\ sent t c = got t c ++ ch t c.
  Proof.
    intros var n l t c E I L. split.
    - destruct (AgProofs2.inv_exec var n l t E) as (A & _). specialize (A c L). unfold pend in A. rewrite I in A.
      rewrite app_nil_r in A. auto.
    - apply (inv0_exec var n l t E).
  Qed.

  (** The result, any streams, no feedback.  Result 0: an empty entry belongs to a channel that has
      ended.  Result -1: one of the empty entries does.  In a collector no entry is a mark. *)
  Theorem all_gather_result_partial : forall var n l (t : st X) r b,
    exec (step var n 0) init_st l = Some t -> In (r, b) (rows t) ->
    length r = n /\
    (b = true -> forall c, c < n -> nth c r None = None -> In Eos (got t c)) /\
    (b = false -> exists c, c < n /\ nth c r None = None /\ In Eos (got t c)) /\
    (var = Gt -> ~ In (Some Eos) r).
  Proof.
    intros var n l t r b E I. destruct (AgProofs2.inv_exec var n l t E) as (_ & _ & _ & D & _).
    exact (D _ I).
  Qed.
End Props.

(** The full claims. *)
(** Streams of different lengths: a node that gathers still ends. *)
Definition all_gather_ends_claim (var : variant) : Prop :=
  forall n (xs : nat -> list nat) l t, 0 < n ->
    exec (step var n 0) init_st l = Some t -> Forall gathers l ->
    (forall c, c < n -> sent t c = full (xs c)) -> over t = false ->
    exists a t', own a /\ step var n 0 t a = Some t'.
(** The emitter never finds a mark in the array. *)
Definition all_gather_marks_claim (var : variant) : Prop :=
  forall n l (t : st nat) r b,
    exec (step var n 0) init_st l = Some t -> In (r, b) (rows t) -> ~ In (Some Eos) r.
(** With feedback channels: one call of svc, that gathered with result 0, has read one message of every
    channel. *)
Definition all_gather_feedback_claim : Prop :=
  forall n fb l (t : st nat) r,
    fb < n -> exec (step Gt n fb) init_st l = Some t -> at_ t = Idle -> log t = [r] -> rows t = [(r, true)] ->
    forall c, c < n -> length (got t c) = 1.

Definition sends (c : nat) (l : list nat) : list (act nat) := map (fun x => Send c (Val x)) l ++ [Send c Eos].

(** Collector: a channel that ended inside all_gather is not marked offline; a later call waits for
    it for ever. *)
Theorem all_gather_ends_refuted : ~ all_gather_ends_claim Gt.
Proof.
  intros C.
  set (l := sends 0 [1] ++ sends 1 [2; 3; 4] ++ [Take 0 true; Turn; Turn; Turn; Turn] ++
            [Take 1 true; Turn; Turn; Turn; Turn] ++ [Take 1 true; Turn; Turn; Turn]).
  set (xs := fun c => match c with 0 => [1] | _ => [2; 3; 4] end).
  assert (V : option_map (fun t => (sent t 0, sent t 1, over t, at_ t, ch t 0)) (exec (step Gt 2 0) init_st l)
              = Some (full (xs 0), full (xs 1), false, Retry [0], [])) by (vm_compute; reflexivity).
  destruct (exec (step Gt 2 0) init_st l) as [t |] eqn:E; [| discriminate].
  simpl in V. injection V as V0 V1 V2 V3 V4.
  destruct (C 2 xs l t) as (a & t' & O & S); auto.
  - unfold l. repeat (apply Forall_app; split); repeat constructor.
  - intros c Lc. destruct c as [| [| c]]; [exact V0 | exact V1 | lia].
  - destruct a as [c m | c g |]; [destruct O | |]; unfold step in S; rewrite V3 in S; [discriminate |].
    rewrite V4 in S. discriminate.
Qed.

(** Emitter: a channel that ended inside all_gather is never counted; the node does not end although
    all channels have. *)
Theorem all_gather_emitter_ends_refuted : ~ all_gather_ends_claim Lb.
Proof.
  intros C.
  set (l := sends 0 [1] ++ sends 1 [2; 3] ++ [Take 0 true; Turn; Turn; Turn; Turn] ++
            [Take 1 true; Turn; Turn; Turn; Turn] ++ [Take 1 true]).
  set (xs := fun c => match c with 0 => [1] | _ => [2; 3] end).
  assert (V : option_map (fun t => (sent t 0, sent t 1, over t, at_ t, ch t 0, ch t 1)) (exec (step Lb 2 0) init_st l)
              = Some (full (xs 0), full (xs 1), false, Idle, [], [])) by (vm_compute; reflexivity).
  destruct (exec (step Lb 2 0) init_st l) as [t |] eqn:E; [| discriminate].
  simpl in V. injection V as V0 V1 V2 V3 V4 V5.
  destruct (C 2 xs l t) as (a & t' & O & S); auto.
  - unfold l. repeat (apply Forall_app; split); repeat constructor.
  - intros c Lc. destruct c as [| [| c]]; [exact V0 | exact V1 | lia].
  - destruct a as [c m | c g |]; [destruct O | |]; unfold step in S; rewrite V3 in S; [| discriminate].
    destruct (over t || off t c || negb (c <? 2)) eqn:Q; [discriminate |].
    destruct c as [| [| c]]; [rewrite V4 in S; discriminate | rewrite V5 in S; discriminate |].
    apply orb_false_elim in Q. destruct Q as (_ & Q). simpl in Q. discriminate.
Qed.

(** Emitter: the loop that looks for marks stops at the number of channels that are left; a mark
    behind it is returned as a task, with result 0. *)
Theorem all_gather_marks_refuted : ~ all_gather_marks_claim Lb.
Proof.
  intros C.
  set (l := sends 0 [] ++ sends 1 [2; 3] ++ sends 2 [4] ++
            [Take 1 true; Turn; Turn; Turn; Turn; Turn] ++ [Take 1 true; Turn; Turn; Turn; Turn; Turn]).
  set (r := [None; Some (Val 3); Some Eos]).
  assert (V : option_map (fun t => nth 1 (rows t) ([], false)) (exec (step Lb 3 0) init_st l) = Some (r, true))
    by (vm_compute; reflexivity).
  assert (V' : option_map (fun t => length (rows t)) (exec (step Lb 3 0) init_st l) = Some 2) by (vm_compute; reflexivity).
  destruct (exec (step Lb 3 0) init_st l) as [t |] eqn:E; [| discriminate].
  simpl in V, V'. injection V as V. injection V' as V'.
  apply (C 3 l t r true E).
  - pose proof (nth_In (rows t) ([], false) (n := 1) ltac:(lia)) as W. rewrite V in W. exact W.
  - unfold r. simpl. auto.
Qed.

(** With a feedback channel, entries are numbered in two ways: all_gather called with a task of the
    second input channel skips the first one and reads the second one again. *)
Theorem all_gather_feedback_refuted : ~ all_gather_feedback_claim.
Proof.
  intros C.
  set (l := [Send 0 (Val 10); Send 1 (Val 20); Send 2 (Val 30); Send 2 (Val 31); Take 2 true;
             Turn; Turn; Turn; Turn; Turn]).
  set (r := [Some (Val 10); Some (Val 30); Some (Val 31)]).
  assert (V : option_map (fun t => (at_ t, log t, rows t, got t 1)) (exec (step Gt 3 1) init_st l)
              = Some (Idle, [r], [(r, true)], [])) by (vm_compute; reflexivity).
  destruct (exec (step Gt 3 1) init_st l) as [t |] eqn:E; [| discriminate].
  simpl in V. injection V as V0 V1 V2 V3.
  assert (W : length (got t 1) = 1) by (apply (C 3 1 l t r); auto; lia). rewrite V3 in W. discriminate.
Qed.

(** Non-vacuity: two channels with two values each; the second call finds channel 0 still empty. *)
Definition ex_l : list (act nat) :=
  sends 1 [5; 6] ++ [Send 0 (Val 1); Take 1 true; Turn; Turn; Turn; Turn;
                     Take 1 true; Turn; Turn; Turn; Send 0 (Val 2); Turn; Turn; Send 0 Eos].
Definition ex_xs (c : nat) : list nat := match c with 0 => [1; 2] | _ => [5; 6] end.
Example ex_rows : forall var,
  option_map (fun t => (rows t, at_ t)) (exec (step var 2 0) init_st ex_l)
  = Some ([(row_of 2 ex_xs 0, true); (row_of 2 ex_xs 1, true)], Idle).
Proof. intros []; vm_compute; reflexivity. Qed.
Example ex_hyp : forall var, Forall gathers ex_l /\ (forall c, c < 2 -> length (ex_xs c) = 2) /\
  option_map (fun t => (sent t 0, sent t 1, over t)) (exec (step var 2 0) init_st ex_l)
  = Some (full (ex_xs 0), full (ex_xs 1), false).
Proof.
  intros var. split; [| split].
  - unfold ex_l, sends. simpl. repeat constructor.
  - intros [| [| c]] L; simpl; auto; lia.
  - destruct var; vm_compute; reflexivity.
Qed.
Example ex_end : forall var,
  option_map (fun t => (over t, length (rows t))) (exec (step var 2 0) init_st (ex_l ++ [Take 0 true; Take 1 true])) = Some (true, 2).
Proof. intros []; vm_compute; reflexivity. Qed.
(** Streams of different lengths, svc gathers only for the first task: a row with result -1. *)
Example ex_mix :
  option_map (fun t => (rows t, log t, over t))
    (exec (step Gt 2 0) init_st (sends 0 [] ++ sends 1 [7; 8] ++ [Take 1 true; Turn; Turn; Turn; Turn; Take 1 false; Take 1 true]))
  = Some ([([None; Some (Val 7)], false)], [[None; Some (Val 7)]; [None; Some (Val 8)]], true).
Proof. vm_compute. reflexivity. Qed.

Print Assumptions all_gather_rows_partial.
Print Assumptions all_gather_ends_partial.
Print Assumptions all_gather_no_loss_partial.
Print Assumptions all_gather_result_partial.
Print Assumptions all_gather_ends_refuted.
Print Assumptions all_gather_emitter_ends_refuted.
Print Assumptions all_gather_marks_refuted.
Print Assumptions all_gather_feedback_refuted.
