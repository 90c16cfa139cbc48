(** C13: the spin locks. *)
From Coq Require Import List Arith Bool Lia.
From Verif Require Import Base LockModel LockProofs.
Import ListNotations.

(** ** Test-and-set lock *)

(** At every moment of every execution, at most one thread holds the lock. *)
Theorem tas_mutual_exclusion : forall l s, exec tstep tas_init l = Some s ->
  forall t u, tp s t = TCrit -> tp s u = TCrit -> t = u.
Proof.
  intros l s E t u A B. destruct (TI_exec _ _ E) as [F T].
  destruct (flag s) eqn:G; [|destruct (F eq_refl t A)].
  destruct (T eq_refl) as (c & _ & U). rewrite (U t A), (U u B). reflexivity.
Qed.

(** If nobody holds the lock, whichever waiting thread tries next gets it; while somebody holds it, a try
    changes nothing. *)
Theorem tas_progress : forall l s, exec tstep tas_init l = Some s ->
  forall t, tp s t = TTry ->
    exists s', tstep s (TStep t) = Some s' /\
      ((forall u, tp s u <> TCrit) -> tp s' t = TCrit) /\
      ((exists u, tp s u = TCrit) -> s' = s).
Proof.
  intros l s E t P. destruct (TI_exec _ _ E) as [F T]. cbn. rewrite P.
  destruct (flag s) eqn:G.
  - exists s. split; [reflexivity|]. split; [|auto].
    intros N. destruct (T eq_refl) as (c & Hc & _). destruct (N c Hc).
  - eexists. split; [reflexivity|]. split; [intros _; apply fupd_eq|].
    intros (u & Hu). destruct (F eq_refl u Hu).
Qed.

Example tas_contended :
  option_map (fun s => (tp s 1, tp s 2, flag s))
    (exec tstep tas_init [TCall 1; TCall 2; TStep 2; TStep 1; TUnlock 2; TStep 1])
  = Some (TCrit, TIdle, true).
Proof. reflexivity. Qed.

(** ** CLH lock.  The initial contents of the nodes and of MyPred are arbitrary. *)

(** The thread holds the lock from the moment spin_lock returns until spin_unlock frees its node. *)
Definition holds (s : clh) (t : nat) : Prop := cp s t = CCrit \/ cp s t = CFree.

Theorem clh_mutual_exclusion : forall junk p0 l s, exec cstep (clh_init junk p0) l = Some s ->
  forall t u, holds s t -> holds s u -> t = u.
Proof.
  intros junk p0 l s E t u A B. destruct (CI_exec _ _ _ _ E) as (h & q & I).
  assert (A' : holding (cp s t) = true) by (destruct A as [-> | ->]; reflexivity).
  assert (B' : holding (cp s u) = true) by (destruct B as [-> | ->]; reflexivity).
  destruct (hold_hd _ _ _ _ I A') as (r1 & ->). destruct (hold_hd _ _ _ _ I B') as (r2 & K).
  congruence.
Qed.

(** Threads acquire the lock in the order in which they swapped the tail. *)
Theorem clh_fifo : forall junk p0 l s, exec cstep (clh_init junk p0) l = Some s ->
  exists waiting, swaps s = acqs s ++ waiting.
Proof.
  intros junk p0 l s E. destruct (CI_exec _ _ _ _ E) as (h & q & I). eexists. exact (ci_hist _ _ _ I).
Qed.

(** The histories are what they claim to be: a thread is waiting in the spin loop exactly when it is in the
    part of the swap order that has not acquired, and it is there once. *)
Theorem clh_waiting_exact : forall junk p0 l s, exec cstep (clh_init junk p0) l = Some s ->
  exists waiting, swaps s = acqs s ++ waiting /\ NoDup waiting /\
    forall t, In t waiting <-> cp s t = CSpin.
Proof.
  intros junk p0 l s E. destruct (CI_exec _ _ _ _ E) as (h & q & I).
  eexists. split; [exact (ci_hist _ _ _ I)|]. destruct I as [i1 i2 i3 i4 i5 i6 i7 i8 i9].
  destruct q as [|x r].
  - split; [constructor|]. intros t. split; [contradiction|]. intros H.
    apply (i1 t). rewrite H. reflexivity.
  - assert (X : inq (cp s x) = true) by (apply i1; left; reflexivity).
    assert (N : ~ In x r) by (inversion i2; assumption).
    destruct (holding (cp s x)) eqn:G.
    + split; [inversion i2; assumption|]. intros t. split; [apply i8|]. intros H.
      assert (K : In t (x :: r)) by (apply i1; rewrite H; reflexivity).
      destruct K as [->|K]; [rewrite H in G; discriminate|exact K].
    + split; [exact i2|]. intros t. split.
      * intros [->|H]; [|exact (i8 _ H)]. destruct (cp s t); try discriminate; reflexivity.
      * intros H. apply i1. rewrite H. reflexivity.
Qed.

(** The lock is never lost: when nobody holds it and somebody waits, the first of those waiting gets it
    with its next read. *)
Theorem clh_progress : forall junk p0 l s, exec cstep (clh_init junk p0) l = Some s ->
  forall t waiting, swaps s = acqs s ++ t :: waiting -> (forall u, ~ holds s u) ->
  exists s', cstep s (CStep t) = Some s' /\ cp s' t = CCrit.
Proof.
  intros junk p0 l s E t w W N. destruct (CI_exec _ _ _ _ E) as (h & q & I).
  assert (Hh := ci_hist _ _ _ I). destruct q as [|x r].
  - rewrite W in Hh. apply app_inv_head in Hh. discriminate.
  - assert (X : inq (cp s x) = true) by (apply (ci_in _ _ _ I); left; reflexivity).
    assert (P : cp s x = CSpin).
    { destruct (cp s x) eqn:P; try discriminate; [reflexivity| |]; destruct (N x); [left|right]; exact P. }
    rewrite P in Hh. cbn in Hh. rewrite W in Hh. apply app_inv_head in Hh. injection Hh as -> ->.
    destruct (ci_chain _ _ _ I) as (C & _ & _). cbn. rewrite P, C, (ci_free _ _ _ I).
    eexists. split; [reflexivity|]. apply fupd_eq.
Qed.

(** When no thread is using the lock, the blocks the destructor frees (Tail and every MyNode) are distinct. *)
Theorem clh_destroy_frees_distinct : forall junk p0 l s, exec cstep (clh_init junk p0) l = Some s ->
  (forall t, cp s t = CIdle) ->
  (forall t, mynode s t <> tail s) /\ (forall t u, mynode s t = mynode s u -> t = u).
Proof.
  intros junk p0 l s E Q. destruct (CI_exec _ _ _ _ E) as (h & q & I).
  assert (O : forall t, own s t = mynode s t). { intros t. unfold own. rewrite Q. reflexivity. }
  assert (q = []) as ->.
  { destruct q as [|x r]; [reflexivity|]. assert (K : In x (x :: r)) by (left; reflexivity).
    apply (ci_in _ _ _ I) in K. rewrite Q in K. discriminate. }
  assert (C := ci_chain _ _ _ I). cbn in C. subst h. split.
  - intros t. rewrite <- O. apply (ci_head _ _ _ I).
  - intros t u. rewrite <- !O. apply (ci_inj _ _ _ I).
Qed.

(** Three threads contend; thread 2 swaps first, then 0, then 1; they enter in that order. *)
Example clh_contended :
  option_map (fun s => (swaps s, acqs s, cp s 2, cp s 0, mynode s 2))
    (exec cstep (clh_init (fun _ => true) (fun _ => 0))
      [CCall 2; CCall 0; CStep 2; CStep 0; CStep 2; CStep 0; CCall 1; CStep 1; CStep 1;
       CStep 0; CStep 2; CStep 1; CRelease 2; CStep 2; CStep 2; CStep 0])
  = Some ([2; 0; 1], [2; 0], CIdle, CCrit, 0).
Proof. reflexivity. Qed.
Example clh_quiescent :
  option_map (fun s => (cp s 2, cp s 0, tail s, mynode s 0, mynode s 2))
    (exec cstep (clh_init (fun _ => true) (fun _ => 0))
      [CCall 2; CCall 0; CStep 2; CStep 0; CStep 2; CStep 0; CStep 2; CRelease 2; CStep 2; CStep 0;
       CRelease 0; CStep 2; CStep 0; CStep 0])
  = Some (CIdle, CIdle, 1, 3, 0).
Proof. reflexivity. Qed.
(** The hypothesis of clh_progress is met: thread 0 waits, thread 2 has just freed its node. *)
Example clh_handover :
  option_map (fun s => (swaps s, acqs s, cp s 2, cp s 0))
    (exec cstep (clh_init (fun _ => true) (fun _ => 0))
      [CCall 2; CCall 0; CStep 2; CStep 0; CStep 2; CStep 0; CStep 2; CRelease 2; CStep 2])
  = Some ([2; 0], [2], CTake, CSpin).
Proof. reflexivity. Qed.

Print Assumptions tas_mutual_exclusion.
Print Assumptions tas_progress.
Print Assumptions clh_mutual_exclusion.
Print Assumptions clh_fifo.
Print Assumptions clh_waiting_exact.
Print Assumptions clh_progress.
Print Assumptions clh_destroy_frees_distinct.
