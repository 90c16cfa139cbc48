(** Property C68: the bounded MPMC queue on the TSO memory of x86. *)
From Coq Require Import List Arith Lia Permutation.
From Verif Require Import Base LinSpec VtsoSpec VtsoModel.
From Verif Require LinFacts VtsoProofs VtsoInv.
Import ListNotations.

(** C68.  For any number of threads, every interleaving of their memory accesses and every moment
    at which buffered stores reach memory: the history is one of a FIFO queue of capacity n,
    whose failures are exact unless an operation of the other kind, by another thread, took
    effect and has not been seen.  A thread outside the queue whose stores have all reached
    memory leaves nothing unseen. *)
Theorem vtso_linearizable : forall (A : Type) (n : nat) (l : list (act A)) (s : st A),
  2 <= n -> exec (step n) init_st l = Some s ->
  exists q th un, tso_linearizable (Some n) (tr s) q th un /\ length q <= n /\
    (forall t, thr s t = Rest -> th t = Idle) /\
    (forall t, thr s t = Rest -> buf s t = [] -> un t = None).
Proof.
  intros A n l s Hn E. destruct (VtsoInv.reach n Hn l s E) as (enq & th & un & I).
  exists (skipn (pread s) enq), th, un. split; [|split; [|split]].
  - destruct (VtsoInv.i_lin _ _ _ _ _ _ _ _ _ I) as (ex & -> & L). exact L.
  - rewrite skipn_length. pose proof (VtsoInv.i_arr _ _ _ _ _ _ _ _ _ I) as R.
    rewrite (VtsoProofs.a_len _ _ _ _ _ _ R). pose proof (VtsoProofs.room n Hn _ _ _ _ _ R). lia.
  - intros t Z. pose proof (VtsoInv.i_tst _ _ _ _ _ _ _ _ _ I t) as T. rewrite Z in T. exact T.
  - intros t. apply (VtsoInv.seen n s _ _ _ _ _ _ _ t I).
Qed.

(** C68, in terms of values only: no value is lost, duplicated or invented, and they leave in the
    order in which the pushes took effect. *)
Theorem vtso_no_loss_no_dup : forall (A : Type) (n : nat) (l : list (act A)) (s : st A),
  2 <= n -> exec (step n) init_st l = Some s ->
  exists taken stored inflight,
    pushed (events (tr s)) = taken ++ stored /\ length stored <= n /\
    Permutation taken (returned (events (tr s)) ++ inflight) /\
    ((forall t, thr s t = Rest) -> inflight = []).
Proof.
  intros A n l s Hn E. destruct (vtso_linearizable A n l s Hn E) as (q & th & un & L & B & TI & _).
  destruct (VtsoInv.tlins_values _ _ _ _ _ L) as (taken & pend & P1 & _ & P3 & P4 & _).
  exists taken, q, (map snd pend). split; [auto|]. split; [auto|]. split; [auto|].
  intros R. destruct pend as [|[t v] pend]; [reflexivity|].
  assert (X : th t = DidPop v) by (apply P3; left; reflexivity). rewrite TI in X by auto. discriminate.
Qed.

(** C68: from any reachable moment at which the other threads are outside the queue and their
    stores have reached memory, a thread running alone sees an exact queue: it is told "full" only
    with n values stored, and "empty" only with none.  (With [l1] = []: a program with one
    thread.) *)
Theorem vtso_alone_exact : forall (A : Type) (n : nat) (t : nat) (l1 l2 : list (act A)) (s1 s2 : st A),
  2 <= n -> exec (step n) init_st l1 = Some s1 ->
  (forall t', t' <> t -> thr s1 t' = Rest /\ buf s1 t' = []) ->
  exec (step n) s1 l2 = Some s2 ->
  (forall a, In a l2 -> match a with DoPush i _ | DoPop i | Run i _ | Drain i => i = t end) ->
  exists ex q1 th1 un1 q2 th2,
    tr s2 = tr s1 ++ ex /\ tso_linearizable (Some n) (tr s1) q1 th1 un1 /\
    lins (Some n) false q1 th1 (events ex) q2 th2.
Proof.
  intros A n t l1 l2 s1 s2 Hn E1 SET E2 AL.
  destruct (VtsoInv.reach n Hn l1 s1 E1) as (enq & th & un & I).
  pose proof (VtsoInv.inv_restart n s1 _ _ _ _ _ _ _ I) as I1.
  destruct (VtsoInv.Inv_exec n Hn (tr s1) _ _ _ l2 s1 s2 (ex_intro _ enq (ex_intro _ th (ex_intro _ un I1))) E2)
    as (enq2 & th2 & un2 & I2).
  destruct (VtsoInv.i_lin _ _ _ _ _ _ _ _ _ I2) as (ex & TE & L).
  destruct (VtsoInv.exec_ev n t l2 s1 s2 E2) as (ex' & TE' & ID).
  { intros a H. specialize (AL a H). destruct a; exact AL. }
  assert (ex' = ex) by (rewrite TE in TE'; apply app_inv_head in TE'; auto). subst ex'.
  exists ex, (skipn (pread s1) enq), th, un, (skipn (pread s2) enq2), th2.
  split; [exact TE|]. split.
  - destruct (VtsoInv.i_lin _ _ _ _ _ _ _ _ _ I) as (ex0 & -> & L0). exact L0.
  - refine (proj1 (VtsoInv.alone_exact n t ex _ _ _ _ _ _ L ID _)).
    intros t' N. destruct (SET t' N). apply (VtsoInv.seen n s1 _ _ _ _ _ _ _ t' I); auto.
Qed.

(** C68: no thread ever blocks: inside an operation it can execute its next access, or one of its
    own stores can reach memory (a compare-and-swap waits for them). *)
Theorem vtso_never_blocks : forall (A : Type) (n : nat) (s : st A) t ok,
  thr s t <> Rest ->
  (exists s', step n s (Run t ok) = Some s') \/ (buf s t <> [] /\ exists s', step n s (Drain t) = Some s').
Proof. intros A n s t ok. exact (VtsoInv.enabled n s t ok). Qed.

Definition go (t k : nat) : list (act nat) := repeat (Run t true) k.

(** Non-vacuity: two producers racing for a slot, a consumer overlapping them, stores reaching
    memory late. *)
Example vtso_run : exists s,
  exec (step 2) init_st
    ([DoPush 0 7; DoPush 1 8] ++ go 0 2 ++ go 1 2 ++ go 0 3 ++ go 1 1 ++ [DoPop 2] ++ go 2 2 ++
     [Drain 0; Drain 0] ++ go 1 3 ++ [DoPop 2] ++ go 2 4 ++ go 1 2 ++ go 2 1 ++
     [Drain 2; Drain 1; Drain 1]) = Some s /\
  tr s = [Ev (CallPush 0 7); Ev (CallPush 1 8); Ev (LinPush 0); Ev (RetPush 0 true); Ev (CallPop 2);
          Ev (RetPop 2 None); Vis 0; Ev (LinPush 1); Ev (CallPop 2); Ev (LinPop 2); Ev (RetPush 1 true);
          Ev (RetPop 2 (Some 7)); Vis 2; Vis 1].
Proof. eexists. split; vm_compute; reflexivity. Qed.

(** Non-vacuity of [vtso_alone_exact]: two threads have worked, then thread 2 works alone and is
    told "full". *)
Example vtso_alone_case : exists s1 s2,
  exec (step 2) init_st ([DoPush 0 7] ++ go 0 5 ++ [Drain 0; Drain 0; DoPop 1] ++ go 1 5 ++ [Drain 1]) = Some s1 /\
  (forall t', t' <> 2 -> thr s1 t' = Rest /\ buf s1 t' = []) /\
  exec (step 2) s1 ([DoPush 2 8] ++ go 2 5 ++ [Drain 2; Drain 2; DoPush 2 9] ++ go 2 5 ++ [DoPush 2 10] ++ go 2 2) = Some s2 /\
  returned (events (tr s1)) = [7] /\
  skipn 8 (events (tr s2)) = [RetPush 2 true; CallPush 2 9; LinPush 2; RetPush 2 true; CallPush 2 10; RetPush 2 false].
Proof.
  eexists. eexists. split; [vm_compute; reflexivity|]. split; [|split; [vm_compute; reflexivity|split; vm_compute; reflexivity]].
  intros [|[|[|t']]] N; vm_compute; auto.
Qed.

(** What C10 promises with sequentially consistent memory, as a claim about TSO: an operation
    reports failure wrongly only while another operation is in progress. *)
Definition vtso_relaxed_claim : Prop :=
  forall (n : nat) (l : list (act nat)) (s : st nat), 2 <= n -> exec (step n) init_st l = Some s ->
  exists q, linearizable (Some n) true (events (tr s)) q.

Lemma lins_snoc_inv : forall (A : Type) cap rel q th l e q' th',
  @lins A cap rel q th (l ++ [e]) q' th' ->
  exists q1 th1, lins cap rel q th l q1 th1 /\ lin cap rel q1 th1 e q' th'.
Proof.
  intros A cap rel q th l e q' th' H. remember (l ++ [e]) as m eqn:M. revert M.
  destruct H as [q th|q th l' q1 th1 e' q2 th2 L X]; intros M.
  - destruct l; discriminate.
  - apply app_inj_tail in M as [-> ->]. eauto.
Qed.

Lemma lins_nil_inv : forall (A : Type) cap rel q th q' th',
  @lins A cap rel q th [] q' th' -> q' = q /\ th' = th.
Proof.
  intros A cap rel q th q' th' H. remember (@nil (ev A)) as m eqn:M. revert M.
  destruct H as [q th|q th l' q1 th1 e' q2 th2 L X]; intros M; [auto|]. destruct l'; discriminate.
Qed.

(** The claim is false: push has returned true, no operation is in progress, and pop says "empty":
    the producer's stores have not reached memory. *)
Theorem vtso_relaxed_refuted : ~ vtso_relaxed_claim.
Proof.
  intros C.
  assert (W : exists s, exec (step 2) init_st ([DoPush 0 7] ++ go 0 5 ++ [DoPop 1] ++ go 1 2) = Some s /\
    tr s = [Ev (CallPush 0 7); Ev (LinPush 0); Ev (RetPush 0 true); Ev (CallPop 1); Ev (RetPop 1 None)]).
  { eexists. split; vm_compute; reflexivity. }
  destruct W as (s & E & T). destruct (C 2 _ s ltac:(lia) E) as (q & th & L). rewrite T in L. cbn in L.
  change [CallPush 0 7; LinPush 0; RetPush 0 true; CallPop 1; RetPop 1 None]
    with ([CallPush 0 7; LinPush 0; RetPush 0 true; CallPop 1] ++ [RetPop 1 (@None nat)]) in L.
  apply lins_snoc_inv in L as (q4 & th4 & L & X4).
  change [CallPush 0 7; LinPush 0; RetPush 0 true; CallPop 1]
    with ([CallPush 0 7; LinPush 0; RetPush 0 true] ++ [@CallPop nat 1]) in L.
  apply lins_snoc_inv in L as (q3 & th3 & L & X3).
  change [CallPush 0 7; LinPush 0; RetPush 0 true] with ([CallPush 0 7; LinPush 0] ++ [@RetPush nat 0 true]) in L.
  apply lins_snoc_inv in L as (q2 & th2 & L & X2).
  change [CallPush 0 7; LinPush 0] with ([CallPush 0 7] ++ [@LinPush nat 0]) in L.
  apply lins_snoc_inv in L as (q1 & th1 & L & X1).
  change [CallPush 0 7] with ([] ++ [CallPush 0 7]) in L.
  apply lins_snoc_inv in L as (q0 & th0 & L & X0).
  apply lins_nil_inv in L as [-> ->].
  inversion X0; subst. inversion X1; subst. inversion X2; subst. inversion X3; subst.
  inversion X4 as [| | | | | | |q' th' t' T' HF| |q' th' t' T'|]; subst.
  - destruct HF as [HF|(_ & t & HF)]; [discriminate|].
    destruct t as [|[|t]]; cbn in HF; try discriminate.
  - cbn in T'. discriminate.
Qed.

Print Assumptions vtso_linearizable.
Print Assumptions vtso_no_loss_no_dup.
Print Assumptions vtso_alone_exact.
Print Assumptions vtso_never_blocks.
Print Assumptions vtso_relaxed_refuted.
