(** C14: the barriers.  [P] is the list of the ids of the participating threads. *)
From Coq Require Import List Arith Bool Lia.
From Verif Require Import Base BarrierModel BarrierProofs.
Import ListNotations.

(** The state in which a set of threads starts using a spin barrier: barrierSetup was called with their
    number, which differs from the number in force, while none of them was inside.  The rest of the state
    is whatever earlier use, or the constructor, left. *)
Definition started (P : list nat) (s : sb) : Prop :=
  NoDup P /\ P <> [] /\
  exists old, length P <> nb old /\ (forall t, In t P -> bp old t = BOut) /\ s = setup old (length P).

(** Nobody leaves its k-th call before everybody has entered its k-th call. *)
Theorem spin_barrier_separates_rounds : forall P s0 l s,
  started P s0 -> Forall (fun a => In (btid a) P) l -> exec bstep s0 l = Some s ->
  forall t u, In t P -> In u P -> lft s t <= ent s u.
Proof.
  intros P s0 l s (ND & NE & old & N & O & ->) F E t u Ht Hu.
  destruct (BI_exec P ND l _ _ 0 NE (BI_setup P ND old NE N O) F E) as (R & I). eapply BI_bounds; eauto.
Qed.

(** A call is entered once and left at most once, so [ent] and [lft] differ by one exactly inside. *)
Theorem spin_barrier_call_count : forall P s0 l s,
  started P s0 -> Forall (fun a => In (btid a) P) l -> exec bstep s0 l = Some s ->
  forall t, In t P -> ent s t = lft s t + (match bp s t with BOut => 0 | _ => 1 end).
Proof.
  intros P s0 l s (ND & NE & old & N & O & ->) F E t Ht.
  destruct (BI_exec P ND l _ _ 0 NE (BI_setup P ND old NE N O) F E) as (R & I).
  destruct (bi_thr _ _ _ I t Ht) as (_ & A). destruct (bp s t); lia.
Qed.

(** No deadlock: whenever a thread is inside, either some thread inside has a step that changes the state,
    or some participant is outside and has entered fewer calls than the waiting thread. *)
Theorem spin_barrier_progress : forall P s0 l s,
  started P s0 -> Forall (fun a => In (btid a) P) l -> exec bstep s0 l = Some s ->
  forall t, In t P -> bp s t <> BOut ->
    (exists u s', In u P /\ bstep s (BStep u) = Some s' /\ bp s' u <> bp s u) \/
    (exists u, In u P /\ bp s u = BOut /\ ent s u < ent s t).
Proof.
  intros P s0 l s (ND & NE & old & N & O & ->) F E t Ht Bt.
  destruct (BI_exec P ND l _ _ 0 NE (BI_setup P ND old NE N O) F E) as (R & I).
  destruct (bi_thr _ _ _ I t Ht) as (At & Et).
  destruct (bp s t) eqn:Pt; [congruence| | |].
  - left. exists t. eexists. split; [exact Ht|]. cbn [bstep]. rewrite Pt. split; [reflexivity|].
    cbn [bp]. rewrite fupd_eq. destruct (nb s =? S (B s (arr s t))); discriminate.
  - left. exists t. eexists. split; [exact Ht|]. cbn [bstep]. rewrite Pt. split; [reflexivity|].
    unfold leave; cbn [bp]. rewrite fupd_eq. discriminate.
  - destruct Et as [(Et & Lt)|(Et & Lt)].
    + (* the current round: some participant has not counted itself, or one is about to reset *)
      destruct (Nat.eq_dec (cnt (here s (S R)) P) (length P)) as [Q|Q].
      * destruct (bi_full _ _ _ I Q) as (u & Hu & Pu). left. exists u. eexists. split; [exact Hu|].
        cbn [bstep]. rewrite Pu. split; [reflexivity|]. unfold leave; cbn [bp]. rewrite fupd_eq. discriminate.
      * assert (K : exists u, In u P /\ here s (S R) u = false).
        { destruct (existsb (fun u => negb (here s (S R) u)) P) eqn:X.
          - apply existsb_exists in X as (u & Hu & K). exists u. split; [exact Hu|]. apply negb_true_iff. exact K.
          - exfalso. apply Q. apply cnt_all. intros u Hu. destruct (here s (S R) u) eqn:K; [reflexivity|].
            assert (Y : existsb (fun u => negb (here s (S R) u)) P = true).
            { apply existsb_exists. exists u. rewrite K. auto. }
            congruence. }
        destruct K as (u & Hu & K). destruct (bi_thr _ _ _ I u Hu) as (Au & Eu). unfold here in K.
        destruct (bp s u) eqn:Pu.
        -- right. exists u. repeat split; auto. lia.
        -- left. exists u. eexists. split; [exact Hu|]. cbn [bstep]. rewrite Pu. split; [reflexivity|].
           cbn [bp]. rewrite fupd_eq. destruct (nb s =? S (B s (arr s u))); discriminate.
        -- destruct Eu as (Eu & _). rewrite Eu, Nat.eqb_refl in K. discriminate.
        -- destruct Eu as [(Eu & _)|(Eu & Lu)]; [rewrite Eu, Nat.eqb_refl in K; discriminate|].
           left. exists u. eexists. split; [exact Hu|]. cbn [bstep]. rewrite Pu, Au, Eu, (bi_old _ _ _ I).
           split; [reflexivity|]. unfold leave; cbn [bp]. rewrite fupd_eq. discriminate.
    + left. exists t. eexists. split; [exact Ht|]. cbn [bstep]. rewrite Pt, At, Et, (bi_old _ _ _ I).
      split; [reflexivity|]. unfold leave; cbn [bp]. rewrite fupd_eq. discriminate.
Qed.

(** Nobody is trapped either: once every participant has entered its k-th call and that round is over for one of
    them, each other thread still in its k-th call leaves with its next read of the counter. *)
Theorem spin_barrier_release_is_seen : forall P s0 l s,
  started P s0 -> Forall (fun a => In (btid a) P) l -> exec bstep s0 l = Some s ->
  forall t u, In t P -> In u P -> lft s t < lft s u ->
    exists s', bstep s (BStep t) = Some s' /\ bp s' t = BOut /\ lft s' t = lft s u.
Proof.
  intros P s0 l s (ND & NE & old & N & O & ->) F E t u Ht Hu L.
  destruct (BI_exec P ND l _ _ 0 NE (BI_setup P ND old NE N O) F E) as (R & I).
  destruct (bi_thr _ _ _ I t Ht) as (At & Et). destruct (bi_thr _ _ _ I u Hu) as (Au & Eu).
  assert (Q : bp s t = BSpin /\ ent s t = R /\ S (lft s t) = R /\ lft s u = R).
  { destruct (bp s t), (bp s u); try lia; repeat split; lia. }
  destruct Q as (Pt & E1 & E2 & E3).
  eexists. cbn [bstep]. rewrite Pt, At, E1, (bi_old _ _ _ I). split; [reflexivity|].
  unfold leave; cbn. rewrite !fupd_eq. split; [reflexivity|lia].
Qed.

(** Two complete rounds of three threads, the first to leave being already in the next round. *)
Example spin_barrier_two_rounds :
  let P := [0; 4; 7] in
  started P (setup (sb_new (fun _ => true) (fun _ => 9)) 3) /\
  option_map (fun s => (map (ent s) P, map (lft s) P, map (bp s) P))
    (exec bstep (setup (sb_new (fun _ => true) (fun _ => 9)) 3)
       [BCall 0; BStep 0; BCall 4; BStep 4; BStep 0; BCall 7; BStep 7; BStep 7; BCall 7; BStep 7; BStep 0;
        BCall 0; BStep 0; BStep 0; BStep 4])
  = Some ([2; 1; 2], [1; 1; 1], [BSpin; BOut; BSpin]).
Proof.
  split; [|reflexivity]. split; [repeat constructor; cbn; intuition lia|]. split; [discriminate|].
  exists (sb_new (fun _ => true) (fun _ => 9)). split; [cbn; lia|]. split; [reflexivity|reflexivity].
Qed.

(** Finding.  The claim for every set of participants whose number was passed to barrierSetup, even when
    it equals the number already in force. *)
Definition spin_barrier_resetup_claim : Prop :=
  forall P old s l, NoDup P -> P <> [] -> (forall t, bp old t = BOut) ->
    (exists j b l0, exec bstep (setup (sb_new j b) (length P)) l0 = Some old) ->
    Forall (fun a => In (btid a) P) l -> exec bstep (setup old (length P)) l = Some s ->
    forall t, In t P -> bp s t <> BOut ->
      (exists u s', In u P /\ bstep s (BStep u) = Some s' /\ bp s' u <> bp s u) \/
      (exists u, In u P /\ bp s u = BOut /\ ent s u < ent s t).

Definition rs_old : option sb :=
  exec bstep (setup (sb_new (fun _ => false) (fun _ => 0)) 2)
       [BCall 0; BCall 1; BStep 0; BStep 1; BStep 1; BStep 0].

(** After one round of threads 0 and 1, barrierSetup(2) does nothing, and threads 1 and 2 then wait on
    different counters for ever. *)
Theorem spin_barrier_resetup_refuted : ~ spin_barrier_resetup_claim.
Proof.
  intros C. destruct rs_old as [old|] eqn:E; [|discriminate].
  assert (E0 := E). unfold rs_old in E0.
  destruct (exec bstep (setup old 2) [BCall 1; BCall 2; BStep 1; BStep 2]) as [s|] eqn:X;
    [|vm_compute in E; injection E as <-; discriminate].
  assert (K := C [1; 2] old s [BCall 1; BCall 2; BStep 1; BStep 2]).
  vm_compute in E. injection E as <-.
  assert (H1 : NoDup [1; 2]) by (repeat constructor; cbn; intuition lia).
  assert (H2 : [1; 2] <> []) by discriminate.
  specialize (K H1 H2).
  match type of K with (forall t, bp ?o t = _) -> _ => assert (H3 : forall t, bp o t = BOut) end.
  { intros t. cbn. destruct t as [|[|t]]; reflexivity. }
  specialize (K H3 (ex_intro _ _ (ex_intro _ _ (ex_intro _ _ E0)))).
  specialize (K ltac:(repeat (apply Forall_cons; [cbn; auto|]); apply Forall_nil) X). clear E0.
  vm_compute in X. injection X as <-.
  specialize (K 1 ltac:(cbn; auto)). cbn in K. specialize (K ltac:(discriminate)).
  destruct K as [(u & s' & Hu & Q & D)|(u & Hu & Q & _)].
  - destruct Hu as [<-|[<-|[]]]; cbn in Q; injection Q as <-; cbn in D; congruence.
  - destruct Hu as [<-|[<-|[]]]; cbn in Q; discriminate.
Qed.

(** ** The barrier made of a mutex and a condition variable *)

(** Full statement: nobody leaves its k-th call before everybody has entered its k-th call. *)
Definition cond_barrier_claim : Prop :=
  forall P l s, NoDup P -> P <> [] -> Forall (fun a => In (mtid a) P) l ->
    exec mstep (mb_init (length P)) l = Some s ->
    forall t u, In t P -> In u P -> mlft s t <= ment s u.

(** Finding: a spurious wakeup, which POSIX allows, lets a thread through. *)
Theorem cond_barrier_refuted : ~ cond_barrier_claim.
Proof.
  intros C. assert (K := C [0; 1] [MCall 0; MSpurious 0; MResume 0]).
  destruct (exec mstep (mb_init 2) [MCall 0; MSpurious 0; MResume 0]) as [s|] eqn:X; [|discriminate].
  assert (H := K s ltac:(repeat constructor; cbn; intuition lia) ltac:(discriminate)
                   ltac:(repeat (apply Forall_cons; [cbn; auto|]); apply Forall_nil) X 0 1 ltac:(cbn; auto) ltac:(cbn; auto)).
  vm_compute in X. injection X as <-. vm_compute in H. lia.
Qed.

(** It holds in the executions without spurious wakeups. *)
Theorem cond_barrier_separates_rounds_partial : forall P l s, NoDup P -> P <> [] ->
  Forall (fun a => In (mtid a) P /\ forall t, a <> MSpurious t) l ->
  exec mstep (mb_init (length P)) l = Some s ->
  forall t u, In t P -> In u P -> mlft s t <= ment s u.
Proof.
  intros P l s ND NE F E t u Ht Hu.
  destruct (MI_exec P ND l _ _ 0 (MI_init P ND NE) F E) as (R & I).
  assert (A := mi_thr _ _ _ I t Ht). assert (D := mi_thr _ _ _ I u Hu). unfold mthr in *.
  destruct (mp s t), (mp s u); lia.
Qed.

(** Without spurious wakeups a blocked thread is blocked because a participant is missing; the others can go on. *)
Theorem cond_barrier_progress_partial : forall P l s, NoDup P -> P <> [] ->
  Forall (fun a => In (mtid a) P /\ forall t, a <> MSpurious t) l ->
  exec mstep (mb_init (length P)) l = Some s ->
  forall t, In t P -> mp s t = MWait ->
    exists u, In u P /\ ((mp s u = MOut /\ ment s u < ment s t) \/ mp s u = MWoken).
Proof.
  intros P l s ND NE F E t Ht W.
  destruct (MI_exec P ND l _ _ 0 (MI_init P ND NE) F E) as (R & I).
  assert (L := mi_lt _ _ _ I). rewrite (mi_cnt _ _ _ I) in L.
  assert (K : exists u, In u P /\ waits (mp s u) = false).
  { destruct (existsb (fun u => negb (waits (mp s u))) P) eqn:X.
    - apply existsb_exists in X as (u & Hu & K). exists u. split; [exact Hu|]. apply negb_true_iff. exact K.
    - exfalso. assert (Z : cnt (fun u => waits (mp s u)) P = length P); [|lia].
      apply cnt_all. intros u Hu. destruct (waits (mp s u)) eqn:K; [reflexivity|].
      assert (Y : existsb (fun u => negb (waits (mp s u))) P = true).
      { apply existsb_exists. exists u. rewrite K. auto. }
      congruence. }
  destruct K as (u & Hu & K). exists u. split; [exact Hu|].
  assert (A := mi_thr _ _ _ I t Ht). assert (D := mi_thr _ _ _ I u Hu). unfold mthr in *. rewrite W in A.
  destruct (mp s u); [left; split; [reflexivity|lia]|discriminate|right; reflexivity].
Qed.

Example cond_barrier_two_rounds :
  option_map (fun s => (map (ment s) [0; 1], map (mlft s) [0; 1], map (mp s) [0; 1]))
    (exec mstep (mb_init 2) [MCall 0; MCall 1; MCall 1; MResume 0; MCall 0])
  = Some ([2; 2], [2; 1], [MOut; MWoken]).
Proof. reflexivity. Qed.

Print Assumptions spin_barrier_separates_rounds.
Print Assumptions spin_barrier_call_count.
Print Assumptions spin_barrier_progress.
Print Assumptions spin_barrier_release_is_seen.
Print Assumptions spin_barrier_resetup_refuted.
Print Assumptions cond_barrier_refuted.
Print Assumptions cond_barrier_separates_rounds_partial.
Print Assumptions cond_barrier_progress_partial.
