(** C56: memory handed to and made by the distributed runtime is released exactly once, after its
    last use, by the right means. *)
From Coq Require Import List Arith Bool Lia.
From Verif Require Import Base MsgModel MsgSpec MsgProofs MsgProofs2.
Import ListNotations.

Section Props.
  Variables T limit : nat.
  Variable batch1 : bool.
  Notation step := (step T limit batch1).

  Lemma all_answers : forall l, Forall (answers (fun _ => True)) l.
  Proof. intros l. apply Forall_forall. intros x _. destruct x; exact I. Qed.

  (** In every execution nothing is used or released before it exists, after it was released, or
      after it was given to the user; in particular nothing is released twice. *)
  Theorem msg_proper : forall l s, exec step init l = Some s -> proper (log s).
  Proof.
    intros l s E. destruct (reach_inv T limit batch1 (fun _ => True) l s (all_answers l) E) as [f V]. eapply run_proper. apply (v_run _ _ _ _ V).
  Qed.

  (** When no message is travelling, everything that came into being (every payload, every task
      sent) has been released or given to the user. *)
  Theorem msg_no_leak : forall l s, exec step init l = Some s -> quiet s -> forall r, born (log s) r -> ended (log s) r.
  Proof.
    intros l s E Q r B. destruct (reach_inv T limit batch1 (fun _ => True) l s (all_answers l) E) as [f V].
    destruct (run_facts (log s) f (v_run _ _ _ _ V)) as [FB FD]. apply FB in B. apply FD. destruct (f r) eqn:F; auto; [congruence|].
    destruct (v_open _ _ _ _ V r F) as [m O]. specialize (Q m). unfold ownf in O. destruct (at_ s m) as [ | | | |zc| |]; try discriminate; destruct Q.
  Qed.

  (** One message can always be dealt with. *)
  Lemma finish_one : forall s f m, inv T (fun _ => True) s f -> exists l s', exec step s l = Some s' /\
    match at_ s' m with ToSender | ToNode | Held _ => False | _ => True end /\ (forall j, j <> m -> at_ s' j = at_ s j) /\ nextm s' = nextm s.
  Proof.
    intros s f m V. pose proof (v_ctl _ _ _ _ V m) as C. 
    assert (HELD : forall s0 zc, at_ s0 m = Held zc -> exists s', step s0 (Fin m None true) = Some s' /\ at_ s' m = Gone /\ (forall j, j <> m -> at_ s' j = at_ s0 j) /\ nextm s' = nextm s0).
    { intros s0 zc A. cbn [MsgModel.step]. rewrite A. eexists. split; [reflexivity|]. cbn. rewrite fupd_eq. split; auto. split; auto. intros j NE. rewrite !fupd_neq by auto. auto. }
    destruct (at_ s m) as [ | | | |zc| |] eqn:A.
    - exists [], s. simpl. rewrite A. auto.
    - exists [], s. simpl. rewrite A. auto.
    - exists [Xmit m true]. cbn [exec MsgModel.step]. rewrite A. eexists. split; [reflexivity|]. cbn. rewrite fupd_eq. split; auto. split; auto. intros j NE. rewrite !fupd_neq by auto. auto.
    - destruct (size (fields s m)) as [|k] eqn:Z.
      + exists [Eat m true]. cbn [exec MsgModel.step]. rewrite A, Z. cbn [Nat.eqb]. eexists. split; [reflexivity|]. cbn. rewrite fupd_eq. split; auto. split; auto. intros j NE. rewrite !fupd_neq by auto. auto.
      + destruct (data (fields s m)) as [r|] eqn:DM; [|exfalso; specialize (C eq_refl); lia].
        assert (D1 : exists s1, step s (Deser m true) = Some s1 /\ at_ s1 m = Held false /\ (forall j, j <> m -> at_ s1 j = at_ s j) /\ nextm s1 = nextm s).
        { cbn [MsgModel.step]. rewrite A, Z, DM. cbn [Nat.ltb Nat.leb]. eexists. split; [reflexivity|]. cbn. rewrite fupd_eq. split; auto. split; auto. intros j NE. rewrite fupd_neq by auto. auto. }
        destruct D1 as (s1 & E1 & A1 & O1 & N1). destruct (HELD s1 false A1) as (s2 & E2 & A2 & O2 & N2).
        exists [Deser m true; Fin m None true], s2. cbn [exec]. rewrite E1, E2. split; auto. rewrite A2. split; auto. split; [|congruence].
        intros j NE. rewrite O2, O1 by auto. auto.
    - destruct (HELD s zc A) as (s2 & E2 & A2 & O2 & N2). exists [Fin m None true], s2. cbn [exec]. rewrite E2. rewrite A2. auto.
    - exists [], s. simpl. rewrite A. auto.
    - exists [], s. simpl. rewrite A. auto.
  Qed.

  (** From every state the travelling messages can all be dealt with. *)
  Theorem msg_can_drain : forall l s, exec step init l = Some s -> exists l' s', exec step s l' = Some s' /\ quiet s'.
  Proof.
    intros l s E.
    assert (G : forall k, exists l' s', exec step s l' = Some s' /\ nextm s' = nextm s /\
      forall m, m < k -> match at_ s' m with ToSender | ToNode | Held _ => False | _ => True end).
    { induction k as [|k (l1 & s1 & E1 & N1 & Q1)]; [exists [], s; simpl; split; auto; split; auto; lia|].
      assert (E01 : exec step init (l ++ l1) = Some s1) by (apply exec_app; eauto).
      destruct (reach_inv T limit batch1 (fun _ => True) _ s1 (all_answers _) E01) as [f V].
      destruct (finish_one s1 f k V) as (l2 & s2 & E2 & A2 & O2 & N2). exists (l1 ++ l2), s2. split; [apply exec_app; eauto|]. split; [congruence|].
      intros m Hm. destruct (Nat.eq_dec m k) as [EQ|NE]; [subst; auto|]. rewrite O2 by auto. apply Q1. lia. }
    destruct (G (nextm s)) as (l' & s' & E' & N' & Q'). exists l', s'. split; auto. intros m.
    destruct (Nat.lt_ge_cases m (nextm s)) as [L|L]; [apply Q'; auto|].
    assert (E01 : exec step init (l ++ l') = Some s') by (apply exec_app; eauto).
    destruct (reach_inv T limit batch1 (fun _ => True) _ s' (all_answers _) E01) as [f V]. rewrite (v_fresh _ _ _ _ V) by lia. auto.
  Qed.

  (** The serializers in use: one that lends its bytes comes with a hook; a hook is for at most T
      bytes (SINGLE_SEND_SIZE_THRESHOLD). *)
  Definition plain (a : ser) : Prop := (s_copied a = false -> s_cb a = true) /\ (s_cb a = true -> s_size a <= T).

  (** Everything is released by the right means.  Missing: lenders without a hook, hooks for more
      than T bytes (see below). *)
  Theorem msg_right_way_partial : forall l s, Forall (answers plain) l -> exec step init l = Some s ->
    forall r h, In (Done r h) (log s) -> right_way (log s) r h.
  Proof.
    intros l s F E r h H. destruct (reach_inv T limit batch1 plain l s F E) as [f V]. apply (v_way _ _ _ _ V) in H. destruct h as [|o z| |]; simpl in *; auto.
    - destruct H as [B [Q|(a & [A1 A2] & C1 & C2)]]; [auto|]. specialize (A1 C1). congruence.
    - destruct H as (a & [A1 A2] & B & C & [->|L]); auto. specialize (A2 B). lia.
  Qed.
End Props.
Print Assumptions msg_proper.
Print Assumptions msg_no_leak.
Print Assumptions msg_can_drain.
Print Assumptions msg_right_way_partial.

(** Full statements, for any serializer with a hook, and for any serializer. *)
Definition msg_hook_size_claim : Prop := forall T limit batch1 l s,
  Forall (answers (fun a => s_copied a = false -> s_cb a = true)) l -> exec (step T limit batch1) init l = Some s ->
  forall r h, In (Done r h) (log s) -> right_way (log s) r h.
Definition msg_lender_claim : Prop := forall T limit batch1 l s,
  Forall (answers (fun a => s_size a <= T)) l -> exec (step T limit batch1) init l = Some s ->
  forall r h, In (Done r h) (log s) -> right_way (log s) r h.

(** The hook of a payload larger than the threshold is told size 0: the sender overwrites the size
    before it releases the message. *)
Theorem msg_hook_size_refuted : ~ msg_hook_size_claim.
Proof.
  intros C. set (l := [SendTo None (mkSer 5 false (Some 9) true); Xmit 0 true]). specialize (C 3 2 false l).
  assert (X : option_map log (exec (step 3 2 false) init l) = Some [Born (Task 0) (Some 9) true 5; Use (Task 0); Use (Task 0); Done (Task 0) (Hook (Some 9) 0)]) by reflexivity.
  destruct (exec (step 3 2 false) init l) as [s|]; [|discriminate]. injection X as X.
  assert (F : Forall (answers (fun a => s_copied a = false -> s_cb a = true)) l) by (repeat constructor).
  pose proof (C s F eq_refl (Task 0) (Hook (Some 9) 0) ltac:(rewrite X; simpl; auto)) as W. rewrite X in W.
  destruct W as [W|[W|[W|[W|[]]]]]; discriminate.
Qed.
Print Assumptions msg_hook_size_refuted.

(** A serializer that lends its bytes and gives no hook ("optional", ff_ddefines.hpp:59-62) has
    them passed to free(), although they belong to the task. *)
Theorem msg_lender_refuted : ~ msg_lender_claim.
Proof.
  intros C. set (l := [SendTo None (mkSer 1 false None false); Xmit 0 true]). specialize (C 3 2 false l).
  assert (X : option_map log (exec (step 3 2 false) init l) = Some [Born (Task 0) None false 1; Use (Task 0); Use (Task 0); Done (Task 0) Free]) by reflexivity.
  destruct (exec (step 3 2 false) init l) as [s|]; [|discriminate]. injection X as X.
  assert (F : Forall (answers (fun a => s_size a <= 3)) l) by (repeat constructor).
  pose proof (C s F eq_refl (Task 0) Free ltac:(rewrite X; simpl; auto)) as W. rewrite X in W.
  destruct W as [[b W] _]. discriminate.
Qed.
Print Assumptions msg_lender_refuted.

(** A run with every kind of action: a copied value to a fixed destination; a lent one without
    destination that ends in a local queue after being serialised; a message from the pool reused
    for a control message; an arrival kept by the node without copying; a wrapper that reuses it. *)
Definition run_example : list act :=
  [SendTo None (mkSer 4 true None false); Xmit 0 false;
   SendAny (Some 0) (mkSer 2 false (Some 7) true) false [(false, false); (true, false)];
   Ctl (Some 0) true; Xmit 0 false;
   Arrive (Some 0) 6; Deser 0 false; Fin 0 (Some 3) true;
   SendW 3 None (mkSer 2 false (Some 8) true); SendLocal; Xmit 0 false].
Example run_example_ok : exists s, exec (step 3 2 false) init run_example = Some s /\ quiet s /\
  log s = [Born (Task 0) None false 0; Use (Task 0); Born (Blk 0) None false 4; Done (Task 0) Delete; Use (Blk 0); Done (Blk 0) Free;
           Born (Task 1) (Some 7) true 2; Use (Task 1); Done (Task 1) Given;
           Born (Blk 2) None false 6; Use (Blk 2); Done (Blk 2) Given;
           Born (Task 2) (Some 8) true 2; Use (Task 2); Born (Task 3) None false 0; Done (Task 3) Given; Use (Task 2); Done (Task 2) (Hook (Some 8) 2)].
Proof. eexists. split; [vm_compute; reflexivity|]. split; [intros [|m]; exact I|reflexivity]. Qed.
Example run_example_plain : Forall (answers (plain 3)) run_example.
Proof. repeat constructor; simpl; try discriminate; lia. Qed.
