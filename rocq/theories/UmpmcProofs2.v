(** The unbounded MPMC queue: exclusive access to the sub-queues, when pop fails, completion. *)
From Coq Require Import List Arith Lia Bool.
From Verif Require Import Base LinSpec UmpmcModel UmpmcProofs.
Import ListNotations.

Section Proofs.
  Context {A : Type}.
  Variable n : nat.
  Hypothesis Hn : 2 <= n.
  Notation st := (st A). Notation pc := (pc A).

  Lemma umpmc_lin : forall l (s : st), exec (step n) init_st l = Some s ->
    exists q, linearizable None true (tr s) q.
  Proof.
    intros l s E. apply (reach n Hn) in E as (enq & hd & tl & th & I).
    exists (skipn (preadC s) enq), th. apply I.
  Qed.

  Lemma one_producer : forall l (s : st) t t' x x' k k', exec (step n) init_st l = Some s ->
    thr s t = PPush x k -> thr s t' = PPush x' k' -> k mod n = k' mod n -> t = t'.
  Proof.
    intros l s t t' x x' k k' E H H' M. apply (reach n Hn) in E as (enq & hd & tl & th & I).
    apply (push_excl n s enq hd tl th t t' k k' I); auto.
    - rewrite H. reflexivity.
    - rewrite H'. reflexivity.
  Qed.

  Lemma one_consumer : forall l (s : st) t t' k k', exec (step n) init_st l = Some s ->
    thr s t = QPop k -> thr s t' = QPop k' -> k mod n = k' mod n -> t = t'.
  Proof.
    intros l s t t' k k' E H H' M. apply (reach n Hn) in E as (enq & hd & tl & th & I).
    apply (pop_excl n s enq hd tl th t t' k k' I); auto.
    - rewrite H. reflexivity.
    - rewrite H'. reflexivity.
  Qed.

  Lemma subqueue_ready : forall l (s : st) t k, exec (step n) init_st l = Some s ->
    thr s t = QPop k -> buf s (k mod n) <> [].
  Proof.
    intros l s t k E H. apply (reach n Hn) in E as (enq & hd & tl & th & I).
    pose proof (i_tok _ _ _ _ _ _ I t) as K. rewrite H in K. simpl in K. destruct K as (SQ & LT & HD).
    pose proof (i_buf _ _ _ _ _ _ I _ (modlt n Hn k)) as CH.
    pose proof (i_done _ _ _ _ _ _ I k LT) as DN.
    pose proof (i_P _ _ _ _ _ _ I _ (modlt n Hn k)) as (P1 & P2 & P3 & P4 & P5 & P6).
    intros EB. rewrite EB in CH. inversion CH. lia.
  Qed.

  (** Never a failed push. *)
  Lemma push_true : forall l (s : st) t, exec (step n) init_st l = Some s -> ~ In (RetPush t false) (tr s).
  Proof.
    intros l s t E. revert E. apply (exec_inv (step n) (fun s => ~ In (RetPush t false) (tr s))); [|auto].
    clear s. intros s a s' I E. destruct a as [u x|u|u]; simpl in E.
    - destruct (thr s u); try discriminate. injection E as <-. simpl. rewrite in_app_iff. simpl.
      intros [X|[X|[]]]; [auto|discriminate].
    - destruct (thr s u); try discriminate. injection E as <-. simpl. rewrite in_app_iff. simpl.
      intros [X|[X|[]]]; [auto|discriminate].
    - destruct (thr s u) as [|x|x pw|x pw|x pw|pw| |pr|pr|pr|pr|pr v]; try discriminate;
        try (injection E as <-; simpl; rewrite ?in_app_iff; simpl; solve [auto|intros [X|[X|[]]]; [auto|discriminate]]).
      + destruct (pw =? _); injection E as <-; auto.
      + destruct (_ =? pw); injection E as <-; simpl; auto. rewrite in_app_iff. simpl.
        intros [X|[X|[]]]; [auto|discriminate].
      + destruct (pr =? _); injection E as <-; auto.
      + destruct (_ <=? pr); injection E as <-; simpl; auto. rewrite in_app_iff. simpl.
        intros [X|[X|[]]]; [auto|discriminate].
      + destruct (_ =? pr); injection E as <-; simpl; auto. rewrite in_app_iff. simpl.
        intros [X|[X|[]]]; [auto|discriminate].
      + destruct (buf s (pr mod n)); injection E as <-; auto.
  Qed.

  (** Completion. *)
  Inductive fin (t : nat) : nat -> st -> Prop :=
  | fin0 : forall s, thr s t = Rest -> fin t 0 s
  | finS : forall k s s1, step n s (Run t) = Some s1 -> fin t k s1 -> fin t (S k) s.

  Lemma run_other : forall (s : st) t s1 u, step n s (Run t) = Some s1 -> u <> t -> thr s1 u = thr s u.
  Proof.
    intros s t s1 u E N. simpl in E.
    destruct (thr s t) as [|x|x pw|x pw|x pw|pw| |pr|pr|pr|pr|pr v]; try discriminate;
      repeat match type of E with context [if ?b then _ else _] => destruct b end;
      try (destruct (buf s (pr mod n)));
      injection E as <-; simpl; rewrite ?fupd_neq; auto.
  Qed.

  Lemma fin_exec : forall t k (s : st), fin t k s -> exists s', exec (step n) s (repeat (Run t) k) = Some s' /\
    thr s' t = Rest /\ forall u, u <> t -> thr s' u = thr s u.
  Proof.
    induction 1 as [s H|k s s1 E _ (s' & E' & R & O)]; simpl.
    - eauto.
    - exists s'. change (match thr s t with | Rest => _ | _ => _ end) with (step n s (Run t)). rewrite E.
      split; [auto|]. split; [auto|]. intros u N. rewrite O by auto. eapply run_other; eauto.
  Qed.

  Lemma fin_holder : forall (s : st) t k, pushing (thr s t) k \/ popping (thr s t) k -> exists j, j <= 2 /\ fin t j s.
  Proof.
    intros s t k H.
    destruct (thr s t) as [|x|x pw|x pw|x pw|pw| |pr|pr|pr|pr|pr v] eqn:Et; simpl in H;
      try (destruct H; contradiction).
    - exists 2. split; [lia|]. eapply finS; [simpl; rewrite Et; reflexivity|].
      eapply finS; [simpl; rewrite fupd_eq; reflexivity|]. apply fin0. simpl. apply fupd_eq.
    - exists 1. split; [lia|]. eapply finS; [simpl; rewrite Et; reflexivity|].
      apply fin0. simpl. apply fupd_eq.
    - exists 2. split; [lia|]. destruct (buf s (pr mod n)) eqn:EB.
      + eapply finS; [simpl; rewrite Et, EB; reflexivity|].
        eapply finS; [simpl; rewrite fupd_eq; reflexivity|]. apply fin0. simpl. apply fupd_eq.
      + eapply finS; [simpl; rewrite Et, EB; reflexivity|].
        eapply finS; [simpl; rewrite fupd_eq; reflexivity|]. apply fin0. simpl. apply fupd_eq.
    - exists 1. split; [lia|]. eapply finS; [simpl; rewrite Et; reflexivity|].
      apply fin0. simpl. apply fupd_eq.
  Qed.

  (** [t] is the only thread that may hold a ticket. *)
  Definition alone (s : st) (t : nat) : Prop :=
    forall u k, u <> t -> ~ pushing (thr s u) k /\ ~ popping (thr s u) k.

  Lemma alone_step : forall (s : st) t s1, alone s t -> step n s (Run t) = Some s1 -> alone s1 t.
  Proof. intros s t s1 H E u k N. rewrite (run_other _ _ _ _ E N). auto. Qed.

  Lemma freeP : forall (s : st) t, Inv n s -> alone s t -> (forall k, ~ pushing (thr s t) k) ->
    seqP s (preadP s mod n) = preadP s.
  Proof.
    intros s t (enq & hd & tl & th & I) AL N.
    pose proof (i_P _ _ _ _ _ _ I _ (modlt n Hn (preadP s))) as (P1 & P2 & P3 & P4 & P5 & P6).
    apply (mod_same_window n); auto; try lia.
    destruct (Nat.le_gt_cases (preadP s) (seqP s (preadP s mod n))) as [|L]; [auto|].
    destruct (P6 L) as (u & Pu). destruct (Nat.eq_dec u t) as [->|NE]; [destruct (N _ Pu)|].
    destruct (AL u (seqP s (preadP s mod n)) NE). tauto.
  Qed.
  Lemma freeC : forall (s : st) t, Inv n s -> alone s t -> (forall k, ~ popping (thr s t) k) ->
    seqC s (preadC s mod n) = preadC s.
  Proof.
    intros s t (enq & hd & tl & th & I) AL N.
    pose proof (i_C _ _ _ _ _ _ I _ (modlt n Hn (preadC s))) as (P1 & P2 & P3 & P4 & P5).
    apply (mod_same_window n); auto; try lia.
    destruct (Nat.le_gt_cases (preadC s) (seqC s (preadC s mod n))) as [|L]; [auto|].
    destruct (P5 L) as (u & Pu). destruct (Nat.eq_dec u t) as [->|NE]; [destruct (N _ Pu)|].
    destruct (AL u (seqC s (preadC s mod n)) NE). tauto.
  Qed.

  Lemma fin_pload : forall (s : st) t x, Inv n s -> alone s t -> thr s t = PLoad x -> fin t 5 s.
  Proof.
    intros s t x I AL Et.
    assert (Q : seqP s (preadP s mod n) = preadP s) by (apply (freeP s t); auto; rewrite Et; auto).
    eapply finS; [simpl; rewrite Et; reflexivity|].
    eapply finS; [simpl; rewrite fupd_eq, Q, Nat.eqb_refl; reflexivity|].
    eapply finS; [simpl; rewrite fupd_eq, Nat.eqb_refl; reflexivity|].
    eapply finS; [simpl; rewrite fupd_eq; reflexivity|].
    eapply finS; [simpl; rewrite fupd_eq; reflexivity|]. apply fin0. simpl. apply fupd_eq.
  Qed.

  Lemma fin_qcas_ok : forall (s : st) t, thr s t = QCas (preadC s) -> fin t 3 s.
  Proof.
    intros s t Et. eapply finS; [simpl; rewrite Et, Nat.eqb_refl; reflexivity|].
    destruct (buf s (preadC s mod n)) eqn:EB.
    - eapply finS; [simpl; rewrite fupd_eq, EB; reflexivity|].
      eapply finS; [simpl; rewrite fupd_eq; reflexivity|]. apply fin0. simpl. apply fupd_eq.
    - eapply finS; [simpl; rewrite fupd_eq, EB; reflexivity|].
      eapply finS; [simpl; rewrite fupd_eq; reflexivity|]. apply fin0. simpl. apply fupd_eq.
  Qed.

  Lemma fin_qload : forall (s : st) t, Inv n s -> alone s t -> thr s t = QLoad -> exists j, j <= 6 /\ fin t j s.
  Proof.
    intros s t I AL Et.
    assert (Q : seqC s (preadC s mod n) = preadC s) by (apply (freeC s t); auto; rewrite Et; auto).
    destruct (seqP s (preadC s mod n) <=? preadC s) eqn:B.
    - exists 3. split; [lia|]. eapply finS; [simpl; rewrite Et; reflexivity|].
      eapply finS; [simpl; rewrite fupd_eq, Q, Nat.eqb_refl; reflexivity|].
      eapply finS; [simpl; rewrite fupd_eq, B; reflexivity|]. apply fin0. simpl. apply fupd_eq.
    - exists 6. split; [lia|]. eapply finS; [simpl; rewrite Et; reflexivity|].
      eapply finS; [simpl; rewrite fupd_eq, Q, Nat.eqb_refl; reflexivity|].
      eapply finS; [simpl; rewrite fupd_eq, B; reflexivity|]. apply fin_qcas_ok. simpl. apply fupd_eq.
  Qed.

  Lemma fin_alone : forall (s : st) t, Inv n s -> alone s t -> exists j, j <= 9 /\ fin t j s.
  Proof.
    intros s t I AL.
    assert (UP : forall s1 b, step n s (Run t) = Some s1 -> (exists j, j <= b /\ fin t j s1) ->
                 exists j, j <= S b /\ fin t j s).
    { intros s1 b E (j & L & F). exists (S j). split; [lia|]. eapply finS; eauto. }
    assert (ST : forall s1, step n s (Run t) = Some s1 -> Inv n s1 /\ alone s1 t).
    { intros s1 E. split; [eapply Inv_step; eauto|eapply alone_step; eauto]. }
    destruct (thr s t) as [|x|x pw|x pw|x pw|pw| |pr|pr|pr|pr|pr v] eqn:Et.
    - exists 0. split; [lia|]. apply fin0. auto.
    - exists 5. split; [lia|]. eapply fin_pload; eauto.
    - (* PSeq *) destruct (pw =? seqP s (pw mod n)) eqn:B.
      + assert (E : step n s (Run t) = Some (goto s t (PCas x pw))) by (simpl; rewrite Et, B; reflexivity).
        apply (UP _ 8 E). destruct (ST _ E) as [I1 A1].
        destruct (preadP s =? pw) eqn:C.
        * exists 3. split; [lia|].
          eapply finS; [simpl; rewrite fupd_eq, C; reflexivity|].
          eapply finS; [simpl; rewrite fupd_eq; reflexivity|].
          eapply finS; [simpl; rewrite fupd_eq; reflexivity|]. apply fin0. simpl. apply fupd_eq.
        * assert (E2 : step n (goto s t (PCas x pw)) (Run t) = Some (goto (goto s t (PCas x pw)) t (PLoad x)))
            by (simpl; rewrite fupd_eq, C; reflexivity).
          exists 6. split; [lia|]. eapply finS; [exact E2|]. apply fin_pload with (x := x).
          -- eapply Inv_step; eauto.
          -- eapply alone_step; eauto.
          -- simpl. apply fupd_eq.
      + assert (E : step n s (Run t) = Some (goto s t (PLoad x))) by (simpl; rewrite Et, B; reflexivity).
        apply (UP _ 8 E). destruct (ST _ E) as [I1 A1]. exists 5. split; [lia|].
        apply fin_pload with (x := x); auto. simpl. apply fupd_eq.
    - (* PCas *) destruct (preadP s =? pw) eqn:C.
      + exists 3. split; [lia|].
        eapply finS; [simpl; rewrite Et, C; reflexivity|].
        eapply finS; [simpl; rewrite fupd_eq; reflexivity|].
        eapply finS; [simpl; rewrite fupd_eq; reflexivity|]. apply fin0. simpl. apply fupd_eq.
      + assert (E : step n s (Run t) = Some (goto s t (PLoad x))) by (simpl; rewrite Et, C; reflexivity).
        apply (UP _ 8 E). destruct (ST _ E) as [I1 A1]. exists 5. split; [lia|].
        apply fin_pload with (x := x); auto. simpl. apply fupd_eq.
    - destruct (fin_holder s t pw) as (j & L & F); [rewrite Et; simpl; auto|]. exists j. split; [lia|auto].
    - destruct (fin_holder s t pw) as (j & L & F); [rewrite Et; simpl; auto|]. exists j. split; [lia|auto].
    - destruct (fin_qload s t I AL Et) as (j & L & F). exists j. split; [lia|auto].
    - (* QSeq *) destruct (pr =? seqC s (pr mod n)) eqn:B.
      + assert (E : step n s (Run t) = Some (goto s t (QChk pr))) by (simpl; rewrite Et, B; reflexivity).
        apply (UP _ 8 E). destruct (ST _ E) as [I1 A1].
        destruct (seqP s (pr mod n) <=? pr) eqn:C.
        * exists 1. split; [lia|]. eapply finS; [simpl; rewrite fupd_eq, C; reflexivity|].
          apply fin0. simpl. apply fupd_eq.
        * destruct (Nat.eqb_spec (preadC s) pr) as [D|D].
          -- exists 4. split; [lia|]. eapply finS; [simpl; rewrite fupd_eq, C; reflexivity|].
             apply fin_qcas_ok. simpl. rewrite D. apply fupd_eq.
          -- apply Nat.eqb_neq in D.
             set (s1 := goto s t (QChk pr)) in *. set (s2 := goto s1 t (QCas pr)).
             assert (E2 : step n s1 (Run t) = Some s2) by (simpl; rewrite fupd_eq, C; reflexivity).
             set (s3 := goto s2 t QLoad).
             assert (E3 : step n s2 (Run t) = Some s3) by (simpl; rewrite fupd_eq, D; reflexivity).
             assert (I3 : Inv n s3) by (eapply Inv_step; [auto| |exact E3]; eapply Inv_step; eauto).
             assert (A3 : alone s3 t) by (eapply alone_step; [|exact E3]; eapply alone_step; eauto).
             destruct (fin_qload s3 t I3 A3) as (j & L & F); [simpl; apply fupd_eq|].
             exists (S (S j)). split; [lia|]. eapply finS; [exact E2|]. eapply finS; [exact E3|]. auto.
      + assert (E : step n s (Run t) = Some (goto s t QLoad)) by (simpl; rewrite Et, B; reflexivity).
        apply (UP _ 8 E). destruct (ST _ E) as [I1 A1].
        destruct (fin_qload _ t I1 A1) as (j & L & F); [simpl; apply fupd_eq|]. exists j. split; [lia|auto].
    - (* QChk *) destruct (seqP s (pr mod n) <=? pr) eqn:C.
      + exists 1. split; [lia|]. eapply finS; [simpl; rewrite Et, C; reflexivity|].
        apply fin0. simpl. apply fupd_eq.
      + destruct (Nat.eqb_spec (preadC s) pr) as [D|D].
        * exists 4. split; [lia|]. eapply finS; [simpl; rewrite Et, C; reflexivity|].
          apply fin_qcas_ok. simpl. rewrite D. apply fupd_eq.
        * apply Nat.eqb_neq in D. set (s2 := goto s t (QCas pr)).
          assert (E2 : step n s (Run t) = Some s2) by (simpl; rewrite Et, C; reflexivity).
          set (s3 := goto s2 t QLoad).
          assert (E3 : step n s2 (Run t) = Some s3) by (simpl; rewrite fupd_eq, D; reflexivity).
          assert (I3 : Inv n s3) by (eapply Inv_step; [auto| |exact E3]; eapply Inv_step; eauto).
          assert (A3 : alone s3 t) by (eapply alone_step; [|exact E3]; eapply alone_step; eauto).
          destruct (fin_qload s3 t I3 A3) as (j & L & F); [simpl; apply fupd_eq|].
          exists (S (S j)). split; [lia|]. eapply finS; [exact E2|]. eapply finS; [exact E3|]. auto.
    - (* QCas *) destruct (Nat.eqb_spec (preadC s) pr) as [D|D].
      + exists 3. split; [lia|]. apply fin_qcas_ok. rewrite D. auto.
      + apply Nat.eqb_neq in D.
        assert (E : step n s (Run t) = Some (goto s t QLoad)) by (simpl; rewrite Et, D; reflexivity).
        apply (UP _ 8 E). destruct (ST _ E) as [I1 A1].
        destruct (fin_qload _ t I1 A1) as (j & L & F); [simpl; apply fupd_eq|]. exists j. split; [lia|auto].
    - destruct (fin_holder s t pr) as (j & L & F); [rewrite Et; simpl; auto|]. exists j. split; [lia|auto].
    - destruct (fin_holder s t pr) as (j & L & F); [rewrite Et; simpl; auto|]. exists j. split; [lia|auto].
  Qed.

  Lemma solo : forall l (s : st) t, exec (step n) init_st l = Some s ->
    (forall u, u <> t -> thr s u = Rest) ->
    exists k s', k <= 9 /\ exec (step n) s (repeat (Run t) k) = Some s' /\ thr s' t = Rest.
  Proof.
    intros l s t E H. apply (reach n Hn) in E.
    destruct (fin_alone s t E) as (j & L & F).
    { intros u k N. rewrite H by auto. simpl. tauto. }
    destruct (fin_exec _ _ _ F) as (s' & X & Y & _). eauto.
  Qed.

  (** Everybody can finish. *)
  Lemma bounded_threads : forall l (s : st), exec (step n) init_st l = Some s ->
    exists m, forall t, m <= t -> thr s t = Rest.
  Proof.
    intros l s. apply (exec_inv (step n) (fun s => exists m, forall t, m <= t -> thr s t = Rest)).
    - clear s. intros s a s' (m & H) E. destruct a as [u x|u|u].
      + simpl in E. destruct (thr s u) eqn:Eu; try discriminate. injection E as <-. exists (max m (S u)).
        intros t L. simpl. rewrite fupd_neq by lia. apply H. lia.
      + simpl in E. destruct (thr s u) eqn:Eu; try discriminate. injection E as <-. exists (max m (S u)).
        intros t L. simpl. rewrite fupd_neq by lia. apply H. lia.
      + exists (max m (S u)). intros t L. rewrite (run_other _ _ _ t E) by lia. apply H. lia.
    - exists 0. reflexivity.
  Qed.

  (** A step inside an operation, as opposed to a new call. *)
  Definition is_run (a : act A) : Prop := exists t, a = Run t.
  Lemma runs : forall t k, Forall is_run (repeat (Run t) k).
  Proof. intros. apply Forall_forall. intros a X. apply repeat_spec in X. exists t. auto. Qed.

  Definition holds (p : pc) : bool :=
    match p with PPush _ _ | PPub _ | QPop _ | QRel _ _ => true | _ => false end.

  Lemma drain : forall m (s : st), Inv n s -> (forall t, m <= t -> holds (thr s t) = false) ->
    exists l s', exec (step n) s l = Some s' /\ Forall is_run l /\ Inv n s' /\ (forall t, holds (thr s' t) = false) /\
      (forall t, thr s t = Rest -> thr s' t = Rest).
  Proof.
    induction m as [|m IH]; intros s I H.
    - exists [], s. simpl. repeat split; auto. intros. apply H. lia.
    - destruct (holds (thr s m)) eqn:B.
      + assert (exists j, j <= 2 /\ fin m j s) as (j & _ & F).
        { destruct (thr s m) as [|x|x pw|x pw|x pw|pw| |pr|pr|pr|pr|pr v] eqn:Em; simpl in B; try discriminate.
          - apply (fin_holder s m pw). rewrite Em. simpl. auto.
          - apply (fin_holder s m pw). rewrite Em. simpl. auto.
          - apply (fin_holder s m pr). rewrite Em. simpl. auto.
          - apply (fin_holder s m pr). rewrite Em. simpl. auto. }
        destruct (fin_exec _ _ _ F) as (s1 & E1 & R1 & O1).
        assert (I1 : Inv n s1) by (eapply (exec_inv (step n) (Inv n)); eauto using Inv_step).
        destruct (IH s1 I1) as (l & s' & E & FR & I' & H' & R').
        { intros t L. destruct (Nat.eq_dec t m) as [->|N]; [rewrite R1; reflexivity|].
          rewrite O1 by auto. apply H. lia. }
        exists (repeat (Run m) j ++ l), s'. split; [apply exec_app; eauto|]. split; [apply Forall_app; auto using runs|]. split; [auto|]. split; [auto|].
        intros t Rt. apply R'. destruct (Nat.eq_dec t m) as [->|N]; [auto|]. rewrite O1; auto.
      + apply IH; auto. intros t L. destruct (Nat.eq_dec t m) as [->|N]; [auto|]. apply H. lia.
  Qed.

  Lemma finish_all : forall m (s : st), Inv n s -> (forall t, holds (thr s t) = false) ->
    (forall t, m <= t -> thr s t = Rest) ->
    exists l s', exec (step n) s l = Some s' /\ Forall is_run l /\ forall t, thr s' t = Rest.
  Proof.
    induction m as [|m IH]; intros s I NH H.
    - exists [], s. simpl. repeat split; auto. intros. apply H. lia.
    - destruct (fin_alone s m I) as (j & _ & F).
      { intros u k N. specialize (NH u). destruct (thr s u); simpl in *; try discriminate; tauto. }
      destruct (fin_exec _ _ _ F) as (s1 & E1 & R1 & O1).
      assert (I1 : Inv n s1) by (eapply (exec_inv (step n) (Inv n)); eauto using Inv_step).
      destruct (IH s1 I1) as (l & s' & E & FR & H').
      { intros t. destruct (Nat.eq_dec t m) as [->|N]; [rewrite R1; reflexivity|]. rewrite O1 by auto. auto. }
      { intros t L. destruct (Nat.eq_dec t m) as [->|N]; [auto|]. rewrite O1 by auto. apply H. lia. }
      exists (repeat (Run m) j ++ l), s'. split; [apply exec_app; eauto|]. split; [apply Forall_app; auto using runs|auto].
  Qed.

  Lemma can_complete : forall l (s : st), exec (step n) init_st l = Some s ->
    exists l' s', exec (step n) s l' = Some s' /\ Forall is_run l' /\ (forall t, thr s' t = Rest).
  Proof.
    intros l s E. destruct (bounded_threads l s E) as (m & H). apply (reach n Hn) in E.
    destruct (drain m s E) as (l1 & s1 & E1 & F1 & I1 & H1 & R1).
    { intros t L. rewrite H by auto. reflexivity. }
    destruct (finish_all m s1 I1 H1) as (l2 & s2 & E2 & F2 & H2); [auto|].
    exists (l1 ++ l2), s2. split; [apply exec_app; eauto|]. split; [apply Forall_app; auto|auto].
  Qed.
End Proofs.
