(** Consequences of linearizability that do not mention linearization points. *)
From Coq Require Import List Arith Lia Permutation.
From Verif Require Import Base LinSpec.
Import ListNotations.

Section Facts.
  Context {A : Type}.
  Variables (cap : option nat) (relaxed : bool).

  Lemma returned_snoc : forall (l : list (ev A)) e, returned (l ++ [e]) = returned l ++ returned [e].
  Proof. intros. unfold returned. rewrite flat_map_app. reflexivity. Qed.

  Lemma pushed_snoc : forall (l : list (ev A)) e,
    pushed (l ++ [e]) = snd (pstep (fold_left pstep l (fun _ => None, [])) e).
  Proof. intros. unfold pushed. rewrite fold_left_app. reflexivity. Qed.

  (** What a history says about values: those taken out, those held by pops in progress, and the
      argument of each push in progress. *)
  Definition values (l : list (ev A)) (q : list A) (th : nat -> status A) : Prop :=
    exists taken pend,
      pushed l = taken ++ q /\
      NoDup (map fst pend) /\ (forall t v, In (t, v) pend <-> th t = DidPop v) /\
      Permutation taken (returned l ++ map snd pend) /\
      (forall t x, th t = WantPush x -> fst (fold_left pstep l (fun _ => None, [])) t = Some x).

  Lemma values_nil : values [] [] (fun _ => Idle).
  Proof. exists [], []. simpl. repeat split; auto; try constructor; try tauto; try discriminate. Qed.

  Lemma values_step : forall l q1 th1 e q2 th2, values l q1 th1 -> lin cap relaxed q1 th1 e q2 th2 ->
    values (l ++ [e]) q2 th2.
  Proof.
    intros l q1 th1 e q2 th2 (taken & pend & P1 & P2 & P3 & P4 & P5) L. unfold values.
    assert (KEEP : forall t u, (forall v, th1 t <> DidPop v) -> (forall v, u <> DidPop v) ->
              forall t0 v, In (t0, v) pend <-> fupd th1 t u t0 = DidPop v).
    { intros t u N1 N2 t0 v. rewrite P3. destruct (Nat.eq_dec t0 t) as [->|N].
      - rewrite fupd_eq. split; intros X; [destruct (N1 _ X)|destruct (N2 _ X)].
      - rewrite fupd_neq by auto. tauto. }
    assert (KP5 : forall t u, (forall x, u <> WantPush x) -> forall t0 x, fupd th1 t u t0 = WantPush x ->
              fst (fold_left pstep l (fun _ => None, [])) t0 = Some x).
    { intros t u N t0 x. destruct (Nat.eq_dec t0 t) as [->|Nt].
      - rewrite fupd_eq. intros X. destruct (N _ X).
      - rewrite fupd_neq by auto. apply P5. }
    inversion L as [q0 th0 t x T|q0 th0 t x T HR|q0 th0 t T|q0 th0 t x T HF|q0 th0 t T|q0 th0 t v T|q0 th0 t v T|q0 th0 t T HF|th0 t T|q0 th0 t T|q0 th0 t v T]; subst;
      rewrite fold_left_app, pushed_snoc, returned_snoc; unfold pushed in P1;
      destruct (fold_left pstep l (fun _ => None, [])) as [cur acc] eqn:EF; simpl in *.
    + exists taken, pend. rewrite app_nil_r. repeat split; auto; try (apply KEEP; [rewrite T|]; discriminate).
      intros t0 y. destruct (Nat.eq_dec t0 t) as [->|N]; [rewrite !fupd_eq; congruence|].
      rewrite !fupd_neq by auto. apply P5.
    + exists taken, pend. rewrite app_nil_r. repeat split; auto; try (apply KEEP; [rewrite T|]; discriminate).
      * rewrite (P5 t x T), P1, app_assoc. reflexivity.
      * apply KP5. discriminate.
    + exists taken, pend. rewrite app_nil_r. repeat split; auto; try (apply KEEP; [rewrite T|]; discriminate).
      apply KP5. discriminate.
    + exists taken, pend. rewrite app_nil_r. repeat split; auto; try (apply KEEP; [rewrite T|]; discriminate).
      apply KP5. discriminate.
    + exists taken, pend. rewrite app_nil_r. repeat split; auto; try (apply KEEP; [rewrite T|]; discriminate).
      apply KP5. discriminate.
    + exists (taken ++ [v]), ((t, v) :: pend). rewrite app_nil_r.
      assert (NI : ~ In t (map fst pend)).
      { intros X. apply in_map_iff in X as ([t' v'] & E & X). simpl in E. subst t'. apply P3 in X. congruence. }
      repeat split.
      * rewrite P1, <- app_assoc. reflexivity.
      * simpl. constructor; auto.
      * intros [X|X].
        -- injection X as <- <-. rewrite fupd_eq. reflexivity.
        -- rewrite fupd_neq; [apply P3; auto|]. intros ->. apply NI. apply in_map_iff. eexists; split; [|eauto]; auto.
      * destruct (Nat.eq_dec t0 t) as [->|N].
        -- rewrite fupd_eq. intros X. injection X as ->. left. reflexivity.
        -- rewrite fupd_neq by auto. intros X. right. apply P3. auto.
      * simpl. rewrite P4. rewrite <- app_assoc. apply Permutation_app_head.
        apply Permutation_sym. apply Permutation_cons_append.
      * apply KP5. discriminate.
    + apply P3 in T as IN. apply in_split in IN as (p1 & p2 & ->).
      exists taken, (p1 ++ p2). rewrite map_app in P2. simpl in P2.
      pose proof (NoDup_remove_1 _ _ _ P2) as ND. pose proof (NoDup_remove_2 _ _ _ P2) as NI.
      rewrite <- map_app in ND, NI. repeat split; auto.
      * intros X. rewrite fupd_neq.
        -- apply P3. apply in_app_or in X as [X|X]; apply in_or_app; simpl; auto.
        -- intros ->. apply NI. apply in_map_iff. eexists; split; [|eauto]; auto.
      * destruct (Nat.eq_dec t0 t) as [->|N]; [rewrite fupd_eq; discriminate|].
        rewrite fupd_neq by auto. intros X. apply P3 in X.
        apply in_app_or in X as [X|[X|X]]; apply in_or_app; auto. congruence.
      * rewrite P4, !map_app. simpl. rewrite <- app_assoc. apply Permutation_app_head.
        simpl. apply Permutation_sym, Permutation_middle.
      * apply KP5. discriminate.
    + exists taken, pend. rewrite app_nil_r. repeat split; auto; try (apply KEEP; [rewrite T|]; discriminate).
      apply KP5. discriminate.
    + exists taken, pend. rewrite (app_nil_r (returned l)).
      assert (T' : forall v, th1 t <> DidPop v) by (intros v E; destruct T; congruence).
      repeat split; auto; try (apply KEEP; [auto|]; discriminate).
      apply KP5. discriminate.
    + exists taken, pend. rewrite app_nil_r. repeat split; auto; try (apply KEEP; [rewrite T|]; discriminate).
      apply KP5. discriminate.
    + exists (taken ++ [v]), ((t, v) :: pend). rewrite app_nil_r.
      assert (NI : ~ In t (map fst pend)).
      { intros X. apply in_map_iff in X as ([t' v'] & E & X). simpl in E. subst t'. apply P3 in X. congruence. }
      repeat split.
      * rewrite P1, <- app_assoc. reflexivity.
      * simpl. constructor; auto.
      * intros [X|X].
        -- injection X as <- <-. rewrite fupd_eq. reflexivity.
        -- rewrite fupd_neq; [apply P3; auto|]. intros ->. apply NI. apply in_map_iff. eexists; split; [|eauto]; auto.
      * destruct (Nat.eq_dec t0 t) as [->|N].
        -- rewrite fupd_eq. intros X. injection X as ->. left. reflexivity.
        -- rewrite fupd_neq by auto. intros X. right. apply P3. auto.
      * simpl. rewrite P4. rewrite <- app_assoc. apply Permutation_app_head.
        apply Permutation_sym. apply Permutation_cons_append.
      * apply KP5. discriminate.
  Qed.

  (** A failed operation changes no value. *)
  Lemma values_fail : forall l q th t e, values l q th ->
    (e = RetPush t false \/ e = RetPop t None) -> (forall v, th t <> DidPop v) ->
    values (l ++ [e]) q (fupd th t Idle).
  Proof.
    intros l q th t e (taken & pend & P1 & P2 & P3 & P4 & P5) E N. exists taken, pend.
    rewrite fold_left_app, pushed_snoc, returned_snoc. unfold pushed in P1.
    destruct (fold_left pstep l (fun _ => None, [])) as [cur acc] eqn:EF. simpl in P1, P5.
    assert (R : returned [e] = []) by (destruct E as [->| ->]; reflexivity).
    assert (S : pstep (cur, acc) e = (cur, acc)) by (destruct E as [->| ->]; reflexivity).
    rewrite R, app_nil_r. cbn [fold_left]. rewrite S. simpl. repeat split; auto.
    - rewrite P3. destruct (Nat.eq_dec t0 t) as [->|Nt]; [rewrite fupd_eq; intros X; destruct (N _ X)|].
      rewrite fupd_neq by auto. auto.
    - destruct (Nat.eq_dec t0 t) as [->|Nt]; [rewrite fupd_eq; discriminate|].
      rewrite fupd_neq by auto. apply P3.
    - intros t0 x. destruct (Nat.eq_dec t0 t) as [->|Nt]; [rewrite fupd_eq; discriminate|].
      rewrite fupd_neq by auto. apply P5.
  Qed.

  Lemma lins_values : forall tr q th, lins cap relaxed (@nil A) (fun _ => Idle) tr q th -> values tr q th.
  Proof.
    intros tr q th H. remember (@nil A) as q0 eqn:Q0. remember (fun _ : nat => @Idle A) as th0 eqn:T0.
    induction H as [|q th l q1 th1 e q2 th2 H IH L]; subst.
    - apply values_nil.
    - eapply values_step; eauto.
  Qed.

  (** Nothing lost, duplicated or invented: the pushed values are those taken out, in FIFO
      order, followed by the current contents; the taken values are exactly those returned by
      pops, plus those of pops that have taken effect but not returned. *)
  Lemma linearizable_values : forall tr (q : list A), linearizable cap relaxed tr q ->
    exists taken inflight, pushed tr = taken ++ q /\ Permutation taken (returned tr ++ inflight).
  Proof.
    intros tr q [th H]. destruct (lins_values tr q th H) as (taken & pend & P1 & _ & _ & P4 & _). eauto.
  Qed.
End Facts.
