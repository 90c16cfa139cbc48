(** Proofs about the data-flow scheduler (MdfModel.v): the dependency graph. *)
From Coq Require Import List Arith Bool Lia ZArith Relations Sorted.
From Verif Require Import Base MdfModel MdfSpec.
Import ListNotations.

(** ** Sums and counts *)
Fixpoint sumf (n : nat) (f : nat -> nat) : nat := match n with 0 => 0 | S n => sumf n f + f n end.

Lemma sumf_ext : forall n f g, (forall i, i < n -> f i = g i) -> sumf n f = sumf n g.
Proof. induction n as [|n IH]; intros f g H; cbn; auto. rewrite (IH f g), H by (auto; lia). auto. Qed.
Lemma sumf_upd : forall n f g j, j < n -> (forall i, i < n -> i <> j -> g i = f i) -> sumf n g + f j = sumf n f + g j.
Proof.
  induction n as [|n IH]; intros f g j L H; [lia|]. cbn [sumf]. destruct (Nat.eq_dec j n) as [->|N].
  - rewrite (sumf_ext n g f) by (intros i Li; apply H; lia). lia.
  - rewrite (H n) by lia. assert (X := IH f g j ltac:(lia) ltac:(intros; apply H; lia)). lia.
Qed.
Lemma sumf_zero : forall n f, (forall i, i < n -> f i = 0) -> sumf n f = 0.
Proof. induction n as [|n IH]; intros f H; cbn; auto. rewrite IH, H by (auto; lia). auto. Qed.
Lemma sumf_pos : forall n f, 0 < sumf n f -> exists i, i < n /\ 0 < f i.
Proof.
  induction n as [|n IH]; intros f H; cbn [sumf] in H; [lia|]. destruct (f n) as [|m] eqn:E.
  - destruct (IH f) as (i & L & X); [lia|]. exists i. split; [lia|auto].
  - exists n. split; lia.
Qed.
Lemma sumf_le : forall n f j, j < n -> f j <= sumf n f.
Proof. induction n as [|n IH]; intros f j L; [lia|]. cbn. destruct (Nat.eq_dec j n) as [->|N]; [lia|]. assert (X := IH f j ltac:(lia)). lia. Qed.
Lemma sumf_add : forall n f g, sumf n (fun i => f i + g i) = sumf n f + sumf n g.
Proof. induction n as [|n IH]; intros f g; cbn; auto. rewrite IH. lia. Qed.

Notation cnt := (count_occ Nat.eq_dec).
Lemma cnt_app : forall l m x, cnt (l ++ m) x = cnt l x + cnt m x.
Proof. intros. apply count_occ_app. Qed.
Lemma cnt_one : forall x y, cnt [x] y = if Nat.eq_dec x y then 1 else 0.
Proof. intros. cbn. destruct (Nat.eq_dec x y); auto. Qed.
Lemma cnt_pos : forall l x, In x l <-> 0 < cnt l x.
Proof. intros l x. rewrite (count_occ_In Nat.eq_dec). lia. Qed.

(** ** The dependency graph *)
Definition pend (T : nat -> option tk) (y : nat) : Prop := exists k, T y = Some k /\ tst k <> Done.
Definition edge (T : nat -> option tk) (y x : nat) : Prop := exists k, T y = Some k /\ tst k <> Done /\ In x (tunb k).
Definition occ (T : nat -> option tk) (x y : nat) : nat :=
  match T y with Some k => if st_done (tst k) then 0 else cnt (tunb k) x | None => 0 end.

Lemma st_done_spec : forall s, st_done s = true <-> s = Done.
Proof. destruct s; cbn; split; congruence. Qed.
Lemma st_done_false : forall s, st_done s = false <-> s <> Done.
Proof. destruct s; cbn; split; congruence. Qed.

Lemma edge_occ : forall T y x, edge T y x <-> 0 < occ T x y.
Proof.
  intros T y x. unfold edge, occ. destruct (T y) as [k|].
  - destruct (st_done (tst k)) eqn:E.
    + apply st_done_spec in E. split; [|lia]. intros (k' & E1 & E2 & _). congruence.
    + apply st_done_false in E. rewrite <- cnt_pos. split; [intros (k' & E1 & _ & H); congruence|eauto].
  - split; [intros (k & X & _); discriminate|lia].
Qed.

Definition indeg T N x := sumf N (occ T x).

Record sinv (T : nat -> option tk) (N : nat) (ids F : list nat) (cur : nat) : Prop := {
  s_ent : forall y k, T y = Some k -> 1 <= y < N;
  s_unb : forall y k x, T y = Some k -> In x (tunb k) -> In x ids;
  s_dum : forall y k, T y = Some k -> tdum k = true -> tst k = Done /\ ~ In y ids;
  s_real : forall y k, T y = Some k -> tdum k = false -> In y ids;
  s_sort : StronglySorted lt ids;
  s_rng : forall y, In y ids -> 1 <= y < N;
  s_fin : forall y, In y ids -> (In y F <-> ~ pend T y);
  s_sub : incl F ids;
  s_nd : NoDup F;
  s_fwd : forall y x, edge T y x -> y < x;
  s_pe : forall y x, edge T y x -> pend T x;
  s_rem : forall x k, T x = Some k -> tst k <> Done -> trem k = Z.of_nat (indeg T N x);
  s_st : forall x k, T x = Some k -> tst k <> Done -> x <> cur -> (tst k = Ready <-> trem k = 0%Z);
  s_cur : cur <> 0 -> (exists k, T cur = Some k /\ tst k = NotReady /\ tdum k = false) /\ forall y, In y ids -> y <= cur }.

(** Tables that differ only in the counter of outputs. *)
Definition same_but_out (k k' : tk) : Prop :=
  tst k' = tst k /\ tdum k' = tdum k /\ trem k' = trem k /\ tunb k' = tunb k.

Lemma upd_some : forall T x f k, T x = Some k -> upd T x f = fupd T x (Some (f k)).
Proof. intros. unfold upd. rewrite H. auto. Qed.

Lemma sinv_out : forall T T' N ids F cur, sinv T N ids F cur ->
  (forall y, match T y with None => T' y = None | Some k => exists k', T' y = Some k' /\ same_but_out k k' end) -> sinv T' N ids F cur.
Proof.
  intros T T' N ids F cur I H.
  assert (B : forall y k', T' y = Some k' -> exists k, T y = Some k /\ same_but_out k k').
  { intros y k' E. specialize (H y). destruct (T y) as [k|]; [|congruence]. destruct H as (k2 & E2 & S). exists k. split; congruence. }
  assert (FW : forall y k, T y = Some k -> exists k', T' y = Some k' /\ same_but_out k k').
  { intros y k E. specialize (H y). rewrite E in H. exact H. }
  assert (PE : forall y, pend T' y <-> pend T y).
  { intros y. split; intros (k & E & N1); [destruct (B _ _ E) as (k2 & E2 & S1 & S2)|destruct (FW _ _ E) as (k2 & E2 & S1 & S2)]; exists k2; split; auto; congruence. }
  assert (ED : forall y x, edge T' y x <-> edge T y x).
  { intros y x. split; intros (k & E & N1 & U); [destruct (B _ _ E) as (k2 & E2 & S1 & S2 & S3 & S4)|destruct (FW _ _ E) as (k2 & E2 & S1 & S2 & S3 & S4)];
      exists k2; repeat split; congruence. }
  assert (OC : forall x y, occ T' x y = occ T x y).
  { intros x y. unfold occ. specialize (H y). destruct (T y) as [k|]; [|rewrite H; auto].
    destruct H as (k2 & E2 & S1 & S2 & S3 & S4). rewrite E2, S1, S4. auto. }
  destruct I. constructor.
  - intros y k E. destruct (B _ _ E) as (k2 & E2 & _). eauto.
  - intros y k x E U. destruct (B _ _ E) as (k2 & E2 & S1 & S2 & S3 & S4). rewrite S4 in U. eauto.
  - intros y k E D. destruct (B _ _ E) as (k2 & E2 & S1 & S2 & S3 & S4). rewrite S1. rewrite S2 in D. eauto.
  - intros y k E D. destruct (B _ _ E) as (k2 & E2 & S1 & S2 & S3 & S4). rewrite S2 in D. eauto.
  - auto.
  - auto.
  - intros y L. rewrite PE. auto.
  - auto.
  - auto.
  - intros y x L. apply ED in L. auto.
  - intros y x L. apply ED in L. apply PE. eauto.
  - intros x k E D. destruct (B _ _ E) as (k2 & E2 & S1 & S2 & S3 & S4). unfold indeg. rewrite (sumf_ext N _ (occ T x)) by auto. rewrite S3. rewrite S1 in D. apply s_rem0; auto.
  - intros x k E D C. destruct (B _ _ E) as (k2 & E2 & S1 & S2 & S3 & S4). rewrite S1, S3. rewrite S1 in D. apply (s_st0 x); auto.
  - intros C. destruct (s_cur0 C) as ((k & E & S & D) & L). split; auto. destruct (FW _ _ E) as (k2 & E2 & S1 & S2 & S3 & S4). exists k2. repeat split; congruence.
Qed.

(** New entries in unblock lists are only [b]; statuses and output counters do not change. *)
Definition grow (b : nat) (T T' : nat -> option tk) : Prop :=
  forall y, match T y with
            | None => T' y = None
            | Some k => exists k', T' y = Some k' /\ tst k' = tst k /\ tdum k' = tdum k /\ tnout k' = tnout k /\
                          (forall x, In x (tunb k) -> In x (tunb k'))
            end.

Lemma grow_refl : forall b T, grow b T T.
Proof. intros b T y. destruct (T y) as [k|]; auto. exists k. auto 10. Qed.
Lemma grow_trans : forall b T1 T2 T3, grow b T1 T2 -> grow b T2 T3 -> grow b T1 T3.
Proof.
  intros b T1 T2 T3 H1 H2 y. specialize (H1 y). specialize (H2 y). destruct (T1 y) as [k|].
  - destruct H1 as (k2 & E2 & A1 & A2 & A3 & A4). rewrite E2 in H2. destruct H2 as (k3 & E3 & B1 & B2 & B3 & B4).
    exists k3. repeat split; try congruence. auto.
  - rewrite H1 in H2. exact H2.
Qed.
Lemma grow_edge : forall b T T' y x, grow b T T' -> edge T y x -> edge T' y x.
Proof.
  intros b T T' y x H (k & E & D & U). specialize (H y). rewrite E in H. destruct H as (k' & E' & A1 & A2 & A3 & A4).
  exists k'. repeat split; auto. congruence.
Qed.
Lemma grow_pend : forall b T T' y, grow b T T' -> (pend T' y <-> pend T y).
Proof.
  intros b T T' y H. specialize (H y). split.
  - intros (k' & E & D). destruct (T y) as [k|] eqn:E2; [|congruence]. destruct H as (k2 & E3 & A1 & _). exists k. split; auto. congruence.
  - intros (k & E & D). rewrite E in H. destruct H as (k2 & E3 & A1 & _). exists k2. split; auto. congruence.
Qed.
Lemma edges_paths : forall (R S : nat -> nat -> Prop), (forall y x, R y x -> S y x) ->
  forall y x, clos_trans nat R y x -> clos_trans nat S y x.
Proof. intros R S H y x P. induction P; [apply t_step; auto|eapply t_trans; eauto]. Qed.

(** *** A dependency of the task being inserted on a pending one *)
Definition link T h b := upd (upd T h (add_unb b)) b (add_rem 1).

Lemma link_spec : forall T h b kh kb, T h = Some kh -> T b = Some kb -> h <> b ->
  forall y, link T h b y = if y =? h then Some (add_unb b kh) else if y =? b then Some (add_rem 1 kb) else T y.
Proof.
  intros T h b kh kb Eh Eb N y. unfold link. rewrite (upd_some T h _ kh Eh).
  rewrite (upd_some _ b _ kb) by (rewrite fupd_neq by auto; auto).
  destruct (y =? h) eqn:A; [apply Nat.eqb_eq in A; subst y; rewrite fupd_neq, fupd_eq by auto; auto|].
  apply Nat.eqb_neq in A. destruct (y =? b) eqn:B.
  - apply Nat.eqb_eq in B. subst y. apply fupd_eq.
  - apply Nat.eqb_neq in B. rewrite !fupd_neq by auto. auto.
Qed.

Lemma sinv_link : forall T N ids F h b, sinv T N ids F b -> b <> 0 -> pend T h -> h <> b ->
  sinv (link T h b) N ids F b /\ grow b T (link T h b) /\ edge (link T h b) h b.
Proof.
  intros T N ids F h b I Hb (kh & Eh & Dh) N0.
  destruct (s_cur _ _ _ _ _ I Hb) as ((kb & Eb & Sb & Db) & MX).
  pose proof (link_spec T h b kh kb Eh Eb N0) as L.
  assert (Rh : In h ids). { destruct (tdum kh) eqn:E; [destruct (s_dum _ _ _ _ _ I h kh Eh E); congruence|eapply s_real; eauto]. }
  assert (Rb : In b ids) by (eapply s_real; eauto).
  assert (LT : h < b) by (specialize (MX h Rh); lia).
  assert (LN : h < N) by (apply (s_rng _ _ _ _ _ I) in Rh; lia).
  assert (OC : forall x y, y <> h -> occ (link T h b) x y = occ T x y).
  { intros x y Ny. unfold occ. rewrite L. rewrite (proj2 (Nat.eqb_neq y h) Ny).
    destruct (y =? b) eqn:E; auto. apply Nat.eqb_eq in E. subst y. rewrite Eb. reflexivity. }
  assert (OH : forall x, occ (link T h b) x h = occ T x h + (if Nat.eq_dec b x then 1 else 0)).
  { intros x. unfold occ. rewrite L, Nat.eqb_refl, Eh. cbn [tst tunb add_unb].
    rewrite (proj2 (st_done_false _) Dh). rewrite cnt_app, cnt_one. reflexivity. }
  assert (ID : forall x, indeg (link T h b) N x = indeg T N x + (if Nat.eq_dec b x then 1 else 0)).
  { intros x. unfold indeg. assert (X := sumf_upd N (occ T x) (occ (link T h b) x) h LN ltac:(intros; apply OC; auto)). rewrite OH in X. lia. }
  assert (PE : forall y, pend (link T h b) y <-> pend T y).
  { intros y. unfold pend. rewrite L. destruct (y =? h) eqn:A; [apply Nat.eqb_eq in A; subst y|destruct (y =? b) eqn:B; [apply Nat.eqb_eq in B; subst y|tauto]].
    - split; intros (k & E & D); eexists; split; eauto; cbn; congruence.
    - split; intros (k & E & D); eexists; split; eauto; cbn; congruence. }
  assert (ED : forall y x, edge (link T h b) y x -> edge T y x \/ (y = h /\ x = b)).
  { intros y x (k & E & D & U). rewrite L in E. destruct (y =? h) eqn:A; [apply Nat.eqb_eq in A; subst y|].
    - injection E as <-. cbn [tunb add_unb] in U. apply in_app_iff in U. destruct U as [U|[<-|[]]]; auto. left. exists kh. auto.
    - left. destruct (y =? b) eqn:B; [apply Nat.eqb_eq in B; subst y|exists k; auto]. injection E as <-. cbn in U. exists kb. repeat split; auto; congruence. }
  split; [|split].
  - destruct I. constructor; auto.
    + intros y k E. rewrite L in E. destruct (y =? h) eqn:A; [apply Nat.eqb_eq in A; subst y; eauto|]. destruct (y =? b) eqn:B; [apply Nat.eqb_eq in B; subst y; eauto|eauto].
    + intros y k x E U. rewrite L in E. destruct (y =? h) eqn:A; [apply Nat.eqb_eq in A; subst y|destruct (y =? b) eqn:B; [apply Nat.eqb_eq in B; subst y|eauto]].
      * injection E as <-. cbn in U. apply in_app_iff in U. destruct U as [U|[<-|[]]]; eauto.
      * injection E as <-. cbn in U. eauto.
    + intros y k E D. rewrite L in E. destruct (y =? h) eqn:A; [apply Nat.eqb_eq in A; subst y|destruct (y =? b) eqn:B; [apply Nat.eqb_eq in B; subst y|eauto]];
        injection E as <-; cbn in *; eauto.
    + intros y k E D. rewrite L in E. destruct (y =? h) eqn:A; [apply Nat.eqb_eq in A; subst y|destruct (y =? b) eqn:B; [apply Nat.eqb_eq in B; subst y|eauto]];
        injection E as <-; cbn in *; eauto.
    + intros y Hy. rewrite PE. auto.
    + intros y x E. apply ED in E. destruct E as [E|[-> ->]]; auto.
    + intros y x E. apply PE. apply ED in E. destruct E as [E|[-> ->]]; [eauto|]. exists kb. split; auto. congruence.
    + intros x k E D. rewrite ID. rewrite L in E. destruct (x =? h) eqn:A; [apply Nat.eqb_eq in A; subst x|destruct (x =? b) eqn:B; [apply Nat.eqb_eq in B; subst x|]].
      * injection E as <-. cbn [trem add_unb]. destruct (Nat.eq_dec b h); [congruence|]. rewrite Nat.add_0_r. eauto.
      * injection E as <-. cbn [trem add_rem]. destruct (Nat.eq_dec b b); [|congruence]. rewrite (s_rem0 b kb) by (auto; congruence). lia.
      * apply Nat.eqb_neq in B. destruct (Nat.eq_dec b x); [congruence|]. rewrite Nat.add_0_r. eauto.
    + intros x k E D C. rewrite L in E. rewrite (proj2 (Nat.eqb_neq x b) C) in E. destruct (x =? h) eqn:A; [apply Nat.eqb_eq in A; subst x|eauto].
      injection E as <-. cbn. eauto.
    + intros _. split; auto. exists (add_rem 1 kb). rewrite L. rewrite (proj2 (Nat.eqb_neq b h)) by auto. rewrite Nat.eqb_refl. auto.
  - intros y. rewrite L. destruct (y =? h) eqn:A; [apply Nat.eqb_eq in A; subst y; rewrite Eh|destruct (y =? b) eqn:B; [apply Nat.eqb_eq in B; subst y; rewrite Eb|]].
    + exists (add_unb b kh). repeat split; auto. intros x U. cbn. apply in_app_iff. auto.
    + exists (add_rem 1 kb). repeat split; auto.
    + destruct (T y) as [k|]; auto. exists k. auto 10.
  - exists (add_unb b kh). rewrite L, Nat.eqb_refl. repeat split; auto. cbn. apply in_app_iff. cbn. auto.
Qed.

(** *** Recording [b] in the list of a task that is already done *)
Lemma sinv_unb_done : forall T N ids F h kh b cur, sinv T N ids F cur -> T h = Some kh -> tst kh = Done -> In b ids ->
  sinv (upd T h (add_unb b)) N ids F cur /\ grow b T (upd T h (add_unb b)).
Proof.
  intros T N ids F h kh b cur I Eh Dh Rb. rewrite (upd_some T h _ kh Eh).
  assert (L : forall y, fupd T h (Some (add_unb b kh)) y = if y =? h then Some (add_unb b kh) else T y) by reflexivity.
  remember (fupd T h (Some (add_unb b kh))) as T' eqn:ET. clear ET.
  assert (OC : forall x y, occ T' x y = occ T x y).
  { intros x y. unfold occ. rewrite L. destruct (y =? h) eqn:A; auto. apply Nat.eqb_eq in A. subst y. rewrite Eh. cbn. rewrite Dh. reflexivity. }
  assert (ED : forall y x, edge T' y x <-> edge T y x) by (intros y x; rewrite !edge_occ, OC; tauto).
  assert (PE : forall y, pend T' y <-> pend T y).
  { intros y. unfold pend. rewrite L. destruct (y =? h) eqn:A; [apply Nat.eqb_eq in A; subst y|tauto].
    split; intros (k & E & D); [injection E as <-; cbn in D; congruence|congruence]. }
  split.
  - destruct I. constructor; auto.
    + intros y k E. rewrite L in E. destruct (y =? h) eqn:A; [apply Nat.eqb_eq in A; subst y; eauto|eauto].
    + intros y k x E U. rewrite L in E. destruct (y =? h) eqn:A; [apply Nat.eqb_eq in A; subst y|eauto].
      injection E as <-. cbn in U. apply in_app_iff in U. destruct U as [U|[<-|[]]]; eauto.
    + intros y k E D. rewrite L in E. destruct (y =? h) eqn:A; [apply Nat.eqb_eq in A; subst y|eauto]. injection E as <-; cbn in *; eauto.
    + intros y k E D. rewrite L in E. destruct (y =? h) eqn:A; [apply Nat.eqb_eq in A; subst y|eauto]. injection E as <-; cbn in *; eauto.
    + intros y Hy. rewrite PE. auto.
    + intros y x E. apply ED in E. auto.
    + intros y x E. apply ED in E. apply PE. eauto.
    + intros x k E D. unfold indeg. rewrite (sumf_ext N _ (occ T x)) by auto.
      rewrite L in E. destruct (x =? h) eqn:A; [apply Nat.eqb_eq in A; subst x; injection E as <-; cbn in D; congruence|apply s_rem0; auto].
    + intros x k E D C. rewrite L in E. destruct (x =? h) eqn:A; [apply Nat.eqb_eq in A; subst x; injection E as <-; cbn in D; congruence|eauto].
    + intros C. destruct (s_cur0 C) as ((k & E & S & D) & X). split; auto. exists k. rewrite L.
      destruct (cur =? h) eqn:A; [apply Nat.eqb_eq in A; congruence|auto].
  - intros y. rewrite L. destruct (y =? h) eqn:A; [apply Nat.eqb_eq in A; subst y; rewrite Eh|].
    + exists (add_unb b kh). repeat split; auto. intros x U. cbn. apply in_app_iff. auto.
    + destruct (T y) as [k|]; auto. exists k. auto 10.
Qed.

(** *** Removing a task that is done *)
Lemma sinv_del_done : forall T N ids F h kh cur, sinv T N ids F cur -> T h = Some kh -> tst kh = Done ->
  sinv (fupd T h None) N ids F cur /\ forall y x, edge (fupd T h None) y x <-> edge T y x.
Proof.
  intros T N ids F h kh cur I Eh Dh.
  assert (L : forall y, fupd T h None y = if y =? h then None else T y) by reflexivity.
  remember (fupd T h None) as T' eqn:ET. clear ET.
  assert (B : forall y k, T' y = Some k -> T y = Some k) by (intros y k; rewrite L; destruct (y =? h); [discriminate|auto]).
  assert (OC : forall x y, occ T' x y = occ T x y).
  { intros x y. unfold occ. rewrite L. destruct (y =? h) eqn:A; auto. apply Nat.eqb_eq in A. subst y. rewrite Eh. cbn. rewrite Dh. reflexivity. }
  assert (ED : forall y x, edge T' y x <-> edge T y x) by (intros y x; rewrite !edge_occ, OC; tauto).
  assert (PE : forall y, pend T' y <-> pend T y).
  { intros y. unfold pend. rewrite L. destruct (y =? h) eqn:A; [apply Nat.eqb_eq in A; subst y|tauto].
    split; intros (k & E & D); congruence. }
  split; auto. destruct I. constructor; [eauto|eauto|eauto|eauto|auto|auto| |auto|auto| | | |eauto|].
  - intros y Hy. rewrite PE. auto.
  - intros y x E. apply ED in E. auto.
  - intros y x E. apply ED in E. apply PE. eauto.
  - intros x k E D. unfold indeg. rewrite (sumf_ext N _ (occ T x)) by auto. apply s_rem0; auto.
  - intros C. destruct (s_cur0 C) as ((k & E & S & D) & X). split; auto. exists k. rewrite L.
    destruct (cur =? h) eqn:A; [apply Nat.eqb_eq in A; congruence|auto].
Qed.

(** *** New entries *)
Lemma fresh_none : forall T N ids F cur, sinv T N ids F cur -> T N = None.
Proof. intros T N ids F cur I. destruct (T N) as [k|] eqn:E; auto. apply (s_ent _ _ _ _ _ I) in E. lia. Qed.

Lemma sinv_dummy : forall T N ids F b cur m, sinv T N ids F cur -> 1 <= N -> In b ids ->
  sinv (fupd T N (Some (mkT Done true 0 [b] m))) (S N) ids F cur /\
  forall y x, edge (fupd T N (Some (mkT Done true 0 [b] m))) y x <-> edge T y x.
Proof.
  intros T N ids F b cur m I HN Rb. pose proof (fresh_none _ _ _ _ _ I) as FN.
  assert (L : forall y, fupd T N (Some (mkT Done true 0 [b] m)) y = if y =? N then Some (mkT Done true 0 [b] m) else T y) by reflexivity.
  remember (fupd T N (Some (mkT Done true 0 [b] m))) as T' eqn:ET. clear ET.
  assert (OC : forall x y, occ T' x y = occ T x y).
  { intros x y. unfold occ. rewrite L. destruct (y =? N) eqn:A; auto. apply Nat.eqb_eq in A. subst y. rewrite FN. reflexivity. }
  assert (ED : forall y x, edge T' y x <-> edge T y x) by (intros y x; rewrite !edge_occ, OC; tauto).
  assert (PE : forall y, pend T' y <-> pend T y).
  { intros y. unfold pend. rewrite L. destruct (y =? N) eqn:A; [apply Nat.eqb_eq in A; subst y|tauto].
    split; intros (k & E & D); [injection E as <-; cbn in D; congruence|congruence]. }
  assert (NI : ~ In N ids) by (intro X; apply (s_rng _ _ _ _ _ I) in X; lia).
  split; auto. destruct I. constructor; auto.
  - intros y k E. rewrite L in E. destruct (y =? N) eqn:A; [apply Nat.eqb_eq in A; lia|]. apply s_ent0 in E. lia.
  - intros y k x E U. rewrite L in E. destruct (y =? N) eqn:A; [|eauto]. injection E as <-. cbn in U. destruct U as [<-|[]]. auto.
  - intros y k E D. rewrite L in E. destruct (y =? N) eqn:A; [|eauto]. apply Nat.eqb_eq in A. subst y. injection E as <-. auto.
  - intros y k E D. rewrite L in E. destruct (y =? N) eqn:A; [|eauto]. injection E as <-. discriminate.
  - intros y Hy. apply s_rng0 in Hy. lia.
  - intros y Hy. rewrite PE. auto.
  - intros y x E. apply ED in E. auto.
  - intros y x E. apply ED in E. apply PE. eauto.
  - intros x k E D. rewrite L in E. destruct (x =? N) eqn:A; [injection E as <-; cbn in D; congruence|].
    unfold indeg. cbn [sumf]. rewrite (sumf_ext N _ (occ T x)) by auto. rewrite OC. replace (occ T x N) with 0 by (unfold occ; rewrite FN; auto).
    rewrite Nat.add_0_r. apply s_rem0; auto.
  - intros x k E D C. rewrite L in E. destruct (x =? N) eqn:A; [injection E as <-; cbn in D; congruence|]. eauto.
  - intros C. destruct (s_cur0 C) as ((k & E & S & D) & X). split; auto. exists k. rewrite L.
    destruct (cur =? N) eqn:A; [apply Nat.eqb_eq in A; congruence|auto].
Qed.

Lemma sorted_snoc : forall l x, StronglySorted lt l -> (forall y, In y l -> y < x) -> StronglySorted lt (l ++ [x]).
Proof.
  intros l x. induction l as [|a l IH]; intros S H; cbn; [repeat constructor|]. inversion S as [|? ? S1 S2]; subst. constructor.
  - apply IH; auto. intros y Hy. apply H. cbn. auto.
  - apply Forall_app. split; auto. constructor; [apply H; cbn; auto|constructor].
Qed.

Lemma sinv_create : forall T N ids F, sinv T N ids F 0 -> 1 <= N ->
  sinv (fupd T N (Some (mkT NotReady false 0 [] 0))) (S N) (ids ++ [N]) F N /\
  forall y x, edge (fupd T N (Some (mkT NotReady false 0 [] 0))) y x <-> edge T y x.
Proof.
  intros T N ids F I HN. pose proof (fresh_none _ _ _ _ _ I) as FN.
  assert (L : forall y, fupd T N (Some (mkT NotReady false 0 [] 0)) y = if y =? N then Some (mkT NotReady false 0 [] 0) else T y) by reflexivity.
  remember (fupd T N (Some (mkT NotReady false 0 [] 0))) as T' eqn:ET. clear ET.
  assert (OC : forall x y, occ T' x y = occ T x y).
  { intros x y. unfold occ. rewrite L. destruct (y =? N) eqn:A; auto. apply Nat.eqb_eq in A. subst y. rewrite FN. reflexivity. }
  assert (ED : forall y x, edge T' y x <-> edge T y x) by (intros y x; rewrite !edge_occ, OC; tauto).
  assert (ON : forall x, indeg T' (S N) x = indeg T N x).
  { intros x. unfold indeg. cbn [sumf]. rewrite (sumf_ext N _ (occ T x)) by auto. rewrite OC. replace (occ T x N) with 0 by (unfold occ; rewrite FN; auto). lia. }
  assert (NI : ~ In N ids) by (intro X; apply (s_rng _ _ _ _ _ I) in X; lia).
  split; auto. destruct I. constructor; auto.
  - intros y k E. rewrite L in E. destruct (y =? N) eqn:A; [apply Nat.eqb_eq in A; lia|]. apply s_ent0 in E. lia.
  - intros y k x E U. rewrite L in E. apply in_app_iff. destruct (y =? N) eqn:A; [|eauto]. injection E as <-. destruct U.
  - intros y k E D. rewrite L in E. destruct (y =? N) eqn:A; [injection E as <-; discriminate|].
    destruct (s_dum0 y k E D) as [X1 X2]. split; auto. rewrite in_app_iff. intros [X|[X|[]]]; auto. subst y. congruence.
  - intros y k E D. rewrite L in E. apply in_app_iff. destruct (y =? N) eqn:A; [apply Nat.eqb_eq in A; subst y; cbn; auto|eauto].
  - apply sorted_snoc; auto. intros y Hy. apply s_rng0 in Hy. lia.
  - intros y Hy. apply in_app_iff in Hy. destruct Hy as [Hy|[<-|[]]]; [apply s_rng0 in Hy|]; lia.
  - intros y Hy. apply in_app_iff in Hy. destruct Hy as [Hy|[<-|[]]].
    + rewrite (s_fin0 y Hy). unfold pend. rewrite L. destruct (y =? N) eqn:A; [apply Nat.eqb_eq in A; subst y; tauto|tauto].
    + split; [intros X; apply s_sub0 in X; tauto|]. intros X. exfalso. apply X. exists (mkT NotReady false 0 [] 0). rewrite L, Nat.eqb_refl. split; auto. cbn. congruence.
  - intros x X. apply in_app_iff. auto.
  - intros y x E. apply ED in E. auto.
  - intros y x E. apply ED in E. apply s_pe0 in E. destruct E as (k & E & D). exists k. rewrite L.
    destruct (x =? N) eqn:A; [apply Nat.eqb_eq in A; congruence|auto].
  - intros x k E D. rewrite ON. rewrite L in E. destruct (x =? N) eqn:A; [apply Nat.eqb_eq in A; subst x|apply s_rem0; auto].
    injection E as <-. cbn [trem]. unfold indeg. rewrite sumf_zero; auto. intros i Hi. destruct (occ T N i) eqn:O; auto.
    assert (X : edge T i N) by (apply edge_occ; lia). destruct X as (k & E & D2 & U). apply s_unb0 with (x := N) in E; auto. tauto.
  - intros x k E D C. rewrite L in E. rewrite (proj2 (Nat.eqb_neq x N) C) in E. apply (s_st0 x); auto.
    intros ->. apply s_ent0 in E. lia.
  - intros C. split.
    + exists (mkT NotReady false 0 [] 0). rewrite L, Nat.eqb_refl. auto.
    + intros y Hy. apply in_app_iff in Hy. destruct Hy as [Hy|[<-|[]]]; [apply s_rng0 in Hy|]; lia.
Qed.

(** *** End of the insertion *)
Lemma sinv_ready : forall T N ids F b k, sinv T N ids F b -> b <> 0 -> T b = Some k ->
  sinv (if (trem k =? 0)%Z then upd T b (set_st Ready) else T) N ids F 0.
Proof.
  intros T N ids F b k I Hb Eb. destruct (s_cur _ _ _ _ _ I Hb) as ((k2 & E2 & Sb & Db) & MX).
  assert (k2 = k) by congruence. subst k2. clear E2. destruct (trem k =? 0)%Z eqn:R.
  - rewrite (upd_some T b _ k Eb).
    assert (L : forall y, fupd T b (Some (set_st Ready k)) y = if y =? b then Some (set_st Ready k) else T y) by reflexivity.
    remember (fupd T b (Some (set_st Ready k))) as T' eqn:ET. clear ET.
    assert (OC : forall x y, occ T' x y = occ T x y).
    { intros x y. unfold occ. rewrite L. destruct (y =? b) eqn:A; auto. apply Nat.eqb_eq in A. subst y. rewrite Eb. cbn. rewrite Sb. reflexivity. }
    assert (ED : forall y x, edge T' y x <-> edge T y x) by (intros y x; rewrite !edge_occ, OC; tauto).
    assert (PE : forall y, pend T' y <-> pend T y).
    { intros y. unfold pend. rewrite L. destruct (y =? b) eqn:A; [apply Nat.eqb_eq in A; subst y|tauto].
      split; intros (k' & E & D); eexists; split; eauto; cbn; congruence. }
    destruct I. constructor; auto.
    + intros y k' E. rewrite L in E. destruct (y =? b) eqn:A; [apply Nat.eqb_eq in A; subst y; eauto|eauto].
    + intros y k' x E U. rewrite L in E. destruct (y =? b) eqn:A; [apply Nat.eqb_eq in A; subst y; injection E as <-; eauto|eauto].
    + intros y k' E D. rewrite L in E. destruct (y =? b) eqn:A; [injection E as <-; cbn in D; congruence|eauto].
    + intros y k' E D. rewrite L in E. destruct (y =? b) eqn:A; [apply Nat.eqb_eq in A; subst y; eauto|eauto].
    + intros y Hy. rewrite PE. auto.
    + intros y x E. apply ED in E. auto.
    + intros y x E. apply ED in E. apply PE. eauto.
    + intros x k' E D. unfold indeg. rewrite (sumf_ext N _ (occ T x)) by auto. rewrite L in E.
      destruct (x =? b) eqn:A; [apply Nat.eqb_eq in A; subst x; injection E as <-; cbn [trem set_st]; apply s_rem0; auto; congruence|apply s_rem0; auto].
    + intros x k' E D _. rewrite L in E. destruct (x =? b) eqn:A; [injection E as <-; cbn; apply Z.eqb_eq in R; tauto|].
      apply Nat.eqb_neq in A. eauto.
    + congruence.
  - destruct I. constructor; auto; [|congruence]. intros x k' E D _. destruct (Nat.eq_dec x b) as [->|X]; [|eauto].
    assert (k' = k) by congruence. subst k'. rewrite Sb. apply Z.eqb_neq in R. split; [discriminate|tauto].
Qed.

(** *** Dependencies of a writer on the tasks unblocked by the previous holder *)
Lemma sinv_war : forall us T N ids F b, sinv T N ids F b -> b <> 0 ->
  sinv (war b T us) N ids F b /\ grow b T (war b T us) /\
  forall x, In x us -> x <> b -> pend T x -> edge (war b T us) x b.
Proof.
  intros us. induction us as [|x us IH]; intros T N ids F b I Hb.
  - cbn. split; auto. split; [apply grow_refl|intros x []].
  - unfold war. cbn [fold_left]. fold (war b).
    assert (G : exists T1, sinv T1 N ids F b /\ grow b T T1 /\ (x <> b -> pend T x -> edge T1 x b) /\
      match T x with
      | Some k => if negb (x =? b) && negb (st_done (tst k)) then upd (upd T x (add_unb b)) b (add_rem 1) else T
      | None => T
      end = T1).
    { destruct (T x) as [k|] eqn:E.
      - destruct (negb (x =? b) && negb (st_done (tst k))) eqn:C.
        + apply andb_prop in C. destruct C as [C1 C2]. apply negb_true_iff in C1, C2. apply Nat.eqb_neq in C1. apply st_done_false in C2.
          destruct (sinv_link T N ids F x b I Hb) as (L1 & L2 & L3); auto; [exists k; auto|]. exists (link T x b). auto.
        + exists T. split; auto. split; [apply grow_refl|]. split; auto. intros Nx (k2 & E2 & D). exfalso.
          assert (k2 = k) by congruence. subst k2. rewrite (proj2 (Nat.eqb_neq x b) Nx), (proj2 (st_done_false _) D) in C. discriminate.
      - exists T. split; auto. split; [apply grow_refl|]. split; auto. intros Nx (k2 & E2 & D). congruence. }
    destruct G as (T1 & I1 & G1 & E1 & ->). change (fold_left _ us T1) with (war b T1 us).
    destruct (IH T1 N ids F b I1 Hb) as (I2 & G2 & E2). split; auto. split; [eapply grow_trans; eauto|].
    intros y [<-|Hy] Ny Py.
    + eapply grow_edge; eauto.
    + apply E2; auto. rewrite (grow_pend b T T1); auto.
Qed.

(** ** The table of addresses *)
Record ainv (T : nat -> option tk) (A : list (nat * nat)) : Prop := {
  a_nd : NoDup (map fst A);
  a_ent : forall d h, In (d, h) A -> d <> 0 /\ h <> 0 /\ exists k, T h = Some k;
  a_out : forall y k, T y = Some k -> tnout k = Z.of_nat (cnt (map snd A) y) }.

Lemma find_tag_in : forall A d, find_tag A d <> 0 -> In (d, find_tag A d) A.
Proof.
  intros A d. induction A as [|[e x] A IH]; cbn; [congruence|]. destruct (e =? d) eqn:E.
  - apply Nat.eqb_eq in E. subst. auto.
  - auto.
Qed.
Lemma find_tag_none : forall A d h, (forall e x, In (e, x) A -> x <> 0) -> find_tag A d = 0 -> ~ In (d, h) A.
Proof.
  intros A d h. induction A as [|[e x] A IH]; intros Z H X; [destruct X|]. cbn in H. destruct (e =? d) eqn:E.
  - apply (Z e x); [cbn; auto|auto].
  - apply Nat.eqb_neq in E. destruct X as [X|X]; [congruence|]. apply IH; auto. intros e' x' X'. apply (Z e' x'). cbn. auto.
Qed.
Lemma find_tag_unique : forall A d h, NoDup (map fst A) -> In (d, h) A -> find_tag A d = h.
Proof.
  intros A d h. induction A as [|[e x] A IH]; intros ND X; [destruct X|]. cbn in ND. inversion ND as [|? ? N1 N2]; subst. cbn.
  destruct X as [X|X].
  - injection X as <- <-. rewrite Nat.eqb_refl. auto.
  - destruct (e =? d) eqn:E; [|auto]. apply Nat.eqb_eq in E. subst e. exfalso. apply N1. apply in_map_iff. exists (d, h). auto.
Qed.
Lemma existsb_tag : forall A d, existsb (fun e : nat * nat => fst e =? d) A = true <-> In d (map fst A).
Proof.
  intros A d. rewrite existsb_exists, in_map_iff. split.
  - intros ([e x] & H & E). apply Nat.eqb_eq in E. exists (e, x). auto.
  - intros ([e x] & E & H). exists (e, x). split; auto. apply Nat.eqb_eq. auto.
Qed.
Lemma del_tag_in : forall A d e x, In (e, x) (del_tag A d) <-> In (e, x) A /\ e <> d.
Proof. intros. unfold del_tag. rewrite filter_In. cbn. rewrite negb_true_iff, Nat.eqb_neq. tauto. Qed.
Lemma del_tag_nd : forall A d, NoDup (map fst A) -> NoDup (map fst (del_tag A d)).
Proof.
  intros A d. induction A as [|[e x] A IH]; cbn; intros ND; [constructor|]. inversion ND as [|? ? N1 N2]; subst.
  destruct (negb (e =? d)); cbn; auto. constructor; auto. intros X. apply N1. apply in_map_iff in X. destruct X as ([e' x'] & E & X). cbn in E. subst e'.
  apply del_tag_in in X. apply in_map_iff. exists (e, x'). split; [auto|tauto].
Qed.
Lemma del_tag_cnt : forall A d y, NoDup (map fst A) ->
  cnt (map snd (del_tag A d)) y + (if find_tag A d =? 0 then 0 else if find_tag A d =? y then 1 else 0) = cnt (map snd A) y \/ exists e, In (e, 0) A.
Proof.
  intros A d y. induction A as [|[e x] A IH]; intros ND; cbn [map del_tag find_tag filter]; [left; auto|].
  cbn [map fst] in ND. inversion ND as [|? ? N1 N2]; subst. cbn [fst]. destruct (e =? d) eqn:E; cbn [negb].
  - apply Nat.eqb_eq in E. subst e. destruct (x =? 0) eqn:X0; [apply Nat.eqb_eq in X0; subst x; right; exists d; cbn; auto|].
    left. cbn [map snd count_occ]. assert (EQ : filter (fun e => negb (fst e =? d)) A = A).
    { clear - N1. induction A as [|[e x] A IH]; cbn; auto. cbn in N1. destruct (e =? d) eqn:E; [apply Nat.eqb_eq in E; subst; tauto|]. cbn. f_equal. apply IH. tauto. }
    rewrite EQ. destruct (Nat.eq_dec x y) as [->|NE]; [rewrite Nat.eqb_refl; lia|rewrite (proj2 (Nat.eqb_neq _ _) NE); lia].
  - destruct IH as [IH|(e' & IH)]; auto; [|right; exists e'; cbn; auto]. left. cbn [map snd count_occ]. unfold del_tag in IH.
    destruct (Nat.eq_dec x y); lia.
Qed.
