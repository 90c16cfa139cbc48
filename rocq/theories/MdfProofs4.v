(** Proofs about the data-flow scheduler: an execution that respects conflicts computes the sequential result. *)
From Coq Require Import List Arith Bool Lia.
From Verif Require Import Base MdfModel MdfSpec MdfProofs MdfProofs2 MdfProofs3.
Import ListNotations.

Lemma writesb_spec : forall ps d, writesb ps d = true <-> writes ps d.
Proof.
  intros ps d. unfold writesb, writes. rewrite existsb_exists. split.
  - intros ([e r] & H & C). apply andb_prop in C. destruct C as [C1 C2]. cbn in *. apply Nat.eqb_eq in C1. subst e. destruct r; try discriminate. auto.
  - intros H. exists (d, OUTPUT). split; auto. cbn. rewrite Nat.eqb_refl. auto.
Qed.

Lemma firstn_snoc : forall A (l : list A) k t, nth_error l k = Some t -> firstn (S k) l = firstn k l ++ [t].
Proof.
  intros A l. induction l as [|a l IH]; intros k t H; [destruct k; discriminate|]. destruct k as [|k]; [cbn in *; congruence|].
  change (a :: firstn (S k) l = a :: (firstn k l ++ [t])). f_equal. auto.
Qed.

Section Replay.
  Variables (V : Type) (F : nat -> (nat -> V) -> nat -> V) (P : list (nat * list param)) (L : list ev) (m0 : nat -> V).
  Hypothesis LOC : local V F P.
  Hypothesis NDP : NoDup (map fst P).
  Hypothesis ORD : forall i j a pa b pb, nth_error P i = Some (a, pa) -> nth_error P j = Some (b, pb) -> i < j -> conflict pa pb ->
    occurs_before L (End a) (Begin b).
  Hypothesis SEQ : forall x, occurs_before L (Begin x) (End x).
  Hypothesis ONB : forall x, count_occ ev_dec L (Begin x) <= 1.
  Hypothesis ONE : forall x, count_occ ev_dec L (End x) <= 1.
  Hypothesis KNOWN : forall x, In (Begin x) L -> In x (map fst P).

  Definition upto k := sequential V F (firstn k P) m0.

  Lemma upto_S : forall k x ps, nth_error P k = Some (x, ps) -> upto (S k) = put V F x ps (upto k) (upto k).
  Proof.
    intros k x ps H. unfold upto, sequential. pose proof (firstn_snoc _ P k (x, ps) H) as E.
    rewrite E, fold_left_app. reflexivity.
  Qed.
  (** A datum not written by the tasks in a range does not change over that range. *)
  Lemma upto_skip : forall d i k, i <= k -> k <= length P -> (forall j x ps, i <= j < k -> nth_error P j = Some (x, ps) -> ~ writes ps d) -> upto k d = upto i d.
  Proof.
    intros d i k LE. induction LE as [|k LE IH]; intros LK H; auto.
    destruct (nth_error P k) as [[x ps]|] eqn:E; [|apply nth_error_None in E; lia].
    rewrite (upto_S k x ps E). unfold put. destruct (writesb ps d) eqn:W; [apply writesb_spec in W; exfalso; apply (H k x ps); auto; lia|].
    apply IH; [lia|]. intros j y py R. apply H. lia.
  Qed.
  Lemma pos_of : forall x, In x (map fst P) -> exists i ps, nth_error P i = Some (x, ps).
  Proof. intros x H. apply in_map_iff in H. destruct H as ([y ps] & E & H). cbn in E. subst y. apply In_nth_error in H. destruct H as (i & H). eauto. Qed.
  Lemma pos_inj : forall i j x p q, nth_error P i = Some (x, p) -> nth_error P j = Some (x, q) -> i = j.
  Proof.
    intros i j x p q Hi Hj. apply (proj1 (NoDup_nth_error (map fst P)) NDP).
    - rewrite map_length. apply nth_error_Some. congruence.
    - rewrite !nth_error_map, Hi, Hj. reflexivity.
  Qed.
  Lemma params_at : forall i x ps, nth_error P i = Some (x, ps) -> params_of P x = ps.
  Proof.
    intros i x ps H. unfold params_of. destruct (find (fun t => fst t =? x) P) as [[y q]|] eqn:E.
    - apply find_some in E. cbn in E. destruct E as [E1 E2]. apply Nat.eqb_eq in E2. subst y. apply In_nth_error in E1. destruct E1 as (j & E1).
      assert (i = j) by (eapply pos_inj; eauto). subst j. cbn. congruence.
    - exfalso. apply nth_error_In in H. apply (find_none _ _ E) in H. cbn in H. rewrite Nat.eqb_refl in H. discriminate.
  Qed.

  (** The writers of [d] that have ended are exactly those among the first [k] tasks. *)
  Definition ended_upto (l : list ev) d k : Prop :=
    forall j x ps, nth_error P j = Some (x, ps) -> writes ps d -> (j < k <-> In (End x) l).

  Definition rinv (l : list ev) (c : (nat -> V) * (nat -> nat -> V)) : Prop :=
    (forall d k, k <= length P -> ended_upto l d k -> fst c d = upto k d) /\
    (forall i x ps d, nth_error P i = Some (x, ps) -> touches ps d -> In (Begin x) l -> snd c x d = upto i d).

  Lemma prefix_before : forall l r e f, L = l ++ r -> occurs_before L e f -> In f l -> In e l.
  Proof.
    intros l r e f E H X. apply in_split in X. destruct X as (l1 & l2 & X). assert (Y : L = l1 ++ f :: (l2 ++ r)) by (rewrite E, X, <- app_assoc; reflexivity).
    apply H in Y. rewrite X. apply in_app_iff. auto.
  Qed.
  Lemma not_twice : forall l r e, L = l ++ e :: r -> count_occ ev_dec L e <= 1 -> ~ In e l.
  Proof.
    intros l r e E C X. apply (count_occ_In ev_dec) in X. rewrite E, count_occ_app in C. cbn in C. destruct (ev_dec e e); [lia|congruence].
  Qed.

  (** Between the beginning of [x] (position [i]) and its end, the ended writers of a datum it touches are the earlier ones. *)
  Lemma at_begin : forall l r i x ps d, L = l ++ r -> nth_error P i = Some (x, ps) -> touches ps d ->
    ~ In (End x) l -> (In (Begin x) l \/ exists r', r = Begin x :: r') -> ended_upto l d i.
  Proof.
    intros l r i x ps d E Hi Td NE B j y py Hj Wy. destruct (Nat.lt_trichotomy j i) as [LT|[->|GT]].
    - split; [intros _|auto]. assert (C : conflict py ps) by (exists d; auto). pose proof (ORD j i y py x ps Hj Hi LT C) as O.
      destruct B as [B|(r' & B)]; [eapply prefix_before; eauto|]. subst r. apply (O l r'). auto.
    - assert (y = x) by congruence. subst y. split; [lia|tauto].
    - split; [lia|]. intros X. exfalso. apply NE.
      assert (C : conflict ps py) by (destruct Td as [R|W]; exists d; [right; auto|left; split; [auto|right; auto]]).
      pose proof (ORD i j x ps y py Hi Hj GT C) as O. eapply prefix_before; eauto. eapply prefix_before; [exact E|apply SEQ|exact X].
  Qed.

  Lemma replay_inv : forall l r, L = l ++ r -> rinv l (fold_left (event V F P) l (m0, fun _ => m0)).
  Proof.
    intros l. induction l as [|e l IH] using rev_ind; intros r E.
    - split; cbn.
      + intros d k LK H. change (m0 d) with (upto 0 d). symmetry. apply upto_skip; [lia|auto|]. intros j x ps R Hj W. apply (H j x ps Hj W). lia.
      + intros i x ps d _ _ [].
    - rewrite <- app_assoc in E. cbn in E. specialize (IH _ E). rewrite fold_left_app. cbn [fold_left].
      destruct (fold_left (event V F P) l (m0, fun _ => m0)) as [m lat]. destruct IH as [I1 I2]. cbn [fst snd] in *. destruct e as [x|x]; cbn [event fst snd].
      + (* Begin *)
        assert (KX : In x (map fst P)) by (apply KNOWN; rewrite E; apply in_app_iff; cbn; auto). destruct (pos_of x KX) as (i & ps & Hi).
        assert (NB : ~ In (Begin x) l) by (eapply not_twice; eauto).
        assert (NE : ~ In (End x) l) by (intros X; apply NB; eapply prefix_before; eauto).
        split; cbn [fst snd].
        * intros d k LK H. apply I1; auto. intros j y py Hj Wy. rewrite (H j y py Hj Wy), in_app_iff. cbn. intuition discriminate.
        * intros j y py d Hj Td B. destruct (y =? x) eqn:YX.
          -- apply Nat.eqb_eq in YX. subst y. assert (j = i) by (eapply pos_inj; eauto). subst j. assert (py = ps) by congruence. subst py.
             apply I1; [assert (i < length P) by (apply nth_error_Some; congruence); lia|]. eapply at_begin; eauto.
          -- apply Nat.eqb_neq in YX. apply in_app_iff in B. destruct B as [B|[B|[]]]; [eauto|congruence].
      + (* End *)
        assert (BX : In (Begin x) l) by (eapply (SEQ x); eauto).
        assert (KX : In x (map fst P)) by (apply KNOWN; rewrite E; apply in_app_iff; auto). destruct (pos_of x KX) as (i & ps & Hi).
        assert (NE : ~ In (End x) l) by (eapply not_twice; eauto).
        assert (Li : i < length P) by (apply nth_error_Some; congruence).
        rewrite (params_at i x ps Hi). split; cbn [fst snd].
        * intros d k LK H. unfold put. destruct (writesb ps d) eqn:W.
          -- apply writesb_spec in W. assert (Lk : i < k) by (apply (H i x ps Hi W); apply in_app_iff; cbn; auto).
             assert (AB : ended_upto l d i) by (eapply at_begin; eauto; right; auto).
             transitivity (upto (S i) d).
             ++ rewrite (upto_S i x ps Hi). unfold put. rewrite (proj2 (writesb_spec ps d) W).
                eapply LOC; [eapply nth_error_In; eauto| |auto]. intros e Te. eapply I2; eauto.
             ++ symmetry. apply upto_skip; [lia|auto|]. intros j y py R Hj Wy. assert (X : In (End y) (l ++ [End x])) by (apply (H j y py Hj Wy); lia).
                apply in_app_iff in X. destruct X as [X|[X|[]]]; [apply (AB j y py Hj Wy) in X; lia|]. injection X as <-. assert (j = i) by (eapply pos_inj; eauto). lia.
          -- apply I1; auto. intros j y py Hj Wy. rewrite (H j y py Hj Wy), in_app_iff. cbn. split; [|auto]. intros [X|[X|[]]]; auto. injection X as <-.
             exfalso. assert (j = i) by (eapply pos_inj; eauto). subst j. assert (py = ps) by congruence. subst py. apply writesb_spec in Wy. congruence.
        * intros j y py d Hj Td B. apply in_app_iff in B. destruct B as [B|[B|[]]]; [eauto|discriminate].
  Qed.

  Lemma replay_sequential : (forall x, In x (map fst P) -> In (End x) L) -> forall d, replay V F P L m0 d = sequential V F P m0 d.
  Proof.
    intros ALL d. destruct (replay_inv L [] (eq_sym (app_nil_r L))) as [R _]. unfold replay.
    rewrite (R d (length P)); [unfold upto; rewrite firstn_all; reflexivity|auto|].
    intros j x ps Hj W. split; [intros _; apply ALL; apply nth_error_In in Hj; apply in_map_iff; exists (x, ps); auto|].
    intros _. apply nth_error_Some. congruence.
  Qed.
End Replay.
