From Coq Require Import List ZArith Lia Bool.
From Verif Require Import Outcome ParForSpec ParForLoop StencilModel StencilSpec.
Import ListNotations.
Local Open Scope Z_scope.

Lemma in_log_loop : forall lg a b s z, 1 <= s -> ran_exactly_once lg a b s -> (In z (map snd lg) <-> In z (loop a b s)).
Proof.
  intros lg a b s z Hs H. rewrite !(count_occ_In Z.eq_dec). rewrite (H z). tauto.
Qed.

Lemma nodup_log : forall lg a b s, 1 <= s -> ran_exactly_once lg a b s -> NoDup (map snd lg).
Proof.
  intros lg a b s Hs H. apply (NoDup_count_occ Z.eq_dec). intros z. rewrite (H z).
  apply (NoDup_count_occ Z.eq_dec). apply NoDup_loop. auto.
Qed.

Section P.
  Context {T : Type}.
  Variables (N x0 x1 xs y0 y1 ys : Z).
  Variable f : Z -> Z -> (Z -> T) -> T.
  Hypothesis HN : 0 < N.
  Hypothesis Hx : 0 <= x0 /\ x1 <= N /\ 1 <= xs.
  Hypothesis Hy : 0 <= y0 /\ y1 <= N /\ 1 <= ys.

  Notation cells := (cells y0 y1 ys).
  Notation positions := (positions N y0 y1 ys).

  Lemma in_cells : forall lg i j, In (i, j) (cells lg) <-> In i (map snd lg) /\ In j (loop y0 y1 ys).
  Proof.
    intros lg i j. unfold StencilModel.cells, row. rewrite in_flat_map. split.
    - intros (e & He & Hi). apply in_map_iff in Hi as (j' & E & Hj). injection E as <- <-. split; auto. apply in_map. auto.
    - intros [Hi Hj]. apply in_map_iff in Hi as (e & <- & He). exists e. split; auto. apply in_map_iff. eauto.
  Qed.

  Lemma nodup_cells : forall lg, NoDup (map snd lg) -> NoDup (cells lg).
  Proof.
    unfold StencilModel.cells, row. induction lg as [|e lg IH]; simpl; intros ND; [constructor|].
    inversion ND as [|? ? N1 ND1]; subst.
    assert (A : NoDup (map (fun j => (snd e, j)) (loop y0 y1 ys))).
    { apply FinFun.Injective_map_NoDup; [intros a b E; congruence|]. apply NoDup_loop. lia. }
    assert (B : forall c, In c (map (fun j => (snd e, j)) (loop y0 y1 ys)) ->
                ~ In c (flat_map (fun e => map (fun j => (snd e, j)) (loop y0 y1 ys)) lg)).
    { intros c Hc Hc'. apply in_map_iff in Hc as (j & <- & _). apply N1.
      apply in_flat_map in Hc' as (e' & He & Hi). apply in_map_iff in Hi as (j' & E & _). injection E as E _. rewrite <- E. apply in_map. auto. }
    revert A B. generalize (map (fun j => (snd e, j)) (loop y0 y1 ys)). induction l as [|c l IHl]; simpl; intros A B; auto.
    inversion A; subst. constructor.
    - rewrite in_app_iff. intros [Z0|Z0]; [auto|]. apply (B c); auto.
    - apply IHl; auto.
  Qed.

  Lemma pos_inj : forall i j i' j', 0 <= j < N -> 0 <= j' < N -> pos N i j = pos N i' j' -> i = i' /\ j = j'.
  Proof.
    unfold pos. intros i j i' j' H H' E.
    assert (i = i').
    { transitivity ((i * N + j) / N); [apply Z.div_unique with j; lia|]. rewrite E. symmetry. apply Z.div_unique with j'; lia. }
    subst. lia.
  Qed.

  Lemma cells_bounds : forall lg i j, ran_exactly_once lg x0 x1 xs -> In (i, j) (cells lg) -> 0 <= i < N /\ 0 <= j < N.
  Proof.
    intros lg i j H Hc. apply in_cells in Hc as [Hi Hj].
    apply (in_log_loop lg x0 x1 xs) in Hi; auto; [|lia].
    apply In_loop in Hi; [|lia]. apply In_loop in Hj; [|lia]. lia.
  Qed.

  Lemma positions_ok : forall lg, ran_exactly_once lg x0 x1 xs ->
    NoDup (positions lg) /\
    (forall p, In p (positions lg) <-> exists i j, In i (loop x0 x1 xs) /\ In j (loop y0 y1 ys) /\ p = at_ N i j) /\
    (forall p, In p (positions lg) -> 0 <= p < N * N).
  Proof.
    intros lg H. pose proof (nodup_log _ _ _ _ (proj2 (proj2 Hx)) H) as ND. split; [|split].
    - unfold StencilModel.positions. pose proof (nodup_cells lg ND) as NC.
      assert (B : forall c, In c (cells lg) -> 0 <= snd c < N) by (intros [i j] Hc; apply (cells_bounds lg i j H Hc)).
      induction (cells lg) as [|c l IH]; simpl; [constructor|]. inversion NC; subst. constructor.
      + rewrite in_map_iff. intros (c' & E & Hc'). apply pos_inj in E as [E1 E2].
        * apply H2. destruct c, c'; simpl in *; subst. auto.
        * apply B; simpl; auto.
        * apply B; simpl; auto.
      + apply IH; auto. intros; apply B; simpl; auto.
    - intros p. unfold StencilModel.positions. rewrite in_map_iff. split.
      + intros ([i j] & <- & Hc). exists i, j. apply in_cells in Hc as [Hi Hj]. split; [|split; auto].
        apply (in_log_loop lg x0 x1 xs); auto; lia.
      + intros (i & j & Hi & Hj & ->). exists (i, j). split; auto. apply in_cells. split; auto.
        apply (in_log_loop lg x0 x1 xs); auto; lia.
    - intros p Hp. unfold StencilModel.positions in Hp. apply in_map_iff in Hp as ([i j] & <- & Hc).
      pose proof (cells_bounds lg i j H Hc). unfold pos. simpl. nia.
  Qed.

  Lemma fold_write : forall min l mout,
    (forall c, In c l -> 0 <= snd c < N) -> NoDup l ->
    (forall c, In c l -> fold_left (write N f min) l mout (pos N (fst c) (snd c)) = f (fst c) (snd c) min) /\
    (forall p, (forall c, In c l -> pos N (fst c) (snd c) <> p) -> fold_left (write N f min) l mout p = mout p).
  Proof.
    intros min. induction l as [|c l IH]; intros mout B ND; simpl.
    - split; [contradiction|auto].
    - inversion ND as [|? ? N1 ND1]; subst.
      destruct (IH (write N f min mout c) (fun c' H => B c' (or_intror H)) ND1) as [I1 I2]. split.
      + intros c' [<-|Hc]; [|auto]. rewrite I2.
        * unfold write. apply zupd_eq.
        * intros c' Hc' E. apply pos_inj in E as [E1 E2]; [|apply B; simpl; auto|apply B; simpl; auto].
          apply N1. destruct c, c'; simpl in *; subst. auto.
      + intros p Hp. rewrite I2 by auto. unfold write. apply zupd_neq. intros E. apply (Hp c); auto.
  Qed.

  Lemma sweep_ok : forall lg min mout, ran_exactly_once lg x0 x1 xs ->
    (forall i j, In i (loop x0 x1 xs) -> In j (loop y0 y1 ys) -> sweep N y0 y1 ys f min mout lg (at_ N i j) = f i j min) /\
    (forall p, ~ In p (positions lg) -> sweep N y0 y1 ys f min mout lg p = mout p).
  Proof.
    intros lg min mout H. pose proof (nodup_log _ _ _ _ (proj2 (proj2 Hx)) H) as ND.
    destruct (fold_write min (cells lg) mout) as [A B].
    - intros [i j] Hc. apply (cells_bounds lg i j H Hc).
    - apply nodup_cells; auto.
    - split.
      + intros i j Hi Hj. unfold sweep. apply (A (i, j)). apply in_cells. split; auto. apply (in_log_loop lg x0 x1 xs); auto; lia.
      + intros p Hp. unfold sweep. apply B. intros c Hc E. apply Hp. unfold StencilModel.positions. apply in_map_iff. eauto.
  Qed.
End P.

Section Iter.
  Context {T : Type}.
  Variable N : Z.
  Variable f : Z -> Z -> (Z -> T) -> T.
  Hypothesis HN : 0 < N.
  Hypothesis Hf : reads_inside N N f.

  Lemma loop1_in : forall i, In i (loop 0 N 1) <-> 0 <= i < N.
  Proof.
    intros i. rewrite In_loop by lia. split; [tauto|]. split; [lia|apply Z.divide_1_l].
  Qed.

  Lemma sweep_full : forall lg min mout p, ran_exactly_once lg 0 N 1 -> 0 <= p < N * N ->
    sweep N 0 N 1 f min mout lg p = update N f min p.
  Proof.
    intros lg min mout p H Hp. destruct (sweep_ok N 0 N 1 0 N 1 f ltac:(lia) ltac:(lia) lg min mout H) as [A _].
    unfold update. rewrite <- (A (p / N) (p mod N)).
    - f_equal. unfold at_. rewrite Z.mul_comm. apply Z.div_mod. lia.
    - apply loop1_in. split; [apply Z.div_pos; lia|apply Z.div_lt_upper_bound; lia].
    - apply loop1_in. apply Z.mod_pos_bound. lia.
  Qed.

  Lemma update_ext : forall m m' p, (forall p, 0 <= p < N * N -> m p = m' p) -> update N f m p = update N f m' p.
  Proof. intros m m' p H. unfold update. apply Hf. auto. Qed.

  Lemma iter_ext : forall k m m', (forall p, 0 <= p < N * N -> m p = m' p) ->
    forall p, 0 <= p < N * N -> Nat.iter k (update N f) m p = Nat.iter k (update N f) m' p.
  Proof.
    induction k; intros m m' H p Hp; simpl; auto. apply update_ext. intros q Hq. apply IHk; auto.
  Qed.

  Lemma iterate_ok : forall lgs min mout, lgs <> [] -> Forall (fun lg => ran_exactly_once lg 0 N 1) lgs ->
    forall p, 0 <= p < N * N ->
    snd (iterate N 0 N 1 f min mout lgs) p = Nat.iter (length lgs) (update N f) min p.
  Proof.
    induction lgs as [|lg lgs IH]; intros min mout NE F p Hp; [congruence|].
    inversion_clear F as [|? ? F1 F2]. destruct lgs as [|lg' lgs].
    - simpl. apply sweep_full; auto.
    - change (iterate N 0 N 1 f min mout (lg :: lg' :: lgs)) with (iterate N 0 N 1 f (sweep N 0 N 1 f min mout lg) min (lg' :: lgs)).
      rewrite (IH (sweep N 0 N 1 f min mout lg) min); auto; [|discriminate].
      rewrite (iter_ext (length (lg' :: lgs)) _ (update N f min)); auto.
      + clear. change (length (lg :: lg' :: lgs)) with (S (length (lg' :: lgs))). generalize (length (lg' :: lgs)). intros k.
        revert p. cut (forall k, Nat.iter k (update N f) (update N f min) = Nat.iter (S k) (update N f) min).
        { intros H p. rewrite H. reflexivity. }
        clear k. induction k; simpl; auto. rewrite IHk. reflexivity.
      + intros q Hq. apply sweep_full; auto.
  Qed.
End Iter.
