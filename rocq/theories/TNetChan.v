(** One ring between two threads with store buffers: the arithmetic of its slots.  Pushes and clears
    are numbered from 0; [b'] pushes and [a'] clears have reached memory. *)
From Coq Require Import List Arith Lia Bool.
From Verif Require Import Base TNetModel.
Import ListNotations.

Lemma fwd_none : forall V (l : list (nat * V)) i, (forall j v, In (j, v) l -> j <> i) -> fwd l i = None.
Proof.
  induction l as [| (j, v) l IH]; intros i H; simpl; auto. rewrite IH by (intros; eapply H; right; eauto).
  destruct (Nat.eqb_spec j i); auto. exfalso. eapply H; [left; eauto | auto].
Qed.
Lemma fwd_in : forall V (l : list (nat * V)) i v, fwd l i = Some v -> In (i, v) l.
Proof.
  induction l as [| (j, w) l IH]; intros i v H; simpl in *; [discriminate |].
  destruct (fwd l i) eqn:E; [injection H as <-; right; apply IH; auto |].
  destruct (Nat.eqb_spec j i); [subst; injection H as <-; left; auto | discriminate].
Qed.

Section Chan.
  Context {P : Type}.
  Variable sz : option nat.
  Hypothesis Hsz : forall n, sz = Some n -> 1 <= n.

  Definition slot (j : nat) : nat := match sz with Some n => j mod n | None => j end.
  Local Notation nxt := (nxt sz).
  Definition bounded (d : nat) : Prop := match sz with Some n => d <= n | None => True end.

  Lemma nxt_slot : forall j, nxt (slot j) = slot (S j).
  Proof using Hsz.
    intros j. unfold TNetModel.nxt, slot. destruct sz as [n |]; [| lia]. specialize (Hsz n eq_refl).
    pose proof (mod_succ_wrap j n Hsz) as M. pose proof (Nat.mod_upper_bound j n ltac:(lia)).
    destruct (Nat.leb_spec n (j mod n + 1)); lia.
  Qed.

  Lemma slot_inj : forall i j, i <= j -> slot i = slot j -> (sz = None \/ exists n, sz = Some n /\ j < i + n) -> i = j.
  Proof using Hsz.
    intros i j L E C. unfold slot in E. destruct sz as [n |]; [| auto].
    destruct C as [C | (m & C & B)]; [discriminate |]. injection C as <-.
    apply (mod_inj_window n); auto.
  Qed.

  Record ck (H : list P) (a a' b' : nat) (row : nat -> option P) (sp sc : list (nat * option P)) (pw pr : nat) : Prop := {
    ck_le1 : a' <= a; ck_le2 : a <= b'; ck_le3 : b' <= length H;
    ck_cap : bounded (length H - a');
    ck_sp : sp = map (fun j => (slot j, nth_error H j)) (seq b' (length H - b'));
    ck_sc : sc = map (fun j => (slot j, None)) (seq a' (a - a'));
    ck_pw : pw = slot (length H);
    ck_pr : pr = slot a;
    ck_row : forall j, a' <= j < b' -> row (slot j) = nth_error H j;
    ck_none : forall i, (forall j, a' <= j < b' -> slot j <> i) -> row i = None }.

  Lemma ck_init : ck [] 0 0 0 (fun _ => None) [] [] 0 0.
  Proof using Hsz.
    constructor; simpl; auto; try lia.
    - unfold bounded. destruct sz; lia.
    - unfold slot. destruct sz as [n |]; auto. specialize (Hsz n eq_refl). rewrite Nat.mod_0_l; lia.
    - unfold slot. destruct sz as [n |]; auto. specialize (Hsz n eq_refl). rewrite Nat.mod_0_l; lia.
  Qed.

  Lemma within : forall H a a' b' row sp sc pw pr, ck H a a' b' row sp sc pw pr ->
    forall i j, a' <= i -> i <= j -> j < length H -> slot i = slot j -> i = j.
  Proof using Hsz.
    intros H a a' b' row sp sc pw pr [L1 L2 L3 C _ _ _ _ _ _] i j A1 A2 A3 E.
    apply slot_inj; auto. unfold bounded in C. destruct sz as [n |]; [right; exists n; split; auto; lia | auto].
  Qed.

  (** What the consumer reads in its next slot. *)
  Lemma ck_read_c : forall H a a' b' row sp sc pw pr, ck H a a' b' row sp sc pw pr ->
    ld row sc pr = if a <? b' then nth_error H a else None.
  Proof using Hsz.
    intros H a a' b' row sp sc pw pr C. pose proof (within _ _ _ _ _ _ _ _ _ C) as W.
    destruct C as [L1 L2 L3 B SP SC PW PR R Z]. unfold ld.
    destruct (Nat.ltb_spec a b') as [Lt | Ge].
    - rewrite fwd_none.
      + subst pr. rewrite R by lia. auto.
      + intros j v Hj. subst sc. apply in_map_iff in Hj as (x & E & Hx). injection E as <- <-. apply in_seq in Hx.
        subst pr. intros E. apply W in E; lia.
    - destruct (fwd sc pr) as [v |] eqn:F.
      + apply fwd_in in F. subst sc. apply in_map_iff in F as (x & E & _). injection E as _ <-. auto.
      + apply Z. intros j Hj E. subst pr.
        (* j in [a', b'), a = b', same slot as a: then j = a - n is among the buffered clears *)
        assert (IN : In (slot j, None) sc).
        { subst sc. apply in_map_iff. exists j. split; auto. apply in_seq. lia. }
        clear - F IN E. rewrite <- E in F. revert F IN. generalize (slot j) as i. clear.
        induction sc as [| (k, w) l IH]; intros i F IN; [destruct IN |]. simpl in F.
        destruct (fwd l i) eqn:G; [discriminate |]. destruct IN as [IN | IN]; [| eapply IH; eauto].
        injection IN as -> ->. rewrite Nat.eqb_refl in F. discriminate.
  Qed.

  (** What the producer reads in its next slot. *)
  Lemma ck_read_p : forall H a a' b' row sp sc pw pr, ck H a a' b' row sp sc pw pr ->
    ld row sp pw = None -> bounded (S (length H) - a').
  Proof using Hsz.
    intros H a a' b' row sp sc pw pr [L1 L2 L3 B SP SC PW PR R Z] E. unfold bounded in *.
    destruct sz as [n |] eqn:En; auto. specialize (Hsz n eq_refl).
    destruct (Nat.ltb_spec (length H - a') n) as [? | G]; [lia |]. exfalso.
    assert (SL : slot (length H) = slot a').
    { unfold slot. rewrite En. replace (length H) with (a' + n) by lia. apply mod_add_n. auto. }
    assert (HA : a' < length H) by lia.
    destruct (nth_error H a') as [p |] eqn:Ep; [| apply nth_error_None in Ep; lia].
    unfold ld in E. destruct (fwd sp pw) as [v |] eqn:F.
    - apply fwd_in in F. subst sp. apply in_map_iff in F as (x & Ex & Hx). injection Ex as _ Ev. apply in_seq in Hx.
      subst v. apply nth_error_None in E. lia.
    - destruct (Nat.ltb_spec a' b') as [Lt | Ge].
      + subst pw. rewrite SL, R in E by lia. congruence.
      + assert (IN : In (slot a', Some p) sp).
        { subst sp. apply in_map_iff. exists a'. rewrite Ep. split; auto. apply in_seq. lia. }
        subst pw. rewrite SL in F. clear - F IN. revert F IN. generalize (slot a') as i. clear.
        induction sp as [| (k, w) l IH]; intros i F IN; [destruct IN |]. simpl in F.
        destruct (fwd l i) eqn:G; [discriminate |]. destruct IN as [IN | IN]; [| eapply IH; eauto].
        injection IN as -> ->. rewrite Nat.eqb_refl in F. discriminate.
  Qed.

  (** With empty store buffers the test of the producer is exact. *)
  Lemma ck_room : forall H a a' b' row pw pr, ck H a a' b' row [] [] pw pr ->
    bounded (S (length H) - a) -> row pw = None.
  Proof using Hsz.
    intros H a a' b' row pw pr [L1 L2 L3 B SP SC PW PR R Z] C.
    assert (EB : length H - b' = 0) by (destruct (length H - b'); [auto | discriminate]).
    assert (EA : a - a' = 0) by (destruct (a - a'); [auto | discriminate]).
    apply Z. intros j Hj E. subst pw. apply slot_inj in E; [lia | lia |].
    unfold bounded in C. destruct sz as [n |]; [right; exists n; split; auto; lia | auto].
  Qed.

  Lemma ck_push : forall H a a' b' row sp sc pw pr p, ck H a a' b' row sp sc pw pr ->
    bounded (S (length H) - a') -> ck (H ++ [p]) a a' b' row (sp ++ [(pw, Some p)]) sc (nxt pw) pr.
  Proof using Hsz.
    intros H a a' b' row sp sc pw pr p [L1 L2 L3 B SP SC PW PR R Z] C.
    constructor; auto; rewrite ?app_length; simpl; try lia.
    - replace (length H + 1 - a') with (S (length H) - a') by lia. auto.
    - replace (length H + 1 - b') with (S (length H - b')) by lia. rewrite seq_S, map_app. f_equal.
      + subst sp. apply map_ext_in. intros j Hj. apply in_seq in Hj. f_equal. symmetry. apply nth_error_app1. lia.
      + simpl. replace (b' + (length H - b')) with (length H) by lia. rewrite nth_error_app2, Nat.sub_diag by lia.
        subst pw. reflexivity.
    - subst pw. rewrite nxt_slot. f_equal. lia.
    - intros j Hj. rewrite R by auto. symmetry. apply nth_error_app1. lia.
  Qed.

  Lemma ck_pop : forall H a a' b' row sp sc pw pr, ck H a a' b' row sp sc pw pr ->
    a < b' -> ck H (S a) a' b' row sp (sc ++ [(pr, None)]) pw (nxt pr).
  Proof using Hsz.
    intros H a a' b' row sp sc pw pr [L1 L2 L3 B SP SC PW PR R Z] C. constructor; auto; try lia.
    - replace (S a - a') with (S (a - a')) by lia. rewrite seq_S, map_app. subst sc. f_equal. simpl.
      replace (a' + (a - a')) with a by lia. subst pr. reflexivity.
    - subst pr. apply nxt_slot.
  Qed.

  Lemma ck_flushp : forall H a a' b' row i v sp sc pw pr, ck H a a' b' row ((i, v) :: sp) sc pw pr ->
    b' < length H /\ v = nth_error H b' /\ ck H a a' (S b') (fupd row i v) sp sc pw pr.
  Proof using Hsz.
    intros H a a' b' row i v sp sc pw pr C. pose proof (within _ _ _ _ _ _ _ _ _ C) as W.
    destruct C as [L1 L2 L3 B SP SC PW PR R Z].
    destruct (length H - b') as [| d] eqn:D; [discriminate |]. simpl in SP. injection SP as -> -> SP.
    split; [lia |]. split; [auto |]. constructor; auto; try lia.
    - replace (length H - S b') with d by lia. auto.
    - intros j Hj. destruct (Nat.eq_dec j b') as [-> | Nj]; [apply fupd_eq |].
      rewrite fupd_neq; [apply R; lia |]. intros E. apply W in E; lia.
    - intros i Hi. assert (slot b' <> i) by (apply Hi; lia). rewrite fupd_neq by auto. apply Z.
      intros j Hj. apply Hi. lia.
  Qed.

  Lemma ck_flushc : forall H a a' b' row i v sp sc pw pr, ck H a a' b' row sp ((i, v) :: sc) pw pr ->
    a' < a /\ v = None /\ ck H a (S a') b' (fupd row i v) sp sc pw pr.
  Proof using Hsz.
    intros H a a' b' row i v sp sc pw pr C. pose proof (within _ _ _ _ _ _ _ _ _ C) as W.
    destruct C as [L1 L2 L3 B SP SC PW PR R Z].
    destruct (a - a') as [| d] eqn:D; [discriminate |]. simpl in SC. injection SC as -> -> SC.
    split; [lia |]. split; [auto |]. constructor; auto; try lia.
    - unfold bounded in *. destruct sz; lia.
    - replace (a - S a') with d by lia. auto.
    - intros j Hj. rewrite fupd_neq; [apply R; lia |]. intros E. symmetry in E. apply W in E; lia.
    - intros i Hi. destruct (Nat.eq_dec i (slot a')) as [-> | Ni]; [apply fupd_eq |].
      rewrite fupd_neq by auto. apply Z. intros j Hj. destruct (Nat.eq_dec j a') as [-> | Nj]; [auto |]. apply Hi. lia.
  Qed.
End Chan.
