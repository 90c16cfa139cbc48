(** Shared vocabulary: executions of a transition function, prefixes, list update,
    arithmetic of wrapped indices.  Nothing here models fastflow code. *)
From Coq Require Import List Arith Lia.
Import ListNotations.

(** An execution is a list of actions accepted one after the other by [step];
    [step s a = None] means action [a] is not enabled in [s]. *)
Section Exec.
  Context {S A : Type}.
  Variable step : S -> A -> option S.

  Fixpoint exec (s : S) (l : list A) : option S :=
    match l with
    | [] => Some s
    | a :: l' => match step s a with Some s' => exec s' l' | None => None end
    end.

  Lemma exec_inv : forall (I : S -> Prop),
    (forall s a s', I s -> step s a = Some s' -> I s') ->
    forall l s s', I s -> exec s l = Some s' -> I s'.
  Proof.
    intros I H l; induction l as [|a l IH]; simpl; intros s s' Hi He.
    - injection He as <-; exact Hi.
    - destruct (step s a) eqn:E; [|discriminate]. eapply IH; [eapply H; eauto | exact He].
  Qed.

  Lemma exec_app : forall l1 l2 s s',
    exec s (l1 ++ l2) = Some s' <->
    exists m, exec s l1 = Some m /\ exec m l2 = Some s'.
  Proof.
    induction l1 as [|a l1 IH]; simpl; intros l2 s s'.
    - split; [intros H; exists s; auto | intros (m & E & H); injection E as ->; auto].
    - destruct (step s a); [apply IH|].
      split; [discriminate | intros (m & E & _); discriminate].
  Qed.
End Exec.

(** [prefix l m]: [m] starts with [l]. *)
Definition prefix {A} (l m : list A) : Prop := exists r, m = l ++ r.

Lemma prefix_firstn : forall A n (l : list A), prefix (firstn n l) l.
Proof. intros; exists (skipn n l); symmetry; apply firstn_skipn. Qed.

(** Functional update of a total map on naturals. *)
Definition fupd {B} (f : nat -> B) (i : nat) (v : B) : nat -> B :=
  fun j => if Nat.eqb j i then v else f j.

Lemma fupd_eq : forall B (f : nat -> B) i v, fupd f i v i = v.
Proof. intros; unfold fupd; rewrite Nat.eqb_refl; auto. Qed.
Lemma fupd_neq : forall B (f : nat -> B) i j v, j <> i -> fupd f i v j = f j.
Proof. intros; unfold fupd; destruct (Nat.eqb_spec j i); congruence. Qed.

(** List update (identity when out of range). *)
Fixpoint lupd {B} (l : list B) (i : nat) (v : B) : list B :=
  match l, i with
  | [], _ => []
  | _ :: t, 0 => v :: t
  | h :: t, S i' => h :: lupd t i' v
  end.

Lemma lupd_length : forall B (l : list B) i v, length (lupd l i v) = length l.
Proof. induction l; destruct i; simpl; intros; auto. Qed.

Lemma nth_error_lupd_eq : forall B (l : list B) i v,
  i < length l -> nth_error (lupd l i v) i = Some v.
Proof. induction l; destruct i; simpl; intros; auto; try lia. apply IHl; lia. Qed.

Lemma nth_error_lupd_neq : forall B (l : list B) i j v,
  i <> j -> nth_error (lupd l i v) j = nth_error l j.
Proof. induction l; destruct i, j; simpl; intros; auto; try congruence. Qed.

Lemma nth_error_lupd : forall B (l : list B) i j v,
  nth_error (lupd l i v) j =
  if Nat.eqb i j then (if Nat.ltb j (length l) then Some v else None) else nth_error l j.
Proof.
  intros. destruct (Nat.eqb_spec i j) as [->|N].
  - destruct (Nat.ltb_spec j (length l)).
    + now apply nth_error_lupd_eq.
    + apply nth_error_None. now rewrite lupd_length.
  - now apply nth_error_lupd_neq.
Qed.

(** Wrapped index arithmetic. *)
Lemma mod_succ_wrap : forall k n, 1 <= n ->
  (if n <=? (k mod n) + 1 then (k mod n) + 1 - n else (k mod n) + 1) = (S k) mod n.
Proof.
  intros k n Hn.
  pose proof (Nat.mod_upper_bound k n ltac:(lia)).
  pose proof (Nat.div_mod k n ltac:(lia)).
  destruct (Nat.leb_spec n (k mod n + 1)).
  - replace (k mod n + 1 - n) with 0 by lia.
    apply Nat.mod_unique with (q := S (k / n)); nia.
  - apply Nat.mod_unique with (q := k / n); nia.
Qed.

Lemma mod_inj_window : forall n i j, 1 <= n -> i <= j -> j < i + n -> i mod n = j mod n -> i = j.
Proof.
  intros n i j Hn Hij Hj E.
  pose proof (Nat.div_mod i n ltac:(lia)) as Di.
  pose proof (Nat.div_mod j n ltac:(lia)) as Dj.
  rewrite E in Di.
  assert (i / n <= j / n) by (apply Nat.div_le_mono; lia).
  destruct (Nat.eq_dec (i / n) (j / n)) as [e|ne]; [rewrite e in Di; lia|].
  assert (i / n + 1 <= j / n) by lia. nia.
Qed.

Lemma mod_add_n : forall k n, 1 <= n -> (k + n) mod n = k mod n.
Proof. intros. rewrite <- (Nat.mul_1_l n) at 1. apply Nat.mod_add; lia. Qed.

Lemma nth_error_snoc : forall A (l : list A) x i,
  nth_error (l ++ [x]) i =
  if i <? length l then nth_error l i else if i =? length l then Some x else None.
Proof.
  intros. destruct (Nat.ltb_spec i (length l)).
  - now apply nth_error_app1.
  - rewrite nth_error_app2 by lia.
    destruct (Nat.eqb_spec i (length l)) as [->|].
    + now rewrite Nat.sub_diag.
    + apply nth_error_None. simpl. lia.
Qed.

Lemma firstn_snoc_nth : forall A (l : list A) k x,
  nth_error l k = Some x -> firstn (S k) l = firstn k l ++ [x].
Proof.
  induction l as [|a l IH]; destruct k; simpl; intros x E; try discriminate.
  - injection E as ->; reflexivity.
  - f_equal. rewrite <- (IH k x E). reflexivity.
Qed.

Lemma firstn_app_le : forall A (l m : list A) k, k <= length l -> firstn k (l ++ m) = firstn k l.
Proof.
  intros. rewrite firstn_app. replace (k - length l) with 0 by lia.
  simpl. apply app_nil_r.
Qed.

Lemma nth_error_lt : forall A (l : list A) i x, nth_error l i = Some x -> i < length l.
Proof. intros A l i x H. apply nth_error_Some. congruence. Qed.

Lemma skipn_S_cons : forall A (l : list A) m x d, skipn m l = x :: d -> skipn (S m) l = d.
Proof.
  induction l as [|a l IH]; destruct m; simpl; intros x d E; try discriminate.
  - injection E as <- <-; reflexivity.
  - apply (IH m x d) in E. exact E.
Qed.

Lemma skipn_cons_nth : forall A (l : list A) m x d, skipn m l = x :: d -> nth_error l m = Some x.
Proof.
  induction l as [|a l IH]; destruct m; simpl; intros x d E; try discriminate.
  - congruence.
  - eapply IH; eauto.
Qed.
