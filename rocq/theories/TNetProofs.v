(** The network on TSO: it behaves as the network of NetModel. *)
From Coq Require Import List Arith Lia Bool Permutation.
From Verif Require Import Base NetModel NetSpec NetProofs TNetModel TNetChan.
Import ListNotations.

(** ** Loads *)
Lemma fwd_app : forall V (l m : list (nat * V)) i,
  fwd (l ++ m) i = match fwd m i with Some v => Some v | None => fwd l i end.
Proof.
  induction l as [| (j, v) l IH]; intros m i; simpl; [destruct (fwd m i); auto |].
  rewrite IH. destruct (fwd m i); auto.
Qed.
Lemma ld_app : forall V (f : nat -> V) l m i, ld f (l ++ m) i = ld (ld f l) m i.
Proof. intros. unfold ld. rewrite fwd_app. destruct (fwd m i); auto. Qed.
Lemma ld_cons : forall V (f : nat -> V) a x l i, ld (fupd f a x) l i = ld f ((a, x) :: l) i.
Proof.
  intros. unfold ld. simpl. destruct (fwd l i); auto. unfold fupd. rewrite Nat.eqb_sym. destruct (Nat.eqb_spec a i); auto.
Qed.
Lemma ld_other : forall V (f : nat -> V) a x l i, i <> a -> ld (fupd f a x) l i = ld f l i.
Proof. intros. unfold ld. destruct (fwd l i); auto. apply fupd_neq. auto. Qed.
Lemma ld_notin : forall V (f : nat -> V) l i, ~ In i (map fst l) -> ld f l i = f i.
Proof.
  intros V f l i H. unfold ld. rewrite fwd_none; auto. intros j v Hj ->. apply H. apply in_map_iff. exists (i, v). auto.
Qed.
Lemma ld_in : forall V (f g : nat -> V) l i, In i (map fst l) -> ld f l i = ld g l i.
Proof.
  intros V f g l i. unfold ld. induction l as [| (j, v) l IH]; intros H; [destruct H |]. simpl in *.
  destruct (fwd l i) eqn:E; auto. destruct (Nat.eqb_spec j i); auto. destruct H as [H | H]; [contradiction |].
  specialize (IH H). exact IH.
Qed.

(** ** Placing the items *)
Section Place.
  Context {X : Type}.
  Lemma item_of_rmap : forall A B (f : A -> B) r, item_of (rmap f r) = map f (item_of r).
  Proof. intros A B f [j [x |] | x]; reflexivity. Qed.
  Lemma sent_map : forall A B (f : A -> B) G, sent (map (map (rmap f)) G) = map f (sent G).
  Proof.
    intros A B f G. unfold sent. induction G as [| g G IH]; simpl; auto. rewrite IH, map_app. f_equal.
    clear. induction g as [| r g IH]; simpl; auto. rewrite IH, item_of_rmap, map_app. auto.
  Qed.

  Lemma place1_ok : forall (f : nat -> X) r sg, length (item_of r) <= length sg ->
    item_of (place1 r sg) = firstn (length (item_of r)) sg /\
    (map f (firstn (length (item_of r)) sg) = item_of r -> rmap f (place1 r sg) = r).
  Proof.
    intros f [j [x |] | x] sg L; simpl in *; auto; (destruct sg as [| a sg]; [simpl in L; lia |]; simpl; split; auto;
      intros E; injection E as ->; auto).
  Qed.
  Lemma placeg_ok : forall (f : nat -> X) g sg, length (flat_map item_of g) <= length sg ->
    flat_map item_of (placeg g sg) = firstn (length (flat_map item_of g)) sg /\
    (map f (firstn (length (flat_map item_of g)) sg) = flat_map item_of g -> map (rmap f) (placeg g sg) = g).
  Proof.
    intros f. induction g as [| r g IH]; intros sg L; simpl in *; [auto |].
    rewrite app_length in *. destruct (place1_ok f r sg) as [A1 A2]; [lia |].
    destruct (IH (skipn (length (item_of r)) sg)) as [B1 B2]; [rewrite skipn_length; lia |].
    assert (E : firstn (length (item_of r) + length (flat_map item_of g)) sg =
                firstn (length (item_of r)) sg ++ firstn (length (flat_map item_of g)) (skipn (length (item_of r)) sg)).
    { rewrite <- (firstn_skipn (length (item_of r)) sg) at 1. rewrite firstn_app, firstn_length_le by lia.
      rewrite firstn_all2 by (rewrite firstn_length; lia). f_equal. f_equal. lia. }
    rewrite E, A1, B1. split; auto. rewrite map_app. intros H.
    assert (L1 : length (map f (firstn (length (item_of r)) sg)) = length (item_of r)) by (rewrite map_length, firstn_length; lia).
    assert (H1 : map f (firstn (length (item_of r)) sg) = item_of r).
    { apply (f_equal (firstn (length (item_of r)))) in H. rewrite firstn_app, L1, Nat.sub_diag, firstn_O, app_nil_r in H.
      rewrite firstn_all2 in H by lia. rewrite firstn_app, Nat.sub_diag, firstn_O, app_nil_r, firstn_all in H. auto. }
    rewrite H1 in H. apply app_inv_head in H. rewrite A2, B2; auto.
  Qed.
  Lemma place_ok : forall (f : nat -> X) G sg, length sg = length (sent G) ->
    sent (place G sg) = sg /\ (map f sg = sent G -> map (map (rmap f)) (place G sg) = G).
  Proof.
    intros f. unfold sent. induction G as [| g G IH]; intros sg L; simpl in *; [destruct sg; [auto | discriminate] |].
    rewrite app_length in L. destruct (placeg_ok f g sg) as [A1 A2]; [lia |].
    destruct (IH (skipn (length (flat_map item_of g)) sg)) as [B1 B2]; [rewrite skipn_length; lia |].
    rewrite A1, B1. split; [apply firstn_skipn |]. intros H. rewrite <- (firstn_skipn (length (flat_map item_of g)) sg) in H at 1.
    rewrite map_app in H.
    assert (L1 : length (map f (firstn (length (flat_map item_of g)) sg)) = length (flat_map item_of g)) by (rewrite map_length, firstn_length; lia).
    assert (H1 : map f (firstn (length (flat_map item_of g)) sg) = flat_map item_of g).
    { apply (f_equal (firstn (length (flat_map item_of g)))) in H. rewrite firstn_app, L1, Nat.sub_diag, firstn_O, app_nil_r in H.
      rewrite firstn_all2 in H by lia. rewrite firstn_app, Nat.sub_diag, firstn_O, app_nil_r, firstn_all in H. auto. }
    rewrite H1 in H. apply app_inv_head in H. rewrite A2, B2; auto.
  Qed.

  Lemma distinct_ok : forall l, distinct l = true <-> NoDup l.
  Proof.
    induction l as [| a l IH]; simpl; [split; [constructor | auto] |]. rewrite andb_true_iff, negb_true_iff, IH. split.
    - intros [A B]. constructor; auto. intros H. apply memb_In in H. congruence.
    - intros H. inversion H; subst. split; auto. destruct (memb a l) eqn:E; auto. apply memb_In in E. contradiction.
  Qed.

  (** What the objects contain after the stores. *)
  Lemma ld_combine : forall (cur : nat -> X) (sg : list nat) (xs : list X), NoDup sg -> length sg = length xs -> map (ld cur (combine sg xs)) sg = xs.
  Proof.
    intros cur. induction sg as [| a sg IH]; intros xs ND L; destruct xs as [| x xs]; try discriminate; auto.
    inversion ND as [| ? ? NI ND']; subst. injection L as L. simpl. f_equal.
    - unfold ld. simpl. rewrite fwd_none; [rewrite Nat.eqb_refl; auto |].
      intros j v H ->. apply in_combine_l in H. contradiction.
    - rewrite <- (IH xs) at 2 by auto. apply map_ext_in. intros b Hb. rewrite <- ld_cons. unfold ld.
      destruct (fwd (combine sg xs) b); auto. apply fupd_neq. intros ->. contradiction.
  Qed.
  Lemma combine_keys : forall (sg : list nat) (xs : list X), length sg = length xs -> map fst (combine sg xs) = sg.
  Proof. induction sg; intros [| x xs] L; try discriminate; simpl; auto. injection L as L. rewrite IHsg; auto. Qed.
End Place.

(** ** Store buffers *)
Section Buf.
  Context {X : Type}.
  Notation store := (store X).
  Lemma slots_app : forall c (l m : list store), slots c (l ++ m) = slots c l ++ slots c m.
  Proof. intros. apply flat_map_app. Qed.
  Lemma objs_app : forall (l m : list store), objs (l ++ m) = objs l ++ objs m.
  Proof. intros. apply flat_map_app. Qed.
  Lemma slots_writes : forall c G sg, slots c (@writes X G sg) = [].
  Proof. intros. unfold writes, slots. induction (combine sg (sent G)); simpl; auto. Qed.
  Lemma objs_writes : forall G sg, objs (@writes X G sg) = combine sg (sent G).
  Proof. intros. unfold writes, objs. induction (combine sg (sent G)) as [| [a x] l IH]; simpl; auto. f_equal; auto. Qed.
  Lemma in_slots : forall c i v (l : list store), In (SSlot c i v) l <-> In (i, v) (slots c l).
  Proof.
    intros. unfold slots. rewrite in_flat_map. split.
    - intros H. exists (SSlot c i v). split; auto. rewrite Nat.eqb_refl. left; auto.
    - intros (e & H & E). destruct e as [c' i' v' |]; [| destruct E]. destruct (Nat.eqb_spec c' c); [| destruct E].
      destruct E as [E | []]. injection E as -> ->. subst; auto.
  Qed.

  (** A pointer is stored after the object. *)
  Fixpoint ord (l : list store) : Prop :=
    match l with
    | [] => True
    | e :: l' =>
        match e with SSlot _ _ (Some (Item a)) => ~ In a (map fst (objs l')) | _ => True end /\ ord l'
    end.
  Lemma ord_app : forall l m, ord l -> ord m ->
    (forall c i a, In (SSlot c i (Some (Item a))) l -> ~ In a (map fst (objs m))) -> ord (l ++ m).
  Proof.
    induction l as [| e l IH]; intros m L M H; simpl; auto. destruct L as [L1 L2]. split.
    - destruct e as [c i [[a |] |] | a x]; auto. rewrite objs_app, map_app, in_app_iff. intros [A | A]; [auto |].
      eapply H; eauto. left. auto.
    - apply IH; auto. intros; eapply H; right; eauto.
  Qed.
  Lemma ord_writes : forall G sg, ord (@writes X G sg).
  Proof. intros. unfold writes. induction (combine sg (sent G)); simpl; auto. Qed.
End Buf.
