(** Finite list of the threads that are at certain program points, with the value they carry. *)
From Coq Require Import List Arith Lia.
From Verif Require Import Base.
Import ListNotations.

Section Tracks.
  Context {P B : Type}.
  Variable f : P -> option B.

  Definition tracks (dp : nat -> P) (l : list (nat * B)) : Prop :=
    NoDup (map fst l) /\ forall t b, In (t, b) l <-> f (dp t) = Some b.

  Lemma tracks_nil : forall dp, (forall t, f (dp t) = None) -> tracks dp [].
  Proof. intros dp H. split; [constructor|]. intros t b. rewrite H. split; [intros []|discriminate]. Qed.

  Lemma tracks_keep : forall dp l t p, tracks dp l -> f p = f (dp t) -> tracks (fupd dp t p) l.
  Proof.
    intros dp l t p [H1 H2] E. split; auto. intros u b. rewrite H2.
    destruct (Nat.eq_dec u t) as [->|N]; [rewrite fupd_eq, E|rewrite fupd_neq by auto]; tauto.
  Qed.

  Lemma tracks_add : forall dp l t p b, tracks dp l -> f (dp t) = None -> f p = Some b -> tracks (fupd dp t p) ((t, b) :: l).
  Proof.
    intros dp l t p b [H1 H2] E F. split.
    - cbn. constructor; auto. intro X. apply in_map_iff in X. destruct X as ([u c] & Eu & X). cbn in Eu. subst u.
      apply H2 in X. congruence.
    - intros u c. cbn. destruct (Nat.eq_dec u t) as [->|N].
      + rewrite fupd_eq, F. split.
        * intros [X|X]; [congruence|]. apply H2 in X. congruence.
        * intros X. left. congruence.
      + rewrite fupd_neq by auto. rewrite <- H2. split; [intros [X|X]; congruence|auto].
  Qed.

  Lemma tracks_del : forall dp l t p b, tracks dp l -> f (dp t) = Some b -> f p = None ->
    exists l1 l2, l = l1 ++ (t, b) :: l2 /\ tracks (fupd dp t p) (l1 ++ l2).
  Proof.
    intros dp l t p b [H1 H2] E F. assert (X := E). apply H2 in X. apply in_split in X.
    destruct X as (l1 & l2 & ->). exists l1, l2. split; auto.
    rewrite map_app in H1. cbn in H1.
    assert (ND := NoDup_remove_1 _ _ _ H1). assert (NI := NoDup_remove_2 _ _ _ H1). rewrite <- map_app in ND, NI.
    split; auto. intros u c. destruct (Nat.eq_dec u t) as [->|N].
    - rewrite fupd_eq, F. split; [|discriminate]. intros X. exfalso. apply NI. apply in_map_iff. exists (t, c). auto.
    - rewrite fupd_neq by auto. rewrite <- H2. rewrite !in_app_iff. cbn. intuition congruence.
  Qed.

  Lemma tracks_empty : forall dp l, tracks dp l -> (forall t, f (dp t) = None) -> l = [].
  Proof.
    intros dp l [H1 H2] N. destruct l as [|[t b] l]; auto. assert (X : f (dp t) = Some b) by (apply H2; cbn; auto).
    rewrite N in X. discriminate.
  Qed.
End Tracks.
