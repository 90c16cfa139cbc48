(** Lemmas on targets, batches and queues of the distributed runtime. *)
From Coq Require Import List Arith Bool Lia.
From Verif Require Import Base DgrModel DgrSpec.
Import ListNotations.

Section Picks.
  Context {T : Type}.
  Lemma picks_snoc : forall v (l : list T) t x k, length t = length l ->
    picks v (l ++ [x]) (t ++ [k]) = picks v l t ++ (if k =? v then [x] else []).
  Proof.
    intros v l. unfold picks. induction l as [|y l IH]; intros [|h t] x k H; simpl in *; try discriminate.
    - destruct (k =? v); reflexivity.
    - destruct (h =? v); simpl; rewrite IH by lia; reflexivity.
  Qed.
  Lemma picks_in : forall v (l : list T) t x, In x (picks v l t) -> In (x, v) (combine l t).
  Proof.
    intros v l t x H. unfold picks in H. apply in_map_iff in H. destruct H as ((y & k) & <- & H).
    apply filter_In in H. destruct H as (H & E). apply Nat.eqb_eq in E. simpl in *. now subst.
  Qed.
  Lemma picks_forall : forall (P : T -> nat -> Prop) v l t, Forall2 P l t -> forall x, In x (picks v l t) -> P x v.
  Proof.
    intros P v l t H x Hx. apply picks_in in Hx. induction H; simpl in *; [contradiction|].
    destruct Hx as [E|Hx]; auto. now injection E as -> ->.
  Qed.
  Lemma picks_app : forall v (l m : list T) t r, length t = length l ->
    picks v (l ++ m) (t ++ r) = picks v l t ++ picks v m r.
  Proof.
    intros v l. unfold picks. induction l as [|y l IH]; intros m [|h t] r H; simpl in *; try discriminate; auto.
    destruct (h =? v); simpl; rewrite IH by lia; reflexivity.
  Qed.
  (** Targets chosen in two stages. *)
  Lemma picks_compose : forall (P : T -> nat -> Prop) (Q : T -> nat -> nat -> Prop) (l : list T) tc (tn : nat -> list nat),
    Forall2 P l tc -> (forall h, Forall2 (fun x v => Q x h v) (picks h l tc) (tn h)) ->
    exists t, Forall2 (fun x v => exists h, P x h /\ Q x h v) l t /\
      forall v (gv : nat), (forall x h, Q x h v -> h = gv) -> picks v l t = picks v (picks gv l tc) (tn gv).
  Proof.
    intros P Q l. induction l as [|x l IH]; intros tc tn H1 H2; inversion H1 as [|? h ? tc' Hx Hl]; subst.
    - exists []. split; [constructor|]. reflexivity.
    - pose proof (H2 h) as H2h. unfold picks in H2h. simpl in H2h. rewrite Nat.eqb_refl in H2h. simpl in H2h.
      inversion H2h as [|? v0 ? tnh Hq Hr E1 E2]; subst.
      destruct (IH tc' (fupd tn h tnh) Hl) as (t & F & K).
      { intros h'. unfold fupd. destruct (Nat.eqb_spec h' h) as [->|N]; [exact Hr|].
        specialize (H2 h'). unfold picks in H2. simpl in H2. destruct (Nat.eqb_spec h h'); [congruence|]. exact H2. }
      exists (v0 :: t). split; [constructor; [exists h; auto|exact F]|].
      intros v gv Hv. specialize (K v gv Hv). unfold picks in *. simpl. destruct (Nat.eqb_spec v0 v) as [->|Nv].
      + pose proof (Hv _ _ Hq) as <-. rewrite Nat.eqb_refl. simpl. rewrite K. rewrite fupd_eq. rewrite <- E2. simpl.
        rewrite Nat.eqb_refl. reflexivity.
      + rewrite K. destruct (Nat.eqb_spec h gv) as [->|Nh].
        * rewrite fupd_eq, <- E2. simpl. destruct (Nat.eqb_spec v0 v); [congruence|]. reflexivity.
        * rewrite fupd_neq by congruence. reflexivity.
  Qed.
End Picks.

Lemma from_app : forall T u (l m : list (nat * option T)), from u (l ++ m) = from u l ++ from u m.
Proof. intros. unfold from. now rewrite filter_app, map_app. Qed.
Lemma from_in : forall T u (l : list (nat * option T)) o, In o (from u l) <-> In (u, o) l.
Proof.
  intros. unfold from. rewrite in_map_iff. split.
  - intros ((k & o') & <- & H). apply filter_In in H. destruct H as (H & E). apply Nat.eqb_eq in E. simpl in *. now subst.
  - intros H. exists (u, o). split; auto. apply filter_In. split; auto. apply Nat.eqb_refl.
Qed.
Lemma mem_in : forall x l, mem x l = true <-> In x l.
Proof.
  intros. unfold mem. rewrite existsb_exists. split.
  - intros (y & H & E). apply Nat.eqb_eq in E. now subst.
  - intros H. exists x. split; auto. apply Nat.eqb_refl.
Qed.
Lemma fupd2_eq : forall B (f : nat -> nat -> B) i j b, fupd2 f i j b i j = b.
Proof. intros. unfold fupd2. now rewrite !fupd_eq. Qed.
Lemma fupd2_neq : forall B (f : nat -> nat -> B) i j b i' j', (i' <> i \/ j' <> j) -> fupd2 f i j b i' j' = f i' j'.
Proof.
  intros B f i j b i' j' H. unfold fupd2, fupd. destruct (Nat.eqb_spec i' i) as [->|]; auto.
  destruct (Nat.eqb_spec j' j) as [->|]; auto. destruct H; congruence.
Qed.
Lemma fupd2_case : forall B (f : nat -> nat -> B) i j b i' j',
  fupd2 f i j b i' j' = if (i' =? i) && (j' =? j) then b else f i' j'.
Proof.
  intros. destruct (Nat.eqb_spec i' i) as [->|N]; [destruct (Nat.eqb_spec j' j) as [->|N]|]; simpl.
  - apply fupd2_eq.
  - apply fupd2_neq; auto.
  - apply fupd2_neq; auto.
Qed.

Section Queues.
  Context {X : Type}.
  Notation msg := (msg X).
  Variables (size : X -> nat) (urgent : msg -> bool) (batch limit : nat).
  Notation push := (push size urgent batch limit).
  Notation push_all := (push_all size urgent batch limit).

  Definition ofsrc (u : nat) (l : list msg) : list msg := filter (fun m => src m =? u) l.
  Definition pendfor (h : nat) (l : list (nat * list msg)) : list msg :=
    concat (map snd (filter (fun p => fst p =? h) l)).
  Lemma ofsrc_app : forall u l m, ofsrc u (l ++ m) = ofsrc u l ++ ofsrc u m.
  Proof. intros. apply filter_app. Qed.
  Lemma pendfor_app : forall h l m, pendfor h (l ++ m) = pendfor h l ++ pendfor h m.
  Proof. intros. unfold pendfor. now rewrite filter_app, map_app, concat_app. Qed.
  Lemma pendfor_pairs : forall h k bs, pendfor h (map (pair k) bs) = if k =? h then concat bs else [].
  Proof.
    intros. unfold pendfor. destruct (Nat.eqb_spec k h) as [->|N].
    - induction bs as [|b bs IH]; simpl; auto. rewrite Nat.eqb_refl. simpl. f_equal. exact IH.
    - induction bs as [|b bs IH]; simpl; auto. destruct (Nat.eqb_spec k h); [congruence|]. exact IH.
  Qed.
  Lemma pendfor_in : forall h l m, In m (pendfor h l) <-> exists b, In (h, b) l /\ In m b.
  Proof.
    intros. unfold pendfor. rewrite in_concat. split.
    - intros (b & Hb & Hm). apply in_map_iff in Hb. destruct Hb as ((k & b') & <- & Hb). apply filter_In in Hb.
      destruct Hb as (Hb & E). apply Nat.eqb_eq in E. simpl in *. subst. eauto.
    - intros (b & Hb & Hm). exists b. split; auto. apply in_map_iff. exists (h, b). split; auto. apply filter_In.
      split; auto. apply Nat.eqb_refl.
  Qed.

  Lemma push_spec : forall b m b' bs, push b m = (b', bs) ->
    concat bs ++ b' = b ++ [m] /\ (bsize size (cont m) = 0 -> b' = []) /\ (b' = [] \/ b' = b ++ [m]) /\ ~ In [] bs.
  Proof.
    intros b m b' bs H. unfold DgrModel.push in H. destruct ((batch =? 1) || (limit <=? bsize size (cont m))).
    - injection H as <- <-. split; [|split; [auto|split; [auto|]]].
      + destruct b; simpl; auto. rewrite app_nil_r. reflexivity.
      + destruct b; simpl; intros H; repeat (destruct H as [H|H]; try discriminate); auto.
    - cbv zeta in H.
      match type of H with (if ?c then _ else _) = _ => destruct c eqn:E end; injection H as <- <-.
      + simpl. split; [rewrite !app_nil_r; reflexivity|]. split; [auto|]. split; auto.
        intros [H|[]]. destruct b; discriminate.
      + simpl. split; auto. split; [|split; [auto|tauto]]. intros Z. rewrite Z in E. simpl in E. rewrite orb_true_r in E.
        discriminate.
  Qed.

  Definition hasm (h : nat) (hs : list nat) (m : msg) : list msg := if mem h hs then [m] else [].

  Definition same_but (s : st X) (B : nat -> nat -> list msg) (P : nat -> list (nat * list msg)) : st X :=
    mkSt (outq s) (closed s) (alive s) B P (choosing s) (net s) (credit s) (acks s) (rb s) (lq s)
         (ended s) (aborted s) (lost s) (sent s) (recv s).

  Lemma push_all_spec : forall g m hs s, NoDup hs -> exists B P,
    push_all s g hs m = same_but s B P /\
    (forall g' h', g' <> g -> B g' h' = buf s g' h') /\ (forall g', g' <> g -> P g' = pend s g') /\
    (forall h', pendfor h' (P g) ++ B g h' = pendfor h' (pend s g) ++ buf s g h' ++ hasm h' hs m) /\
    (forall h', mem h' hs = false -> B g h' = buf s g h') /\
    (forall h', mem h' hs = true -> bsize size (cont m) = 0 -> B g h' = []) /\
    (forall h', mem h' hs = true -> B g h' = [] \/ B g h' = buf s g h' ++ [m]) /\
    (forall h b, In (h, b) (P g) -> In (h, b) (pend s g) \/ (In h hs /\ b <> [])).
  Proof.
    intros g m hs. induction hs as [|h hs IH]; intros s ND.
    - exists (buf s), (pend s). destruct s; cbn. repeat split; auto; try discriminate. intros. now rewrite app_nil_r.
    - inversion ND as [|? ? Hn ND']; subst. cbn [DgrModel.push_all fold_left].
      destruct (push (buf s g h) m) as [b bs] eqn:E. destruct (push_spec _ _ _ _ E) as (E1 & E2 & E3 & E4).
      match goal with |- context [fold_left ?f hs ?s'] => set (s1 := s') in * end.
      destruct (IH s1 ND') as (B & P & R1 & R2 & R3 & R4 & R5 & R6 & R7 & R8).
      exists B, P. unfold DgrModel.push_all in R1. rewrite R1.
      assert (Hb : forall h', buf s1 g h' = if h' =? h then b else buf s g h').
      { intros h'. unfold s1. cbn. rewrite fupd2_case, Nat.eqb_refl. reflexivity. }
      assert (Hp : pend s1 g = pend s g ++ map (pair h) bs) by (unfold s1; cbn; apply fupd_eq).
      assert (Mh : mem h hs = false). { destruct (mem h hs) eqn:M; auto. apply mem_in in M. contradiction. }
      split; [reflexivity|]. split; [|split; [|split; [|split; [|split; [|split]]]]].
      + intros g' h' Ng. rewrite R2 by auto. unfold s1. cbn. rewrite fupd2_neq; auto.
      + intros g' Ng. rewrite R3 by auto. unfold s1. cbn. now rewrite fupd_neq.
      + intros h'. rewrite R4, Hp, pendfor_app, pendfor_pairs, Hb. unfold hasm. simpl.
        rewrite (Nat.eqb_sym h' h).
        destruct (Nat.eqb_spec h h') as [->|N]; simpl.
        * rewrite Mh. rewrite app_nil_r. rewrite <- app_assoc, E1. reflexivity.
        * now rewrite app_nil_r.
      + intros h' M. simpl in M. apply orb_false_iff in M. destruct M as (M1 & M2). rewrite R5 by auto. rewrite Hb, M1. reflexivity.
      + intros h' M Z. simpl in M. destruct (mem h' hs) eqn:Mh'; [now apply R6|]. rewrite R5 by auto.
        rewrite Hb. rewrite orb_false_r in M. rewrite M. auto.
      + intros h' M. simpl in M. destruct (h' =? h) eqn:Eh; simpl in M.
        * apply Nat.eqb_eq in Eh. subst h'. rewrite R5 by auto. rewrite Hb, Nat.eqb_refl. exact E3.
        * destruct (R7 h' M) as [H|H]; auto. right. rewrite H, Hb, Eh. reflexivity.
      + intros h' b' Hi. destruct (R8 _ _ Hi) as [H|(H & Hne)]; [|right; simpl; auto].
        rewrite Hp in H. apply in_app_iff in H. destruct H as [H|H]; auto.
        apply in_map_iff in H. destruct H as (b0 & H & Hb0). injection H as <- <-. right. simpl. split; auto.
        intros ->. auto.
  Qed.

  Lemma flush_all_spec : forall g hs (s : st X), exists B P,
    flush_all s g hs = same_but s B P /\
    (forall g' h', g' <> g -> B g' h' = buf s g' h') /\ (forall g', g' <> g -> P g' = pend s g') /\
    (forall h', pendfor h' (P g) ++ B g h' = pendfor h' (pend s g) ++ buf s g h') /\
    (forall h', B g h' = [] \/ B g h' = buf s g h') /\
    (forall h b, In (h, b) (P g) -> In (h, b) (pend s g) \/ (In h hs /\ b <> [])).
  Proof.
    intros g hs. induction hs as [|h hs IH]; intros s.
    - exists (buf s), (pend s). destruct s; cbn. repeat split; auto.
    - cbn [flush_all fold_left]. destruct (buf s g h) as [|m0 b0] eqn:Eb.
      + destruct (IH s) as (B & P & R1 & R2 & R3 & R4 & R5 & R6). exists B, P. unfold flush_all in R1. rewrite R1.
        repeat split; auto. intros h' b Hi. destruct (R6 _ _ Hi) as [H|(H & Hne)]; auto. right. simpl. auto.
      + match goal with |- context [fold_left ?f hs ?s'] => set (s1 := s') in * end.
        destruct (IH s1) as (B & P & R1 & R2 & R3 & R4 & R5 & R6).
        exists B, P. unfold flush_all in R1. rewrite R1.
        assert (Hb : forall h', buf s1 g h' = if h' =? h then [] else buf s g h').
        { intros h'. unfold s1. cbn. rewrite fupd2_case, Nat.eqb_refl. reflexivity. }
        assert (Hp : pend s1 g = pend s g ++ [(h, m0 :: b0)]) by (unfold s1; cbn; apply fupd_eq).
        split; [reflexivity|]. split; [|split; [|split; [|split]]].
        * intros g' h' Ng. rewrite R2 by auto. unfold s1. cbn. rewrite fupd2_neq; auto.
        * intros g' Ng. rewrite R3 by auto. unfold s1. cbn. now rewrite fupd_neq.
        * intros h'. rewrite R4, Hp, pendfor_app, Hb. change [(h, m0 :: b0)] with (map (pair h) [m0 :: b0]).
          rewrite pendfor_pairs. rewrite (Nat.eqb_sym h' h). destruct (Nat.eqb_spec h h') as [->|N].
          -- simpl concat. rewrite Eb, !app_nil_r. reflexivity.
          -- now rewrite app_nil_r.
        * intros h'. destruct (R5 h') as [H|H]; auto. rewrite Hb in H. destruct (h' =? h); auto.
        * intros h' b' Hi. destruct (R6 _ _ Hi) as [H|(H & Hne)]; [|right; simpl; auto].
          rewrite Hp in H. apply in_app_iff in H. destruct H as [H|[H|[]]]; auto. injection H as <- <-. right. simpl.
          split; [auto|discriminate].
  Qed.
End Queues.
