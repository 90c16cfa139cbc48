(** Proofs about the data-flow scheduler: insertion and completion preserve the dependency invariant. *)
From Coq Require Import List Arith Bool Lia ZArith Relations Sorted.
From Verif Require Import Base MdfModel MdfSpec MdfProofs.
Import ListNotations.

Record sem (T : nat -> option tk) (A : list (nat * nat)) (P : list (nat * list param)) (F : list nat) : Prop := {
  m_tag : forall a pa d, In (a, pa) P -> touches pa d -> d <> 0;
  m_none : forall d, d <> 0 -> find_tag A d = 0 -> forall a pa, In (a, pa) P -> ~ touches pa d;
  m_hold : forall d h k, In (d, h) A -> T h = Some k ->
    (tdum k = false /\ (exists ph, In (h, ph) P /\ writes ph d) /\
      (forall w pw, In (w, pw) P -> writes pw d -> w <= h) /\
      (forall r pr, In (r, pr) P -> reads pr d -> h < r -> In r (tunb k))) \/
    (tdum k = true /\ (forall w pw, In (w, pw) P -> ~ writes pw d) /\
      (forall r pr, In (r, pr) P -> reads pr d -> In r (tunb k)));
  m_ord : forall a pa b pb, In (a, pa) P -> In (b, pb) P -> a < b -> conflict pa pb ->
    In a F \/ (~ In b F /\ clos_trans nat (edge T) a b) }.

Definition ids (P : list (nat * list param)) : list nat := map fst P.

Lemma ids_in : forall P a pa, In (a, pa) P -> In a (ids P).
Proof. intros P a pa H. apply in_map_iff. exists (a, pa). auto. Qed.

Definition ginv (g : graph) (P : list (nat * list param)) (F : list nat) (cur : nat) : Prop :=
  sinv (tset g) (nextid g) (ids P) F cur /\ ainv (tset g) (aset g) /\ sem (tset g) (aset g) P F /\ 1 <= nextid g.

Lemma grow_back : forall b T T' y k', grow b T T' -> T' y = Some k' ->
  exists k, T y = Some k /\ tst k' = tst k /\ tdum k' = tdum k /\ tnout k' = tnout k /\ forall x, In x (tunb k) -> In x (tunb k').
Proof.
  intros b T T' y k' G E. specialize (G y). destruct (T y) as [k|]; [|congruence]. destruct G as (k2 & E2 & X). exists k.
  assert (k2 = k') by congruence. subst k2. auto.
Qed.
Lemma grow_fwd : forall b T T' y k, grow b T T' -> T y = Some k -> exists k', T' y = Some k'.
Proof. intros b T T' y k G E. specialize (G y). rewrite E in G. destruct G as (k2 & E2 & _). eauto. Qed.

Lemma ainv_grow : forall b T T' A, ainv T A -> grow b T T' -> ainv T' A.
Proof.
  intros b T T' A [ND EN OU] G. constructor; auto.
  - intros d h H. destruct (EN d h H) as (H1 & H2 & k & E). split; auto. split; auto. eapply grow_fwd; eauto.
  - intros y k E. destruct (grow_back b T T' y k G E) as (k2 & E2 & _ & _ & X & _). rewrite X. auto.
Qed.

Lemma in_last : forall (P0 : list (nat * list param)) b ps x px, In (x, px) (P0 ++ [(b, ps)]) -> In (x, px) P0 \/ (x = b /\ px = ps).
Proof. intros P0 b ps x px H. apply in_app_iff in H. destruct H as [H|[H|[]]]; auto. right. split; congruence. Qed.
Lemma in_init : forall (P0 : list (nat * list param)) b ps x px, In (x, px) P0 -> In (x, px) (P0 ++ [(b, ps)]).
Proof. intros. apply in_app_iff. auto. Qed.
Lemma in_cur : forall (P0 : list (nat * list param)) b ps, In (b, ps) (P0 ++ [(b, ps)]).
Proof. intros. apply in_app_iff. cbn. auto. Qed.
Lemma ids_snoc : forall P0 b (ps : list param), ids (P0 ++ [(b, ps)]) = ids P0 ++ [b].
Proof. intros. unfold ids. rewrite map_app. reflexivity. Qed.

Lemma reads_snoc : forall ps d r e, reads (ps ++ [(d, r)]) e <-> reads ps e \/ (d = e /\ r = INPUT).
Proof. intros. unfold reads. rewrite in_app_iff. cbn. split; [intros [H|[H|[]]]; auto; right; split; congruence|intros [H|[-> ->]]; auto]. Qed.
Lemma writes_snoc : forall ps d r e, writes (ps ++ [(d, r)]) e <-> writes ps e \/ (d = e /\ r = OUTPUT).
Proof. intros. unfold writes. rewrite in_app_iff. cbn. split; [intros [H|[H|[]]]; auto; right; split; congruence|intros [H|[-> ->]]; auto]. Qed.

Lemma snoc_nodup : forall P0 b, StronglySorted lt (ids P0 ++ [b]) -> forall (pb : list param), ~ In (b, pb) P0.
Proof.
  intros P0 b S pb H. apply ids_in in H. induction (ids P0) as [|x l IH]; [destruct H|]. cbn in S. inversion S as [|? ? S1 S2]; subst.
  destruct H as [<-|H]; [|auto]. rewrite Forall_forall in S2. assert (X : x < x) by (apply S2; apply in_app_iff; cbn; auto). lia.
Qed.

Section Param.
  Variables (T : nat -> option tk) (N : nat) (A : list (nat * nat)) (P0 : list (nat * list param)) (b : nat) (ps : list param) (F : list nat).
  Notation P := (P0 ++ [(b, ps)]).
  Hypothesis SI : sinv T N (ids P) F b.
  Hypothesis AI : ainv T A.
  Hypothesis SM : sem T A P F.
  Hypothesis Hb : b <> 0.

  Lemma cur_pend : pend T b.
  Proof. destruct (s_cur _ _ _ _ _ SI Hb) as ((k & E & S & _) & _). exists k. split; auto. congruence. Qed.
  Lemma cur_notfin : ~ In b F.
  Proof. intros H. assert (X : In b (ids P)) by (eapply ids_in; apply in_cur). apply (s_fin _ _ _ _ _ SI b X) in H. apply H. apply cur_pend. Qed.
  Lemma cur_max : forall a pa, In (a, pa) P -> a <= b.
  Proof. intros a pa H. destruct (s_cur _ _ _ _ _ SI Hb) as (_ & M). apply M. eapply ids_in; eauto. Qed.
  Lemma cur_uniq : forall pb, In (b, pb) P -> pb = ps.
  Proof.
    intros pb H. apply in_last in H. destruct H as [H|[_ H]]; auto. exfalso. pose proof (s_sort _ _ _ _ _ SI) as S. rewrite ids_snoc in S.
    exact (snoc_nodup P0 b S pb H).
  Qed.
  Lemma cur_lt : forall a pa, In (a, pa) P0 -> a < b.
  Proof.
    intros a pa H. assert (L := cur_max a pa (in_init _ _ _ _ _ H)). destruct (Nat.eq_dec a b) as [->|X]; [|lia]. exfalso.
    pose proof (s_sort _ _ _ _ _ SI) as S. rewrite ids_snoc in S. exact (snoc_nodup P0 b S pa H).
  Qed.
  Lemma notfin_pend : forall a pa, In (a, pa) P -> In a F \/ pend T a.
  Proof.
    intros a pa H. apply ids_in in H. pose proof (s_fin _ _ _ _ _ SI a H) as X.
    destruct (T a) as [k|] eqn:E.
    - destruct (tst k) eqn:S; [right; exists k; split; auto; congruence|right; exists k; split; auto; congruence|left].
      apply X. intros (k2 & E2 & D). congruence.
    - left. apply X. intros (k2 & E2 & D). congruence.
  Qed.

  (** [a] precedes the holder [t] of some datum both write or that [a] reads: it is finished or leads to [t]. *)
  Lemma before_holder : forall d t pt a pa, In (t, pt) P -> writes pt d -> In (a, pa) P -> touches pa d -> a < t ->
    In a F \/ (pend T t /\ clos_trans nat (edge T) a t).
  Proof.
    intros d t pt a pa Ht Wt Ha Ta L. destruct (m_ord _ _ _ _ SM a pa t pt Ha Ht L) as [X|[X Y]].
    - exists d. unfold touches in *. destruct Ta; auto.
    - auto.
    - right. split; auto. destruct (notfin_pend t pt Ht); tauto.
  Qed.

  (** The task reads [d], held by [t]. *)
  Lemma sem_read : forall d t T' k', sinv T' N (ids P) F b -> grow b T T' -> d <> 0 -> ~ writes ps d ->
    In (d, t) A -> T' t = Some k' -> In b (tunb k') -> (pend T t -> edge T' t b) ->
    sem T' A (P0 ++ [(b, ps ++ [(d, INPUT)])]) F.
  Proof.
    intros d t T' k' SI' G Hd NW Hh Et Ub Ed. constructor.
    - intros a pa e H Te. apply in_last in H. destruct H as [H|[-> ->]]; [eapply m_tag; eauto; eapply in_init; eauto|].
      unfold touches in Te. rewrite reads_snoc, writes_snoc in Te. destruct Te as [[Te|[-> _]]|[Te|[_ X]]]; auto; try discriminate;
        eapply (m_tag _ _ _ _ SM b ps); unfold touches; eauto using in_cur.
    - intros e He Fe a pa H Te. assert (NE : e <> d).
      { intros ->. apply (find_tag_none A d t) in Fe; [tauto|]. intros e x X. apply (a_ent _ _ AI) in X. tauto. }
      apply in_last in H. destruct H as [H|[-> ->]]; [eapply (m_none _ _ _ _ SM e He Fe a pa); auto; eapply in_init; eauto|].
      unfold touches in Te. rewrite reads_snoc, writes_snoc in Te.
      apply (m_none _ _ _ _ SM e He Fe b ps (in_cur _ _ _)). unfold touches. destruct Te as [[Te|[-> _]]|[Te|[_ X]]]; auto; congruence.
    - intros e h k2 He Eh. destruct (grow_back b T T' h k2 G Eh) as (k & E & S1 & S2 & S3 & S4).
      destruct (m_hold _ _ _ _ SM e h k He E) as [(D & (ph & Hp & Wp) & WL & RL)|(D & NWr & RL)]; [left|right].
      + split; [congruence|]. split; [|split].
        * apply in_last in Hp. destruct Hp as [Hp|[-> ->]]; [exists ph; split; [eapply in_init; eauto|auto]|].
          exists (ps ++ [(d, INPUT)]). split; [apply in_cur|]. apply writes_snoc. auto.
        * intros w pw Hw Ww. apply in_last in Hw. destruct Hw as [Hw|[-> ->]]; [eapply WL; eauto; eapply in_init; eauto|].
          apply writes_snoc in Ww. destruct Ww as [Ww|[_ X]]; [|discriminate]. eapply WL; eauto. apply in_cur.
        * intros r pr Hr Rr L. apply in_last in Hr. destruct Hr as [Hr|[-> ->]]; [apply S4; eapply RL; eauto; eapply in_init; eauto|].
          apply reads_snoc in Rr. destruct Rr as [Rr|[-> _]]; [apply S4; eapply RL; eauto; apply in_cur|].
          assert (h = t) by (rewrite <- (find_tag_unique A e h), <- (find_tag_unique A e t); auto; eapply a_nd; eauto). subst h.
          assert (k2 = k') by congruence. subst. auto.
      + split; [congruence|]. split.
        * intros w pw Hw Ww. apply in_last in Hw. destruct Hw as [Hw|[-> ->]]; [eapply NWr; eauto; eapply in_init; eauto|].
          apply writes_snoc in Ww. destruct Ww as [Ww|[_ X]]; [|discriminate]. eapply NWr; eauto. apply in_cur.
        * intros r pr Hr Rr. apply in_last in Hr. destruct Hr as [Hr|[-> ->]]; [apply S4; eapply RL; eauto; eapply in_init; eauto|].
          apply reads_snoc in Rr. destruct Rr as [Rr|[-> _]]; [apply S4; eapply RL; eauto; apply in_cur|].
          assert (h = t) by (rewrite <- (find_tag_unique A e h), <- (find_tag_unique A e t); auto; eapply a_nd; eauto). subst h.
          assert (k2 = k') by congruence. subst. auto.
    - assert (MONO : forall y x, clos_trans nat (edge T) y x -> clos_trans nat (edge T') y x).
      { apply edges_paths. intros. eapply grow_edge; eauto. }
      intros a pa c pc Ha Hc L C.
      assert (Ha0 : In (a, pa) P0).
      { apply in_last in Ha. destruct Ha as [Ha|[-> ->]]; auto. exfalso. apply in_last in Hc. destruct Hc as [Hc|[-> _]]; [|lia]. apply cur_lt in Hc. lia. }
      apply in_last in Hc. destruct Hc as [Hc|[-> ->]].
      + destruct (m_ord _ _ _ _ SM a pa c pc (in_init _ _ _ _ _ Ha0) (in_init _ _ _ _ _ Hc) L C) as [X|[X Y]]; auto.
      + assert (OLD : conflict pa ps \/ writes pa d).
        { destruct C as (e & [[C1 C2]|[C1 C2]]).
          - unfold touches in C2. rewrite reads_snoc, writes_snoc in C2. destruct C2 as [[C2|[-> _]]|[C2|[_ X]]]; auto; try discriminate;
              left; exists e; unfold touches; auto.
          - rewrite writes_snoc in C2. destruct C2 as [C2|[_ X]]; [|discriminate]. left. exists e. auto. }
        destruct OLD as [OLD|WA].
        * destruct (m_ord _ _ _ _ SM a pa b ps (in_init _ _ _ _ _ Ha0) (in_cur _ _ _) L OLD) as [X|[X Y]]; auto.
        * destruct (a_ent _ _ AI d t Hh) as (_ & _ & kt & Ekt).
          destruct (m_hold _ _ _ _ SM d t kt Hh Ekt) as [(D & (pt & Hp & Wp) & WL & RL)|(D & NWr & RL)];
            [|exfalso; eapply NWr; eauto; eapply in_init; eauto].
          assert (LE := WL a pa (in_init _ _ _ _ _ Ha0) WA). destruct (Nat.eq_dec a t) as [->|NE].
          -- destruct (notfin_pend t pa (in_init _ _ _ _ _ Ha0)) as [X|X]; auto. right. split; [apply cur_notfin|]. apply t_step. auto.
          -- destruct (before_holder d t pt a pa Hp Wp (in_init _ _ _ _ _ Ha0)) as [X|[X Y]]; [unfold touches; auto|lia|auto|].
             right. split; [apply cur_notfin|]. eapply t_trans; [apply MONO; exact Y|]. apply t_step. auto.
  Qed.

  (** The task reads [d], which nobody touched: a dummy holder is created. *)
  Lemma sem_read_new : forall d m T', T' = fupd T N (Some (mkT Done true 0 [b] m)) ->
    (forall y x, edge T' y x <-> edge T y x) -> N <> 0 -> d <> 0 -> find_tag A d = 0 ->
    sem T' ((d, N) :: A) (P0 ++ [(b, ps ++ [(d, INPUT)])]) F.
  Proof.
    intros d m T' ET ED HN Hd FD. pose proof (fresh_none _ _ _ _ _ SI) as FN.
    assert (NT : forall a pa, In (a, pa) P -> ~ touches pa d) by (intros; eapply m_none; eauto).
    assert (NA : forall h, ~ In (d, h) A). { intros h. apply find_tag_none; auto. intros e x X. apply (a_ent _ _ AI) in X. tauto. }
    constructor.
    - intros a pa e H Te. apply in_last in H. destruct H as [H|[-> ->]]; [eapply m_tag; eauto; eapply in_init; eauto|].
      unfold touches in Te. rewrite reads_snoc, writes_snoc in Te. destruct Te as [[Te|[-> _]]|[Te|[_ X]]]; auto; try discriminate;
        eapply (m_tag _ _ _ _ SM b ps); unfold touches; eauto using in_cur.
    - intros e He Fe a pa H Te. cbn in Fe. destruct (d =? e) eqn:DE; [congruence|]. apply Nat.eqb_neq in DE.
      apply in_last in H. destruct H as [H|[-> ->]]; [eapply (m_none _ _ _ _ SM e He Fe a pa); auto; eapply in_init; eauto|].
      unfold touches in Te. rewrite reads_snoc, writes_snoc in Te.
      apply (m_none _ _ _ _ SM e He Fe b ps (in_cur _ _ _)). unfold touches. destruct Te as [[Te|[-> _]]|[Te|[_ X]]]; auto; congruence.
    - intros e h k2 [He|He] Eh.
      + injection He as <- <-. rewrite ET, fupd_eq in Eh. injection Eh as <-. right. cbn. split; auto. split.
        * intros w pw Hw Ww. apply in_last in Hw. destruct Hw as [Hw|[-> ->]]; [eapply (NT w pw); [eapply in_init; eauto|unfold touches; auto]|].
          apply writes_snoc in Ww. destruct Ww as [Ww|[_ X]]; [|discriminate]. apply (NT b ps (in_cur _ _ _)). unfold touches. auto.
        * intros r pr Hr Rr. apply in_last in Hr. destruct Hr as [Hr|[-> ->]]; auto. exfalso. eapply (NT r pr); [eapply in_init; eauto|unfold touches; auto].
      + assert (NE : e <> d) by (intros ->; eapply NA; eauto).
        assert (HN2 : h <> N). { intros ->. destruct (a_ent _ _ AI e N He) as (_ & _ & k & E). congruence. }
        rewrite ET, fupd_neq in Eh by auto.
        destruct (m_hold _ _ _ _ SM e h k2 He Eh) as [(D & (ph & Hp & Wp) & WL & RL)|(D & NWr & RL)]; [left|right].
        * split; auto. split; [|split].
          -- apply in_last in Hp. destruct Hp as [Hp|[-> ->]]; [exists ph; split; [eapply in_init; eauto|auto]|].
             exists (ps ++ [(d, INPUT)]). split; [apply in_cur|]. apply writes_snoc. auto.
          -- intros w pw Hw Ww. apply in_last in Hw. destruct Hw as [Hw|[-> ->]]; [eapply WL; eauto; eapply in_init; eauto|].
             apply writes_snoc in Ww. destruct Ww as [Ww|[_ X]]; [|discriminate]. eapply WL; eauto. apply in_cur.
          -- intros r pr Hr Rr L. apply in_last in Hr. destruct Hr as [Hr|[-> ->]]; [eapply RL; eauto; eapply in_init; eauto|].
             apply reads_snoc in Rr. destruct Rr as [Rr|[-> _]]; [|congruence]. eapply RL; eauto; apply in_cur.
        * split; auto. split.
          -- intros w pw Hw Ww. apply in_last in Hw. destruct Hw as [Hw|[-> ->]]; [eapply NWr; eauto; eapply in_init; eauto|].
             apply writes_snoc in Ww. destruct Ww as [Ww|[_ X]]; [|discriminate]. eapply NWr; eauto. apply in_cur.
          -- intros r pr Hr Rr. apply in_last in Hr. destruct Hr as [Hr|[-> ->]]; [eapply RL; eauto; eapply in_init; eauto|].
             apply reads_snoc in Rr. destruct Rr as [Rr|[-> _]]; [|congruence]. eapply RL; eauto; apply in_cur.
    - assert (MONO : forall y x, clos_trans nat (edge T) y x -> clos_trans nat (edge T') y x).
      { apply edges_paths. intros y x H. apply ED. auto. }
      intros a pa c pc Ha Hc L C.
      assert (Ha0 : In (a, pa) P0).
      { apply in_last in Ha. destruct Ha as [Ha|[-> ->]]; auto. exfalso. apply in_last in Hc. destruct Hc as [Hc|[-> _]]; [|lia]. apply cur_lt in Hc. lia. }
      apply in_last in Hc. destruct Hc as [Hc|[-> ->]].
      + destruct (m_ord _ _ _ _ SM a pa c pc (in_init _ _ _ _ _ Ha0) (in_init _ _ _ _ _ Hc) L C) as [X|[X Y]]; auto.
      + assert (OLD : conflict pa ps).
        { destruct C as (e & [[C1 C2]|[C1 C2]]).
          - unfold touches in C2. rewrite reads_snoc, writes_snoc in C2.
            destruct C2 as [[C2|[-> _]]|[C2|[_ X]]]; try discriminate; [exists e; unfold touches; auto|exfalso|exists e; unfold touches; auto].
            apply (NT a pa (in_init _ _ _ _ _ Ha0)). unfold touches. auto.
          - rewrite writes_snoc in C2. destruct C2 as [C2|[_ X]]; [|discriminate]. exists e. auto. }
        destruct (m_ord _ _ _ _ SM a pa b ps (in_init _ _ _ _ _ Ha0) (in_cur _ _ _) L OLD) as [X|[X Y]]; auto.
  Qed.

  (** The task writes [d]. [T1]: table with the new dependencies; [T']: final table, [A']: without the old holder. *)
  Lemma sem_write : forall d T1 T' A', grow b T T1 -> d <> 0 -> ~ writes ps d ->
    (forall t k, In (d, t) A -> T t = Some k -> (tunb k = [] -> pend T t -> edge T1 t b) /\
       (forall x, In x (tunb k) -> x <> b -> pend T x -> edge T1 x b)) ->
    (forall y x, edge T' y x <-> edge T1 y x) ->
    (forall e h, In (e, h) A' <-> In (e, h) A /\ e <> d) ->
    (forall e, find_tag ((d, b) :: A') e = 0 -> e <> d /\ find_tag A e = 0) ->
    (forall h k', T' h = Some k' -> exists k1, T1 h = Some k1 /\ same_but_out k1 k') ->
    sem T' ((d, b) :: A') (P0 ++ [(b, ps ++ [(d, OUTPUT)])]) F.
  Proof.
    intros d T1 T' A' G Hd NW DEP ED AA FA TB. constructor.
    - intros a pa e H Te. apply in_last in H. destruct H as [H|[-> ->]]; [eapply m_tag; eauto; eapply in_init; eauto|].
      unfold touches in Te. rewrite reads_snoc, writes_snoc in Te. destruct Te as [[Te|[_ X]]|[Te|[-> _]]]; auto; try discriminate;
        eapply (m_tag _ _ _ _ SM b ps); unfold touches; eauto using in_cur.
    - intros e He Fe a pa H Te. apply FA in Fe. destruct Fe as [NE Fe].
      apply in_last in H. destruct H as [H|[-> ->]]; [eapply (m_none _ _ _ _ SM e He Fe a pa); auto; eapply in_init; eauto|].
      unfold touches in Te. rewrite reads_snoc, writes_snoc in Te.
      apply (m_none _ _ _ _ SM e He Fe b ps (in_cur _ _ _)). unfold touches. destruct Te as [[Te|[_ X]]|[Te|[-> _]]]; auto; congruence.
    - intros e h k2 [He|He] Eh.
      + injection He as <- <-. destruct (TB _ _ Eh) as (k1 & E1 & S1 & S2 & S3 & S4).
        destruct (grow_back b T T1 b k1 G E1) as (k & E & Q1 & Q2 & Q3 & Q4).
        destruct (s_cur _ _ _ _ _ SI Hb) as ((kb & Ekb & Skb & Dkb) & MX). left. split; [congruence|]. split; [|split].
        * exists (ps ++ [(d, OUTPUT)]). split; [apply in_cur|]. apply writes_snoc. auto.
        * intros w pw Hw _. apply in_last in Hw. destruct Hw as [Hw|[-> _]]; auto. eapply cur_max. eapply in_init; eauto.
        * intros r pr Hr _ L. exfalso. apply in_last in Hr. destruct Hr as [Hr|[-> _]]; [|lia]. apply cur_lt in Hr. lia.
      + apply AA in He. destruct He as [He NE]. destruct (TB _ _ Eh) as (k1 & E1 & S1 & S2 & S3 & S4).
        destruct (grow_back b T T1 h k1 G E1) as (k & E & Q1 & Q2 & Q3 & Q4).
        destruct (m_hold _ _ _ _ SM e h k He E) as [(D & (ph & Hp & Wp) & WL & RL)|(D & NWr & RL)]; [left|right]; rewrite S2, Q2, S4; split; auto; split.
        * apply in_last in Hp. destruct Hp as [Hp|[-> ->]]; [exists ph; split; [eapply in_init; eauto|auto]|].
          exists (ps ++ [(d, OUTPUT)]). split; [apply in_cur|]. apply writes_snoc. auto.
        * split.
          -- intros w pw Hw Ww. apply in_last in Hw. destruct Hw as [Hw|[-> ->]]; [eapply WL; eauto; eapply in_init; eauto|].
             apply writes_snoc in Ww. destruct Ww as [Ww|[-> _]]; [|congruence]. eapply WL; eauto. apply in_cur.
          -- intros r pr Hr Rr L. apply in_last in Hr. destruct Hr as [Hr|[-> ->]]; [apply Q4; eapply RL; eauto; eapply in_init; eauto|].
             apply reads_snoc in Rr. destruct Rr as [Rr|[_ X]]; [|discriminate]. apply Q4. eapply RL; eauto; apply in_cur.
        * intros w pw Hw Ww. apply in_last in Hw. destruct Hw as [Hw|[-> ->]]; [eapply NWr; eauto; eapply in_init; eauto|].
          apply writes_snoc in Ww. destruct Ww as [Ww|[-> _]]; [|congruence]. eapply NWr; eauto. apply in_cur.
        * intros r pr Hr Rr. apply in_last in Hr. destruct Hr as [Hr|[-> ->]]; [apply Q4; eapply RL; eauto; eapply in_init; eauto|].
          apply reads_snoc in Rr. destruct Rr as [Rr|[_ X]]; [|discriminate]. apply Q4. eapply RL; eauto; apply in_cur.
    - assert (MONO : forall y x, clos_trans nat (edge T) y x -> clos_trans nat (edge T') y x).
      { apply edges_paths. intros y x H. apply ED. eapply grow_edge; eauto. }
      intros a pa c pc Ha Hc L C.
      assert (Ha0 : In (a, pa) P0).
      { apply in_last in Ha. destruct Ha as [Ha|[-> ->]]; auto. exfalso. apply in_last in Hc. destruct Hc as [Hc|[-> _]]; [|lia]. apply cur_lt in Hc. lia. }
      apply in_last in Hc. destruct Hc as [Hc|[-> ->]].
      + destruct (m_ord _ _ _ _ SM a pa c pc (in_init _ _ _ _ _ Ha0) (in_init _ _ _ _ _ Hc) L C) as [X|[X Y]]; auto.
      + assert (OLD : conflict pa ps \/ touches pa d).
        { destruct C as (e & [[C1 C2]|[C1 C2]]).
          - unfold touches in C2. rewrite reads_snoc, writes_snoc in C2. destruct C2 as [[C2|[_ X]]|[C2|[-> _]]]; try discriminate;
              [left; exists e; unfold touches; auto|left; exists e; unfold touches; auto|right; unfold touches; auto].
          - rewrite writes_snoc in C2. destruct C2 as [C2|[-> _]]; [left; exists e; auto|right; unfold touches; auto]. }
        destruct OLD as [OLD|TA].
        * destruct (m_ord _ _ _ _ SM a pa b ps (in_init _ _ _ _ _ Ha0) (in_cur _ _ _) L OLD) as [X|[X Y]]; auto.
        * assert (FD : find_tag A d <> 0) by (intros Z; apply (m_none _ _ _ _ SM d Hd Z a pa (in_init _ _ _ _ _ Ha0)); auto).
          assert (Hh := find_tag_in A d FD). remember (find_tag A d) as t eqn:Et. clear Et.
          destruct (a_ent _ _ AI d t Hh) as (_ & _ & kt & Ekt). destruct (DEP t kt Hh Ekt) as [DEP1 DEP2].
          (* a pending task in the list of the holder leads to [b] *)
          assert (VIA : forall x, In x (tunb kt) -> x <> b -> pend T x -> clos_trans nat (edge T') x b).
          { intros x X1 X2 X3. apply t_step. apply ED. auto. }
          (* so does a pending holder *)
          assert (HOLD : pend T t -> clos_trans nat (edge T') t b).
          { intros PT. destruct (tunb kt) as [|x us] eqn:EU; [apply t_step; apply ED; auto|].
            assert (ET : edge T t x). { destruct PT as (k & E & D). assert (k = kt) by congruence. subst k. exists kt. repeat split; auto. rewrite EU. cbn. auto. }
            destruct (Nat.eq_dec x b) as [->|NX]; [apply t_step; apply ED; eapply grow_edge; eauto|].
            eapply t_trans; [apply t_step; apply ED; eapply grow_edge; eauto|]. apply VIA; [cbn; auto|auto|].
            (* [x] waits for [t], so it is pending *)
            eapply (s_pe _ _ _ _ _ SI); eauto. }
          destruct (m_hold _ _ _ _ SM d t kt Hh Ekt) as [(D & (pt & Hp & Wp) & WL & RL)|(D & NWr & RL)].
          -- destruct (Nat.lt_trichotomy a t) as [LT|[->|GT]].
             ++ destruct (before_holder d t pt a pa Hp Wp (in_init _ _ _ _ _ Ha0)) as [X|[X Y]]; auto.
                right. split; [apply cur_notfin|]. eapply t_trans; [apply MONO; exact Y|auto].
             ++ destruct (notfin_pend t pa (in_init _ _ _ _ _ Ha0)) as [X|X]; auto. right. split; [apply cur_notfin|auto].
             ++ destruct TA as [RA|WA]; [|specialize (WL a pa (in_init _ _ _ _ _ Ha0) WA); lia].
                assert (UA := RL a pa (in_init _ _ _ _ _ Ha0) RA GT).
                destruct (notfin_pend a pa (in_init _ _ _ _ _ Ha0)) as [X|X]; auto. right. split; [apply cur_notfin|].
                apply VIA; auto. apply cur_lt in Ha0. lia.
          -- destruct TA as [RA|WA]; [|exfalso; eapply NWr; eauto; eapply in_init; eauto].
             assert (UA := RL a pa (in_init _ _ _ _ _ Ha0) RA).
             destruct (notfin_pend a pa (in_init _ _ _ _ _ Ha0)) as [X|X]; auto. right. split; [apply cur_notfin|].
             apply VIA; auto. apply cur_lt in Ha0. lia.
  Qed.
End Param.

(** ** One parameter *)
Lemma upd_get : forall T x f y, upd T x f y = if y =? x then option_map f (T x) else T y.
Proof.
  intros T x f y. unfold upd. destruct (T x) as [k|] eqn:E.
  - unfold fupd. destruct (y =? x); auto.
  - destruct (y =? x) eqn:A; auto. apply Nat.eqb_eq in A. subst. auto.
Qed.

Lemma out_out : forall T x z, (forall y, match T y with None => upd T x (add_out z) y = None | Some k => exists k', upd T x (add_out z) y = Some k' /\ same_but_out k k' end).
Proof.
  intros T x z y. rewrite upd_get. destruct (y =? x) eqn:A.
  - apply Nat.eqb_eq in A. subst y. destruct (T x) as [k|]; auto. exists (add_out z k). split; auto. repeat split.
  - destruct (T y) as [k|]; auto. exists k. split; auto. repeat split.
Qed.
Lemma out_edge : forall T x z y w, edge (upd T x (add_out z)) y w <-> edge T y w.
Proof.
  intros T x z y w. unfold edge. rewrite upd_get. destruct (y =? x) eqn:A; [|tauto]. apply Nat.eqb_eq in A. subst y.
  destruct (T x) as [k|]; cbn; [|tauto]. split; intros (k' & E & D & U); injection E as <-; eexists; split; eauto.
Qed.

Lemma add_param_inv : forall b g p P0 ps F, ginv g (P0 ++ [(b, ps)]) F b -> b <> 0 ->
  (snd p <> VALUE -> fst p <> 0 /\ ~ writes ps (fst p)) -> ginv (add_param b g p) (P0 ++ [(b, ps ++ [p])]) F b.
Proof.
  intros b [T A N] [d r] P0 ps F (SI & AI & SM & HN) Hb SU. cbn [fst snd tset aset nextid] in *.
  assert (IDS : ids (P0 ++ [(b, ps ++ [(d, r)])]) = ids (P0 ++ [(b, ps)])) by (rewrite !ids_snoc; auto).
  destruct (s_cur _ _ _ _ _ SI Hb) as ((kb & Eb & Sb & Db) & MX).
  assert (Rb : In b (ids (P0 ++ [(b, ps)]))) by (eapply s_real; eauto).
  assert (Z0 : forall e x, In (e, x) A -> x <> 0) by (intros e x X; apply (a_ent _ _ AI) in X; tauto).
  assert (HB : forall t, In (d, t) A -> r <> VALUE -> t <> b).
  { intros t Ht Hr ->. destruct (m_hold _ _ _ _ SM d b kb Ht Eb) as [(_ & (ph & Hp & Wp) & _)|(D & _)]; [|congruence].
    apply (cur_uniq T N P0 b ps F SI) in Hp. subst ph. tauto. }
  destruct r.
  - (* INPUT *)
    destruct SU as [Hd NW]; [discriminate|]. unfold add_param. cbn [fst snd]. unfold holder. cbn [aset tset nextid].
    destruct (find_tag A d =? 0) eqn:FD.
    + apply Nat.eqb_eq in FD. assert (NA := fun h => find_tag_none A d h Z0 FD).
      assert (EA : ins_tag A d N = (d, N) :: A).
      { unfold ins_tag. rewrite (proj2 (Nat.eqb_neq d 0) Hd). cbn. destruct (existsb (fun e => fst e =? d) A) eqn:X; auto. exfalso.
        apply existsb_tag in X. apply in_map_iff in X. destruct X as ([e x] & E & X). cbn in E. subst e. eapply NA; eauto. }
      rewrite EA. destruct (sinv_dummy T N _ F b b 1%Z SI HN Rb) as [S1 S2]. unfold ginv. cbn [tset aset nextid]. rewrite IDS.
      split; auto. split; [|split; [eapply sem_read_new; eauto; lia|lia]].
      pose proof (fresh_none _ _ _ _ _ SI) as FN. constructor.
      * cbn. constructor; [|eapply a_nd; eauto]. intros X. apply in_map_iff in X. destruct X as ([e x] & E & X). cbn in E. subst e. eapply NA; eauto.
      * intros e h [X|X].
        -- injection X as <- <-. split; auto. split; [lia|]. rewrite fupd_eq. eauto.
        -- destruct (a_ent _ _ AI e h X) as (X1 & X2 & k & E). split; auto. split; auto. exists k. rewrite fupd_neq by congruence. auto.
      * intros y k E. cbn [map snd count_occ]. destruct (Nat.eq_dec N y) as [<-|NE].
        -- rewrite fupd_eq in E. injection E as <-. cbn [tnout]. replace (cnt (map snd A) N) with 0; auto. symmetry. apply count_occ_not_In.
           intros X. apply in_map_iff in X. destruct X as ([e x] & E & X). cbn in E. subst x. destruct (a_ent _ _ AI e N X) as (_ & _ & k & E2). congruence.
        -- rewrite fupd_neq in E by auto. eapply a_out; eauto.
    + apply Nat.eqb_neq in FD. assert (Hh := find_tag_in A d FD). remember (find_tag A d) as t eqn:Et.
      destruct (a_ent _ _ AI d t Hh) as (_ & Ht0 & kt & Ekt). rewrite Ekt. assert (NB : t <> b) by (apply HB; auto; discriminate).
      unfold ginv. cbn [tset aset nextid]. rewrite IDS. destruct (st_done (tst kt)) eqn:DN.
      * apply st_done_spec in DN. destruct (sinv_unb_done T N _ F t kt b b SI Ekt DN Rb) as [S1 S2]. split; auto. split; [eapply ainv_grow; eauto|]. split; auto.
        eapply (sem_read T N A P0 b ps F SI AI SM Hb d t _ (add_unb b kt)); eauto.
        -- rewrite upd_get, Nat.eqb_refl, Ekt. reflexivity.
        -- cbn. apply in_app_iff. cbn. auto.
        -- intros (k & E & D). congruence.
      * apply st_done_false in DN. destruct (sinv_link T N _ F t b SI Hb) as (S1 & S2 & S3); auto; [exists kt; auto|].
        split; auto. split; [eapply ainv_grow; eauto|]. split; auto.
        eapply (sem_read T N A P0 b ps F SI AI SM Hb d t _ (add_unb b kt)); eauto.
        -- change (link T t b t = Some (add_unb b kt)). rewrite (link_spec T t b kt kb) by auto. rewrite Nat.eqb_refl. reflexivity.
        -- cbn. apply in_app_iff. cbn. auto.
  - (* OUTPUT *)
    destruct SU as [Hd NW]; [discriminate|]. unfold add_param. cbn [fst snd]. unfold holder. cbn [aset tset nextid].
    destruct (find_tag A d =? 0) eqn:FD.
    + apply Nat.eqb_eq in FD. assert (NA := fun h => find_tag_none A d h Z0 FD).
      assert (EA : ins_tag A d b = (d, b) :: A).
      { unfold ins_tag. rewrite (proj2 (Nat.eqb_neq d 0) Hd). cbn. destruct (existsb (fun e => fst e =? d) A) eqn:X; auto. exfalso.
        apply existsb_tag in X. apply in_map_iff in X. destruct X as ([e x] & E & X). cbn in E. subst e. eapply NA; eauto. }
      rewrite EA. unfold ginv. cbn [tset aset nextid]. rewrite IDS. split; [eapply sinv_out; eauto; apply out_out|]. split; [|split; auto].
      * constructor.
        -- cbn. constructor; [|eapply a_nd; eauto]. intros X. apply in_map_iff in X. destruct X as ([e x] & E & X). cbn in E. subst e. eapply NA; eauto.
        -- intros e h [X|X].
           ++ injection X as <- <-. split; auto. split; auto. rewrite upd_get, Nat.eqb_refl, Eb. cbn. eauto.
           ++ destruct (a_ent _ _ AI e h X) as (X1 & X2 & k & E). split; auto. split; auto. rewrite upd_get. destruct (h =? b); eauto. rewrite Eb. cbn. eauto.
        -- intros y k E. cbn [map snd count_occ]. rewrite upd_get in E. destruct (Nat.eq_dec b y) as [<-|NE].
           ++ rewrite Nat.eqb_refl, Eb in E. cbn in E. injection E as <-. cbn [tnout add_out]. rewrite (a_out _ _ AI b kb Eb). lia.
           ++ rewrite (proj2 (Nat.eqb_neq y b)) in E by auto. eapply a_out; eauto.
      * apply (sem_write T N A P0 b ps F SI AI SM Hb d T); auto.
        -- apply grow_refl.
        -- intros t k X. exfalso. eapply NA; eauto.
        -- intros y x. apply out_edge.
        -- intros e h. split; [|tauto]. intros X. split; auto. intros ->. eapply NA; eauto.
        -- intros e. cbn. destruct (d =? e) eqn:X; [lia|]. apply Nat.eqb_neq in X. auto.
        -- intros h k' E. pose proof (out_out T b 1%Z h) as O. destruct (T h) as [k|]; [|congruence]. destruct O as (k2 & E2 & S). exists k. split; congruence.
    + apply Nat.eqb_neq in FD. assert (Hh := find_tag_in A d FD).
      assert (CN : forall y, cnt (map snd (del_tag A d)) y + (if find_tag A d =? y then 1 else 0) = cnt (map snd A) y).
      { intros y. destruct (del_tag_cnt A d y (a_nd _ _ AI)) as [X|(e & X)]; [|apply Z0 in X; congruence].
        rewrite (proj2 (Nat.eqb_neq (find_tag A d) 0) FD) in X. exact X. }
      remember (find_tag A d) as t eqn:Et.
      destruct (a_ent _ _ AI d t Hh) as (_ & Ht0 & kt & Ekt). rewrite Ekt. assert (NB : t <> b) by (apply HB; auto; discriminate).
      assert (EA : ins_tag (del_tag A d) d b = (d, b) :: del_tag A d).
      { unfold ins_tag. rewrite (proj2 (Nat.eqb_neq d 0) Hd). cbn. destruct (existsb (fun e => fst e =? d) (del_tag A d)) eqn:X; auto. exfalso.
        apply existsb_tag in X. apply in_map_iff in X. destruct X as ([e x] & E & X). cbn in E. subst e. apply del_tag_in in X. tauto. }
      rewrite EA.
      assert (STEP1 : exists T1, sinv T1 N (ids (P0 ++ [(b, ps)])) F b /\ grow b T T1 /\
         ((tunb kt = [] -> pend T t -> edge T1 t b) /\ (forall x, In x (tunb kt) -> x <> b -> pend T x -> edge T1 x b)) /\
         match tunb kt with
         | [] => if st_done (tst kt) then T else upd (upd T t (add_unb b)) b (add_rem 1)
         | us => war b T us end = T1).
      { destruct (tunb kt) as [|u us] eqn:EU.
        - destruct (st_done (tst kt)) eqn:DN.
          + apply st_done_spec in DN. exists T. split; auto. split; [apply grow_refl|]. split; auto. split; [|intros x []]. intros _ (k & E & D). congruence.
          + apply st_done_false in DN. destruct (sinv_link T N _ F t b SI Hb) as (S1 & S2 & S3); auto; [exists kt; auto|].
            exists (link T t b). split; auto. split; auto. split; auto. split; [auto|intros x []].
        - destruct (sinv_war (u :: us) T N _ F b SI Hb) as (S1 & S2 & S3). exists (war b T (u :: us)). split; auto. split; auto. split; auto. split; [discriminate|auto]. }
      destruct STEP1 as (T1 & S1 & G1 & DEP & ->).
      assert (K1 : exists k1, T1 t = Some k1 /\ tst k1 = tst kt /\ tnout k1 = tnout kt).
      { specialize (G1 t). rewrite Ekt in G1. destruct G1 as (k1 & E1 & X1 & X2 & X3 & _). exists k1. auto. }
      destruct K1 as (k1 & E1 & ST1 & NO1).
      assert (KB : exists kb1, T1 b = Some kb1 /\ tnout kb1 = tnout kb).
      { specialize (G1 b). rewrite Eb in G1. destruct G1 as (k2 & E2 & X1 & X2 & X3 & _). exists k2. auto. }
      destruct KB as (kb1 & EB1 & NB1).
      set (T2 := upd T1 t (add_out (-1))).
      assert (E2 : T2 t = Some (add_out (-1) k1)) by (unfold T2; rewrite upd_get, Nat.eqb_refl, E1; reflexivity).
      rewrite E2.
      assert (S2 : sinv T2 N (ids (P0 ++ [(b, ps)])) F b) by (eapply sinv_out; [exact S1|apply out_out]).
      assert (STEP3 : exists T3, sinv T3 N (ids (P0 ++ [(b, ps)])) F b /\ (forall y x, edge T3 y x <-> edge T1 y x) /\
         (forall h, T3 h = T2 h \/ (h = t /\ T3 h = None /\ tnout kt = 1%Z)) /\
         (if st_done (tst (add_out (-1) k1)) && (tnout (add_out (-1) k1) =? 0)%Z then fupd T2 t None else T2) = T3).
      { destruct (st_done (tst (add_out (-1) k1)) && (tnout (add_out (-1) k1) =? 0)%Z) eqn:C.
        - apply andb_prop in C. destruct C as [C1 C2]. apply st_done_spec in C1. apply Z.eqb_eq in C2. cbn in C2.
          destruct (sinv_del_done T2 N _ F t _ b S2 E2 C1) as [X1 X2]. exists (fupd T2 t None). split; auto. split; [|split; auto].
          + intros y x. rewrite X2. apply out_edge.
          + intros h. destruct (Nat.eq_dec h t) as [->|NE]; [right; rewrite fupd_eq; split; auto; split; auto; lia|left; apply fupd_neq; auto].
        - exists T2. split; auto. split; [intros; apply out_edge|]. auto. }
      destruct STEP3 as (T3 & S3 & ED3 & SA3 & ->).
      assert (B3 : T3 b = Some kb1).
      { destruct (SA3 b) as [X|(X & _)]; [|congruence]. rewrite X. unfold T2. rewrite upd_get. rewrite (proj2 (Nat.eqb_neq b t)) by auto. auto. }
      unfold ginv. cbn [tset aset nextid]. rewrite IDS. split; [eapply sinv_out; [exact S3|apply out_out]|]. split; [|split; auto].
      * constructor.
        -- cbn. constructor; [|apply del_tag_nd; eapply a_nd; eauto]. intros X. apply in_map_iff in X. destruct X as ([e x] & E & X). cbn in E. subst e. apply del_tag_in in X. tauto.
        -- intros e h [X|X].
           ++ injection X as <- <-. split; auto. split; auto. rewrite upd_get, Nat.eqb_refl, B3. cbn. eauto.
           ++ assert (X' := X). apply del_tag_in in X. destruct X as [X NE]. destruct (a_ent _ _ AI e h X) as (X1 & X2 & k & E). split; auto. split; auto.
              rewrite upd_get. destruct (h =? b); [rewrite B3; cbn; eauto|].
              destruct (grow_fwd b T T1 h k G1 E) as (kh1 & Eh1).
              assert (T2h : exists k2, T2 h = Some k2).
              { unfold T2. rewrite upd_get. destruct (h =? t); [rewrite E1; cbn; eauto|eauto]. }
              destruct (SA3 h) as [Y|(Y1 & Y2 & Y3)]; [rewrite Y; auto|]. exfalso. subst h.
              specialize (CN t). rewrite Nat.eqb_refl in CN. rewrite (a_out _ _ AI t kt Ekt) in Y3.
              assert (0 < cnt (map snd (del_tag A d)) t) by (apply cnt_pos; apply in_map_iff; exists (e, t); auto). lia.
        -- intros y k E. cbn [map snd count_occ]. rewrite upd_get in E. specialize (CN y). destruct (Nat.eq_dec b y) as [<-|NE].
           ++ rewrite Nat.eqb_refl, B3 in E. cbn in E. injection E as <-. cbn [tnout add_out]. rewrite NB1, (a_out _ _ AI b kb Eb).
              rewrite (proj2 (Nat.eqb_neq t b) NB) in CN. lia.
           ++ rewrite (proj2 (Nat.eqb_neq y b)) in E by auto. destruct (SA3 y) as [Y|(Y1 & Y2 & Y3)]; [|congruence]. rewrite Y in E. unfold T2 in E. rewrite upd_get in E.
              destruct (y =? t) eqn:YT.
              ** apply Nat.eqb_eq in YT. subst y. rewrite E1 in E. cbn in E. injection E as <-. cbn [tnout add_out]. rewrite NO1, (a_out _ _ AI t kt Ekt). rewrite Nat.eqb_refl in CN. lia.
              ** apply Nat.eqb_neq in YT. rewrite (proj2 (Nat.eqb_neq t y)) in CN by auto.
                 destruct (grow_back b T T1 y k G1 E) as (k0 & E0 & _ & _ & X & _). rewrite X, (a_out _ _ AI y k0 E0). lia.
      * apply (sem_write T N A P0 b ps F SI AI SM Hb d T1); auto.
        -- intros t' k' X E. assert (t' = t) by (rewrite Et; symmetry; apply find_tag_unique; auto; eapply a_nd; eauto). subst t'. assert (k' = kt) by congruence. subst k'. exact DEP.
        -- intros y x. rewrite out_edge. apply ED3.
        -- intros e h. apply del_tag_in.
        -- intros e. cbn. destruct (d =? e) eqn:X; [lia|]. apply Nat.eqb_neq in X. intros FE. split; auto.
           destruct (Nat.eq_dec (find_tag A e) 0) as [Y|Y]; auto. exfalso. assert (Y2 := find_tag_in A e Y).
           assert (Y3 : In (e, find_tag A e) (del_tag A d)) by (apply del_tag_in; auto).
           eapply find_tag_none; [|exact FE|exact Y3]. intros e' x' Z. apply del_tag_in in Z. destruct Z as [Z _]. eauto.
        -- intros h k' E. pose proof (out_out T3 b 1%Z h) as O. destruct (SA3 h) as [Y|(Y1 & Y2 & Y3)]; [|rewrite Y2 in O; congruence].
           destruct (T3 h) as [k3|] eqn:E3; [|congruence]. destruct O as (k4 & E4 & S4). assert (k4 = k') by congruence. subst k4. symmetry in Y.
           pose proof (out_out T1 t (-1)%Z h) as O1. fold T2 in O1. destruct (T1 h) as [k5|]; [|congruence]. destruct O1 as (k6 & E6 & S6). assert (k6 = k3) by congruence. subst k6.
           exists k5. split; auto. destruct S4 as (Q1 & Q2 & Q3 & Q4), S6 as (R1 & R2 & R3 & R4). repeat split; congruence.
  - (* VALUE *)
    unfold add_param. cbn [snd]. unfold ginv. cbn [tset aset nextid]. rewrite IDS. split; auto. split; auto. split; auto.
    assert (RV : forall e, reads (ps ++ [(d, VALUE)]) e <-> reads ps e) by (intros e; rewrite reads_snoc; split; [intros [X|[_ X]]; auto; discriminate|auto]).
    assert (WV : forall e, writes (ps ++ [(d, VALUE)]) e <-> writes ps e) by (intros e; rewrite writes_snoc; split; [intros [X|[_ X]]; auto; discriminate|auto]).
    assert (BK : forall x px, In (x, px) (P0 ++ [(b, ps ++ [(d, VALUE)])]) -> exists px0, In (x, px0) (P0 ++ [(b, ps)]) /\
       (forall e, reads px e <-> reads px0 e) /\ (forall e, writes px e <-> writes px0 e)).
    { intros x px H. apply in_last in H. destruct H as [H|[-> ->]]; [exists px; split; [apply in_init; auto|split; tauto]|exists ps; split; [apply in_cur|auto]]. }
    constructor.
    + intros a pa e H Te. destruct (BK a pa H) as (p0 & H0 & R0 & W0). eapply m_tag; eauto. unfold touches in *. rewrite <- R0, <- W0. auto.
    + intros e He Fe a pa H Te. destruct (BK a pa H) as (p0 & H0 & R0 & W0). eapply (m_none _ _ _ _ SM e He Fe a p0); auto. unfold touches in *. rewrite <- R0, <- W0. auto.
    + intros e h k He Eh. destruct (m_hold _ _ _ _ SM e h k He Eh) as [(D & (ph & Hp & Wp) & WL & RL)|(D & NWr & RL)]; [left|right]; split; auto; split.
      * apply in_last in Hp. destruct Hp as [Hp|[-> ->]]; [exists ph; split; [eapply in_init; eauto|auto]|].
        exists (ps ++ [(d, VALUE)]). split; [apply in_cur|]. apply WV. auto.
      * split.
        -- intros w pw Hw Ww. destruct (BK w pw Hw) as (p0 & H0 & R0 & W0). eapply WL; eauto. apply W0. auto.
        -- intros w pw Hw Ww. destruct (BK w pw Hw) as (p0 & H0 & R0 & W0). eapply RL; eauto. apply R0. auto.
      * intros w pw Hw Ww. destruct (BK w pw Hw) as (p0 & H0 & R0 & W0). eapply NWr; eauto. apply W0. eauto.
      * intros w pw Hw Ww. destruct (BK w pw Hw) as (p0 & H0 & R0 & W0). eapply RL; eauto. apply R0. auto.
    + intros a pa c pc Ha Hc L C. destruct (BK a pa Ha) as (p0 & H0 & R0 & W0). destruct (BK c pc Hc) as (p1 & H1 & R1 & W1).
      eapply (m_ord _ _ _ _ SM a p0 c p1); eauto. destruct C as (e & C). exists e. unfold touches in *. rewrite <- R0, <- R1, <- W0, <- W1. auto.
Qed.

(** ** Changes that keep dependencies *)
Lemma sem_same : forall T T' A P F, sem T A P F -> (forall y x, edge T y x -> edge T' y x) ->
  (forall h k', T' h = Some k' -> exists k, T h = Some k /\ tdum k' = tdum k /\ tunb k' = tunb k) -> sem T' A P F.
Proof.
  intros T T' A P F [M1 M2 M3 M4] ED TB. constructor; auto.
  - intros d h k' H E. destruct (TB h k' E) as (k & E0 & -> & ->). eauto.
  - intros a pa b pb Ha Hb L C. destruct (M4 a pa b pb Ha Hb L C) as [X|[X Y]]; auto. right. split; auto. eapply edges_paths; eauto.
Qed.

Lemma create_inv : forall g P F, ginv g P F 0 -> ginv (create g) (P ++ [(nextid g, [])]) F (nextid g).
Proof.
  intros [T A N] P F (SI & AI & SM & HN). unfold ginv, create. cbn [tset aset nextid] in *.
  pose proof (fresh_none _ _ _ _ _ SI) as FN. destruct (sinv_create T N (ids P) F SI HN) as [S1 S2].
  unfold ids at 1. rewrite map_app. split; auto. split; [|split; [|lia]].
  - destruct AI as [A1 A2 A3]. constructor; auto.
    + intros d h H. destruct (A2 d h H) as (X1 & X2 & k & E). split; auto. split; auto. exists k. rewrite fupd_neq by congruence. auto.
    + intros y k E. destruct (Nat.eq_dec y N) as [->|NE]; [|rewrite fupd_neq in E by auto; auto].
      rewrite fupd_eq in E. injection E as <-. cbn [tnout]. replace (cnt (map snd A) N) with 0; auto. symmetry. apply count_occ_not_In.
      intros X. apply in_map_iff in X. destruct X as ([e x] & E & X). cbn in E. subst x. destruct (A2 e N X) as (_ & _ & k & E2). congruence.
  - assert (NT : forall d, ~ touches [] d) by (intros d [X|X]; destruct X). constructor.
    + intros a pa d H Td. apply in_last in H. destruct H as [H|[-> ->]]; [eapply m_tag; eauto|destruct (NT d Td)].
    + intros d Hd Fd a pa H. apply in_last in H. destruct H as [H|[-> ->]]; [eapply m_none; eauto|auto].
    + intros d h k H E. assert (NE : h <> N). { intros ->. destruct (a_ent _ _ AI d N H) as (_ & _ & k2 & E2). congruence. }
      rewrite fupd_neq in E by auto. destruct (m_hold _ _ _ _ SM d h k H E) as [(D & (ph & Hp & Wp) & WL & RL)|(D & NWr & RL)]; [left|right]; split; auto; split.
      * exists ph. split; auto. apply in_init. auto.
      * split; intros w pw Hw Ww; apply in_last in Hw; destruct Hw as [Hw|[-> ->]]; eauto; destruct Ww.
      * intros w pw Hw Ww. apply in_last in Hw. destruct Hw as [Hw|[-> ->]]; [eapply NWr; eauto|destruct Ww].
      * intros w pw Hw Ww. apply in_last in Hw. destruct Hw as [Hw|[-> ->]]; [eapply RL; eauto|destruct Ww].
    + intros a pa b pb Ha Hb L C. apply in_last in Ha. apply in_last in Hb. destruct Ha as [Ha|[-> ->]].
      * destruct Hb as [Hb|[-> ->]].
        -- destruct (m_ord _ _ _ _ SM a pa b pb Ha Hb L C) as [X|[X Y]]; auto. right. split; auto. eapply edges_paths; [|exact Y]. intros y x E. apply S2. auto.
        -- exfalso. destruct C as (d & [[_ X]|[_ X]]); [apply (NT d X)|destruct X].
      * exfalso. destruct C as (d & [[X _]|[X _]]); destruct X.
Qed.

Lemma params_inv : forall ps, supported ps -> forall g P F, ginv g P F 0 ->
  ginv (fold_left (add_param (nextid g)) ps (create g)) (P ++ [(nextid g, ps)]) F (nextid g).
Proof.
  intros ps SU. induction SU as [|ps d r SU IH HS]; intros g P F G.
  - apply create_inv. auto.
  - rewrite fold_left_app. cbn [fold_left]. apply add_param_inv; auto. destruct G as (_ & _ & _ & HN). lia.
Qed.

Definition is_ready (T : nat -> option tk) (x : nat) : bool :=
  match T x with Some k => match tst k with Ready => true | _ => false end | None => false end.

Lemma ready_inv : forall g P F b k, ginv g P F b -> b <> 0 -> tset g b = Some k ->
  ginv (if (trem k =? 0)%Z then mkG (upd (tset g) b (set_st Ready)) (aset g) (nextid g) else g) P F 0.
Proof.
  intros [T A N] P F b k (SI & AI & SM & HN) Hb Eb. cbn [tset aset nextid] in *. pose proof (sinv_ready T N (ids P) F b k SI Hb Eb) as S.
  destruct (trem k =? 0)%Z; [|unfold ginv; cbn; auto]. unfold ginv. cbn [tset aset nextid]. split; auto.
  destruct (s_cur _ _ _ _ _ SI Hb) as ((k2 & E2 & Sb & Db) & MX). assert (k2 = k) by congruence. subst k2.
  split; [|split; auto].
  - destruct AI as [A1 A2 A3]. constructor; auto.
    + intros d h H. destruct (A2 d h H) as (X1 & X2 & k1 & E). split; auto. split; auto. rewrite upd_get. destruct (h =? b); [rewrite Eb; cbn; eauto|eauto].
    + intros y k1 E. rewrite upd_get in E. destruct (y =? b) eqn:Y; [|auto]. apply Nat.eqb_eq in Y. subst y. rewrite Eb in E. cbn in E. injection E as <-. cbn. auto.
  - eapply sem_same; eauto.
    + intros y x (k1 & E & D & U). exists (if y =? b then set_st Ready k1 else k1). rewrite upd_get. destruct (y =? b) eqn:Y.
      * apply Nat.eqb_eq in Y. subst y. rewrite E. cbn. repeat split; auto. congruence.
      * auto.
    + intros h k' E. rewrite upd_get in E. destruct (h =? b) eqn:Y; [|eauto]. apply Nat.eqb_eq in Y. subst h. rewrite Eb in E. cbn in E. injection E as <-. exists k. auto.
Qed.

(** ** Completion *)
Lemma unblock_spec : forall us T,
  (forall x, In x us -> exists k, T x = Some k /\ tst k = NotReady /\ (Z.of_nat (cnt us x) <= trem k)%Z) ->
  forall T' nr, unblock T us = (T', nr) ->
  (forall y, T' y = match T y with
                    | None => None
                    | Some k => if cnt us y =? 0 then Some k
                                else Some (mkT (if (trem k =? Z.of_nat (cnt us y))%Z then Ready else NotReady) (tdum k) (trem k - Z.of_nat (cnt us y)) (tunb k) (tnout k))
                    end) /\
  NoDup nr /\ forall x, In x nr <-> In x us /\ exists k, T x = Some k /\ trem k = Z.of_nat (cnt us x).
Proof.
  induction us as [|x us IH]; intros T PRE T' nr E.
  - cbn in E. injection E as <- <-. split; [|split; [constructor|cbn; tauto]]. intros y. cbn. destruct (T y); auto.
  - destruct (PRE x (or_introl eq_refl)) as (k & Ek & Sk & Rk). cbn [unblock] in E. rewrite (upd_some T x _ k Ek) in E. rewrite fupd_eq in E.
    cbn [trem add_rem tst] in E. rewrite Sk in E. cbn [count_occ] in Rk. destruct (Nat.eq_dec x x) as [_|]; [|congruence].
    rewrite andb_true_r in E. destruct (trem k + -1 =? 0)%Z eqn:R0.
    + apply Z.eqb_eq in R0. assert (C0 : cnt us x = 0) by lia. assert (NI : ~ In x us) by (apply (count_occ_not_In Nat.eq_dec); auto).
      rewrite (upd_some _ x _ (add_rem (-1) k)) in E by apply fupd_eq.
      set (T2 := fupd (fupd T x (Some (add_rem (-1) k))) x (Some (set_st Ready (add_rem (-1) k)))) in *.
      assert (L2 : forall y, T2 y = if y =? x then Some (set_st Ready (add_rem (-1) k)) else T y).
      { intros y. unfold T2, fupd. destruct (y =? x); auto. }
      clearbody T2. destruct (unblock T2 us) as [T3 nr'] eqn:E3. injection E as <- <-.
      destruct (IH T2) with (2 := E3) as (H1 & H2 & H3).
      { intros y Hy. rewrite L2. destruct (y =? x) eqn:A; [apply Nat.eqb_eq in A; subst y; tauto|]. apply Nat.eqb_neq in A.
        destruct (PRE y (or_intror Hy)) as (ky & Ey & Sy & Ry). exists ky. split; auto. split; auto. cbn [count_occ] in Ry. destruct (Nat.eq_dec x y); [congruence|auto]. }
      split; [|split].
      * intros y. rewrite H1, L2. cbn [count_occ]. destruct (y =? x) eqn:A.
        -- apply Nat.eqb_eq in A. subst y. rewrite C0, Ek. cbn [Nat.eqb]. destruct (Nat.eq_dec x x); [|congruence]. cbn [Nat.eqb].
           replace (trem k =? Z.of_nat 1)%Z with true by (symmetry; apply Z.eqb_eq; lia). reflexivity.
        -- apply Nat.eqb_neq in A. destruct (Nat.eq_dec x y); [congruence|auto].
      * constructor; auto. rewrite H3. tauto.
      * intros y. cbn [In]. rewrite H3, L2. cbn [count_occ]. destruct (y =? x) eqn:A.
        -- apply Nat.eqb_eq in A. subst y. destruct (Nat.eq_dec x x); [|congruence]. rewrite C0. split; [|tauto]. intros _. split; auto. exists k. split; auto. lia.
        -- apply Nat.eqb_neq in A. destruct (Nat.eq_dec x y); [congruence|]. intuition congruence.
    + apply Z.eqb_neq in R0. set (T2 := fupd T x (Some (add_rem (-1) k))) in *.
      assert (L2 : forall y, T2 y = if y =? x then Some (add_rem (-1) k) else T y) by reflexivity. clearbody T2.
      destruct (IH T2) with (2 := E) as (H1 & H2 & H3).
      { intros y Hy. rewrite L2. destruct (PRE y (or_intror Hy)) as (ky & Ey & Sy & Ry). cbn [count_occ] in Ry. destruct (y =? x) eqn:A.
        - apply Nat.eqb_eq in A. subst y. exists (add_rem (-1) k). cbn [trem tst add_rem]. split; auto. split; auto. lia.
        - apply Nat.eqb_neq in A. exists ky. destruct (Nat.eq_dec x y); [congruence|auto]. }
      split; [|split; auto].
      * intros y. rewrite H1, L2. cbn [count_occ]. destruct (y =? x) eqn:A.
        -- apply Nat.eqb_eq in A. subst y. rewrite Ek. destruct (Nat.eq_dec x x); [|congruence]. cbn [Nat.eqb trem add_rem tdum tunb tnout].
           destruct (cnt us x =? 0) eqn:C0.
           ++ apply Nat.eqb_eq in C0. rewrite C0. replace (trem k =? Z.of_nat 1)%Z with false by (symmetry; apply Z.eqb_neq; lia). unfold add_rem. rewrite Sk. reflexivity.
           ++ replace (trem k + -1 =? Z.of_nat (cnt us x))%Z with (trem k =? Z.of_nat (S (cnt us x)))%Z by (apply Bool.eq_iff_eq_true; rewrite !Z.eqb_eq; lia).
              do 2 f_equal. lia.
        -- apply Nat.eqb_neq in A. destruct (Nat.eq_dec x y); [congruence|auto].
      * intros y. rewrite H3, L2. cbn [In count_occ]. destruct (y =? x) eqn:A.
        -- apply Nat.eqb_eq in A. subst y. destruct (Nat.eq_dec x x); [|congruence]. split.
           ++ intros (U & k2 & E2 & R2). injection E2 as <-. cbn [trem add_rem] in R2. split; auto. exists k. split; auto. lia.
           ++ intros (U & k2 & E2 & R2). assert (k2 = k) by congruence. subst k2. split.
              ** apply cnt_pos. lia.
              ** exists (add_rem (-1) k). split; auto. cbn [trem add_rem]. lia.
        -- apply Nat.eqb_neq in A. destruct (Nat.eq_dec x y); [congruence|]. intuition congruence.
Qed.

Lemma complete_inv : forall g P F t k T' nr, ginv g P F 0 -> tset g t = Some k -> tst k = Ready ->
  unblock (tset g) (tunb k) = (T', nr) ->
  ginv (mkG (retire T' t) (aset g) (nextid g)) P (F ++ [t]) 0 /\ NoDup nr /\ In t (ids P) /\ ~ In t F /\
  (forall x, (if is_ready (retire T' t) x then 1 else 0) + (if Nat.eq_dec t x then 1 else 0) = (if is_ready (tset g) x then 1 else 0) + cnt nr x).
Proof.
  intros [T A N] P F t k T' nr (SI & AI & SM & HN) Et St EU. cbn [tset aset nextid] in *.
  assert (PT : pend T t) by (exists k; split; auto; congruence).
  assert (IT : In t (ids P)). { destruct (tdum k) eqn:D; [destruct (s_dum _ _ _ _ _ SI t k Et D); congruence|eapply s_real; eauto]. }
  assert (NF : ~ In t F) by (intros X; apply (s_fin _ _ _ _ _ SI t IT) in X; auto).
  assert (R0 : trem k = 0%Z) by (apply (s_st _ _ _ _ _ SI t k Et); auto; [congruence|apply (s_rng _ _ _ _ _ SI) in IT; lia]).
  assert (D0 : indeg T N t = 0). { pose proof (s_rem _ _ _ _ _ SI t k Et ltac:(congruence)). lia. }
  assert (NOIN : forall y, ~ edge T y t).
  { intros y X. assert (Ly : y < N). { destruct X as (ky & Ey & _). apply (s_ent _ _ _ _ _ SI) in Ey. lia. }
    apply edge_occ in X. pose proof (sumf_le N (occ T t) y Ly). unfold indeg in D0. lia. }
  assert (LT : t < N) by (apply (s_rng _ _ _ _ _ SI) in IT; lia).
  assert (OT : forall x, occ T x t = cnt (tunb k) x) by (intros x; unfold occ; rewrite Et, St; reflexivity).
  assert (PRE : forall x, In x (tunb k) -> exists k', T x = Some k' /\ tst k' = NotReady /\ (Z.of_nat (cnt (tunb k) x) <= trem k')%Z).
  { intros x U. assert (E : edge T t x) by (exists k; repeat split; auto; congruence). destruct (s_pe _ _ _ _ _ SI t x E) as (kx & Ex & Dx).
    exists kx. split; auto. pose proof (s_rem _ _ _ _ _ SI x kx Ex Dx) as R. pose proof (sumf_le N (occ T x) t LT) as Q. rewrite OT in Q. fold (indeg T N x) in Q.
    assert (0 < cnt (tunb k) x) by (apply cnt_pos; auto). split; [|lia].
    destruct (tst kx) eqn:SX; auto; [|congruence]. assert (trem kx = 0%Z) by (apply (s_st _ _ _ _ _ SI x kx Ex); auto; [congruence|apply (s_ent _ _ _ _ _ SI) in Ex; lia]). lia. }
  destruct (unblock_spec (tunb k) T PRE T' nr EU) as (U1 & U2 & U3).
  assert (TU : cnt (tunb k) t = 0).
  { apply count_occ_not_In. intros U. apply (NOIN t). exists k. repeat split; auto. congruence. }
  assert (Et' : T' t = Some k) by (rewrite U1, Et, TU; reflexivity).
  set (T'' := retire T' t).
  assert (LT'' : forall y, y <> t -> T'' y = T' y).
  { intros y NE. unfold T'', retire. rewrite Et'. destruct (tnout k =? 0)%Z; apply fupd_neq; auto. }
  assert (LTt : T'' t = None /\ tnout k = 0%Z \/ T'' t = Some (set_st Done k)).
  { unfold T'', retire. rewrite Et'. destruct (tnout k =? 0)%Z eqn:O; rewrite fupd_eq; auto. apply Z.eqb_eq in O. auto. }
  assert (BK : forall y k', T'' y = Some k' -> exists k0, T y = Some k0 /\ tdum k' = tdum k0 /\ tunb k' = tunb k0 /\ tnout k' = tnout k0 /\
     (y <> t -> (tst k' = Done <-> tst k0 = Done) /\ trem k' = (trem k0 - Z.of_nat (cnt (tunb k) y))%Z)).
  { intros y k' E. destruct (Nat.eq_dec y t) as [->|NE].
    - destruct LTt as [[X _]|X]; [congruence|]. rewrite X in E. injection E as <-. exists k. repeat split; auto; congruence.
    - rewrite LT'' in E by auto. rewrite U1 in E. destruct (T y) as [k0|] eqn:E0; [|discriminate]. exists k0. split; auto.
      destruct (cnt (tunb k) y =? 0) eqn:C; injection E as <-.
      + apply Nat.eqb_eq in C. repeat split; auto. rewrite C. lia.
      + cbn. repeat split; auto; intros X; [destruct (trem k0 =? _)%Z in X; discriminate|].
        apply Nat.eqb_neq in C. destruct (PRE y) as (k1 & E1 & S1 & _); [apply cnt_pos; lia|]. congruence. }
  assert (FW : forall y k0, y <> t -> T y = Some k0 -> exists k', T'' y = Some k').
  { intros y k0 NE E. rewrite LT'' by auto. rewrite U1, E. destruct (cnt (tunb k) y =? 0); eauto. }
  assert (PE : forall y, pend T'' y <-> pend T y /\ y <> t).
  { intros y. split.
    - intros (k' & E & D). destruct (Nat.eq_dec y t) as [->|NE]; [exfalso; destruct LTt as [[X _]|X]; [congruence|rewrite X in E; injection E as <-; cbn in D; congruence]|].
      destruct (BK y k' E) as (k0 & E0 & _ & _ & _ & X). destruct (X NE) as [X1 _]. split; auto. exists k0. split; auto. tauto.
    - intros ((k0 & E0 & D) & NE). destruct (FW y k0 NE E0) as (k' & E). destruct (BK y k' E) as (k1 & E1 & _ & _ & _ & X). destruct (X NE) as [X1 _].
      assert (k1 = k0) by congruence. subst k1. exists k'. split; auto. tauto. }
  assert (ED : forall y x, edge T'' y x <-> edge T y x /\ y <> t).
  { intros y x. split.
    - intros (k' & E & D & U). assert (PY : pend T'' y) by (exists k'; auto). apply PE in PY. destruct PY as [_ NE]. split; auto.
      destruct (BK y k' E) as (k0 & E0 & _ & X2 & _ & X). destruct (X NE) as [X1 _]. exists k0. split; auto. split; [tauto|congruence].
    - intros ((k0 & E0 & D & U) & NE). destruct (FW y k0 NE E0) as (k' & E). destruct (BK y k' E) as (k1 & E1 & _ & X2 & _ & X). destruct (X NE) as [X1 _].
      assert (k1 = k0) by congruence. subst k1. exists k'. split; auto. split; [tauto|congruence]. }
  assert (OC : forall x y, y <> t -> occ T'' x y = occ T x y).
  { intros x y NE. unfold occ. rewrite LT'' by auto. rewrite U1. destruct (T y) as [k0|] eqn:E0; auto. destruct (cnt (tunb k) y =? 0) eqn:C; auto.
    apply Nat.eqb_neq in C. destruct (PRE y) as (k1 & E1 & S1 & _); [apply cnt_pos; lia|]. assert (k1 = k0) by congruence. subst k1. rewrite S1. cbn [tst tunb].
    destruct (trem k0 =? _)%Z; reflexivity. }
  assert (OTt : forall x, occ T'' x t = 0).
  { intros x. unfold occ. destruct LTt as [[X _]|X]; rewrite X; reflexivity. }
  assert (ID : forall x, indeg T'' N x + cnt (tunb k) x = indeg T N x).
  { intros x. unfold indeg. assert (X := sumf_upd N (occ T x) (occ T'' x) t LT ltac:(intros; apply OC; auto)). rewrite OTt, OT in X. lia. }
  assert (STX : forall x k', T'' x = Some k' -> tst k' <> Done -> (tst k' = Ready <-> trem k' = 0%Z)).
  { intros x k' E D. assert (PX : pend T'' x) by (exists k'; auto). apply PE in PX. destruct PX as [_ NE]. rewrite LT'' in E by auto. rewrite U1 in E.
    destruct (T x) as [k0|] eqn:E0; [|discriminate]. destruct (cnt (tunb k) x =? 0) eqn:C; injection E as <-.
    - apply (s_st _ _ _ _ _ SI x k0 E0); auto. apply (s_ent _ _ _ _ _ SI) in E0. lia.
    - cbn. destruct (trem k0 =? _)%Z eqn:R; [apply Z.eqb_eq in R; split; [intros _; lia|reflexivity]|apply Z.eqb_neq in R; split; [discriminate|lia]]. }
  split; [|split; [auto|split; [auto|split; [auto|]]]].
  - unfold ginv. cbn [tset aset nextid]. fold T''. split; [|split; [|split; auto]].
    + pose proof SI as [Q1 Q2 Q3 Q4 Q5 Q6 Q7 Q8 Q9 Q10 Q11 Q12 Q13 Q14]. constructor; auto.
      * intros y k' E. destruct (BK y k' E) as (k0 & E0 & _). eauto.
      * intros y k' x E U. destruct (BK y k' E) as (k0 & E0 & _ & X & _). rewrite X in U. eauto.
      * intros y k' E D. destruct (BK y k' E) as (k0 & E0 & X1 & _ & _ & X). rewrite X1 in D. destruct (Q3 y k0 E0 D) as [Y1 Y2]. split; auto.
        destruct (Nat.eq_dec y t) as [->|NE]; [tauto|]. apply X; auto.
      * intros y k' E D. destruct (BK y k' E) as (k0 & E0 & X1 & _). rewrite X1 in D. eauto.
      * intros y Hy. rewrite PE, in_app_iff, (Q7 y Hy). cbn. destruct (Nat.eq_dec t y) as [<-|NE]; [intuition congruence|]. intuition congruence.
      * intros y Hy. apply in_app_iff in Hy. destruct Hy as [Hy|[<-|[]]]; auto.
      * assert (X : NoDup (t :: F)) by (constructor; auto). apply NoDup_rev in X. cbn in X. rewrite <- (rev_involutive F). rewrite <- (rev_involutive F) in NF.
        apply NoDup_rev in Q9. apply NoDup_rev in X. rewrite rev_app_distr in X. cbn in X. rewrite <- (rev_involutive (rev (rev F) ++ [t])). apply NoDup_rev.
        rewrite rev_app_distr. cbn. rewrite rev_involutive. rewrite rev_involutive in NF. constructor; auto. rewrite <- in_rev. auto.
      * intros y x E. apply ED in E. apply Q10. tauto.
      * intros y x E. apply ED in E. destruct E as [E NE]. apply PE. split; [eauto|]. intros ->. eapply NOIN; eauto.
      * intros x k' E D. assert (PX : pend T'' x) by (exists k'; auto). apply PE in PX. destruct PX as [_ NE].
        destruct (BK x k' E) as (k0 & E0 & _ & _ & _ & X). destruct (X NE) as [X1 X2]. rewrite X2, (Q12 x k0 E0) by tauto. specialize (ID x). lia.
      * intros x k' E D _. eauto.
      * congruence.
    + destruct AI as [A1 A2 A3]. constructor; auto.
      * intros d h H. destruct (A2 d h H) as (X1 & X2 & k0 & E0). split; auto. split; auto. destruct (Nat.eq_dec h t) as [->|NE]; [|eapply FW; eauto].
        destruct LTt as [[X Y]|X]; [|eauto]. exfalso. rewrite (A3 t k Et) in Y. assert (0 < cnt (map snd A) t) by (apply cnt_pos; apply in_map_iff; exists (d, t); auto). lia.
      * intros y k' E. destruct (BK y k' E) as (k0 & E0 & _ & _ & -> & _). auto.
    + destruct SM as [M1 M2 M3 M4]. constructor; auto.
      * intros d h k' H E. destruct (BK h k' E) as (k0 & E0 & -> & -> & _). eauto.
      * intros a pa b pb Ha Hb L C. destruct (M4 a pa b pb Ha Hb L C) as [X|[X Y]]; [left; apply in_app_iff; auto|].
        destruct (Nat.eq_dec a t) as [->|NA]; [left; apply in_app_iff; cbn; auto|]. right.
        assert (PP : clos_trans nat (edge T'') a b /\ b <> t).
        { clear - Y NA ED NOIN. induction Y as [a b E|a c b Y1 IH1 Y2 IH2].
          - split; [apply t_step; apply ED; auto|]. intros ->. eapply NOIN; eauto.
          - destruct (IH1 NA) as [I1 NC]. destruct (IH2 NC) as [I2 NB]. split; auto. eapply t_trans; eauto. }
        destruct PP as [PP NB]. split; auto. rewrite in_app_iff. cbn. intuition congruence.
  - intros x. fold T''. destruct (Nat.eq_dec t x) as [<-|NE].
    + replace (is_ready T'' t) with false by (unfold is_ready; destruct LTt as [[X _]|X]; rewrite X; reflexivity).
      replace (is_ready T t) with true by (unfold is_ready; rewrite Et, St; reflexivity).
      assert (NI : ~ In t nr). { rewrite U3. intros [X _]. apply cnt_pos in X. lia. } apply (count_occ_not_In Nat.eq_dec) in NI. lia.
    + unfold is_ready. rewrite LT'' by auto. rewrite U1. destruct (T x) as [k0|] eqn:E0.
      * destruct (cnt (tunb k) x =? 0) eqn:C.
        -- apply Nat.eqb_eq in C. assert (NI : ~ In x nr). { rewrite U3. intros [X _]. apply cnt_pos in X. lia. } apply (count_occ_not_In Nat.eq_dec) in NI. lia.
        -- apply Nat.eqb_neq in C. assert (UX : In x (tunb k)) by (apply cnt_pos; lia). destruct (PRE x UX) as (k1 & E1 & S1 & _). assert (k1 = k0) by congruence. subst k1.
           rewrite S1. cbn [tst]. destruct (trem k0 =? Z.of_nat (cnt (tunb k) x))%Z eqn:R.
           ++ apply Z.eqb_eq in R. assert (I : In x nr) by (apply U3; split; auto; exists k0; auto). pose proof (proj1 (NoDup_count_occ' Nat.eq_dec nr) U2 x I) as Q. rewrite Q. reflexivity.
           ++ apply Z.eqb_neq in R. assert (NI : ~ In x nr). { rewrite U3. intros (_ & k2 & E2 & R2). congruence. } apply (count_occ_not_In Nat.eq_dec) in NI. rewrite NI. reflexivity.
      * assert (NI : ~ In x nr). { rewrite U3. intros (_ & k2 & E2 & R2). congruence. } apply (count_occ_not_In Nat.eq_dec) in NI. lia.
Qed.
