(** Proofs about the barriers. *)
From Coq Require Import List Arith Bool Lia.
From Verif Require Import Base BarrierModel.
Import ListNotations.

Definition cnt (f : nat -> bool) (P : list nat) : nat := length (filter f P).

Lemma cnt_ext f g P : (forall t, In t P -> f t = g t) -> cnt f P = cnt g P.
Proof.
  unfold cnt. induction P as [|x P IH]; intros H; [reflexivity|]. cbn.
  rewrite (H x) by (left; reflexivity). destruct (g x); cbn; rewrite IH; auto; intros; apply H; right; auto.
Qed.
Lemma cnt_le f P : cnt f P <= length P.
Proof. unfold cnt. induction P as [|x P IH]; cbn; [lia|]. destruct (f x); cbn; lia. Qed.
Lemma cnt_full f P : cnt f P = length P -> forall t, In t P -> f t = true.
Proof.
  induction P as [|x P IH]; intros H t Ht; [destruct Ht|]. pose proof (cnt_le f P) as L.
  unfold cnt in *. cbn in H. destruct (f x) eqn:F; cbn in H; [|lia].
  destruct Ht as [->|Ht]; [exact F|apply IH; [lia|exact Ht]].
Qed.
Lemma cnt_all f P : (forall t, In t P -> f t = true) -> cnt f P = length P.
Proof.
  unfold cnt. induction P as [|x P IH]; intros H; [reflexivity|]. cbn.
  rewrite (H x) by (left; reflexivity). cbn. rewrite IH; auto. intros; apply H; right; auto.
Qed.
Lemma cnt_zero f P : (forall t, In t P -> f t = false) -> cnt f P = 0.
Proof.
  unfold cnt. induction P as [|x P IH]; intros H; [reflexivity|]. cbn.
  rewrite (H x) by (left; reflexivity). apply IH. intros; apply H; right; auto.
Qed.
Lemma cnt_one f g P t : NoDup P -> In t P -> f t = false -> g t = true ->
  (forall u, In u P -> u <> t -> g u = f u) -> cnt g P = S (cnt f P).
Proof.
  unfold cnt. intros N H Ft Gt E. induction P as [|x P IH]; [destruct H|]. inversion N; subst.
  cbn. destruct (Nat.eq_dec x t) as [->|D].
  - rewrite Ft, Gt. cbn. f_equal. apply cnt_ext. intros u Hu. apply E; [right; exact Hu|].
    intros ->. contradiction.
  - rewrite (E x) by (auto; left; reflexivity). destruct H as [->|H]; [congruence|].
    assert (K : length (filter g P) = S (length (filter f P))).
    { apply IH; auto. intros u Hu. apply E. right; exact Hu. }
    destruct (f x); cbn; lia.
Qed.
Lemma cnt_lt f P t : In t P -> f t = false -> cnt f P < length P.
Proof.
  intros H F. pose proof (cnt_le f P) as L.
  destruct (Nat.eq_dec (cnt f P) (length P)) as [E|]; [|lia].
  rewrite (cnt_full f P E t H) in F. discriminate.
Qed.

Lemma bupd_eq {X} (f : bool -> X) i v : bupd f i v i = v.
Proof. unfold bupd. rewrite Bool.eqb_reflx. reflexivity. Qed.
Lemma bupd_neq {X} (f : bool -> X) i j v : j <> i -> bupd f i v j = f j.
Proof. unfold bupd. intros H. destruct (Bool.eqb_spec j i); congruence. Qed.
Lemma odd_S n : Nat.odd (S n) = negb (Nat.odd n).
Proof. rewrite Nat.odd_succ, <- Nat.negb_odd. reflexivity. Qed.
Lemma odd_S_ne n : Nat.odd (S n) <> Nat.odd n.
Proof. rewrite odd_S. destruct (Nat.odd n); discriminate. Qed.

(** ** spinBarrier *)
Section Spin.
Variable P : list nat.
Hypothesis ND : NoDup P.

Definition inb (p : bpc) : bool := match p with BReset | BSpin => true | _ => false end.
(** Thread [t] has counted itself in round [r]. *)
Definition here (s : sb) (r : nat) (t : nat) : bool := (ent s t =? r) && inb (bp s t).

Definition thr (s : sb) (R t : nat) : Prop :=
  arr s t = Nat.odd (ent s t) /\
  match bp s t with
  | BOut => ent s t = R /\ lft s t = R
  | BInc | BReset => ent s t = S R /\ lft s t = R
  | BSpin => (ent s t = S R /\ lft s t = R) \/ (ent s t = R /\ S (lft s t) = R)
  end.

(** [R] rounds are complete. *)
Record BI (s : sb) (R : nat) : Prop := {
  bi_n : nb s = length P;
  bi_thr : forall t, In t P -> thr s R t;
  bi_cur : B s (Nat.odd (S R)) = cnt (here s (S R)) P;
  bi_old : B s (Nat.odd R) = 0;
  bi_res : forall t, In t P -> bp s t = BReset -> cnt (here s (S R)) P = length P;
  bi_full : cnt (here s (S R)) P = length P -> exists t, In t P /\ bp s t = BReset;
  bi_uniq : forall t u, In t P -> In u P -> bp s t = BReset -> bp s u = BReset -> t = u }.

Lemma BI_step s R a s' : P <> [] -> BI s R -> In (btid a) P -> bstep s a = Some s' -> exists R', BI s' R'.
Proof.
  intros NE I Ht E. destruct I as [i1 i2 i3 i4 i5 i6 i7]. destruct a as [t|t]; cbn [btid bstep] in Ht, E; cbv zeta in E.
  - (* call *) destruct (bp s t) eqn:Pt; try discriminate. injection E as <-. exists R.
    set (s' := mkSB _ _ _ _ _ _).
    destruct (i2 t Ht) as (At & Et). rewrite Pt in Et. destruct Et as (Et & Lt).
    assert (H : cnt (here s' (S R)) P = cnt (here s (S R)) P).
    { apply cnt_ext. intros u Hu. unfold here, s'; cbn. unfold fupd. destruct (Nat.eqb_spec u t) as [->|]; [|reflexivity].
      rewrite Pt. cbn. rewrite !andb_false_r. reflexivity. }
    constructor; try rewrite H; auto.
    + intros u Hu. unfold thr, s'; cbn. unfold fupd. destruct (Nat.eqb_spec u t) as [->|]; [|apply i2; exact Hu].
      rewrite At, odd_S. auto.
    + intros u Hu. unfold s'; cbn. unfold fupd. destruct (Nat.eqb_spec u t) as [->|]; [discriminate|]. intros Q. eauto.
    + intros Q. destruct (i6 Q) as (u & Hu & Qu). exists u. split; [exact Hu|]. unfold s'; cbn.
      rewrite fupd_neq; [exact Qu|]. intros ->. congruence.
    + intros u v Hu Hv. unfold s'; cbn. unfold fupd. destruct (Nat.eqb_spec u t); [discriminate|].
      destruct (Nat.eqb_spec v t); [discriminate|]. intros. apply i7; auto.
  - destruct (bp s t) eqn:Pt; try discriminate.
    + (* increment *) injection E as <-. exists R.
      destruct (i2 t Ht) as (At & Et). rewrite Pt in Et. destruct Et as (Et & Lt).
      rewrite At, Et, i3.
      assert (Ft : here s (S R) t = false). { unfold here. rewrite Pt, andb_false_r. reflexivity. }
      assert (Lc := cnt_lt _ _ _ Ht Ft).
      assert (NR : forall u, In u P -> bp s u <> BReset).
      { intros u Hu Q. assert (K := i5 u Hu Q). lia. }
      set (s' := mkSB _ _ _ _ _ _).
      assert (H : cnt (here s' (S R)) P = S (cnt (here s (S R)) P)).
      { apply (cnt_one _ _ P t); auto.
        - unfold here, s'; cbn [ent bp inb]. rewrite fupd_eq, Et, Nat.eqb_refl.
          destruct (nb s =? S (cnt (here s (S R)) P)); reflexivity.
        - intros u Hu D. unfold here, s'; cbn. rewrite fupd_neq by exact D. reflexivity. }
      constructor.
      * exact i1.
      * intros u Hu. unfold thr, s'; cbn. unfold fupd. destruct (Nat.eqb_spec u t) as [->|]; [|apply i2; exact Hu].
        split; [exact At|]. destruct (nb s =? S (cnt (here s (S R)) P)); auto.
      * rewrite H. unfold s'. cbn [B]. rewrite bupd_eq. reflexivity.
      * unfold s'. cbn [B]. rewrite bupd_neq; [exact i4|]. intros Q. apply (odd_S_ne R). congruence.
      * intros u Hu. rewrite H. unfold s'; cbn [bp]. unfold fupd. destruct (Nat.eqb_spec u t) as [->|].
        -- destruct (Nat.eqb_spec (nb s) (S (cnt (here s (S R)) P))); [intros _; congruence|discriminate].
        -- intros Q. destruct (NR u Hu Q).
      * rewrite H. intros Q. exists t. split; [exact Ht|]. unfold s'; cbn [bp]. rewrite fupd_eq, i1, Q, Nat.eqb_refl. reflexivity.
      * intros u v Hu Hv. unfold s'; cbn [bp]. unfold fupd.
        destruct (Nat.eqb_spec u t) as [->|]; [|intros Q; destruct (NR u Hu Q)].
        destruct (Nat.eqb_spec v t) as [->|]; [reflexivity|]. intros _ Q. destruct (NR v Hv Q).
    + (* reset *) injection E as <-. exists (S R).
      destruct (i2 t Ht) as (At & Et). rewrite Pt in Et. destruct Et as (Et & Lt).
      assert (F := cnt_full _ _ (i5 t Ht Pt)).
      rewrite At, Et. unfold leave; cbn [nb arr B bp ent lft].
      set (s' := mkSB _ _ _ _ _ _).
      assert (O : forall u, In u P -> u <> t -> bp s u = BSpin /\ ent s u = S R /\ lft s u = R).
      { intros u Hu D. assert (K := F u Hu). unfold here in K. apply andb_true_iff in K as (K1 & K2).
        apply Nat.eqb_eq in K1. destruct (i2 u Hu) as (_ & Q).
        destruct (bp s u) eqn:Pu; try discriminate K2; [destruct D; eauto|].
        split; [reflexivity|]. destruct Q as [Q|Q]; [exact Q|lia]. }
      assert (Z : cnt (here s' (S (S R))) P = 0).
      { apply cnt_zero. intros u Hu. unfold here, s'; cbn [ent bp]. apply andb_false_iff. left. apply Nat.eqb_neq.
        destruct (Nat.eq_dec u t) as [->|D]; [lia|]. destruct (O u Hu D) as (_ & Q & _). lia. }
      assert (LP : 0 < length P) by (destruct P; [congruence|cbn; lia]).
      constructor.
      * exact i1.
      * intros u Hu. unfold thr, s'; cbn [arr ent bp lft].
        destruct (Nat.eq_dec u t) as [->|D].
        -- rewrite !fupd_eq. auto.
        -- rewrite !fupd_neq by exact D. destruct (O u Hu D) as (-> & Q1 & Q2).
           split; [apply (i2 u Hu)|]. right. lia.
      * rewrite Z. unfold s'; cbn [B]. rewrite bupd_neq by apply odd_S_ne.
        rewrite odd_S, odd_S, negb_involutive. exact i4.
      * unfold s'; cbn [B]. apply bupd_eq.
      * intros u Hu. unfold s'; cbn [bp]. unfold fupd. destruct (Nat.eqb_spec u t); [discriminate|].
        destruct (O u Hu n) as (-> & _). discriminate.
      * rewrite Z. lia.
      * intros u v Hu Hv. unfold s'; cbn [bp]. unfold fupd. destruct (Nat.eqb_spec u t); [discriminate|].
        destruct (O u Hu n) as (-> & _). discriminate.
    + (* spin *) destruct (B s (arr s t) =? 0) eqn:Z; injection E as <-; [|exists R; constructor; auto].
      apply Nat.eqb_eq in Z. exists R. destruct (i2 t Ht) as (At & Et). rewrite Pt in Et.
      assert (Q : ent s t = R /\ S (lft s t) = R).
      { destruct Et as [(E1 & E2)|Q]; [|exact Q]. rewrite At, E1, i3 in Z.
        assert (K : here s (S R) t = true). { unfold here. rewrite E1, Pt, Nat.eqb_refl. reflexivity. }
        exfalso. assert (cnt (here s (S R)) P <> 0); [|lia]. clear - K Ht. unfold cnt.
        assert (G : In t (filter (here s (S R)) P)) by (apply filter_In; auto).
        destruct (filter (here s (S R)) P); [destruct G|discriminate]. }
      destruct Q as (E1 & E2).
      assert (H : cnt (here (leave s t) (S R)) P = cnt (here s (S R)) P).
      { apply cnt_ext. intros u Hu. unfold here, leave; cbn. unfold fupd. destruct (Nat.eqb_spec u t) as [->|]; [|reflexivity].
        rewrite Pt, E1, andb_false_r. destruct (Nat.eqb_spec R (S R)); [lia|reflexivity]. }
      constructor; try rewrite H; auto.
      * intros u Hu. unfold thr, leave; cbn. unfold fupd. destruct (Nat.eqb_spec u t) as [->|]; [|apply i2; exact Hu].
        auto.
      * intros u Hu. unfold leave; cbn. unfold fupd. destruct (Nat.eqb_spec u t) as [->|]; [discriminate|]. intros Q. eauto.
      * intros Q. destruct (i6 Q) as (u & Hu & Qu). exists u. split; [exact Hu|]. unfold leave; cbn.
        rewrite fupd_neq; [exact Qu|]. intros ->. congruence.
      * intros u v Hu Hv. unfold leave; cbn. unfold fupd. destruct (Nat.eqb_spec u t); [discriminate|].
        destruct (Nat.eqb_spec v t); [discriminate|]. intros. apply i7; auto.
Qed.

Lemma BI_setup s : P <> [] -> length P <> nb s -> (forall t, In t P -> bp s t = BOut) -> BI (setup s (length P)) 0.
Proof.
  intros NE N O. unfold setup. destruct (Nat.eqb_spec (length P) (nb s)) as [|_]; [contradiction|].
  assert (LP : 0 < length P) by (destruct P; [congruence|cbn; lia]).
  assert (Z : cnt (here (mkSB (length P) (fun _ => false) (fun _ => 0) (bp s) (fun _ => 0) (fun _ => 0)) 1) P = 0).
  { apply cnt_zero. intros t Ht. reflexivity. }
  constructor; auto.
  - intros t Ht. unfold thr; cbn. rewrite O by exact Ht. auto.
  - intros t Ht. cbn. rewrite O by exact Ht. discriminate.
  - rewrite Z. lia.
  - intros t u Ht Hu. cbn. rewrite O by exact Ht. discriminate.
Qed.

Lemma BI_exec l s s' R : P <> [] -> BI s R -> Forall (fun a => In (btid a) P) l -> exec bstep s l = Some s' ->
  exists R', BI s' R'.
Proof.
  intros NE I F E. revert s R I E. induction F as [|a l Ha F IH]; cbn; intros s R I E.
  - injection E as <-. eauto.
  - destruct (bstep s a) as [s1|] eqn:Q; [|discriminate].
    destruct (BI_step _ _ _ _ NE I Ha Q) as (R1 & I1). eapply IH; eauto.
Qed.

Lemma BI_bounds s R t u : BI s R -> In t P -> In u P -> lft s t <= ent s u.
Proof.
  intros I Ht Hu. destruct (bi_thr _ _ I t Ht) as (_ & A), (bi_thr _ _ I u Hu) as (_ & C).
  destruct (bp s t), (bp s u); lia.
Qed.
End Spin.

(** ** Mutex and condition variable *)
Section Cond.
Variable P : list nat.
Hypothesis ND : NoDup P.

Definition waits (p : mpc) : bool := match p with MWait => true | _ => false end.

Definition mthr (s : mb) (R t : nat) : Prop :=
  match mp s t with
  | MOut => ment s t = R /\ mlft s t = R
  | MWait => ment s t = S R /\ mlft s t = R
  | MWoken => ment s t = R /\ S (mlft s t) = R
  end.

Record MI (s : mb) (R : nat) : Prop := {
  mi_n : mn s = length P;
  mi_thr : forall t, In t P -> mthr s R t;
  mi_cnt : mcnt s = cnt (fun t => waits (mp s t)) P;
  mi_lt : mcnt s < length P }.

Lemma MI_step s R a s' : MI s R -> In (mtid a) P -> (forall t, a <> MSpurious t) -> mstep s a = Some s' -> exists R', MI s' R'.
Proof.
  intros I Ht NS E. destruct I as [i1 i2 i3 i4]. destruct a as [t|t|t]; cbn in Ht, E; [| |destruct (NS t); reflexivity].
  - destruct (mp s t) eqn:Pt; try discriminate. assert (Et := i2 t Ht). unfold mthr in Et. rewrite Pt in Et.
    destruct (Nat.eqb_spec (mn s) (S (mcnt s))) as [Q|Q]; injection E as <-.
    + exists (S R).
      (* everybody else is waiting *)
      assert (W : forall u, In u P -> u <> t -> mp s u = MWait).
      { intros u Hu D.
        assert (C : cnt (fun v => waits (mp s v) || (v =? t)) P = length P).
        { rewrite <- i1, Q, i3. apply (cnt_one _ _ P t); auto.
          - rewrite Pt. reflexivity.
          - rewrite Nat.eqb_refl, orb_true_r. reflexivity.
          - intros v Hv Dv. destruct (Nat.eqb_spec v t); [congruence|]. apply orb_false_r. }
        assert (K := cnt_full _ _ C u Hu). cbn in K. destruct (Nat.eqb_spec u t); [congruence|].
        rewrite orb_false_r in K. destruct (mp s u); try discriminate; reflexivity. }
      constructor; cbn.
      * exact i1.
      * intros u Hu. unfold mthr; cbn. destruct (Nat.eq_dec u t) as [->|D].
        -- rewrite Pt, !fupd_eq. cbn. lia.
        -- rewrite !fupd_neq by exact D. assert (K := i2 u Hu). unfold mthr in K. rewrite (W u Hu D) in *. cbn. lia.
      * symmetry. apply cnt_zero. intros u Hu. destruct (mp s u); reflexivity.
      * lia.
    + exists R. constructor; cbn.
      * exact i1.
      * intros u Hu. unfold mthr; cbn. destruct (Nat.eq_dec u t) as [->|D].
        -- rewrite !fupd_eq. lia.
        -- rewrite !fupd_neq by exact D. apply i2. exact Hu.
      * rewrite i3. symmetry. apply (cnt_one _ _ P t); auto.
        -- rewrite Pt. reflexivity.
        -- rewrite fupd_eq. reflexivity.
        -- intros u Hu D. rewrite fupd_neq by exact D. reflexivity.
      * lia.
  - destruct (mp s t) eqn:Pt; try discriminate. injection E as <-. exists R.
    assert (Et := i2 t Ht). unfold mthr in Et. rewrite Pt in Et. constructor; cbn; auto.
    + intros u Hu. unfold mthr; cbn. destruct (Nat.eq_dec u t) as [->|D].
      * rewrite !fupd_eq. lia.
      * rewrite !fupd_neq by exact D. apply i2. exact Hu.
    + rewrite i3. apply cnt_ext. intros u Hu. unfold fupd. destruct (Nat.eqb_spec u t) as [->|]; [|reflexivity].
      rewrite Pt. reflexivity.
Qed.

Lemma MI_init : P <> [] -> MI (mb_init (length P)) 0.
Proof.
  intros NE. constructor; cbn.
  - reflexivity.
  - intros t Ht. split; reflexivity.
  - symmetry. apply cnt_zero. reflexivity.
  - destruct P; [congruence|cbn; lia].
Qed.

Lemma MI_exec l s s' R : MI s R -> Forall (fun a => In (mtid a) P /\ forall t, a <> MSpurious t) l ->
  exec mstep s l = Some s' -> exists R', MI s' R'.
Proof.
  intros I F E. revert s R I E. induction F as [|a l [Ha Hs] F IH]; cbn; intros s R I E.
  - injection E as <-. eauto.
  - destruct (mstep s a) as [s1|] eqn:Q; [|discriminate].
    destruct (MI_step _ _ _ _ I Ha Hs Q) as (R1 & I1). eapply IH; eauto.
Qed.
End Cond.
