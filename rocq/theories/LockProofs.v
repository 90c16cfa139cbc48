(** Proofs about the spin locks: the chain of the CLH queue. *)
From Coq Require Import List Arith Bool Lia.
From Verif Require Import Base LockModel.
Import ListNotations.

Lemma NoDup_snoc {A} (l : list A) x : NoDup l -> ~ In x l -> NoDup (l ++ [x]).
Proof.
  intros N. induction N as [|y l H N IH]; cbn; intros K; [repeat constructor; auto|].
  constructor; [|apply IH; tauto]. rewrite in_app_iff. cbn. intros [G|[G|[]]]; [auto|]. subst. tauto.
Qed.

(** ** Test-and-set *)
Definition TI (s : tas) : Prop :=
  (flag s = false -> forall t, tp s t <> TCrit) /\
  (flag s = true -> exists t, tp s t = TCrit /\ forall u, tp s u = TCrit -> u = t).

Lemma TI_step s a s' : TI s -> tstep s a = Some s' -> TI s'.
Proof.
  intros [F T] E. destruct a as [t|t|t]; cbn in E.
  - destruct (tp s t) eqn:P; [|discriminate..]. injection E as <-. split; cbn; intros G.
    + intros u. unfold fupd. destruct (Nat.eqb_spec u t); [discriminate|auto].
    + destruct (T G) as (c & Hc & U). exists c. split.
      * rewrite fupd_neq; [exact Hc|]. intros ->. congruence.
      * intros u. unfold fupd. destruct (Nat.eqb_spec u t); [discriminate|apply U].
  - destruct (tp s t) eqn:P; [discriminate| |discriminate].
    destruct (flag s) eqn:G; injection E as <-; [split; [congruence|intros _; apply T; reflexivity]|].
    split; cbn; [discriminate|intros _]. exists t. split; [apply fupd_eq|].
    intros u. unfold fupd. destruct (Nat.eqb_spec u t); [auto|].
    intros H. destruct (F eq_refl u H).
  - destruct (tp s t) eqn:P; [discriminate..|]. injection E as <-. split; cbn; [intros _|discriminate].
    intros u. unfold fupd. destruct (Nat.eqb_spec u t); [discriminate|]. intros H.
    destruct (flag s) eqn:G; [|exact (F eq_refl u H)].
    destruct (T eq_refl) as (c & Hc & U). rewrite (U u H), (U t P) in n. congruence.
Qed.

Lemma TI_exec l s : exec tstep tas_init l = Some s -> TI s.
Proof.
  apply (exec_inv tstep TI TI_step).
  split; cbn; discriminate.
Qed.

(** ** CLH *)

(** A thread between its swap and the store that frees its node. *)
Definition inq (p : cpc) : bool := match p with CSpin | CCrit | CFree => true | _ => false end.
Definition own (s : clh) (t : nat) : nat := match cp s t with CTake => mypred s t | _ => mynode s t end.
Definition head (s : clh) (q : list nat) : nat := match q with [] => tail s | t :: _ => mypred s t end.

(** [h] is the node the first thread of [q] waits on. *)
Fixpoint chain (s : clh) (h : nat) (q : list nat) : Prop :=
  match q with
  | [] => tail s = h
  | t :: r => mypred s t = h /\ locked s (mynode s t) = true /\ chain s (mynode s t) r
  end.

Definition holding (p : cpc) : bool := match p with CCrit | CFree => true | _ => false end.

Record CI (s : clh) (h : nat) (q : list nat) : Prop := {
  ci_in : forall t, In t q <-> inq (cp s t) = true;
  ci_nd : NoDup q;
  ci_chain : chain s h q;
  ci_free : locked s h = false;
  ci_inj : forall t u, own s t = own s u -> t = u;
  ci_head : forall t, own s t <> h;
  ci_mark : forall t, cp s t = CSwap -> locked s (mynode s t) = true;
  ci_tl : forall t, In t (List.tl q) -> cp s t = CSpin;
  (* the histories: everything swapped has been acquired, or waits in [q] *)
  ci_hist : swaps s = acqs s ++ (match q with
                                 | [] => []
                                 | t :: r => if holding (cp s t) then r else q end) }.

Lemma chain_frame s s' h q :
  tail s' = tail s -> (forall t, In t q -> mypred s' t = mypred s t /\ mynode s' t = mynode s t) ->
  (forall t, In t q -> locked s' (mynode s t) = locked s (mynode s t)) ->
  chain s h q -> chain s' h q.
Proof.
  intros T F L. revert h. induction q as [|t r IH]; intros h; cbn.
  - intros <-. exact T.
  - intros (A & B & C). destruct (F t (or_introl eq_refl)) as [-> ->]. split; [exact A|].
    rewrite L by (left; reflexivity). split; [exact B|]. apply IH; auto.
    + intros u Hu. apply F. right; exact Hu.
    + intros u Hu. apply L. right; exact Hu.
Qed.

Lemma chain_pred_in s h q t : chain s h q -> In t q -> mypred s t = h \/ exists u, In u q /\ mypred s t = mynode s u.
Proof.
  revert h. induction q as [|u r IH]; intros h C H; [destruct H|]. destruct C as (A & B & C).
  destruct H as [->|H]; [left; exact A|]. right.
  destruct (IH _ C H) as [E|(v & Hv & E)].
  - exists u. split; [left; reflexivity|exact E].
  - exists v. split; [right; exact Hv|exact E].
Qed.

Lemma chain_pred_tl s h q t : chain s h q -> In t (List.tl q) -> exists u, In u q /\ mypred s t = mynode s u.
Proof.
  destruct q as [|u r]; cbn; [intros _ []|]. intros (A & B & C) H.
  destruct (chain_pred_in _ _ _ _ C H) as [E|(v & Hv & E)].
  - exists u. split; [left; reflexivity|exact E].
  - exists v. split; [right; exact Hv|exact E].
Qed.

Lemma chain_locked s h q t : chain s h q -> In t q -> locked s (mynode s t) = true.
Proof.
  revert h. induction q as [|u r IH]; intros h C H; [destruct H|]. destruct C as (A & B & C).
  destruct H as [->|H]; [exact B|exact (IH _ C H)].
Qed.

Lemma chain_snoc s s' h q t :
  (forall u, In u q -> mypred s' u = mypred s u /\ mynode s' u = mynode s u) ->
  locked s' = locked s -> chain s h q -> mypred s' t = tail s -> tail s' = mynode s' t ->
  locked s (mynode s' t) = true -> chain s' h (q ++ [t]).
Proof.
  intros F L C P T K. revert h C. induction q as [|u r IH]; intros h C; cbn in *.
  - rewrite L. repeat split; auto. congruence.
  - destruct C as (A & B & C). destruct (F u (or_introl eq_refl)) as [-> ->].
    rewrite L. repeat split; auto.
Qed.

Lemma hd_only s h q t : CI s h q -> In t q -> locked s (mypred s t) = false -> exists r, q = t :: r.
Proof.
  intros I H L. destruct q as [|u r]; [destruct H|]. destruct H as [->|H]; [exists r; reflexivity|].
  destruct (chain_pred_tl s h (u :: r) t (ci_chain _ _ _ I) H) as (v & Hv & E).
  rewrite E, (chain_locked _ _ _ _ (ci_chain _ _ _ I) Hv) in L. discriminate.
Qed.

Lemma hold_hd s h q t : CI s h q -> holding (cp s t) = true -> exists r, q = t :: r.
Proof.
  intros I H. assert (K : In t q). { apply (ci_in _ _ _ I). destruct (cp s t); try discriminate; reflexivity. }
  destruct q as [|u r]; [destruct K|]. destruct K as [->|K]; [exists r; reflexivity|].
  assert (E := ci_tl _ _ _ I t K). rewrite E in H. discriminate.
Qed.

(** Changing the program counter of a thread that is in no queue, before and after. *)
Lemma CI_pc_out s h q t p : CI s h q -> inq (cp s t) = false -> inq p = false -> cp s t <> CTake -> p <> CTake ->
  (p = CSwap -> locked s (mynode s t) = true) -> CI (goc s t p) h q.
Proof.
  intros I A B A' B' M. destruct I as [i1 i2 i3 i4 i5 i6 i7 i8 i9].
  assert (NI : ~ In t q). { intros H. apply i1 in H. congruence. }
  assert (O : forall u, own (goc s t p) u = own s u).
  { intros u. unfold own, goc; cbn. unfold fupd. destruct (Nat.eqb_spec u t) as [->|]; [|reflexivity].
    destruct p, (cp s t); congruence. }
  constructor; cbn; auto.
  - intros u. rewrite i1. unfold fupd. destruct (Nat.eqb_spec u t) as [->|]; [|reflexivity].
    rewrite A, B. tauto.
  - eapply chain_frame; [| | |exact i3]; auto.
  - intros u v. rewrite !O. apply i5.
  - intros u. rewrite O. apply i6.
  - intros u. unfold fupd. destruct (Nat.eqb_spec u t) as [->|]; [exact M|apply i7].
  - intros u H. rewrite fupd_neq; [apply i8; exact H|]. intros ->. apply NI. destruct q; [destruct H|right; exact H].
  - rewrite i9. f_equal. destruct q as [|u r]; [reflexivity|]. rewrite fupd_neq; [reflexivity|].
    intros ->. apply NI. left; reflexivity.
Qed.

Lemma own_plain s t : cp s t <> CTake -> own s t = mynode s t.
Proof. unfold own. destruct (cp s t); congruence. Qed.

Lemma inq_own s t : inq (cp s t) = true -> own s t = mynode s t.
Proof. unfold own. destruct (cp s t); cbn; congruence. Qed.

Lemma CI_lock_out s h q t b : CI s h q -> inq (cp s t) = false -> cp s t <> CTake -> (cp s t = CSwap -> b = true) ->
  CI (mkC (fupd (locked s) (mynode s t) b) (tail s) (mynode s) (mypred s) (cp s) (swaps s) (acqs s)) h q.
Proof.
  intros I A A' M. destruct I as [i1 i2 i3 i4 i5 i6 i7 i8 i9].
  constructor; cbn; auto.
  - eapply chain_frame; [| | |exact i3]; cbn; auto. intros u Hu. apply fupd_neq. intros E.
    assert (Q : inq (cp s u) = true) by (apply i1; exact Hu).
    assert (u = t). { apply i5. rewrite (inq_own _ _ Q), (own_plain _ _ A'). exact E. }
    congruence.
  - rewrite fupd_neq; [exact i4|]. intros E. apply (i6 t). rewrite own_plain; auto.
  - intros u Hu. unfold fupd. destruct (Nat.eqb_spec (mynode s u) (mynode s t)) as [E|]; [|apply i7; exact Hu].
    assert (u = t). { apply i5. rewrite !own_plain; congruence. }
    subst u. auto.
Qed.

Lemma CI_step s h q a s' : CI s h q -> cstep s a = Some s' -> exists h' q', CI s' h' q'.
Proof.
  intros I E. destruct a as [t|t|t]; cbn in E.
  - destruct (cp s t) eqn:P; try discriminate. injection E as <-. exists h, q.
    apply CI_pc_out; auto; try rewrite P; try reflexivity; discriminate.
  - destruct (cp s t) eqn:P; try discriminate.
    + (* mark *) injection E as <-. exists h, q.
      assert (J := CI_lock_out s h q t true I). rewrite P in J. specialize (J eq_refl ltac:(discriminate) ltac:(discriminate)).
      assert (K := CI_pc_out _ h q t CSwap J). cbn in K. rewrite P in K.
      specialize (K eq_refl eq_refl ltac:(discriminate) ltac:(discriminate) ltac:(intros _; apply fupd_eq)).
      exact K.
    + (* swap *) injection E as <-. exists h, (q ++ [t]).
      destruct I as [i1 i2 i3 i4 i5 i6 i7 i8 i9].
      assert (NI : ~ In t q). { intros H. apply i1 in H. rewrite P in H. discriminate. }
      set (s' := mkC _ _ _ _ _ _ _).
      assert (O : forall u, own s' u = own s u).
      { intros u. unfold own, s'; cbn. unfold fupd. destruct (Nat.eqb_spec u t) as [->|]; [|reflexivity].
        rewrite P. reflexivity. }
      constructor.
      * intros u. rewrite in_app_iff. unfold s'; cbn. unfold fupd. destruct (Nat.eqb_spec u t) as [->|N]; cbn.
        -- split; auto.
        -- rewrite i1. split; [intros [H|[H|[]]]; congruence|auto].
      * apply NoDup_snoc; assumption.
      * eapply chain_snoc; [| |exact i3| | |]; unfold s'; cbn; auto.
        -- intros u Hu. split; [|reflexivity]. apply fupd_neq. intros ->. contradiction.
        -- apply fupd_eq.
      * exact i4.
      * intros u v. rewrite !O. apply i5.
      * intros u. rewrite O. apply i6.
      * intros u. unfold s'; cbn. unfold fupd. destruct (Nat.eqb_spec u t); [discriminate|apply i7].
      * intros u H. unfold s'; cbn. unfold fupd. destruct (Nat.eqb_spec u t); [reflexivity|].
        destruct q as [|v r]; cbn in H; [destruct H|]. apply in_app_iff in H as [H|[H|[]]]; [|congruence].
        apply i8. exact H.
      * unfold s'; cbn. rewrite i9, <- app_assoc. f_equal. destruct q as [|v r]; cbn.
        -- rewrite fupd_eq. reflexivity.
        -- rewrite fupd_neq by (intros ->; apply NI; left; reflexivity).
           destruct (holding (cp s v)); reflexivity.
    + (* spin *) destruct (locked s (mypred s t)) eqn:L; injection E as <-; [exists h, q; exact I|].
      assert (H : In t q) by (apply (ci_in _ _ _ I); rewrite P; reflexivity).
      destruct (hd_only _ _ _ _ I H L) as (r & ->). exists h, (t :: r).
      destruct I as [i1 i2 i3 i4 i5 i6 i7 i8 i9].
      set (s' := mkC _ _ _ _ _ _ _).
      assert (NI : ~ In t r) by (inversion i2; assumption).
      assert (O : forall u, own s' u = own s u).
      { intros u. unfold own, s'; cbn. unfold fupd. destruct (Nat.eqb_spec u t) as [->|]; [|reflexivity].
        rewrite P. reflexivity. }
      constructor; auto.
      * intros u. rewrite i1. unfold s'; cbn. unfold fupd. destruct (Nat.eqb_spec u t) as [->|]; [|reflexivity].
        rewrite P. reflexivity.
      * eapply chain_frame; [| | |exact i3]; unfold s'; cbn; auto.
      * intros u v. rewrite !O. apply i5.
      * intros u. rewrite O. apply i6.
      * intros u. unfold s'; cbn. unfold fupd. destruct (Nat.eqb_spec u t); [discriminate|apply i7].
      * intros u Hu. unfold s'; cbn. rewrite fupd_neq; [apply i8; exact Hu|]. intros ->. contradiction.
      * unfold s'; cbn. rewrite fupd_eq. cbn. rewrite i9, P. cbn. rewrite <- app_assoc. reflexivity.
    + (* free *) injection E as <-.
      assert (G : holding (cp s t) = true) by (rewrite P; reflexivity).
      destruct (hold_hd _ _ _ _ I G) as (r & ->). exists (mynode s t), r.
      destruct I as [i1 i2 i3 i4 i5 i6 i7 i8 i9].
      assert (NI : ~ In t r) by (inversion i2; assumption).
      destruct i3 as (C1 & C2 & C3).
      set (s' := mkC _ _ _ _ _ _ _).
      assert (Ot : own s' t = h). { unfold own, s'; cbn. rewrite fupd_eq. exact C1. }
      assert (Os : own s t = mynode s t). { apply own_plain. rewrite P. discriminate. }
      assert (O : forall u, u <> t -> own s' u = own s u).
      { intros u N. unfold own, s'; cbn. rewrite fupd_neq by exact N. reflexivity. }
      assert (MN : forall u, inq (cp s u) = true \/ cp s u = CSwap -> u <> t -> mynode s u <> mynode s t).
      { intros u Q N H. apply N. apply i5. rewrite Os, own_plain; [exact H|].
        destruct Q as [Q|Q]; [destruct (cp s u); discriminate|congruence]. }
      constructor.
      * intros u. unfold s'; cbn. unfold fupd. destruct (Nat.eqb_spec u t) as [->|N]; cbn.
        -- split; [contradiction|discriminate].
        -- rewrite <- i1. cbn. split; [auto|intros [H|H]; [congruence|exact H]].
      * inversion i2; assumption.
      * eapply chain_frame; [| | |exact C3]; unfold s'; cbn; auto.
        intros u Hu. apply fupd_neq. apply MN; [left; apply i1; right; exact Hu|]. intros ->. contradiction.
      * apply fupd_eq.
      * intros u v. destruct (Nat.eq_dec u t) as [->|Nu], (Nat.eq_dec v t) as [->|Nv]; auto.
        -- rewrite Ot, O by exact Nv. intros H. destruct (i6 v). auto.
        -- rewrite Ot, O by exact Nu. intros H. destruct (i6 u). auto.
        -- rewrite !O by assumption. apply i5.
      * intros u. destruct (Nat.eq_dec u t) as [->|Nu].
        -- rewrite Ot. intros H. apply (i6 t). congruence.
        -- rewrite O by exact Nu. intros H. apply Nu. apply i5. congruence.
      * intros u. unfold s'; cbn. unfold fupd at 1. destruct (Nat.eqb_spec u t); [discriminate|]. intros H.
        rewrite fupd_neq; [apply i7; exact H|]. apply MN; auto.
      * intros u Hu. unfold s'; cbn. assert (Hr : In u r) by (destruct r; [destruct Hu|right; exact Hu]).
        rewrite fupd_neq by (intros ->; contradiction). apply i8. cbn. exact Hr.
      * unfold s'; cbn. rewrite i9, P. cbn. f_equal. destruct r as [|v r']; [reflexivity|].
        assert (cp s v = CSpin) as Hv by (apply i8; left; reflexivity).
        rewrite fupd_neq by (intros ->; apply NI; left; reflexivity). rewrite Hv. reflexivity.
    + (* take *) injection E as <-. exists h, q.
      destruct I as [i1 i2 i3 i4 i5 i6 i7 i8 i9].
      assert (NI : ~ In t q). { intros H. apply i1 in H. rewrite P in H. discriminate. }
      set (s' := mkC _ _ _ _ _ _ _).
      assert (O : forall u, own s' u = own s u).
      { intros u. unfold own, s'; cbn. unfold fupd. destruct (Nat.eqb_spec u t) as [->|]; [|reflexivity].
        rewrite P. reflexivity. }
      assert (MN : forall u, u <> t -> mynode s' u = mynode s u).
      { intros u N. unfold s'; cbn. apply fupd_neq. exact N. }
      constructor; auto.
      * intros u. rewrite i1. unfold s'; cbn. unfold fupd. destruct (Nat.eqb_spec u t) as [->|]; [|reflexivity].
        rewrite P. reflexivity.
      * eapply chain_frame; [| | |exact i3]; auto.
        intros u Hu. split; [reflexivity|]. apply MN. intros ->. contradiction.
      * intros u v. rewrite !O. apply i5.
      * intros u. rewrite O. apply i6.
      * intros u. destruct (Nat.eq_dec u t) as [->|N].
        -- unfold s'; cbn. rewrite fupd_eq. discriminate.
        -- rewrite MN by exact N. unfold s'; cbn. rewrite fupd_neq by exact N. apply i7.
      * intros u Hu. unfold s'; cbn. rewrite fupd_neq; [apply i8; exact Hu|].
        intros ->. apply NI. destruct q; [destruct Hu|right; exact Hu].
      * unfold s'; cbn. rewrite i9. f_equal. destruct q as [|v r]; [reflexivity|].
        rewrite fupd_neq by (intros ->; apply NI; left; reflexivity). reflexivity.
  - (* release *) destruct (cp s t) eqn:P; try discriminate. injection E as <-. exists h, q.
    assert (G : holding (cp s t) = true) by (rewrite P; reflexivity).
    destruct (hold_hd _ _ _ _ I G) as (r & ->).
    destruct I as [i1 i2 i3 i4 i5 i6 i7 i8 i9].
    assert (NI : ~ In t r) by (inversion i2; assumption).
    assert (O : forall u, own (goc s t CFree) u = own s u).
    { intros u. unfold own, goc; cbn. unfold fupd. destruct (Nat.eqb_spec u t) as [->|]; [|reflexivity].
      rewrite P. reflexivity. }
    constructor; auto.
    + intros u. rewrite i1. cbn. unfold fupd. destruct (Nat.eqb_spec u t) as [->|]; [|reflexivity].
      rewrite P. reflexivity.
    + eapply chain_frame; [| | |exact i3]; auto.
    + intros u v. rewrite !O. apply i5.
    + intros u. rewrite O. apply i6.
    + intros u. cbn. unfold fupd. destruct (Nat.eqb_spec u t); [discriminate|apply i7].
    + intros u Hu. cbn. rewrite fupd_neq; [apply i8; exact Hu|]. intros ->. contradiction.
    + cbn. rewrite fupd_eq. rewrite i9, P. reflexivity.
Qed.

Lemma CI_init junk p0 : CI (clh_init junk p0) 0 [].
Proof.
  constructor; cbn; auto; try discriminate; try contradiction.
  - intros t. split; [contradiction|discriminate].
  - constructor.
Qed.

Lemma CI_exec junk p0 l s : exec cstep (clh_init junk p0) l = Some s -> exists h q, CI s h q.
Proof.
  apply (exec_inv cstep (fun s => exists h q, CI s h q)).
  - cbn. intros s0 a s1 (h & q & I) E. exact (CI_step _ _ _ _ _ I E).
  - exists 0, []. apply CI_init.
Qed.
