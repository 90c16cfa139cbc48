(** Proofs about the bounded MPMC queue on TSO: the array, as seen through the work in flight. *)
From Coq Require Import List Arith Lia Bool.
From Verif Require Import Base LinSpec VtsoSpec VtsoModel.
From Verif Require Import VyukovProofs.
Import ListNotations.

(** The work of a thread that took effect and has not reached memory completely. *)
Inductive job (A : Type) : Type :=
| JNone | JData (x : A) (k : nat) | JPub (k : nat) | JPop (k : nat).
Arguments JNone {A}. Arguments JData {A} _ _. Arguments JPub {A} _. Arguments JPop {A} _.

Section Arr.
  Context {A : Type}.
  Variable n : nat.
  Hypothesis Hn : 2 <= n.

  Definition jpush (j : job A) (k : nat) : Prop :=
    match j with JData _ i | JPub i => i = k | _ => False end.
  Definition jpop (j : job A) (k : nat) : Prop := match j with JPop i => i = k | _ => False end.

  (** What the array looks like while a job is in flight. *)
  Definition jok (pw pr : nat) (m : memory A) (enq : list A) (j : job A) : Prop :=
    match j with
    | JNone => True
    | JData x k => seqs m (k mod n) = k /\ pr <= k < pw /\ nth_error enq k = Some x
    | JPub k => seqs m (k mod n) = k /\ pr <= k < pw /\ data m (k mod n) = nth_error enq k
    | JPop k => seqs m (k mod n) = k + 1 /\ k < pr /\ data m (k mod n) = nth_error enq k
    end.

  Definition slot (pw pr : nat) (m : memory A) (J : nat -> job A) (enq : list A) (i k : nat) : Prop :=
    k mod n = i /\ k < pr + n /\
    ( (seqs m i = k /\ pw <= k)
    \/ (seqs m i = k /\ pr <= k < pw /\ pw <= k + n /\ exists t, jpush (J t) k)
    \/ (seqs m i = k + 1 /\ pr <= k < pw /\ pw <= k + n /\ data m i = nth_error enq k)
    \/ (seqs m i = k + 1 /\ k < pr /\ pw <= k + n /\ exists t, jpop (J t) k)).

  Record arr (pw pr : nat) (m : memory A) (J : nat -> job A) (enq : list A) : Prop := {
    a_len : length enq = pw;
    a_le : pr <= pw;
    a_jok : forall t, jok pw pr m enq (J t);
    a_upush : forall t t' k, jpush (J t) k -> jpush (J t') k -> t = t';
    a_upop : forall t t' k, jpop (J t) k -> jpop (J t') k -> t = t';
    a_slot : forall i, i < n -> exists k, slot pw pr m J enq i k }.

  Lemma arr_ext : forall pw pr m J J' enq, (forall t, J' t = J t) -> arr pw pr m J enq -> arr pw pr m J' enq.
  Proof.
    intros pw pr m J J' enq E []. constructor; auto.
    - intros t. rewrite E. auto.
    - intros t t' k. rewrite !E. eauto.
    - intros t t' k. rewrite !E. eauto.
    - intros i Hi. destruct (a_slot0 i Hi) as [k (K1 & K2 & K3)]. exists k. split; [auto|]. split; [auto|].
      destruct K3 as [K|[(X & Y & Z & t & P)|[K|(X & Y & Z & t & P)]]]; auto.
      + right; left. split; [auto|]. split; [auto|]. split; [auto|]. exists t. rewrite E. auto.
      + right; right; right. split; [auto|]. split; [auto|]. split; [auto|]. exists t. rewrite E. auto.
  Qed.

  Lemma modlt : forall k, k mod n < n.
  Proof. intros. apply Nat.mod_upper_bound. lia. Qed.

  Lemma arr_init : arr 0 0 (mkMem (fun i => i) (fun _ => None)) (fun _ => JNone) [].
  Proof.
    constructor; simpl; auto; try tauto.
    intros i Hi. exists i. unfold slot. simpl. rewrite Nat.mod_small by auto.
    split; [auto|]. split; [lia|]. left. lia.
  Qed.

  Lemma jpush_ok : forall pw pr m J enq t k, arr pw pr m J enq -> jpush (J t) k ->
    seqs m (k mod n) = k /\ pr <= k < pw.
  Proof.
    intros pw pr m J enq t k I P. pose proof (a_jok _ _ _ _ _ I t) as Q.
    destruct (J t); simpl in P; try contradiction; subst; simpl in Q; tauto.
  Qed.

  Lemma jpop_ok : forall pw pr m J enq t k, arr pw pr m J enq -> jpop (J t) k ->
    seqs m (k mod n) = k + 1 /\ k < pr.
  Proof.
    intros pw pr m J enq t k I P. pose proof (a_jok _ _ _ _ _ I t) as Q.
    destruct (J t); simpl in P; try contradiction; subst; simpl in Q; tauto.
  Qed.

  (** The slot of a push, or of a pop, in flight: its current ticket, and nobody else works on it. *)
  Lemma push_slot : forall pw pr m J enq t k, arr pw pr m J enq -> jpush (J t) k -> pw <= k + n.
  Proof.
    intros pw pr m J enq t k I P. destruct (jpush_ok _ _ _ _ _ _ _ I P) as [S R].
    destruct (a_slot _ _ _ _ _ I _ (modlt k)) as [k' (K1 & K2 & K3)].
    destruct K3 as [(X & Y)|[(X & Y & Z & _)|[(X & Y & Z & _)|(X & Y & Z & _)]]]; try lia.
    all: assert (k' < k) by lia; pose proof (mod_gap n k' k ltac:(lia) ltac:(lia) K1); lia.
  Qed.

  Lemma pop_slot : forall pw pr m J enq t k, arr pw pr m J enq -> jpop (J t) k -> pw <= k + n.
  Proof.
    intros pw pr m J enq t k I P. destruct (jpop_ok _ _ _ _ _ _ _ I P) as [S R].
    destruct (a_slot _ _ _ _ _ I _ (modlt k)) as [k' (K1 & K2 & K3)].
    destruct K3 as [(X & Y)|[(X & Y & Z & _)|[(X & Y & Z & _)|(X & Y & Z & _)]]]; try lia.
    all: assert (k < k') by lia; pose proof (mod_gap n k k' ltac:(lia) ltac:(lia) (eq_sym K1)); lia.
  Qed.

  Lemma other_push : forall pw pr m J enq t t' k k', arr pw pr m J enq -> t' <> t ->
    jpush (J t) k -> jpush (J t') k' -> k' mod n <> k mod n.
  Proof.
    intros pw pr m J enq t t' k k' I N P P' C.
    destruct (jpush_ok _ _ _ _ _ _ _ I P) as [S _]. destruct (jpush_ok _ _ _ _ _ _ _ I P') as [S' _].
    rewrite C in S'. assert (H : k' = k) by congruence. rewrite H in P'. apply N.
    apply (a_upush _ _ _ _ _ I t' t k); auto.
  Qed.

  Lemma other_pop : forall pw pr m J enq t t' k k', arr pw pr m J enq -> t' <> t ->
    jpop (J t) k -> jpop (J t') k' -> k' mod n <> k mod n.
  Proof.
    intros pw pr m J enq t t' k k' I N P P' C.
    destruct (jpop_ok _ _ _ _ _ _ _ I P) as [S _]. destruct (jpop_ok _ _ _ _ _ _ _ I P') as [S' _].
    rewrite C in S'. assert (H : k' = k) by lia. rewrite H in P'. apply N.
    apply (a_upop _ _ _ _ _ I t' t k); auto.
  Qed.

  Lemma push_pop_apart : forall pw pr m J enq t t' k k', arr pw pr m J enq ->
    jpush (J t) k -> jpop (J t') k' -> k' mod n <> k mod n.
  Proof.
    intros pw pr m J enq t t' k k' I P P' C.
    destruct (jpush_ok _ _ _ _ _ _ _ I P) as [S R]. destruct (jpop_ok _ _ _ _ _ _ _ I P') as [S' R'].
    rewrite C in S'. assert (k' < k) by lia.
    pose proof (mod_gap n k' k ltac:(lia) ltac:(lia) C). lia.
  Qed.

  (** A push whose CAS succeeds finds its slot free. *)
  Lemma free_slot : forall pw pr m J enq, arr pw pr m J enq -> pw <= seqs m (pw mod n) ->
    seqs m (pw mod n) = pw /\ pw < pr + n.
  Proof.
    intros pw pr m J enq I H. destruct (a_slot _ _ _ _ _ I _ (modlt pw)) as [k (K1 & K2 & K3)].
    pose proof (a_le _ _ _ _ _ I).
    destruct K3 as [(K & K')|[(K & K' & _)|[(K & K' & _)|(K & K' & K'' & _)]]].
    - destruct (Nat.eq_dec k pw) as [->|NE]; [auto|].
      pose proof (mod_gap n pw k ltac:(lia) ltac:(lia) (eq_sym K1)). lia.
    - lia.
    - pose proof (mod_gap n k pw ltac:(lia) ltac:(lia) K1). lia.
    - pose proof (mod_gap n k pw ltac:(lia) ltac:(lia) K1). lia.
  Qed.

  Lemma full_slot : forall pw pr m J enq, arr pw pr m J enq -> pr + 1 <= seqs m (pr mod n) ->
    seqs m (pr mod n) = pr + 1 /\ pr < pw /\ pw <= pr + n /\ data m (pr mod n) = nth_error enq pr.
  Proof.
    intros pw pr m J enq I H. destruct (a_slot _ _ _ _ _ I _ (modlt pr)) as [k (K1 & K2 & K3)].
    assert (KL : k <= pr).
    { destruct (Nat.le_gt_cases k pr); auto.
      pose proof (mod_gap n pr k ltac:(lia) ltac:(lia) (eq_sym K1)). lia. }
    destruct K3 as [(K & K')|[(K & K' & _)|[(K & K' & K'' & D)|(K & K' & K'' & _)]]]; try lia.
    assert (k = pr) by lia. subst k. split; [lia|]. split; [lia|]. split; [lia|auto].
  Qed.

  Lemma room : forall pw pr m J enq, arr pw pr m J enq -> pw <= pr + n.
  Proof.
    intros pw pr m J enq I. destruct (a_slot _ _ _ _ _ I _ (modlt pr)) as [k (K1 & K2 & K3)].
    assert (KL : k <= pr).
    { destruct (Nat.le_gt_cases k pr); auto.
      pose proof (mod_gap n pr k ltac:(lia) ltac:(lia) (eq_sym K1)). lia. }
    destruct K3 as [(X & Y)|[(X & Y & Z & _)|[(X & Y & Z & _)|(X & Y & Z & _)]]]; lia.
  Qed.

  Ltac two J t t1 t2 :=
    destruct (Nat.eq_dec t1 t) as [->|?], (Nat.eq_dec t2 t) as [->|?];
    rewrite ?fupd_eq, ?fupd_neq by auto; simpl; auto; try tauto.

  (** The five events of the array. *)
  Lemma arr_claim_push : forall pw pr m J enq t x, arr pw pr m J enq -> J t = JNone ->
    pw <= seqs m (pw mod n) -> arr (pw + 1) pr m (fupd J t (JData x pw)) (enq ++ [x]).
  Proof.
    intros pw pr m J enq t x I JN H. destruct (free_slot _ _ _ _ _ I H) as [SQ RM].
    pose proof (a_le _ _ _ _ _ I) as LE. pose proof (a_len _ _ _ _ _ I) as LEN.
    assert (NTH : forall k, k < pw -> nth_error (enq ++ [x]) k = nth_error enq k).
    { intros k L. apply nth_error_app1. lia. }
    assert (NJ : forall t' k, jpush (J t') k -> k <> pw).
    { intros t' k P ->. destruct (jpush_ok _ _ _ _ _ _ _ I P). lia. }
    constructor.
    - rewrite app_length. simpl. lia.
    - lia.
    - intros t'. destruct (Nat.eq_dec t' t) as [->|N]; [rewrite fupd_eq|rewrite fupd_neq by auto].
      + simpl. split; [auto|]. split; [lia|]. rewrite nth_error_app2, <- LEN, Nat.sub_diag by lia. reflexivity.
      + pose proof (a_jok _ _ _ _ _ I t') as Q. destruct (J t'); simpl in *; auto;
          destruct Q as (P1 & P2 & P3); (split; [auto|]; split; [lia|]); rewrite NTH by lia; auto.
    - intros t1 t2 k. two J t t1 t2.
      + intros <- P. destruct (NJ _ _ P eq_refl).
      + intros P <-. destruct (NJ _ _ P eq_refl).
      + apply (a_upush _ _ _ _ _ I).
    - intros t1 t2 k. two J t t1 t2. apply (a_upop _ _ _ _ _ I).
    - intros i Hi. destruct (a_slot _ _ _ _ _ I i Hi) as [k (K1 & K2 & K3)].
      destruct (Nat.eq_dec i (pw mod n)) as [->|NI].
      + exists pw. split; [auto|]. split; [lia|]. right; left.
        split; [auto|]. split; [lia|]. split; [lia|]. exists t. rewrite fupd_eq. reflexivity.
      + exists k. split; [auto|]. split; [lia|].
        assert (NE : k <> pw) by (intros ->; auto).
        assert (NE2 : k + n <> pw).
        { intros X. apply NI. rewrite <- K1, <- X. symmetry. apply mod_add_n. lia. }
        destruct K3 as [(X & Y)|[(X & Y & Z & t' & Pt)|[(X & Y & Z & D)|(X & Y & Z & t' & Pt)]]].
        * left. lia.
        * right; left. repeat split; try lia. exists t'. rewrite fupd_neq; auto.
          intros ->. rewrite JN in Pt. exact Pt.
        * right; right; left. repeat split; try lia. rewrite NTH by lia. auto.
        * right; right; right. repeat split; try lia. exists t'. rewrite fupd_neq; auto.
          intros ->. rewrite JN in Pt. exact Pt.
  Qed.

  Lemma arr_write : forall pw pr m J enq t x k, arr pw pr m J enq -> J t = JData x k ->
    arr pw pr (apply n (WData k x) m) (fupd J t (JPub k)) enq.
  Proof.
    intros pw pr m J enq t x k I JT.
    assert (PT : jpush (J t) k) by (rewrite JT; reflexivity).
    pose proof (a_jok _ _ _ _ _ I t) as Q. rewrite JT in Q. simpl in Q. destruct Q as (SQ & RG & NX).
    constructor; simpl; try apply I.
    - intros t'. destruct (Nat.eq_dec t' t) as [->|N]; [rewrite fupd_eq|rewrite fupd_neq by auto].
      + simpl. rewrite fupd_eq. auto.
      + pose proof (a_jok _ _ _ _ _ I t') as P.
        pose proof (fun k' => other_push _ _ _ _ _ t t' k k' I N PT) as NS.
        pose proof (fun k' => push_pop_apart _ _ _ _ _ t t' k k' I PT) as NS2.
        destruct (J t'); simpl in *; auto; rewrite fupd_neq by auto; auto.
    - intros t1 t2 k'. two J t t1 t2.
      + intros <- P. apply (a_upush _ _ _ _ _ I t t2 k); auto.
      + intros P <-. apply (a_upush _ _ _ _ _ I t1 t k); auto.
      + apply (a_upush _ _ _ _ _ I).
    - intros t1 t2 k'. two J t t1 t2. apply (a_upop _ _ _ _ _ I).
    - intros i Hi. destruct (a_slot _ _ _ _ _ I i Hi) as [k' (K1 & K2 & K3)]. exists k'.
      split; [auto|]. simpl. split; [auto|].
      destruct K3 as [K|[(X & Y & Z & t' & Pt)|[(X & Y & Z & D)|(X & Y & Z & t' & Pt)]]]; auto.
      + right; left. repeat split; try tauto; try lia.
        destruct (Nat.eq_dec t' t) as [->|N].
        * exists t. rewrite fupd_eq. rewrite JT in Pt. exact Pt.
        * exists t'. rewrite fupd_neq by auto. auto.
      + right; right; left. repeat split; try lia. rewrite fupd_neq; auto.
        intros ->. assert (k' < k) by lia. pose proof (mod_gap n k' k ltac:(lia) ltac:(lia) K1). lia.
      + right; right; right. repeat split; try lia. exists t'. rewrite fupd_neq; auto.
        intros ->. rewrite JT in Pt. exact Pt.
  Qed.

  Lemma arr_pub : forall pw pr m J enq t k, arr pw pr m J enq -> J t = JPub k ->
    arr pw pr (apply n (WPub k) m) (fupd J t JNone) enq.
  Proof.
    intros pw pr m J enq t k I JT.
    assert (PT : jpush (J t) k) by (rewrite JT; reflexivity).
    pose proof (a_jok _ _ _ _ _ I t) as Q. rewrite JT in Q. simpl in Q. destruct Q as (SQ & RG & DX).
    pose proof (push_slot _ _ _ _ _ _ _ I PT) as RM.
    constructor; simpl; try apply I.
    - intros t'. destruct (Nat.eq_dec t' t) as [->|N]; [rewrite fupd_eq; simpl; auto|rewrite fupd_neq by auto].
      pose proof (a_jok _ _ _ _ _ I t') as P.
      pose proof (fun k' => other_push _ _ _ _ _ t t' k k' I N PT) as NS.
      pose proof (fun k' => push_pop_apart _ _ _ _ _ t t' k k' I PT) as NS2.
      destruct (J t'); simpl in *; auto; rewrite fupd_neq by auto; auto.
    - intros t1 t2 k'. two J t t1 t2. apply (a_upush _ _ _ _ _ I).
    - intros t1 t2 k'. two J t t1 t2. apply (a_upop _ _ _ _ _ I).
    - intros i Hi. destruct (a_slot _ _ _ _ _ I i Hi) as [k' (K1 & K2 & K3)].
      destruct (Nat.eq_dec i (k mod n)) as [->|NI].
      + exists k. split; [auto|]. simpl. split.
        * destruct K3 as [K|[(X & Y & Z & t' & Pt)|[(X & Y & Z & D)|(X & Y & Z & t' & Pt)]]]; try lia.
          all: assert (k' < k) by lia; pose proof (mod_gap n k' k ltac:(lia) ltac:(lia) K1); lia.
        * right; right; left. rewrite fupd_eq. repeat split; try lia; auto.
      + exists k'. split; [auto|]. simpl. split; [auto|]. rewrite fupd_neq by auto.
        destruct K3 as [K|[(X & Y & Z & t' & Pt)|[K|(X & Y & Z & t' & Pt)]]]; auto.
        * right; left. repeat split; try lia. exists t'. rewrite fupd_neq; auto.
          intros ->. rewrite JT in Pt. simpl in Pt. subst. auto.
        * right; right; right. repeat split; try lia. exists t'. rewrite fupd_neq; auto.
          intros ->. rewrite JT in Pt. exact Pt.
  Qed.

  Lemma arr_claim_pop : forall pw pr m J enq t, arr pw pr m J enq -> J t = JNone ->
    pr + 1 <= seqs m (pr mod n) -> arr pw (pr + 1) m (fupd J t (JPop pr)) enq.
  Proof.
    intros pw pr m J enq t I JN H. destruct (full_slot _ _ _ _ _ I H) as (SQ & RM & RN & DX).
    pose proof (a_le _ _ _ _ _ I) as LE.
    assert (NJ : forall t' k, jpop (J t') k -> k <> pr).
    { intros t' k P ->. destruct (jpop_ok _ _ _ _ _ _ _ I P). lia. }
    constructor; try apply I.
    - lia.
    - intros t'. destruct (Nat.eq_dec t' t) as [->|N]; [rewrite fupd_eq|rewrite fupd_neq by auto].
      + simpl. split; [auto|]. split; [lia|auto].
      + pose proof (a_jok _ _ _ _ _ I t') as Q. 
        destruct (J t'); simpl in *; auto; destruct Q as (P1 & P2 & P3); (split; [auto|]; split; [|auto]); try lia.
        * assert (k <> pr) by (intros ->; lia). lia.
        * assert (k <> pr) by (intros ->; lia). lia.
    - intros t1 t2 k. two J t t1 t2. apply (a_upush _ _ _ _ _ I).
    - intros t1 t2 k. two J t t1 t2.
      + intros <- P. destruct (NJ _ _ P eq_refl).
      + intros P <-. destruct (NJ _ _ P eq_refl).
      + apply (a_upop _ _ _ _ _ I).
    - intros i Hi. destruct (a_slot _ _ _ _ _ I i Hi) as [k (K1 & K2 & K3)].
      destruct (Nat.eq_dec i (pr mod n)) as [->|NI].
      + exists pr. split; [auto|]. split; [lia|]. right; right; right.
        split; [auto|]. split; [lia|]. split; [auto|]. exists t. rewrite fupd_eq. reflexivity.
      + exists k. split; [auto|]. split; [lia|].
        assert (NE : k <> pr) by (intros ->; auto).
        destruct K3 as [(X & Y)|[(X & Y & Z & t' & Pt)|[(X & Y & Z & D)|(X & Y & Z & t' & Pt)]]].
        * left. lia.
        * right; left. repeat split; try lia. exists t'. rewrite fupd_neq; auto.
          intros ->. rewrite JN in Pt. exact Pt.
        * right; right; left. repeat split; try lia. auto.
        * right; right; right. repeat split; try lia. exists t'. rewrite fupd_neq; auto.
          intros ->. rewrite JN in Pt. exact Pt.
  Qed.

  Lemma arr_rel : forall pw pr m J enq t k, arr pw pr m J enq -> J t = JPop k ->
    arr pw pr (apply n (WRel k) m) (fupd J t JNone) enq.
  Proof.
    intros pw pr m J enq t k I JT.
    assert (PT : jpop (J t) k) by (rewrite JT; reflexivity).
    pose proof (a_jok _ _ _ _ _ I t) as Q. rewrite JT in Q. simpl in Q. destruct Q as (SQ & RG & DX).
    pose proof (pop_slot _ _ _ _ _ _ _ I PT) as RM.
    cbn [apply]. replace (k + (n - 1) + 1) with (k + n) by lia.
    constructor; simpl; try apply I.
    - intros t'. destruct (Nat.eq_dec t' t) as [->|N]; [rewrite fupd_eq; simpl; auto|rewrite fupd_neq by auto].
      pose proof (a_jok _ _ _ _ _ I t') as P.
      pose proof (fun k' => other_pop _ _ _ _ _ t t' k k' I N PT) as NS.
      assert (NS2 : forall k', jpush (J t') k' -> k' mod n <> k mod n).
      { intros k' P' C. exact (push_pop_apart _ _ _ _ _ t' t k' k I P' PT (eq_sym C)). }
      destruct (J t'); simpl in *; auto; rewrite fupd_neq by auto; auto.
    - intros t1 t2 k'. two J t t1 t2. apply (a_upush _ _ _ _ _ I).
    - intros t1 t2 k'. two J t t1 t2. apply (a_upop _ _ _ _ _ I).
    - intros i Hi. destruct (a_slot _ _ _ _ _ I i Hi) as [k' (K1 & K2 & K3)].
      destruct (Nat.eq_dec i (k mod n)) as [->|NI].
      + exists (k + n). split; [apply mod_add_n; lia|]. simpl. split; [lia|]. left. rewrite fupd_eq. split; auto.
      + exists k'. split; [auto|]. simpl. split; [auto|]. rewrite fupd_neq by auto.
        destruct K3 as [K|[(X & Y & Z & t' & Pt)|[K|(X & Y & Z & t' & Pt)]]]; auto.
        * right; left. repeat split; try lia. exists t'. rewrite fupd_neq; auto.
          intros ->. rewrite JT in Pt. exact Pt.
        * right; right; right. repeat split; try lia. exists t'. rewrite fupd_neq; auto.
          intros ->. rewrite JT in Pt. simpl in Pt. subst. auto.
  Qed.
End Arr.
