(** Proofs about the unbounded MPMC queue. *)
From Coq Require Import List Arith Lia Bool.
From Verif Require Import Base LinSpec UmpmcModel.
From Verif Require Import VyukovProofs.
Import ListNotations.

Lemma mod_same_window : forall n j k, 1 <= n -> j mod n = k mod n -> k <= j -> j < k + n -> j = k.
Proof. intros. symmetry. apply (mod_inj_window n k j); auto. Qed.

Section Chain.
  Context {A : Type}.
  Variable n : nat.
  (** [b] holds the values of tickets h, h+n, h+2n, ..., up to (excluding) e. *)
  Inductive chain (enq : list A) : nat -> nat -> list A -> Prop :=
  | chain_nil : forall h, chain enq h h []
  | chain_cons : forall h e v b, nth_error enq h = Some v -> chain enq (h + n) e b -> chain enq h e (v :: b).

  Lemma chain_le : forall enq h e b, chain enq h e b -> h <= e.
  Proof. induction 1; lia. Qed.

  Lemma chain_snoc : forall enq h e b x, chain enq h e b -> nth_error enq e = Some x ->
    chain enq h (e + n) (b ++ [x]).
  Proof.
    induction 1; intros X; simpl.
    - constructor; [auto|constructor].
    - constructor; auto.
  Qed.

  Lemma chain_more : forall enq x h e b, chain enq h e b -> chain (enq ++ [x]) h e b.
  Proof.
    induction 1; [constructor|]. constructor; [|auto].
    rewrite nth_error_app1; [auto|]. apply nth_error_Some. congruence.
  Qed.
End Chain.

Section Proofs.
  Context {A : Type}.
  Variable n : nat.
  Hypothesis Hn : 2 <= n.

  Notation st := (st A). Notation pc := (pc A).

  Definition pushing (p : pc) (k : nat) : Prop :=
    match p with PPush _ j | PPub j => j = k | _ => False end.
  Definition popping (p : pc) (k : nat) : Prop :=
    match p with QPop j | QRel j _ => j = k | _ => False end.

  Definition tst (enq : list A) (p : pc) (u : status A) : Prop :=
    match p with
    | Rest => u = Idle
    | PLoad x | PSeq x _ | PCas x _ => u = WantPush x
    | PPush _ _ | PPub _ => u = DidPush
    | QLoad | QSeq _ | QChk _ | QCas _ => u = WantPop
    | QPop k => exists v, nth_error enq k = Some v /\ u = DidPop v
    | QRel k o => exists v, nth_error enq k = Some v /\ o = Some v /\ u = DidPop v
    end.

  (** What a thread knows; [hd i] and [tl i]: ticket of the next value to leave and to enter
      sub-queue i. *)
  Definition tok (s : st) (enq : list A) (hd tl : nat -> nat) (p : pc) : Prop :=
    match p with
    | PSeq _ pw => pw <= preadP s
    | PCas _ pw => pw <= seqP s (pw mod n)
    | PPush x k => seqP s (k mod n) = k /\ k < preadP s /\ nth_error enq k = Some x /\ tl (k mod n) = k
    | PPub k => seqP s (k mod n) = k /\ k < preadP s /\ tl (k mod n) = k + n
    | QSeq pr => pr <= preadC s
    | QChk pr => pr <= preadC s /\ pr <= seqC s (pr mod n)
    | QCas pr => pr <= seqC s (pr mod n) /\ pr < seqP s (pr mod n)
    | QPop k => seqC s (k mod n) = k /\ k < preadC s /\ hd (k mod n) = k
    | QRel k _ => seqC s (k mod n) = k /\ k < preadC s /\ hd (k mod n) = k + n
    | _ => True
    end.

  Definition sideP (s : st) (tl : nat -> nat) (i : nat) : Prop :=
    seqP s i mod n = i /\ preadP s <= seqP s i + n /\ seqP s i < preadP s + n /\ seqP s i <= tl i /\
    (preadP s <= seqP s i -> tl i = seqP s i) /\
    (seqP s i < preadP s -> exists t, pushing (thr s t) (seqP s i)).
  Definition sideC (s : st) (hd : nat -> nat) (i : nat) : Prop :=
    seqC s i mod n = i /\ preadC s <= seqC s i + n /\ seqC s i < preadC s + n /\
    (preadC s <= seqC s i -> hd i = seqC s i) /\
    (seqC s i < preadC s -> exists t, popping (thr s t) (seqC s i)).

  Record inv (s : st) (enq : list A) (hd tl : nat -> nat) (th : nat -> status A) : Prop := {
    i_lin : lins None true [] (fun _ => Idle) (tr s) (skipn (preadC s) enq) th;
    i_len : length enq = preadP s;
    i_le : preadC s <= preadP s;
    i_tst : forall t, tst enq (thr s t) (th t);
    i_tok : forall t, tok s enq hd tl (thr s t);
    i_upush : forall t t' k, pushing (thr s t) k -> pushing (thr s t') k -> t = t';
    i_upop : forall t t' k, popping (thr s t) k -> popping (thr s t') k -> t = t';
    i_P : forall i, i < n -> sideP s tl i;
    i_C : forall i, i < n -> sideC s hd i;
    i_done : forall k, k < preadC s -> k < seqP s (k mod n);
    i_buf : forall i, i < n -> chain n enq (hd i) (tl i) (buf s i) }.

  Definition Inv (s : st) : Prop := exists enq hd tl th, inv s enq hd tl th.

  Lemma modlt : forall k, k mod n < n.
  Proof. intros. apply Nat.mod_upper_bound. lia. Qed.

  Lemma Inv_init : Inv init_st.
  Proof.
    exists [], (fun i => i), (fun i => i), (fun _ => Idle). constructor; simpl; auto; try tauto.
    - constructor.
    - intros i Hi. unfold sideP. simpl. rewrite Nat.mod_small by auto. repeat split; try lia.
    - intros i Hi. unfold sideC. simpl. rewrite Nat.mod_small by auto. repeat split; try lia.
    - intros k Hk. lia.
    - intros. constructor.
  Qed.

  (** A step that only moves thread [t] between points where it neither pushes nor pops. *)
  Lemma inv_local : forall s enq hd tl th t p u tr',
    inv s enq hd tl th ->
    (forall k, ~ pushing (thr s t) k) -> (forall k, ~ popping (thr s t) k) ->
    (forall k, ~ pushing p k) -> (forall k, ~ popping p k) ->
    tst enq p u -> tok s enq hd tl p ->
    lins None true [] (fun _ => Idle) tr' (skipn (preadC s) enq) (fupd th t u) ->
    inv (mkSt (preadP s) (preadC s) (seqP s) (seqC s) (buf s) (fupd (thr s) t p) tr') enq hd tl (fupd th t u).
  Proof.
    intros s enq hd tl th t p u e I N1 N2 N3 N4 TS TK L. destruct I.
    constructor; simpl; auto.
    - intros t'. destruct (Nat.eq_dec t' t) as [->|N]; [rewrite !fupd_eq|rewrite !fupd_neq by auto]; auto.
    - intros t'. destruct (Nat.eq_dec t' t) as [->|N]; [rewrite fupd_eq|rewrite fupd_neq by auto].
      + destruct p; simpl in *; auto.
      + specialize (i_tok0 t'). destruct (thr s t'); simpl in *; auto.
    - intros t1 t2 k. destruct (Nat.eq_dec t1 t) as [->|Na]; [rewrite fupd_eq; intros X; destruct (N3 _ X)|].
      destruct (Nat.eq_dec t2 t) as [->|Nb]; [rewrite fupd_eq; intros _ X; destruct (N3 _ X)|].
      rewrite !fupd_neq by auto. eauto.
    - intros t1 t2 k. destruct (Nat.eq_dec t1 t) as [->|Na]; [rewrite fupd_eq; intros X; destruct (N4 _ X)|].
      destruct (Nat.eq_dec t2 t) as [->|Nb]; [rewrite fupd_eq; intros _ X; destruct (N4 _ X)|].
      rewrite !fupd_neq by auto. eauto.
    - intros i Hi. destruct (i_P0 i Hi) as (P1 & P2 & P3 & P4 & P5 & P6).
      repeat split; simpl; auto. intros X. destruct (P6 X) as (t0 & Pt). exists t0.
      rewrite fupd_neq; auto. intros ->. destruct (N1 _ Pt).
    - intros i Hi. destruct (i_C0 i Hi) as (P1 & P2 & P3 & P4 & P5).
      repeat split; simpl; auto. intros X. destruct (P5 X) as (t0 & Pt). exists t0.
      rewrite fupd_neq; auto. intros ->. destruct (N2 _ Pt).
  Qed.

  Lemma fupd_id : forall (th : nat -> status A) t t', fupd th t (th t) t' = th t'.
  Proof. intros. unfold fupd. destruct (t' =? t) eqn:E; auto. apply Nat.eqb_eq in E. subst. auto. Qed.

  (** A silent local move. *)
  Lemma inv_goto : forall s enq hd tl th t p,
    inv s enq hd tl th ->
    (forall k, ~ pushing (thr s t) k) -> (forall k, ~ popping (thr s t) k) ->
    (forall k, ~ pushing p k) -> (forall k, ~ popping p k) ->
    tst enq p (th t) -> tok s enq hd tl p -> inv (goto s t p) enq hd tl th.
  Proof.
    intros s enq hd tl th t p I N1 N2 N3 N4 TS TK. destruct I.
    constructor; simpl; auto.
    - intros t'. destruct (Nat.eq_dec t' t) as [->|N]; [rewrite !fupd_eq|rewrite !fupd_neq by auto]; auto.
    - intros t'. destruct (Nat.eq_dec t' t) as [->|N]; [rewrite fupd_eq|rewrite fupd_neq by auto].
      + destruct p; simpl in *; auto.
      + specialize (i_tok0 t'). destruct (thr s t'); simpl in *; auto.
    - intros t1 t2 k. destruct (Nat.eq_dec t1 t) as [->|Na]; [rewrite fupd_eq; intros X; destruct (N3 _ X)|].
      destruct (Nat.eq_dec t2 t) as [->|Nb]; [rewrite fupd_eq; intros _ X; destruct (N3 _ X)|].
      rewrite !fupd_neq by auto. eauto.
    - intros t1 t2 k. destruct (Nat.eq_dec t1 t) as [->|Na]; [rewrite fupd_eq; intros X; destruct (N4 _ X)|].
      destruct (Nat.eq_dec t2 t) as [->|Nb]; [rewrite fupd_eq; intros _ X; destruct (N4 _ X)|].
      rewrite !fupd_neq by auto. eauto.
    - intros i Hi. destruct (i_P0 i Hi) as (P1 & P2 & P3 & P4 & P5 & P6).
      repeat split; simpl; auto. intros X. destruct (P6 X) as (t0 & Pt). exists t0.
      rewrite fupd_neq; auto. intros ->. destruct (N1 _ Pt).
    - intros i Hi. destruct (i_C0 i Hi) as (P1 & P2 & P3 & P4 & P5).
      repeat split; simpl; auto. intros X. destruct (P5 X) as (t0 & Pt). exists t0.
      rewrite fupd_neq; auto. intros ->. destruct (N2 _ Pt).
  Qed.

  (** Two threads holding tickets of the same sub-queue hold the same ticket. *)
  Lemma push_ticket : forall s enq hd tl th t k, inv s enq hd tl th -> pushing (thr s t) k ->
    seqP s (k mod n) = k /\ k < preadP s.
  Proof.
    intros s enq hd tl th t k I P. pose proof (i_tok _ _ _ _ _ I t) as T.
    destruct (thr s t); simpl in P; try contradiction; subst; simpl in T; tauto.
  Qed.
  Lemma pop_ticket : forall s enq hd tl th t k, inv s enq hd tl th -> popping (thr s t) k ->
    seqC s (k mod n) = k /\ k < preadC s.
  Proof.
    intros s enq hd tl th t k I P. pose proof (i_tok _ _ _ _ _ I t) as T.
    destruct (thr s t); simpl in P; try contradiction; subst; simpl in T; tauto.
  Qed.
  Lemma push_excl : forall s enq hd tl th t t' k k', inv s enq hd tl th ->
    pushing (thr s t) k -> pushing (thr s t') k' -> k mod n = k' mod n -> t = t' /\ k = k'.
  Proof.
    intros s enq hd tl th t t' k k' I P P' E.
    destruct (push_ticket _ _ _ _ _ _ _ I P) as [Q _], (push_ticket _ _ _ _ _ _ _ I P') as [Q' _].
    assert (k = k') by congruence. subst. split; [|auto]. eapply i_upush; eauto.
  Qed.
  Lemma pop_excl : forall s enq hd tl th t t' k k', inv s enq hd tl th ->
    popping (thr s t) k -> popping (thr s t') k' -> k mod n = k' mod n -> t = t' /\ k = k'.
  Proof.
    intros s enq hd tl th t t' k k' I P P' E.
    destruct (pop_ticket _ _ _ _ _ _ _ I P) as [Q _], (pop_ticket _ _ _ _ _ _ _ I P') as [Q' _].
    assert (k = k') by congruence. subst. split; [|auto]. eapply i_upop; eauto.
  Qed.

  Ltac bythr t' t := destruct (Nat.eq_dec t' t) as [->|];
    [rewrite ?fupd_eq|rewrite ?fupd_neq by auto].

  Lemma Inv_step : forall s a s', Inv s -> step n s a = Some s' -> Inv s'.
  Proof.
    intros s a s' (enq & hd & tl & th & I) E.
    destruct a as [t x|t|t]; simpl in E.
    - destruct (thr s t) eqn:Et; try discriminate. injection E as <-.
      pose proof (i_tst _ _ _ _ _ I t) as T. rewrite Et in T. simpl in T.
      exists enq, hd, tl, (fupd th t (WantPush x)).
      apply (inv_local s enq hd tl th t (PLoad x) (WantPush x)); try rewrite Et; simpl; auto.
      eapply lins_snoc; [apply I|]. constructor. auto.
    - destruct (thr s t) eqn:Et; try discriminate. injection E as <-.
      pose proof (i_tst _ _ _ _ _ I t) as T. rewrite Et in T. simpl in T.
      exists enq, hd, tl, (fupd th t WantPop).
      apply (inv_local s enq hd tl th t QLoad WantPop); try rewrite Et; simpl; auto.
      eapply lins_snoc; [apply I|]. constructor. auto.
    - pose proof (i_tst _ _ _ _ _ I t) as T. pose proof (i_tok _ _ _ _ _ I t) as K.
      destruct (thr s t) as [|x|x pw|x pw|x pw|pw| |pr|pr|pr|pr|pr v] eqn:Et; try discriminate;
        simpl in T, K.
      + (* PLoad *) injection E as <-. exists enq, hd, tl, th.
        apply inv_goto; auto; try rewrite Et; simpl; auto.
      + (* PSeq *)
        destruct (Nat.eqb_spec pw (seqP s (pw mod n))) as [Q|Q]; injection E as <-; exists enq, hd, tl, th;
          apply inv_goto; auto; try rewrite Et; simpl; auto. lia.
      + (* PCas *)
        destruct (Nat.eqb_spec (preadP s) pw) as [B|B].
        2:{ injection E as <-. exists enq, hd, tl, th. apply inv_goto; auto; try rewrite Et; simpl; auto. }
        subst pw. injection E as <-.
        set (k := preadP s) in *.
        pose proof (i_P _ _ _ _ _ I _ (modlt k)) as (P1 & P2 & P3 & P4 & P5 & P6). fold k in P2, P3, P5, P6.
        assert (SQ : seqP s (k mod n) = k) by (apply (mod_same_window n); auto; lia).
        pose proof (i_len _ _ _ _ _ I) as LEN. pose proof (i_le _ _ _ _ _ I) as LE. fold k in LEN, LE.
        assert (TL : tl (k mod n) = k) by lia.
        exists (enq ++ [x]), hd, tl, (fupd th t DidPush).
        assert (NT : forall j v, nth_error enq j = Some v -> nth_error (enq ++ [x]) j = Some v).
        { intros j v X. rewrite nth_error_app1; auto. apply nth_error_Some. congruence. }
        assert (FR : forall t' k', pushing (thr s t') k' -> k' < k).
        { intros t' k' X. apply (push_ticket _ _ _ _ _ _ _ I X). }
        pose proof I as I0. destruct I. constructor; cbn [preadP preadC seqP seqC buf thr tr]; auto.
        * eapply lins_snoc; [eassumption|].
          replace (skipn (preadC s) (enq ++ [x])) with (skipn (preadC s) enq ++ [x]).
          -- apply lin_push; [auto|exact Logic.I].
          -- rewrite skipn_app. replace (preadC s - length enq) with 0 by lia. reflexivity.
        * rewrite app_length. simpl. lia.
        * lia.
        * intros t'. bythr t' t; [reflexivity|]. specialize (i_tst0 t').
          destruct (thr s t'); simpl in *; auto.
          -- destruct i_tst0 as (v & X & Y). eauto.
          -- destruct i_tst0 as (v0 & X & Y). eauto.
        * intros t'. bythr t' t.
          -- simpl. repeat split; try lia. rewrite nth_error_app2 by lia.
             replace (k - length enq) with 0 by lia. reflexivity.
          -- specialize (i_tok0 t'). destruct (thr s t'); simpl in *; auto; try lia.
             ++ destruct i_tok0 as (X1 & X2 & X3 & X4). repeat split; auto; lia.
        * intros t1 t2 k'. bythr t1 t; bythr t2 t; simpl; auto.
          -- intros <- X. apply FR in X. lia.
          -- intros X <-. apply FR in X. lia.
          -- eauto.
        * intros t1 t2 k'. bythr t1 t; bythr t2 t; simpl; auto; try tauto. eauto.
        * intros i Hi. pose proof (i_P0 i Hi) as (Y1 & Y2 & Y3 & Y4 & Y5 & Y6). fold k in Y2, Y3, Y5, Y6.
          unfold sideP. cbn [preadP seqP thr]. destruct (Nat.eq_dec i (k mod n)) as [->|NI].
          -- repeat split; try lia. intros _. exists t. rewrite fupd_eq. simpl. lia.
          -- assert (NE : seqP s i <> k) by (intros X; apply NI; rewrite <- Y1, X; reflexivity).
             assert (NE2 : seqP s i + n <> k).
             { intros X. apply NI. rewrite <- X, mod_add_n by lia. auto. }
             repeat split; try lia. intros X. destruct Y6 as (t' & Pt); [lia|]. exists t'.
             rewrite fupd_neq; auto. intros ->. rewrite Et in Pt. exact Pt.
        * intros i Hi. destruct (i_C0 i Hi) as (Y1 & Y2 & Y3 & Y4 & Y5).
          repeat split; simpl; auto. intros X. destruct (Y5 X) as (t' & Pt). exists t'.
          rewrite fupd_neq; auto. intros ->. rewrite Et in Pt. exact Pt.
        * intros i Hi. apply chain_more. auto.
      + (* PPush *) injection E as <-. destruct K as (SQ & LT & NX & TL).
        exists enq, hd, (fupd tl (pw mod n) (pw + n)), th.
        assert (EX : forall t' k, t' <> t -> pushing (thr s t') k -> k mod n <> pw mod n).
        { intros t' k N P C. apply N. eapply (push_excl s enq hd tl th t' t k pw); eauto.
          rewrite Et. reflexivity. }
        pose proof I as I0. destruct I. constructor; cbn [preadP preadC seqP seqC buf thr tr]; auto.
        * intros t'. bythr t' t; [|auto]. exact T.
        * intros t'. bythr t' t.
          -- simpl. rewrite fupd_eq. auto.
          -- specialize (i_tok0 t'). specialize (EX t').
             destruct (thr s t'); simpl in *; auto; rewrite fupd_neq; auto.
        * intros t1 t2 k. bythr t1 t; bythr t2 t; simpl; auto.
          -- intros <- X. apply (i_upush0 t t2 pw); auto. rewrite Et. reflexivity.
          -- intros X <-. apply (i_upush0 t1 t pw); auto. rewrite Et. reflexivity.
          -- eauto.
        * intros t1 t2 k. bythr t1 t; bythr t2 t; simpl; auto; try tauto. eauto.
        * intros i Hi. pose proof (i_P0 i Hi) as (Y1 & Y2 & Y3 & Y4 & Y5 & Y6).
          unfold sideP. cbn [preadP seqP thr]. destruct (Nat.eq_dec i (pw mod n)) as [->|NI].
          -- rewrite fupd_eq. repeat split; auto; try lia. intros _. exists t. rewrite fupd_eq. simpl. lia.
          -- rewrite fupd_neq by auto. repeat split; auto. intros X. destruct Y6 as (t' & Pt); [lia|]. exists t'.
             rewrite fupd_neq; auto. intros ->. rewrite Et in Pt. simpl in Pt. subst. rewrite <- Y1 in NI. auto.
        * intros i Hi. destruct (i_C0 i Hi) as (Y1 & Y2 & Y3 & Y4 & Y5).
          repeat split; simpl; auto. intros X. destruct (Y5 X) as (t' & Pt). exists t'.
          rewrite fupd_neq; auto. intros ->. rewrite Et in Pt. exact Pt.
        * intros i Hi. destruct (Nat.eq_dec i (pw mod n)) as [->|NI].
          -- rewrite !fupd_eq. apply chain_snoc; auto. rewrite <- TL at 2. auto.
          -- rewrite !fupd_neq by auto. auto.
      + (* PPub *) injection E as <-. destruct K as (SQ & LT & TL).
        replace (pw + (n - 1) + 1) with (pw + n) by lia.
        exists enq, hd, tl, (fupd th t Idle).
        assert (EX : forall t' k, t' <> t -> pushing (thr s t') k -> k mod n <> pw mod n).
        { intros t' k N P C. apply N. eapply (push_excl s enq hd tl th t' t k pw); eauto.
          rewrite Et. reflexivity. }
        assert (MON : forall i, seqP s i <= fupd (seqP s) (pw mod n) (pw + n) i).
        { intros i. unfold fupd. destruct (Nat.eqb_spec i (pw mod n)) as [->|]; lia. }
        pose proof I as I0. destruct I. constructor; cbn [preadP preadC seqP seqC buf thr tr]; auto.
        * eapply lins_snoc; [eassumption|]. constructor. auto.
        * intros t'. bythr t' t; [reflexivity|auto].
        * intros t'. bythr t' t; [exact Logic.I|]. specialize (i_tok0 t'). specialize (EX t').
          destruct (thr s t'); simpl in *; auto.
          -- pose proof (MON (pw0 mod n)). lia.
          -- rewrite fupd_neq; auto.
          -- rewrite fupd_neq; auto.
          -- pose proof (MON (pr mod n)). lia.
        * intros t1 t2 k. bythr t1 t; bythr t2 t; simpl; auto; try tauto. eauto.
        * intros t1 t2 k. bythr t1 t; bythr t2 t; simpl; auto; try tauto. eauto.
        * intros i Hi. pose proof (i_P0 i Hi) as (Y1 & Y2 & Y3 & Y4 & Y5 & Y6).
          unfold sideP. cbn [preadP seqP thr]. destruct (Nat.eq_dec i (pw mod n)) as [->|NI].
          -- rewrite fupd_eq. rewrite mod_add_n by lia. repeat split; auto; lia.
          -- rewrite fupd_neq by auto. repeat split; auto. intros X. destruct Y6 as (t' & Pt); [lia|]. exists t'.
             rewrite fupd_neq; auto. intros ->. rewrite Et in Pt. simpl in Pt. subst. rewrite <- Y1 in NI. auto.
        * intros i Hi. destruct (i_C0 i Hi) as (Y1 & Y2 & Y3 & Y4 & Y5).
          repeat split; simpl; auto. intros X. destruct (Y5 X) as (t' & Pt). exists t'.
          rewrite fupd_neq; auto. intros ->. rewrite Et in Pt. exact Pt.
        * intros k Hk. specialize (i_done0 k Hk). pose proof (MON (k mod n)). lia.
      + (* QLoad *) injection E as <-. exists enq, hd, tl, th.
        apply inv_goto; auto; try rewrite Et; simpl; auto.
      + (* QSeq *)
        destruct (Nat.eqb_spec pr (seqC s (pr mod n))) as [Q|Q]; injection E as <-; exists enq, hd, tl, th;
          apply inv_goto; auto; try rewrite Et; simpl; auto. lia.
      + (* QChk *)
        destruct (Nat.leb_spec (seqP s (pr mod n)) pr) as [F|F].
        * injection E as <-. exists enq, hd, tl, (fupd th t Idle).
          apply (inv_local s enq hd tl th t Rest Idle); try rewrite Et; simpl; auto.
          eapply lins_snoc; [apply I|]. eapply lin_fail_pop; [eassumption|].
          destruct K as (K1 & K2).
          assert (CE : preadC s = pr).
          { destruct (Nat.eq_dec pr (preadC s)) as [|N]; [auto|].
            pose proof (i_done _ _ _ _ _ I pr ltac:(lia)). lia. }
          pose proof (i_P _ _ _ _ _ I _ (modlt pr)) as (P1 & P2 & P3 & P4 & P5 & P6).
          destruct (Nat.lt_ge_cases (seqP s (pr mod n)) (preadP s)) as [L|L].
          -- right. split; [auto|]. destruct (P6 L) as (t' & Pt). exists t'.
             pose proof (i_tst _ _ _ _ _ I t') as T'.
             destruct (thr s t'); simpl in Pt; try contradiction; simpl in T'; auto.
          -- left. apply skipn_all2. rewrite (i_len _ _ _ _ _ I). lia.
        * injection E as <-. exists enq, hd, tl, th. apply inv_goto; auto; try rewrite Et; simpl; auto. lia.
      + (* QCas *)
        destruct (Nat.eqb_spec (preadC s) pr) as [B|B].
        2:{ injection E as <-. exists enq, hd, tl, th. apply inv_goto; auto; try rewrite Et; simpl; auto. }
        subst pr. injection E as <-. set (k := preadC s) in *. destruct K as (K1 & K2).
        pose proof (i_C _ _ _ _ _ I _ (modlt k)) as (P1 & P2 & P3 & P4 & P5). fold k in P2, P3, P4, P5.
        assert (SQ : seqC s (k mod n) = k) by (apply (mod_same_window n); auto; lia).
        assert (HD : hd (k mod n) = k) by lia.
        pose proof (i_P _ _ _ _ _ I _ (modlt k)) as (Q1 & Q2 & Q3 & Q4 & Q5 & Q6).
        pose proof (mod_gap n k (seqP s (k mod n)) ltac:(lia) K2 (eq_sym Q1)) as GAP.
        assert (KL : k < preadP s) by lia.
        pose proof (i_len _ _ _ _ _ I) as LEN.
        destruct (nth_error enq k) as [v|] eqn:EV; [|apply nth_error_None in EV; lia].
        exists enq, hd, tl, (fupd th t (DidPop v)).
        assert (FR : forall t' k', popping (thr s t') k' -> k' < k).
        { intros t' k' X. apply (pop_ticket _ _ _ _ _ _ _ I X). }
        assert (SK : skipn k enq = v :: skipn (S k) enq) by (apply skipn_nth; auto).
        replace (k + 1) with (S k) by lia.
        pose proof I as I0. destruct I. constructor; cbn [preadP preadC seqP seqC buf thr tr]; auto.
        * eapply lins_snoc; [eassumption|]. fold k. rewrite SK. apply lin_pop. auto.
        * intros t'. bythr t' t; [simpl; eauto|auto].
        * intros t'. bythr t' t.
          -- simpl. repeat split; auto.
          -- specialize (i_tok0 t'). destruct (thr s t'); simpl in *; auto; fold k in i_tok0; try lia.
        * intros t1 t2 k'. bythr t1 t; bythr t2 t; simpl; auto; try tauto. eauto.
        * intros t1 t2 k'. bythr t1 t; bythr t2 t; simpl; auto.
          -- intros <- X. apply FR in X. lia.
          -- intros X <-. apply FR in X. lia.
          -- eauto.
        * intros i Hi. destruct (i_P0 i Hi) as (Y1 & Y2 & Y3 & Y4 & Y5 & Y6).
          repeat split; simpl; auto. intros X. destruct (Y6 X) as (t' & Pt). exists t'.
          rewrite fupd_neq; auto. intros ->. rewrite Et in Pt. exact Pt.
        * intros i Hi. pose proof (i_C0 i Hi) as (Y1 & Y2 & Y3 & Y4 & Y5). fold k in Y2, Y3, Y4, Y5.
          unfold sideC. cbn [preadC seqC thr]. destruct (Nat.eq_dec i (k mod n)) as [->|NI].
          -- repeat split; try lia. intros _. exists t. rewrite fupd_eq. simpl. lia.
          -- assert (NE : seqC s i <> k) by (intros X; apply NI; rewrite <- Y1, X; reflexivity).
             assert (NE2 : seqC s i + n <> k).
             { intros X. apply NI. rewrite <- X, mod_add_n by lia. auto. }
             repeat split; try lia. intros X. destruct Y5 as (t' & Pt); [lia|]. exists t'.
             rewrite fupd_neq; auto. intros ->. rewrite Et in Pt. exact Pt.
        * intros k' Hk. destruct (Nat.eq_dec k' k) as [->|]; [auto|]. apply i_done0. lia.
      + (* QPop *) destruct K as (SQ & LT & HD). destruct T as (w & NW & T).
        pose proof (i_buf _ _ _ _ _ I _ (modlt pr)) as CH.
        pose proof (i_done _ _ _ _ _ I pr LT) as DN.
        pose proof (i_P _ _ _ _ _ I _ (modlt pr)) as (P1 & P2 & P3 & P4 & P5 & P6).
        destruct (buf s (pr mod n)) as [|v b] eqn:EB.
        { inversion CH; subst. lia. }
        injection E as <-. inversion CH as [|h e v' b' NV CH']; subst. rewrite HD in NV, CH'.
        assert (v = w) by congruence. subst v.
        exists enq, (fupd hd (pr mod n) (pr + n)), tl, th.
        assert (EX : forall t' k, t' <> t -> popping (thr s t') k -> k mod n <> pr mod n).
        { intros t' k N P C. apply N. eapply (pop_excl s enq hd tl th t' t k pr); eauto.
          rewrite Et. reflexivity. }
        pose proof I as I0. destruct I. constructor; cbn [preadP preadC seqP seqC buf thr tr]; auto.
        * intros t'. bythr t' t; [|auto]. simpl. eauto.
        * intros t'. bythr t' t.
          -- simpl. rewrite fupd_eq. auto.
          -- specialize (i_tok0 t'). specialize (EX t').
             destruct (thr s t'); simpl in *; auto; rewrite fupd_neq; auto.
        * intros t1 t2 k. bythr t1 t; bythr t2 t; simpl; auto; try tauto. eauto.
        * intros t1 t2 k. bythr t1 t; bythr t2 t; simpl; auto.
          -- intros <- X. apply (i_upop0 t t2 pr); auto. rewrite Et. reflexivity.
          -- intros X <-. apply (i_upop0 t1 t pr); auto. rewrite Et. reflexivity.
          -- eauto.
        * intros i Hi. destruct (i_P0 i Hi) as (Y1 & Y2 & Y3 & Y4 & Y5 & Y6).
          repeat split; simpl; auto. intros X. destruct (Y6 X) as (t' & Pt). exists t'.
          rewrite fupd_neq; auto. intros ->. rewrite Et in Pt. exact Pt.
        * intros i Hi. pose proof (i_C0 i Hi) as (Y1 & Y2 & Y3 & Y4 & Y5).
          unfold sideC. cbn [preadC seqC thr]. destruct (Nat.eq_dec i (pr mod n)) as [->|NI].
          -- rewrite fupd_eq. repeat split; auto; try lia. intros _. exists t. rewrite fupd_eq. simpl. lia.
          -- rewrite fupd_neq by auto. repeat split; auto. intros X. destruct Y5 as (t' & Pt); [lia|]. exists t'.
             rewrite fupd_neq; auto. intros ->. rewrite Et in Pt. simpl in Pt. subst. rewrite <- Y1 in NI. auto.
        * intros i Hi. destruct (Nat.eq_dec i (pr mod n)) as [->|NI].
          -- rewrite !fupd_eq. auto.
          -- rewrite !fupd_neq by auto. auto.
      + (* QRel *) injection E as <-. destruct K as (SQ & LT & HD). destruct T as (w & NW & -> & T).
        replace (pr + (n - 1) + 1) with (pr + n) by lia.
        exists enq, hd, tl, (fupd th t Idle).
        assert (EX : forall t' k, t' <> t -> popping (thr s t') k -> k mod n <> pr mod n).
        { intros t' k N P C. apply N. eapply (pop_excl s enq hd tl th t' t k pr); eauto.
          rewrite Et. reflexivity. }
        assert (MON : forall i, seqC s i <= fupd (seqC s) (pr mod n) (pr + n) i).
        { intros i. unfold fupd. destruct (Nat.eqb_spec i (pr mod n)) as [->|]; lia. }
        pose proof I as I0. destruct I. constructor; cbn [preadP preadC seqP seqC buf thr tr]; auto.
        * eapply lins_snoc; [eassumption|]. constructor. auto.
        * intros t'. bythr t' t; [reflexivity|auto].
        * intros t'. bythr t' t; [exact Logic.I|]. specialize (i_tok0 t'). specialize (EX t').
          destruct (thr s t'); simpl in *; auto.
          -- pose proof (MON (pr0 mod n)). lia.
          -- pose proof (MON (pr0 mod n)). lia.
          -- rewrite fupd_neq; auto.
          -- rewrite fupd_neq; auto.
        * intros t1 t2 k. bythr t1 t; bythr t2 t; simpl; auto; try tauto. eauto.
        * intros t1 t2 k. bythr t1 t; bythr t2 t; simpl; auto; try tauto. eauto.
        * intros i Hi. destruct (i_P0 i Hi) as (Y1 & Y2 & Y3 & Y4 & Y5 & Y6).
          repeat split; simpl; auto. intros X. destruct (Y6 X) as (t' & Pt). exists t'.
          rewrite fupd_neq; auto. intros ->. rewrite Et in Pt. exact Pt.
        * intros i Hi. pose proof (i_C0 i Hi) as (Y1 & Y2 & Y3 & Y4 & Y5).
          unfold sideC. cbn [preadC seqC thr]. destruct (Nat.eq_dec i (pr mod n)) as [->|NI].
          -- rewrite fupd_eq. rewrite mod_add_n by lia. repeat split; auto; lia.
          -- rewrite fupd_neq by auto. repeat split; auto. intros X. destruct Y5 as (t' & Pt); [lia|]. exists t'.
             rewrite fupd_neq; auto. intros ->. rewrite Et in Pt. simpl in Pt. subst. rewrite <- Y1 in NI. auto.
  Qed.

  Lemma reach : forall l (s : st), exec (step n) init_st l = Some s -> Inv s.
  Proof. intros. eapply (exec_inv (step n) Inv); eauto using Inv_step, Inv_init. Qed.
End Proofs.
