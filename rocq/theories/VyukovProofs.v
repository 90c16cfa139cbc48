(** Proofs about the bounded MPMC queue. *)
From Coq Require Import List Arith Lia Bool.
From Verif Require Import Base LinSpec VyukovModel.
Import ListNotations.

Lemma mod_gap : forall n i j, 1 <= n -> i < j -> i mod n = j mod n -> i + n <= j.
Proof.
  intros n i j Hn L E. destruct (Nat.lt_ge_cases j (i + n)); [|lia].
  pose proof (mod_inj_window n i j Hn ltac:(lia) H E). lia.
Qed.

Section Proofs.
  Context {A : Type}.
  Variable n : nat.
  Hypothesis Hn : 2 <= n.

  Notation st := (st A). Notation pc := (pc A).

  Definition pushing (p : pc) (k : nat) : Prop :=
    match p with PData _ j | PPub j => j = k | _ => False end.
  Definition popping (p : pc) (k : nat) : Prop :=
    match p with QData j | QRel j _ => j = k | _ => False end.

  Definition tst (enq : list A) (p : pc) (u : status A) : Prop :=
    match p with
    | Rest => u = Idle
    | PLoad x | PSeq x _ | PCas x _ => u = WantPush x
    | PData _ _ | PPub _ => u = DidPush
    | QLoad | QSeq _ | QCas _ => u = WantPop
    | QData k => exists v, nth_error enq k = Some v /\ u = DidPop v
    | QRel k o => exists v, nth_error enq k = Some v /\ o = Some v /\ u = DidPop v
    end.

  (** What a thread knows. *)
  Definition tok (s : st) (enq : list A) (p : pc) : Prop :=
    match p with
    | PSeq _ pw => pw <= pwrite s
    | PCas _ pw => pw <= seqs s (pw mod n)
    | PData x k => seqs s (k mod n) = k /\ pread s <= k < pwrite s /\ nth_error enq k = Some x
    | PPub k => seqs s (k mod n) = k /\ pread s <= k < pwrite s /\ data s (k mod n) = nth_error enq k
    | QSeq pr => pr <= pread s
    | QCas pr => pr + 1 <= seqs s (pr mod n)
    | QData k | QRel k _ => seqs s (k mod n) = k + 1 /\ k < pread s /\ data s (k mod n) = nth_error enq k
    | _ => True
    end.

  Definition slot_ok (s : st) (enq : list A) (i k : nat) : Prop :=
    k mod n = i /\ k < pread s + n /\
    ( (seqs s i = k /\ pwrite s <= k)
    \/ (seqs s i = k /\ pread s <= k < pwrite s /\ pwrite s <= k + n /\ exists t, pushing (thr s t) k)
    \/ (seqs s i = k + 1 /\ pread s <= k < pwrite s /\ pwrite s <= k + n /\ data s i = nth_error enq k)
    \/ (seqs s i = k + 1 /\ k < pread s /\ pwrite s <= k + n /\ exists t, popping (thr s t) k)).

  Record inv (s : st) (enq : list A) (th : nat -> status A) : Prop := {
    i_lin : lins (Some n) true [] (fun _ => Idle) (tr s) (skipn (pread s) enq) th;
    i_len : length enq = pwrite s;
    i_le : pread s <= pwrite s;
    i_tst : forall t, tst enq (thr s t) (th t);
    i_tok : forall t, tok s enq (thr s t);
    i_upush : forall t t' k, pushing (thr s t) k -> pushing (thr s t') k -> t = t';
    i_upop : forall t t' k, popping (thr s t) k -> popping (thr s t') k -> t = t';
    i_slot : forall i, i < n -> exists k, slot_ok s enq i k }.

  Definition Inv (s : st) : Prop := exists enq th, inv s enq th.

  Lemma Inv_init : Inv init_st.
  Proof.
    exists [], (fun _ => Idle). constructor; simpl; auto; try tauto.
    - constructor.
    - intros i Hi. exists i. unfold slot_ok. simpl. rewrite Nat.mod_small by auto.
      split; [auto|]. split; [lia|]. left. lia.
  Qed.

  (** A step that only moves thread [t] between points where it neither pushes nor pops. *)
  Lemma Inv_local : forall s enq th t p u e,
    inv s enq th ->
    (forall k, ~ pushing (thr s t) k) -> (forall k, ~ popping (thr s t) k) ->
    (forall k, ~ pushing p k) -> (forall k, ~ popping p k) ->
    tst enq p u -> tok s enq p ->
    lins (Some n) true [] (fun _ => Idle) (tr s ++ e) (skipn (pread s) enq) (fupd th t u) ->
    inv (mkSt (pwrite s) (pread s) (seqs s) (data s) (fupd (thr s) t p) (tr s ++ e)) enq (fupd th t u).
  Proof.
    intros s enq th t p u e I N1 N2 N3 N4 TS TK L. destruct I.
    constructor; simpl; auto.
    - intros t'. destruct (Nat.eq_dec t' t) as [->|N]; [rewrite !fupd_eq|rewrite !fupd_neq by auto]; auto.
    - intros t'. destruct (Nat.eq_dec t' t) as [->|N]; [rewrite fupd_eq|rewrite fupd_neq by auto].
      + destruct p; simpl in *; auto.
      + specialize (i_tok0 t'). destruct (thr s t'); simpl in *; auto.
    - intros t1 t2 k. destruct (Nat.eq_dec t1 t) as [->|Na]; [rewrite fupd_eq; intros X; destruct (N3 _ X)|].
      destruct (Nat.eq_dec t2 t) as [->|Nb]; [rewrite fupd_eq; intros _ X; destruct (N3 _ X)|].
      rewrite !fupd_neq by auto. eauto.
    - intros t1 t2 k. destruct (Nat.eq_dec t1 t) as [->|Na]; [rewrite fupd_eq; intros X; destruct (N4 _ X)|].
      destruct (Nat.eq_dec t2 t) as [->|Nb]; [rewrite fupd_eq; intros _ X; destruct (N4 _ X)|].
      rewrite !fupd_neq by auto. eauto.
    - intros i Hi. destruct (i_slot0 i Hi) as [k (K1 & K2 & K3)]. exists k.
      split; [auto|]. split; [auto|]. simpl.
      destruct K3 as [K|[(K & K' & K'' & t0 & Kt)|[K|(K & K' & K'' & t0 & Kt)]]]; auto.
      + right; left. repeat split; try tauto; try lia. exists t0.
        rewrite fupd_neq; auto. intros ->. destruct (N1 _ Kt).
      + right; right; right. repeat split; try tauto; try lia. exists t0.
        rewrite fupd_neq; auto. intros ->. destruct (N2 _ Kt).
  Qed.

  Lemma lins_same : forall s enq th t u, inv s enq th -> th t = u ->
    lins (Some n) true [] (fun _ => Idle) (tr s ++ []) (skipn (pread s) enq) th.
  Proof. intros s enq th t u I _. rewrite app_nil_r. apply I. Qed.

  (** A silent local move. *)
  Lemma Inv_goto : forall s enq th t p,
    inv s enq th ->
    (forall k, ~ pushing (thr s t) k) -> (forall k, ~ popping (thr s t) k) ->
    (forall k, ~ pushing p k) -> (forall k, ~ popping p k) ->
    tst enq p (th t) -> tok s enq p -> inv (goto s t p) enq th.
  Proof.
    intros s enq th t p I N1 N2 N3 N4 TS TK. destruct I.
    constructor; simpl; auto.
    - intros t'. destruct (Nat.eq_dec t' t) as [->|N]; [rewrite fupd_eq|rewrite fupd_neq by auto]; auto.
    - intros t'. destruct (Nat.eq_dec t' t) as [->|N]; [rewrite fupd_eq|rewrite fupd_neq by auto].
      + destruct p; simpl in *; auto.
      + specialize (i_tok0 t'). destruct (thr s t'); simpl in *; auto.
    - intros t1 t2 k. destruct (Nat.eq_dec t1 t) as [->|Na]; [rewrite fupd_eq; intros X; destruct (N3 _ X)|].
      destruct (Nat.eq_dec t2 t) as [->|Nb]; [rewrite fupd_eq; intros _ X; destruct (N3 _ X)|].
      rewrite !fupd_neq by auto. eauto.
    - intros t1 t2 k. destruct (Nat.eq_dec t1 t) as [->|Na]; [rewrite fupd_eq; intros X; destruct (N4 _ X)|].
      destruct (Nat.eq_dec t2 t) as [->|Nb]; [rewrite fupd_eq; intros _ X; destruct (N4 _ X)|].
      rewrite !fupd_neq by auto. eauto.
    - intros i Hi. destruct (i_slot0 i Hi) as [k (K1 & K2 & K3)]. exists k.
      split; [auto|]. split; [auto|]. simpl.
      destruct K3 as [K|[(K & K' & K'' & t0 & Kt)|[K|(K & K' & K'' & t0 & Kt)]]]; auto.
      + right; left. repeat split; try tauto; try lia. exists t0.
        rewrite fupd_neq; auto. intros ->. destruct (N1 _ Kt).
      + right; right; right. repeat split; try tauto; try lia. exists t0.
        rewrite fupd_neq; auto. intros ->. destruct (N2 _ Kt).
  Qed.

  Lemma modlt : forall k, k mod n < n.
  Proof. intros. apply Nat.mod_upper_bound. lia. Qed.

  (** A push whose CAS succeeds finds its slot free. *)
  Lemma claim_push : forall s enq th, inv s enq th ->
    pwrite s <= seqs s (pwrite s mod n) ->
    seqs s (pwrite s mod n) = pwrite s /\ pwrite s < pread s + n.
  Proof.
    intros s enq th I H. destruct (i_slot s enq th I _ (modlt (pwrite s))) as [k (K1 & K2 & K3)].
    destruct K3 as [(K & K')|[(K & K' & _)|[(K & K' & _)|(K & K' & K'' & _)]]].
    - destruct (Nat.eq_dec k (pwrite s)) as [->|NE]; [auto|].
      pose proof (mod_gap n (pwrite s) k ltac:(lia) ltac:(lia) (eq_sym K1)).
      pose proof (i_le s enq th I). lia.
    - lia.
    - pose proof (mod_gap n k (pwrite s) ltac:(lia) ltac:(lia) K1). lia.
    - pose proof (i_le s enq th I). pose proof (mod_gap n k (pwrite s) ltac:(lia) ltac:(lia) K1). lia.
  Qed.

  Lemma claim_pop : forall s enq th, inv s enq th ->
    pread s + 1 <= seqs s (pread s mod n) ->
    seqs s (pread s mod n) = pread s + 1 /\ pread s < pwrite s /\ data s (pread s mod n) = nth_error enq (pread s).
  Proof.
    intros s enq th I H. destruct (i_slot s enq th I _ (modlt (pread s))) as [k (K1 & K2 & K3)].
    assert (KL : k <= pread s).
    { destruct (Nat.le_gt_cases k (pread s)); auto.
      pose proof (mod_gap n (pread s) k ltac:(lia) ltac:(lia) (eq_sym K1)). lia. }
    destruct K3 as [(K & K')|[(K & K' & _)|[(K & K' & _ & D)|(K & K' & K'' & _)]]]; try lia.
    assert (k = pread s) by lia. subst k. split; [lia|]. split; [lia|auto].
  Qed.

  Lemma skipn_nth : forall (l : list A) k v, nth_error l k = Some v -> skipn k l = v :: skipn (S k) l.
  Proof. induction l as [|a l IH]; destruct k; simpl; intros v E; try discriminate; [congruence|]. now apply IH. Qed.

  Lemma Inv_step : forall s a s', Inv s -> step n s a = Some s' -> Inv s'.
  Proof.
    intros s a s' (enq & th & I) E. pose proof I as I0. destruct a as [t x|t|t ok]; simpl in E.
    - destruct (thr s t) eqn:Et; try discriminate. injection E as <-.
      exists enq, (fupd th t (WantPush x)).
      apply (Inv_local s enq th t (PLoad x) (WantPush x) [CallPush t x]); try rewrite Et; simpl; auto.
      eapply lins_snoc; [apply I|]. constructor. pose proof (i_tst _ _ _ I t) as T. rewrite Et in T. exact T.
    - destruct (thr s t) eqn:Et; try discriminate. injection E as <-.
      exists enq, (fupd th t WantPop).
      apply (Inv_local s enq th t QLoad WantPop [CallPop t]); try rewrite Et; simpl; auto.
      eapply lins_snoc; [apply I|]. constructor. pose proof (i_tst _ _ _ I t) as T. rewrite Et in T. exact T.
    - pose proof (i_tst _ _ _ I t) as T. pose proof (i_tok _ _ _ I t) as K.
      destruct (thr s t) as [|x|x pw|x pw|x pw|pw| |pr|pr|pr|pr v] eqn:Et; try discriminate.
      + (* PLoad *) injection E as <-. exists enq, th.
        apply Inv_goto; auto; try rewrite Et; simpl; auto.
      + (* PSeq *) simpl in K, T.
        destruct (Nat.eqb_spec pw (seqs s (pw mod n))) as [Q|Q].
        * injection E as <-. exists enq, th. apply Inv_goto; auto; try rewrite Et; simpl; auto. lia.
        * destruct (Nat.ltb_spec (seqs s (pw mod n)) pw) as [F|F].
          -- injection E as <-. exists enq, (fupd th t Idle).
             apply (Inv_local s enq th t Rest Idle [RetPush t false]); try rewrite Et; simpl; auto.
             eapply lins_snoc; [apply I|]. eapply lin_fail_push; [eassumption|].
             destruct (i_slot _ _ _ I _ (modlt pw)) as [k (K1 & K2 & K3)].
             assert (G : k < pw -> k + n <= pw) by (intros; apply mod_gap; auto; lia).
             pose proof (i_le _ _ _ I). pose proof (i_len _ _ _ I).
             unfold has_room. rewrite skipn_length.
             destruct K3 as [(X & Y)|[(X & Y & Z & _)|[(X & Y & Z & _)|(X & Y & Z & t' & Pt)]]];
               try (left; lia).
             right. split; [auto|]. exists t'.
             pose proof (i_tst _ _ _ I t') as T'.
             destruct (thr s t'); simpl in Pt; try contradiction; simpl in T'.
             ++ destruct T' as (? & _ & T'). eauto.
             ++ destruct T' as (? & _ & _ & T'). eauto.
          -- injection E as <-. exists enq, th. apply Inv_goto; auto; try rewrite Et; simpl; auto.
      + (* PCas *) simpl in K, T.
        destruct (ok && (pwrite s =? pw)) eqn:B.
        2:{ injection E as <-. exists enq, th. apply Inv_goto; auto; try rewrite Et; simpl; auto. }
        apply andb_prop in B as [_ B]. apply Nat.eqb_eq in B. subst pw. injection E as <-.
        destruct (claim_push _ _ _ I K) as [SQ RM].
        exists (enq ++ [x]), (fupd th t DidPush).
        pose proof (i_le _ _ _ I) as LE. pose proof (i_len _ _ _ I) as LEN.
        assert (NTH : forall k v, nth_error enq k = Some v -> nth_error (enq ++ [x]) k = Some v).
        { intros k v H. rewrite nth_error_app1; auto. eapply nth_error_lt; eauto. }
        assert (NTH2 : forall k, k < pwrite s -> nth_error (enq ++ [x]) k = nth_error enq k).
        { intros k H. apply nth_error_app1. lia. }
        destruct I. constructor; simpl.
        * rewrite skipn_app. replace (pread s - length enq) with 0 by lia. simpl.
          eapply lins_snoc; [eassumption|]. apply lin_push; auto.
          unfold has_room. rewrite skipn_length. lia.
        * rewrite app_length. simpl. lia.
        * lia.
        * intros t'. destruct (Nat.eq_dec t' t) as [->|N]; [rewrite !fupd_eq; reflexivity|].
          rewrite !fupd_neq by auto. specialize (i_tst0 t').
          destruct (thr s t'); simpl in *; auto.
          -- destruct i_tst0 as (? & V1 & V2). eauto.
          -- destruct i_tst0 as (? & V1 & V2). eauto.
        * intros t'. destruct (Nat.eq_dec t' t) as [->|N]; [rewrite fupd_eq|rewrite fupd_neq by auto].
          -- simpl. split; [auto|]. split; [lia|]. rewrite nth_error_app2, <- LEN, Nat.sub_diag by lia. reflexivity.
          -- specialize (i_tok0 t'). destruct (thr s t'); simpl in *; auto; try lia.
             ++ destruct i_tok0 as (P1 & P2 & P3). split; [auto|]. split; [lia|auto].
             ++ destruct i_tok0 as (P1 & P2 & P3). split; [auto|]. split; [lia|]. rewrite NTH2; auto. lia.
             ++ destruct i_tok0 as (P1 & P2 & P3). split; [auto|]. split; [lia|]. rewrite NTH2; auto. lia.
             ++ destruct i_tok0 as (P1 & P2 & P3). split; [auto|]. split; [lia|]. rewrite NTH2; auto. lia.
        * assert (NP : forall t' k, pushing (thr s t') k -> k < pwrite s).
          { intros t' k P. specialize (i_tok0 t'). destruct (thr s t'); simpl in P; try contradiction; subst;
              simpl in i_tok0; lia. }
          intros t1 t2 k. destruct (Nat.eq_dec t1 t) as [->|Na], (Nat.eq_dec t2 t) as [->|Nb];
            rewrite ?fupd_eq, ?fupd_neq by auto; simpl; auto.
          -- intros <- P. apply NP in P. lia.
          -- intros P <-. apply NP in P. lia.
          -- eauto.
        * intros t1 t2 k. destruct (Nat.eq_dec t1 t) as [->|Na], (Nat.eq_dec t2 t) as [->|Nb];
            rewrite ?fupd_eq, ?fupd_neq by auto; simpl; auto; try tauto. eauto.
        * intros i Hi. destruct (i_slot0 i Hi) as [k (K1 & K2 & K3)].
          destruct (Nat.eq_dec i (pwrite s mod n)) as [->|NI].
          -- exists (pwrite s). split; [auto|]. simpl. split; [lia|]. right; left.
             split; [auto|]. split; [lia|]. split; [lia|]. exists t. rewrite fupd_eq. reflexivity.
          -- exists k. split; [auto|]. simpl. split; [lia|].
             assert (NE : k <> pwrite s) by (intros ->; auto).
             assert (NE2 : k + n <> pwrite s).
             { intros X. apply NI. rewrite <- K1, <- X. symmetry. apply mod_add_n. lia. }
             destruct K3 as [(X & Y)|[(X & Y & Z & t' & Pt)|[(X & Y & Z & D)|(X & Y & Z & t' & Pt)]]].
             ++ left. lia.
             ++ right; left. repeat split; try lia. exists t'. rewrite fupd_neq; auto.
                intros ->. rewrite Et in Pt. exact Pt.
             ++ right; right; left. repeat split; try lia. rewrite NTH2 by lia. auto.
             ++ right; right; right. repeat split; try lia. exists t'. rewrite fupd_neq; auto.
                intros ->. rewrite Et in Pt. exact Pt.
      + (* PData *) simpl in K, T. destruct K as (SQ & RG & NX). injection E as <-.
        exists enq, th. destruct I. constructor; simpl; auto.
        * intros t'. destruct (Nat.eq_dec t' t) as [->|N]; [rewrite fupd_eq; auto|rewrite fupd_neq by auto; auto].
        * intros t'. destruct (Nat.eq_dec t' t) as [->|N]; [rewrite fupd_eq|rewrite fupd_neq by auto].
          -- simpl. split; [auto|]. split; [auto|]. rewrite fupd_eq. auto.
          -- pose proof (i_tok0 t') as P.
             assert (NS : forall k, pushing (thr s t') k -> k mod n <> pw mod n).
             { intros k Pk C. assert (k = pw).
               { destruct (thr s t'); simpl in Pk; try contradiction; subst; simpl in P;
                 destruct P as (P1 & _); rewrite C in P1; congruence. }
               subst. apply N. apply (i_upush0 t' t pw Pk). rewrite Et. reflexivity. }
             assert (NS2 : forall k, popping (thr s t') k -> k mod n <> pw mod n).
             { intros k Pk C. assert (Q : seqs s (k mod n) = k + 1 /\ k < pread s).
               { destruct (thr s t'); simpl in Pk; try contradiction; subst; simpl in P; tauto. }
               destruct Q as [Q Q']. rewrite C in Q. assert (k < pw) by lia.
               pose proof (mod_gap n k pw ltac:(lia) ltac:(lia) C). lia. }
             destruct (thr s t'); simpl in *; auto.
             ++ rewrite fupd_neq by auto. auto.
             ++ rewrite fupd_neq by auto. auto.
             ++ rewrite fupd_neq by auto. auto.
        * intros t1 t2 k. destruct (Nat.eq_dec t1 t) as [->|Na], (Nat.eq_dec t2 t) as [->|Nb];
            rewrite ?fupd_eq, ?fupd_neq by auto; simpl; auto.
          -- intros <- P. apply (i_upush0 t t2 pw); auto. rewrite Et. reflexivity.
          -- intros P <-. apply (i_upush0 t1 t pw); auto. rewrite Et. reflexivity.
          -- eauto.
        * intros t1 t2 k. destruct (Nat.eq_dec t1 t) as [->|Na], (Nat.eq_dec t2 t) as [->|Nb];
            rewrite ?fupd_eq, ?fupd_neq by auto; simpl; auto; try tauto. eauto.
        * intros i Hi. destruct (i_slot0 i Hi) as [k (K1 & K2 & K3)]. exists k. split; [auto|]. simpl.
          split; [auto|].
          destruct K3 as [K|[(X & Y & Z & t' & Pt)|[(X & Y & Z & D)|(X & Y & Z & t' & Pt)]]]; auto.
          -- right; left. repeat split; try tauto; try lia.
             destruct (Nat.eq_dec t' t) as [->|N].
             ++ exists t. rewrite fupd_eq. rewrite Et in Pt. exact Pt.
             ++ exists t'. rewrite fupd_neq by auto. auto.
          -- right; right; left. repeat split; try lia. rewrite fupd_neq; auto.
             intros ->. assert (k < pw) by lia. 
             pose proof (mod_gap n k pw ltac:(lia) ltac:(lia) K1). lia.
          -- right; right; right. repeat split; try lia. exists t'. rewrite fupd_neq; auto.
             intros ->. rewrite Et in Pt. exact Pt.
      + (* PPub *) simpl in K, T. destruct K as (SQ & RG & DX). injection E as <-.
        exists enq, (fupd th t Idle). destruct I. constructor; simpl; auto.
        * eapply lins_snoc; [eassumption|]. constructor. auto.
        * intros t'. destruct (Nat.eq_dec t' t) as [->|N]; [rewrite !fupd_eq; reflexivity|rewrite !fupd_neq by auto; auto].
        * intros t'. destruct (Nat.eq_dec t' t) as [->|N]; [rewrite fupd_eq; simpl; auto|rewrite fupd_neq by auto].
          pose proof (i_tok0 t') as P.
          assert (NS : forall k, pushing (thr s t') k -> k mod n <> pw mod n).
          { intros k Pk C. assert (k = pw).
            { destruct (thr s t'); simpl in Pk; try contradiction; subst; simpl in P;
              destruct P as (P1 & _); rewrite C in P1; congruence. }
            subst. apply N. apply (i_upush0 t' t pw Pk). rewrite Et. reflexivity. }
          assert (NS2 : forall k, popping (thr s t') k -> k mod n <> pw mod n).
          { intros k Pk C. assert (Q : seqs s (k mod n) = k + 1 /\ k < pread s).
            { destruct (thr s t'); simpl in Pk; try contradiction; subst; simpl in P; tauto. }
            destruct Q as [Q Q']. rewrite C in Q. assert (k < pw) by lia.
            pose proof (mod_gap n k pw ltac:(lia) ltac:(lia) C). lia. }
          assert (MON : forall i, seqs s i <= fupd (seqs s) (pw mod n) (pw + 1) i).
          { intros i. unfold fupd. destruct (Nat.eqb_spec i (pw mod n)) as [->|]; lia. }
          destruct (thr s t'); simpl in *; auto.
          -- pose proof (MON (pw0 mod n)). lia.
          -- rewrite fupd_neq by auto. auto.
          -- rewrite fupd_neq by auto. auto.
          -- pose proof (MON (pr mod n)). lia.
          -- rewrite fupd_neq by auto. auto.
          -- rewrite fupd_neq by auto. auto.
        * intros t1 t2 k. destruct (Nat.eq_dec t1 t) as [->|Na], (Nat.eq_dec t2 t) as [->|Nb];
            rewrite ?fupd_eq, ?fupd_neq by auto; simpl; auto; try tauto. eauto.
        * intros t1 t2 k. destruct (Nat.eq_dec t1 t) as [->|Na], (Nat.eq_dec t2 t) as [->|Nb];
            rewrite ?fupd_eq, ?fupd_neq by auto; simpl; auto; try tauto. eauto.
        * intros i Hi. destruct (i_slot0 i Hi) as [k (K1 & K2 & K3)].
          destruct (Nat.eq_dec i (pw mod n)) as [->|NI].
          -- assert (KP : k = pw).
             { destruct K3 as [K|[(X & Y & Z & t' & Pt)|[(X & Y & Z & D)|(X & Y & Z & t' & Pt)]]]; try lia.
               - assert (k < pw) by lia. pose proof (mod_gap n k pw ltac:(lia) ltac:(lia) K1). lia.
               - assert (k < pw) by lia. pose proof (mod_gap n k pw ltac:(lia) ltac:(lia) K1). lia. }
             subst k. exists pw. split; [auto|]. simpl. split; [lia|]. right; right; left.
             rewrite fupd_eq. repeat split; try lia; auto.
          -- exists k. split; [auto|]. simpl. split; [auto|]. rewrite fupd_neq by auto.
             destruct K3 as [K|[(X & Y & Z & t' & Pt)|[K|(X & Y & Z & t' & Pt)]]]; auto.
             ++ right; left. repeat split; try lia. exists t'. rewrite fupd_neq; auto.
                intros ->. rewrite Et in Pt. simpl in Pt. subst. auto.
             ++ right; right; right. repeat split; try lia. exists t'. rewrite fupd_neq; auto.
                intros ->. rewrite Et in Pt. exact Pt.
      + (* QLoad *) injection E as <-. exists enq, th.
        apply Inv_goto; auto; try rewrite Et; simpl; auto.
      + (* QSeq *) simpl in K, T.
        destruct (Nat.eqb_spec (seqs s (pr mod n)) (pr + 1)) as [Q|Q].
        * injection E as <-. exists enq, th. apply Inv_goto; auto; try rewrite Et; simpl; auto. lia.
        * destruct (Nat.ltb_spec (seqs s (pr mod n)) (pr + 1)) as [F|F].
          -- injection E as <-. exists enq, (fupd th t Idle).
             apply (Inv_local s enq th t Rest Idle [RetPop t None]); try rewrite Et; simpl; auto.
             eapply lins_snoc; [apply I|]. eapply lin_fail_pop; [eassumption|].
             destruct (i_slot _ _ _ I _ (modlt pr)) as [k (K1 & K2 & K3)].
             assert (G : k < pr -> k + n <= pr) by (intros; apply mod_gap; auto; lia).
             pose proof (i_le _ _ _ I). pose proof (i_len _ _ _ I).
             assert (EM : pwrite s <= pread s -> skipn (pread s) enq = []).
             { intros. apply skipn_all2. lia. }
             destruct K3 as [(X & Y)|[(X & Y & Z & t' & Pt)|[(X & Y & Z & _)|(X & Y & Z & t' & Pt)]]];
               try (left; apply EM; lia).
             right. split; [auto|]. exists t'.
             pose proof (i_tst _ _ _ I t') as T'.
             destruct (thr s t'); simpl in Pt; try contradiction; simpl in T'; auto.
          -- injection E as <-. exists enq, th. apply Inv_goto; auto; try rewrite Et; simpl; auto.
      + (* QCas *) simpl in K, T.
        destruct (ok && (pread s =? pr)) eqn:B.
        2:{ injection E as <-. exists enq, th. apply Inv_goto; auto; try rewrite Et; simpl; auto. }
        apply andb_prop in B as [_ B]. apply Nat.eqb_eq in B. subst pr. injection E as <-.
        destruct (claim_pop _ _ _ I K) as (SQ & RM & DX).
        pose proof (i_le _ _ _ I) as LE. pose proof (i_len _ _ _ I) as LEN.
        destruct (nth_error enq (pread s)) as [v|] eqn:EV; [|apply nth_error_None in EV; lia].
        exists enq, (fupd th t (DidPop v)).
        assert (SK : skipn (pread s) enq = v :: skipn (S (pread s)) enq) by (apply skipn_nth; auto).
        replace (pread s + 1) with (S (pread s)) by lia.
        destruct I. constructor; cbn [pwrite pread seqs data thr tr]; auto.
        * eapply lins_snoc; [eassumption|]. rewrite SK. apply lin_pop. auto.
        * intros t'. destruct (Nat.eq_dec t' t) as [->|N]; [rewrite !fupd_eq; simpl; eauto|].
          rewrite !fupd_neq by auto. auto.
        * intros t'. destruct (Nat.eq_dec t' t) as [->|N]; [rewrite fupd_eq|rewrite fupd_neq by auto].
          -- simpl. rewrite SQ, DX, EV. split; [lia|]. split; [lia|auto].
          -- pose proof (i_tok0 t') as P.
             assert (NS : forall k, pushing (thr s t') k -> k <> pread s).
             { intros k Pk ->. destruct (thr s t'); simpl in Pk; try contradiction; subst; simpl in P; lia. }
             destruct (thr s t'); simpl in *; auto; try lia.
             ++ specialize (NS pw eq_refl). destruct P as (P1 & P2 & P3). split; [auto|]. split; [lia|auto].
             ++ specialize (NS pw eq_refl). destruct P as (P1 & P2 & P3). split; [auto|]. split; [lia|auto].
             ++ destruct P as (P1 & P2 & P3). split; [auto|]. split; [lia|auto].
             ++ destruct P as (P1 & P2 & P3). split; [auto|]. split; [lia|auto].
        * intros t1 t2 k. destruct (Nat.eq_dec t1 t) as [->|Na], (Nat.eq_dec t2 t) as [->|Nb];
            rewrite ?fupd_eq, ?fupd_neq by auto; simpl; auto; try tauto. eauto.
        * assert (NP : forall t' k, popping (thr s t') k -> k < pread s).
          { intros t' k P. specialize (i_tok0 t'). destruct (thr s t'); simpl in P; try contradiction; subst;
              simpl in i_tok0; lia. }
          intros t1 t2 k. destruct (Nat.eq_dec t1 t) as [->|Na], (Nat.eq_dec t2 t) as [->|Nb];
            rewrite ?fupd_eq, ?fupd_neq by auto; simpl; auto.
          -- intros <- P. apply NP in P. lia.
          -- intros P <-. apply NP in P. lia.
          -- eauto.
        * intros i Hi. destruct (i_slot0 i Hi) as [k (K1 & K2 & K3)].
          destruct (Nat.eq_dec i (pread s mod n)) as [->|NI].
          -- exists (pread s). split; [auto|]. cbn [pwrite pread seqs data thr]. split; [lia|]. right; right; right.
             split; [auto|]. split; [lia|]. split.
             ++ destruct K3 as [(X & Y)|[(X & Y & Z & _)|[(X & Y & Z & D)|(X & Y & Z & _)]]]; try lia.
                pose proof (mod_gap n (pread s) k ltac:(lia) ltac:(lia) (eq_sym K1)). lia.
             ++ exists t. rewrite fupd_eq. reflexivity.
          -- exists k. split; [auto|]. cbn [pwrite pread seqs data thr]. split; [lia|].
             assert (NE : k <> pread s) by (intros ->; auto).
             destruct K3 as [(X & Y)|[(X & Y & Z & t' & Pt)|[(X & Y & Z & D)|(X & Y & Z & t' & Pt)]]].
             ++ left. lia.
             ++ right; left. repeat split; try lia. exists t'. rewrite fupd_neq; auto.
                intros ->. rewrite Et in Pt. exact Pt.
             ++ right; right; left. repeat split; try lia. auto.
             ++ right; right; right. repeat split; try lia. exists t'. rewrite fupd_neq; auto.
                intros ->. rewrite Et in Pt. exact Pt.
      + (* QData *) simpl in K, T. destruct K as (SQ & RG & DX). injection E as <-.
        destruct T as (v & NV & T). exists enq, th. destruct I. constructor; simpl; auto.
        * intros t'. destruct (Nat.eq_dec t' t) as [->|N]; [rewrite fupd_eq|rewrite fupd_neq by auto; auto].
          simpl. exists v. rewrite DX. auto.
        * intros t'. destruct (Nat.eq_dec t' t) as [->|N]; [rewrite fupd_eq; simpl; auto|rewrite fupd_neq by auto].
          specialize (i_tok0 t'). destruct (thr s t'); simpl in *; auto.
        * intros t1 t2 k. destruct (Nat.eq_dec t1 t) as [->|Na], (Nat.eq_dec t2 t) as [->|Nb];
            rewrite ?fupd_eq, ?fupd_neq by auto; simpl; auto; try tauto. eauto.
        * intros t1 t2 k. destruct (Nat.eq_dec t1 t) as [->|Na], (Nat.eq_dec t2 t) as [->|Nb];
            rewrite ?fupd_eq, ?fupd_neq by auto; simpl; auto.
          -- intros <- P. apply (i_upop0 t t2 pr); auto. rewrite Et. reflexivity.
          -- intros P <-. apply (i_upop0 t1 t pr); auto. rewrite Et. reflexivity.
          -- eauto.
        * intros i Hi. destruct (i_slot0 i Hi) as [k (K1 & K2 & K3)]. exists k. split; [auto|]. simpl.
          split; [auto|].
          destruct K3 as [K|[(X & Y & Z & t' & Pt)|[K|(X & Y & Z & t' & Pt)]]]; auto.
          -- right; left. repeat split; try lia. exists t'. rewrite fupd_neq; auto.
             intros ->. rewrite Et in Pt. exact Pt.
          -- right; right; right. repeat split; try lia.
             destruct (Nat.eq_dec t' t) as [->|N].
             ++ exists t. rewrite fupd_eq. rewrite Et in Pt. exact Pt.
             ++ exists t'. rewrite fupd_neq by auto. auto.
      + (* QRel *) simpl in K, T. destruct K as (SQ & RG & DX). injection E as <-.
        destruct T as (w & NV & -> & T). exists enq, (fupd th t Idle).
        replace (pr + (n - 1) + 1) with (pr + n) by lia.
        destruct I. constructor; simpl; auto.
        * eapply lins_snoc; [eassumption|]. constructor. auto.
        * intros t'. destruct (Nat.eq_dec t' t) as [->|N]; [rewrite !fupd_eq; reflexivity|rewrite !fupd_neq by auto; auto].
        * intros t'. destruct (Nat.eq_dec t' t) as [->|N]; [rewrite fupd_eq; simpl; auto|rewrite fupd_neq by auto].
          pose proof (i_tok0 t') as P.
          assert (NS : forall k, popping (thr s t') k -> k mod n <> pr mod n).
          { intros k Pk C. assert (k = pr).
            { destruct (thr s t'); simpl in Pk; try contradiction; subst; simpl in P;
              destruct P as (P1 & _); rewrite C in P1; lia. }
            subst. apply N. apply (i_upop0 t' t pr Pk). rewrite Et. reflexivity. }
          assert (NS2 : forall k, pushing (thr s t') k -> k mod n <> pr mod n).
          { intros k Pk C. assert (Q : seqs s (k mod n) = k /\ pread s <= k).
            { destruct (thr s t'); simpl in Pk; try contradiction; subst; simpl in P; tauto. }
            destruct Q as [Q Q']. rewrite C in Q. assert (pr < k) by lia.
            pose proof (mod_gap n pr k ltac:(lia) ltac:(lia) (eq_sym C)). lia. }
          assert (MON : forall i, seqs s i <= fupd (seqs s) (pr mod n) (pr + n) i).
          { intros i. unfold fupd. destruct (Nat.eqb_spec i (pr mod n)) as [->|]; lia. }
          destruct (thr s t'); simpl in *; auto.
          -- pose proof (MON (pw mod n)). lia.
          -- rewrite fupd_neq by auto. auto.
          -- rewrite fupd_neq by auto. auto.
          -- pose proof (MON (pr0 mod n)). lia.
          -- rewrite fupd_neq by auto. auto.
          -- rewrite fupd_neq by auto. auto.
        * intros t1 t2 k. destruct (Nat.eq_dec t1 t) as [->|Na], (Nat.eq_dec t2 t) as [->|Nb];
            rewrite ?fupd_eq, ?fupd_neq by auto; simpl; auto; try tauto. eauto.
        * intros t1 t2 k. destruct (Nat.eq_dec t1 t) as [->|Na], (Nat.eq_dec t2 t) as [->|Nb];
            rewrite ?fupd_eq, ?fupd_neq by auto; simpl; auto; try tauto. eauto.
        * intros i Hi. destruct (i_slot0 i Hi) as [k (K1 & K2 & K3)].
          destruct (Nat.eq_dec i (pr mod n)) as [->|NI].
          -- assert (KP : k = pr).
             { destruct K3 as [(X & Y)|[(X & Y & Z & t' & Pt)|[(X & Y & Z & D)|(X & Y & Z & t' & Pt)]]]; try lia.
               - pose proof (mod_gap n pr k ltac:(lia) ltac:(lia) (eq_sym K1)). lia.
               - pose proof (mod_gap n pr k ltac:(lia) ltac:(lia) (eq_sym K1)). lia. }
             subst k. exists (pr + n). split; [apply mod_add_n; lia|]. simpl. split; [lia|]. left.
             rewrite fupd_eq. split; [auto|].
             destruct K3 as [(X & Y)|[(X & Y & Z & t' & Pt)|[(X & Y & Z & D)|(X & Y & Z & t' & Pt)]]]; lia.
          -- exists k. split; [auto|]. simpl. split; [auto|]. rewrite fupd_neq by auto.
             destruct K3 as [K|[(X & Y & Z & t' & Pt)|[K|(X & Y & Z & t' & Pt)]]]; auto.
             ++ right; left. repeat split; try lia. exists t'. rewrite fupd_neq; auto.
                intros ->. rewrite Et in Pt. exact Pt.
             ++ right; right; right. repeat split; try lia. exists t'. rewrite fupd_neq; auto.
                intros ->. rewrite Et in Pt. simpl in Pt. subst. auto.
  Qed.

  Lemma reach : forall l (s : st), exec (step n) init_st l = Some s -> Inv s.
  Proof. intros. eapply (exec_inv (step n) Inv); eauto using Inv_step, Inv_init. Qed.

  Lemma vyukov_lin : forall l (s : st), exec (step n) init_st l = Some s ->
    exists q, linearizable (Some n) true (tr s) q /\ length q <= n.
  Proof.
    intros l s E. apply reach in E as (enq & th & I). exists (skipn (pread s) enq).
    split; [exists th; apply I|]. 
    destruct (i_slot _ _ _ I _ (modlt (pread s))) as [k (K1 & K2 & K3)].
    rewrite skipn_length, (i_len _ _ _ I).
    assert (KL : k <= pread s).
    { destruct (Nat.le_gt_cases k (pread s)); auto.
      pose proof (mod_gap n (pread s) k ltac:(lia) ltac:(lia) (eq_sym K1)). lia. }
    destruct K3 as [(X & Y)|[(X & Y & Z & _)|[(X & Y & Z & _)|(X & Y & Z & _)]]]; lia.
  Qed.

  (** Deadlock freedom: a thread inside an operation can always take a step. *)
  Lemma vyukov_step_enabled : forall (s : st) t ok, thr s t <> Rest -> exists s', step n s (Run t ok) = Some s'.
  Proof.
    intros s t ok H. simpl. destruct (thr s t); try congruence; eauto.
    - destruct (pw =? seqs s (pw mod n)); eauto. destruct (seqs s (pw mod n) <? pw); eauto.
    - destruct (ok && (pwrite s =? pw)); eauto.
    - destruct (seqs s (pr mod n) =? pr + 1); eauto. destruct (seqs s (pr mod n) <? pr + 1); eauto.
    - destruct (ok && (pread s =? pr)); eauto.
  Qed.
End Proofs.
