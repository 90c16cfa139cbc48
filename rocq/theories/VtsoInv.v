(** Proofs about the bounded MPMC queue on TSO: the threads and the history. *)
From Coq Require Import List Arith Lia Bool Permutation.
From Verif Require Import Base LinSpec VtsoSpec VtsoModel.
From Verif Require Import VyukovProofs VtsoProofs.
From Verif Require LinFacts.
Import ListNotations.

Section Inv.
  Context {A : Type}.
  Variable n : nat.
  Hypothesis Hn : 2 <= n.
  Notation st := (st A). Notation pc := (pc A). Notation store := (store A).

  (** Histories are followed from a point [T0] of the trace on. *)
  Variables (T0 : list (tev A)) (q0 : list A) (th0 : nat -> status A) (un0 : nat -> option effect).
  Definition hist (l : list (tev A)) (q : list A) (th : nat -> status A) (un : nat -> option effect) : Prop :=
    exists ex, l = T0 ++ ex /\ tlins (Some n) q0 th0 un0 ex q th un.

  Lemma hist_snoc : forall l q th un e q' th' un', hist l q th un -> tlin (Some n) q th un e q' th' un' ->
    hist (l ++ [e]) q' th' un'.
  Proof.
    intros l q th un e q' th' un' (ex & -> & L) X. exists (ex ++ [e]). split; [symmetry; apply app_assoc|].
    eapply tls_snoc; eauto.
  Qed.

  (** The job of a thread: its oldest buffered store, else where it stands in the program. *)
  Definition jobof (p : pc) (b : list store) : job A :=
    match b with
    | WData k x :: _ => JData x k
    | WPub k :: _ => JPub k
    | WRel k :: _ => JPop k
    | [] => match p with
            | PData x k => JData x k
            | PPub k => JPub k
            | QData k | QRel k _ => JPop k
            | _ => JNone
            end
    end.

  (** Which buffers go with which program points. *)
  Definition shape (p : pc) (b : list store) : Prop :=
    match p with
    | PData _ _ | QData _ | QRel _ _ => b = []
    | PPub k => b = [] \/ exists x, b = [WData k x]
    | _ => b = [] \/ (exists k x, b = [WData k x; WPub k]) \/ (exists k, b = [WPub k]) \/ (exists k, b = [WRel k])
    end.

  Definition tst (enq : list A) (p : pc) (u : status A) : Prop :=
    match p with
    | Rest => u = Idle
    | PLoad x | PSeq x _ | PCas x _ => u = WantPush x
    | PData _ _ | PPub _ => u = DidPush
    | QLoad | QSeq _ | QCas _ => u = WantPop
    | QData k => exists v, nth_error enq k = Some v /\ u = DidPop v
    | QRel k o => exists v, nth_error enq k = Some v /\ o = Some v /\ u = DidPop v
    end.

  Definition know (pw pr : nat) (v : memory A) (p : pc) : Prop :=
    match p with
    | PSeq _ k => k <= pw
    | PCas _ k => k <= seqs v (k mod n)
    | QSeq k => k <= pr
    | QCas k => k + 1 <= seqs v (k mod n)
    | _ => True
    end.

  Definition eff (j : job A) : option effect :=
    match j with JNone => None | JData _ _ | JPub _ => Some PushEff | JPop _ => Some PopEff end.

  Definition J (s : st) (t : nat) : job A := jobof (thr s t) (buf s t).

  Record inv (s : st) (enq : list A) (th : nat -> status A) (un : nat -> option effect) : Prop := {
    i_lin : hist (tr s) (skipn (pread s) enq) th un;
    i_arr : arr n (pwrite s) (pread s) (mem s) (J s) enq;
    i_un : forall t, un t = eff (J s t);
    i_tst : forall t, tst enq (thr s t) (th t);
    i_shape : forall t, shape (thr s t) (buf s t);
    i_know : forall t, know (pwrite s) (pread s) (view n (buf s t) (mem s)) (thr s t) }.

  Definition Inv (s : st) : Prop := exists enq th un, inv s enq th un.

  (** A larger memory gives a larger view. *)
  Lemma view_mono : forall (b : list store) (m m' : memory A), (forall i, seqs m i <= seqs m' i) ->
    forall i, seqs (view n b m) i <= seqs (view n b m') i.
  Proof.
    induction b as [|w b IH]; intros m m' H i; simpl; auto.
    apply IH. intros j. destruct w; simpl; auto; unfold fupd; destruct (j =? _); auto.
  Qed.

  Lemma know_mono : forall pw pr (v v' : memory A) pw' pr' (p : pc), pw <= pw' -> pr <= pr' ->
    (forall i, seqs v i <= seqs v' i) -> know pw pr v p -> know pw' pr' v' p.
  Proof.
    intros pw pr v v' pw' pr' p L1 L2 L. destruct p; simpl; auto; intros; try lia.
    - specialize (L (pw0 mod n)). lia.
    - specialize (L (pr0 mod n)). lia.
  Qed.

  Lemma tst_app : forall enq x p u, tst enq p u -> tst (enq ++ [x]) p u.
  Proof.
    intros enq x p u H.
    assert (N : forall k v, nth_error enq k = Some v -> nth_error (enq ++ [x]) k = Some v).
    { intros k v E. rewrite nth_error_app1; auto. eapply nth_error_lt; eauto. }
    destruct p; simpl in *; auto.
    - destruct H as (w & V & W). eauto.
    - destruct H as (w & V & W). eauto.
  Qed.

  (** A step that moves thread [t] and changes neither its job nor memory nor the counters. *)
  Lemma Inv_move : forall s enq th un t p b th' e,
    inv s enq th un -> jobof p b = J s t -> tst enq p (th' t) -> shape p b ->
    know (pwrite s) (pread s) (view n b (mem s)) p -> (forall t', t' <> t -> th' t' = th t') ->
    hist (tr s ++ e) (skipn (pread s) enq) th' un ->
    inv (mkSt (pwrite s) (pread s) (mem s) (fupd (thr s) t p) (fupd (buf s) t b) (tr s ++ e)) enq th' un.
  Proof.
    intros s enq th un t p b th' e I JE TS SH KN TH L. destruct I.
    assert (JX : forall t', J (mkSt (pwrite s) (pread s) (mem s) (fupd (thr s) t p) (fupd (buf s) t b) (tr s ++ e)) t' = J s t').
    { intros t'. unfold J at 1. simpl. destruct (Nat.eq_dec t' t) as [->|N];
        [rewrite !fupd_eq; auto|rewrite !fupd_neq by auto; reflexivity]. }
    constructor; cbn [pwrite pread mem thr buf tr]; auto.
    - eapply arr_ext; [|eassumption]. exact JX.
    - intros t'. rewrite JX. auto.
    - intros t'. destruct (Nat.eq_dec t' t) as [->|N]; [rewrite !fupd_eq; auto|rewrite !fupd_neq by auto; rewrite TH; auto].
    - intros t'. destruct (Nat.eq_dec t' t) as [->|N]; [rewrite !fupd_eq; auto|rewrite !fupd_neq by auto; auto].
    - intros t'. destruct (Nat.eq_dec t' t) as [->|N]; [rewrite !fupd_eq; auto|rewrite !fupd_neq by auto; auto].
  Qed.

  (** The same state up to pointwise equality of the maps. *)
  Lemma inv_ext : forall s s' enq th th' un,
    inv s enq th un -> pwrite s' = pwrite s -> pread s' = pread s -> mem s' = mem s -> tr s' = tr s ->
    (forall t, thr s' t = thr s t) -> (forall t, buf s' t = buf s t) -> th' = th -> inv s' enq th' un.
  Proof.
    intros s s' enq th th' un I E1 E2 E3 E4 E5 E6 ->. destruct I.
    assert (JX : forall t, J s' t = J s t) by (intros; unfold J; rewrite E5, E6; reflexivity).
    constructor; rewrite ?E1, ?E2, ?E3, ?E4; auto.
    - eapply arr_ext; [|eassumption]. exact JX.
    - intros t. rewrite JX. auto.
    - intros t. rewrite E5. auto.
    - intros t. rewrite E5, E6. auto.
    - intros t. rewrite E5, E6. auto.
  Qed.

  (** Silent and visible moves that leave the buffer alone. *)
  Lemma Inv_goto : forall s enq th un t p,
    inv s enq th un -> jobof p (buf s t) = J s t -> tst enq p (th t) -> shape p (buf s t) ->
    know (pwrite s) (pread s) (view n (buf s t) (mem s)) p -> inv (goto s t p) enq th un.
  Proof.
    intros s enq th un t p I JE TS SH KN. destruct I.
    assert (JX : forall t', J (goto s t p) t' = J s t').
    { intros t'. unfold J at 1. simpl. destruct (Nat.eq_dec t' t) as [->|N];
        [rewrite !fupd_eq; auto|rewrite !fupd_neq by auto; reflexivity]. }
    unfold goto in *. constructor; cbn [pwrite pread mem thr buf tr]; auto.
    - eapply arr_ext; [|eassumption]. exact JX.
    - intros t'. rewrite JX. auto.
    - intros t'. destruct (Nat.eq_dec t' t) as [->|N]; [rewrite !fupd_eq; auto|rewrite !fupd_neq by auto; auto].
    - intros t'. destruct (Nat.eq_dec t' t) as [->|N]; [rewrite !fupd_eq; auto|rewrite !fupd_neq by auto; auto].
    - intros t'. destruct (Nat.eq_dec t' t) as [->|N]; [rewrite !fupd_eq; auto|rewrite !fupd_neq by auto; auto].
  Qed.

  Lemma Inv_ev : forall s enq th un t p u e,
    inv s enq th un -> jobof p (buf s t) = J s t -> tst enq p u -> shape p (buf s t) ->
    know (pwrite s) (pread s) (view n (buf s t) (mem s)) p ->
    hist (tr s ++ [e]) (skipn (pread s) enq) (fupd th t u) un ->
    inv (emit (goto s t p) e) enq (fupd th t u) un.
  Proof.
    intros s enq th un t p u e I JE TS SH KN L.
    eapply inv_ext; [apply (Inv_move s enq th un t p (buf s t) (fupd th t u) [e] I JE)|..]; auto;
      try (rewrite fupd_eq; auto); try (intros; rewrite fupd_neq; auto).
    intros t'. simpl. destruct (Nat.eq_dec t' t) as [->|N]; [rewrite fupd_eq; auto|rewrite fupd_neq by auto; auto].
  Qed.

  Lemma exact1 : forall (s : st) q th un e q' th', hist (tr s) q th un ->
    lin (Some n) false q th e q' th' -> unseen_after e un = un -> hist (tr s ++ [Ev e]) q' th' un.
  Proof.
    intros s q th un e q' th' L X U. eapply hist_snoc; [eassumption|]. rewrite <- U at 2. constructor. exact X.
  Qed.

  (** Own buffered stores and the slot of a ticket. *)
  Lemma view_slot : forall s enq th un t i, inv s enq th un -> (forall o k, thr s t <> QRel k o) ->
    seqs (view n (buf s t) (mem s)) i = seqs (mem s) i \/
    (exists k, jpush (J s t) k /\ i = k mod n /\ seqs (view n (buf s t) (mem s)) i = k + 1) \/
    (exists k, jpop (J s t) k /\ i = k mod n /\ seqs (view n (buf s t) (mem s)) i = k + n).
  Proof.
    intros s enq th un t i I _. pose proof (i_shape _ _ _ _ I t) as S. unfold J.
    destruct (buf s t) as [|w b] eqn:B; [auto|].
    assert (C : (exists k x, w :: b = [WData k x]) \/ (exists k x, w :: b = [WData k x; WPub k]) \/
                (exists k, w :: b = [WPub k]) \/ (exists k, w :: b = [WRel k])).
    { destruct (thr s t); simpl in S; try discriminate; destruct S as [S|S]; try discriminate; eauto;
        destruct S as [x S]; eauto. }
    destruct C as [(k & x & ->)|[(k & x & ->)|[(k & ->)|(k & ->)]]]; simpl; unfold fupd.
    - auto.
    - destruct (Nat.eqb_spec i (k mod n)); [|auto]. right; left. exists k. auto.
    - destruct (Nat.eqb_spec i (k mod n)); [|auto]. right; left. exists k. auto.
    - destruct (Nat.eqb_spec i (k mod n)); [|auto]. right; right. exists k. split; [auto|]. split; [auto|]. lia.
  Qed.

  Lemma eff_push : forall (j : job A) k, jpush j k -> eff j = Some PushEff.
  Proof. destruct j; simpl; intros; tauto. Qed.
  Lemma eff_pop : forall (j : job A) k, jpop j k -> eff j = Some PopEff.
  Proof. destruct j; simpl; intros; tauto. Qed.

  (** push finds its slot taken: the queue is full or another thread's pop is unseen. *)
  Lemma push_fails : forall s enq th un t x k,
    inv s enq th un -> thr s t = PSeq x k -> seqs (view n (buf s t) (mem s)) (k mod n) < k ->
    ~ has_room (Some n) (skipn (pread s) enq) \/ exists t', t' <> t /\ un t' = Some PopEff.
  Proof.
    intros s enq th un t x k I ET F.
    pose proof (i_know _ _ _ _ I t) as KN. rewrite ET in KN. simpl in KN.
    pose proof (i_arr _ _ _ _ I) as R. pose proof (a_len _ _ _ _ _ _ R) as LEN.
    unfold has_room. rewrite skipn_length.
    destruct (view_slot s enq th un t (k mod n) I ltac:(congruence)) as [V|[(k' & P & M & V)|(k' & P & M & V)]].
    - rewrite V in F. destruct (a_slot _ _ _ _ _ _ R _ (modlt n Hn k)) as [k' (K1 & K2 & K3)].
      assert (G : k' < k -> k' + n <= k) by (intros; apply mod_gap; auto; lia).
      destruct K3 as [(X & Y)|[(X & Y & Z & _)|[(X & Y & Z & _)|(X & Y & Z & t' & Pt)]]];
        try (left; lia).
      right. exists t'. split; [|rewrite (i_un _ _ _ _ I); eapply eff_pop; eauto].
      intros ->. destruct (jpop_ok _ _ _ _ _ _ _ _ R Pt) as [Q _].
      (* its own pop would be seen *)
      pose proof (i_shape _ _ _ _ I t) as S. unfold J in Pt. rewrite ET in S, Pt. simpl in S, Pt.
      destruct S as [S|[(k1 & x1 & S)|[(k1 & S)|(k1 & S)]]]; rewrite S in Pt, V; simpl in Pt; try contradiction.
      subst k1. simpl in V. rewrite K1, fupd_eq in V. lia.
    - destruct (jpush_ok _ _ _ _ _ _ _ _ R P). pose proof (push_slot n Hn _ _ _ _ _ _ _ R P).
      rewrite V in F. pose proof (mod_gap n k' k ltac:(lia) ltac:(lia) (eq_sym M)). left. lia.
    - destruct (jpop_ok _ _ _ _ _ _ _ _ R P). pose proof (pop_slot n Hn _ _ _ _ _ _ _ R P). lia.
  Qed.

  Lemma pop_fails : forall s enq th un t k,
    inv s enq th un -> thr s t = QSeq k -> seqs (view n (buf s t) (mem s)) (k mod n) < k + 1 ->
    skipn (pread s) enq = [] \/ exists t', t' <> t /\ un t' = Some PushEff.
  Proof.
    intros s enq th un t k I ET F.
    pose proof (i_know _ _ _ _ I t) as KN. rewrite ET in KN. simpl in KN.
    pose proof (i_arr _ _ _ _ I) as R. pose proof (a_len _ _ _ _ _ _ R) as LEN.
    pose proof (a_le _ _ _ _ _ _ R) as LE.
    assert (EM : pwrite s <= pread s -> skipn (pread s) enq = []).
    { intros. apply skipn_all2. lia. }
    destruct (view_slot s enq th un t (k mod n) I ltac:(congruence)) as [V|[(k' & P & M & V)|(k' & P & M & V)]].
    - rewrite V in F. destruct (a_slot _ _ _ _ _ _ R _ (modlt n Hn k)) as [k' (K1 & K2 & K3)].
      assert (G : k' < k -> k' + n <= k) by (intros; apply mod_gap; auto; lia).
      destruct K3 as [(X & Y)|[(X & Y & Z & t' & Pt)|[(X & Y & Z & _)|(X & Y & Z & _)]]];
        try (left; apply EM; lia).
      right. exists t'. split; [|rewrite (i_un _ _ _ _ I); eapply eff_push; eauto].
      intros ->.
      pose proof (i_shape _ _ _ _ I t) as S. unfold J in Pt. rewrite ET in S, Pt. simpl in S, Pt.
      destruct S as [S|[(k1 & x1 & S)|[(k1 & S)|(k1 & S)]]]; rewrite S in Pt, V; simpl in Pt; try contradiction;
        subst k1; simpl in V; rewrite K1, fupd_eq in V; lia.
    - destruct (jpush_ok _ _ _ _ _ _ _ _ R P). pose proof (push_slot n Hn _ _ _ _ _ _ _ R P).
      rewrite V in F. pose proof (mod_gap n k' k ltac:(lia) ltac:(lia) (eq_sym M)). left. apply EM. lia.
    - destruct (jpop_ok _ _ _ _ _ _ _ _ R P). pose proof (pop_slot n Hn _ _ _ _ _ _ _ R P).
      left. apply EM. lia.
  Qed.

  (** A store reaches memory. *)
  Lemma Inv_drain : forall s enq th un t w r un' e,
    inv s enq th un -> buf s t = w :: r ->
    arr n (pwrite s) (pread s) (apply n w (mem s)) (fupd (J s) t (jobof (thr s t) r)) enq ->
    shape (thr s t) r -> (forall i, seqs (mem s) i <= seqs (apply n w (mem s)) i) ->
    (forall t', un' t' = fupd un t (eff (jobof (thr s t) r)) t') ->
    hist (tr s ++ e) (skipn (pread s) enq) th un' ->
    inv (mkSt (pwrite s) (pread s) (apply n w (mem s)) (thr s) (fupd (buf s) t r) (tr s ++ e)) enq th un'.
  Proof.
    intros s enq th un t w r un' e I B R S MON U L. destruct I.
    assert (JX : forall t', J (mkSt (pwrite s) (pread s) (apply n w (mem s)) (thr s) (fupd (buf s) t r) (tr s ++ e)) t'
                            = fupd (J s) t (jobof (thr s t) r) t').
    { intros t'. unfold J at 1. simpl. destruct (Nat.eq_dec t' t) as [->|N];
        [rewrite !fupd_eq; auto|rewrite !fupd_neq by auto; reflexivity]. }
    constructor; cbn [pwrite pread mem thr buf tr]; auto.
    - eapply arr_ext; [|eassumption]. exact JX.
    - intros t'. rewrite JX, U. destruct (Nat.eq_dec t' t) as [->|N]; [rewrite !fupd_eq; auto|].
      rewrite !fupd_neq by auto. auto.
    - intros t'. destruct (Nat.eq_dec t' t) as [->|N]; [rewrite !fupd_eq; auto|rewrite !fupd_neq by auto; auto].
    - intros t'. destruct (Nat.eq_dec t' t) as [->|N]; [rewrite !fupd_eq|rewrite !fupd_neq by auto].
      + specialize (i_know0 t). rewrite B in i_know0. exact i_know0.
      + eapply know_mono; [| | |apply i_know0]; auto. apply view_mono. exact MON.
  Qed.

  Lemma Inv_step : forall s a s', Inv s -> step n s a = Some s' -> Inv s'.
  Proof.
    intros s a s' (enq & th & un & I) E. destruct a as [t x|t|t ok|t]; cbn [step] in E.
    - pose proof (i_tst _ _ _ _ I t) as T. pose proof (i_shape _ _ _ _ I t) as S.
      destruct (thr s t) eqn:Et; try discriminate. injection E as <-. simpl in T, S.
      exists enq, (fupd th t (WantPush x)), un. apply Inv_ev; simpl; auto.
      + unfold J. rewrite Et. reflexivity.
      + eapply exact1; [apply I| |reflexivity]. constructor. exact T.
    - pose proof (i_tst _ _ _ _ I t) as T. pose proof (i_shape _ _ _ _ I t) as S.
      destruct (thr s t) eqn:Et; try discriminate. injection E as <-. simpl in T, S.
      exists enq, (fupd th t WantPop), un. apply Inv_ev; simpl; auto.
      + unfold J. rewrite Et. reflexivity.
      + eapply exact1; [apply I| |reflexivity]. constructor. exact T.
    - pose proof (i_tst _ _ _ _ I t) as T. pose proof (i_know _ _ _ _ I t) as K.
      pose proof (i_shape _ _ _ _ I t) as S. pose proof (i_arr _ _ _ _ I) as R.
      destruct (thr s t) as [|x|x pw|x pw|x pw|pw| |pr|pr|pr|pr v] eqn:Et; try discriminate; simpl in T, K, S.
      + (* PLoad *) injection E as <-. exists enq, th, un.
        apply Inv_goto; simpl; auto. unfold J. rewrite Et. reflexivity.
      + (* PSeq *)
        destruct (Nat.eqb_spec pw (seqs (view n (buf s t) (mem s)) (pw mod n))) as [Q|Q].
        * injection E as <-. exists enq, th, un. apply Inv_goto; simpl; auto; [|lia]. unfold J. rewrite Et. reflexivity.
        * destruct (Nat.ltb_spec (seqs (view n (buf s t) (mem s)) (pw mod n)) pw) as [F|F].
          -- injection E as <-. exists enq, (fupd th t Idle), un. apply Inv_ev; simpl; auto.
             ++ unfold J. rewrite Et. reflexivity.
             ++ destruct (push_fails s enq th un t x pw I Et F) as [NR|(t' & N & U)].
                ** eapply exact1; [apply I| |reflexivity]. eapply lin_fail_push; eauto.
                ** eapply hist_snoc; [apply I|]. eapply tl_fail_push; eauto.
          -- injection E as <-. exists enq, th, un. apply Inv_goto; simpl; auto. unfold J. rewrite Et. reflexivity.
      + (* PCas *)
        destruct (buf s t) as [|w b] eqn:B; [|discriminate].
        destruct (ok && (pwrite s =? pw)) eqn:O.
        2:{ injection E as <-. exists enq, th, un. apply Inv_goto; simpl; rewrite ?B; simpl; auto.
            unfold J. rewrite Et, B. reflexivity. }
        apply andb_prop in O as [_ O]. apply Nat.eqb_eq in O. subst pw. injection E as <-. simpl in K.
        assert (JN : J s t = JNone) by (unfold J; rewrite Et, B; reflexivity).
        pose proof (arr_claim_push n Hn _ _ _ _ _ t x R JN K) as R'.
        destruct (free_slot n Hn _ _ _ _ _ R K) as [SQ RM].
        pose proof (a_le _ _ _ _ _ _ R) as LE. pose proof (a_len _ _ _ _ _ _ R) as LEN.
        exists (enq ++ [x]), (fupd th t DidPush), (fupd un t (Some PushEff)).
        assert (JX : forall t', jobof (fupd (thr s) t (PData x (pwrite s)) t') (buf s t') = fupd (J s) t (JData x (pwrite s)) t').
        { intros t'. destruct (Nat.eq_dec t' t) as [->|N]; [rewrite !fupd_eq, B; auto|rewrite !fupd_neq by auto; reflexivity]. }
        destruct I. constructor; cbn [pwrite pread mem thr buf tr]; auto.
        * rewrite skipn_app. replace (pread s - length enq) with 0 by lia. simpl.
          eapply hist_snoc; [eassumption|]. change (fupd un t (Some PushEff)) with (unseen_after (@LinPush A t) un).
          constructor. apply lin_push; auto. unfold has_room. rewrite skipn_length. lia.
        * eapply arr_ext; [|exact R']. exact JX.
        * intros t'. unfold J. cbn [thr buf]. rewrite JX. destruct (Nat.eq_dec t' t) as [->|N]; [rewrite !fupd_eq; auto|rewrite !fupd_neq by auto; auto].
        * intros t'. destruct (Nat.eq_dec t' t) as [->|N]; [rewrite !fupd_eq; reflexivity|].
          rewrite !fupd_neq by auto. apply tst_app. auto.
        * intros t'. destruct (Nat.eq_dec t' t) as [->|N]; [rewrite !fupd_eq; auto|rewrite !fupd_neq by auto; auto].
        * intros t'. destruct (Nat.eq_dec t' t) as [->|N]; [rewrite !fupd_eq; simpl; auto|rewrite !fupd_neq by auto; auto].
          eapply know_mono; [| | |apply i_know0]; auto; lia.
      + (* PData *)
        injection E as <-. exists enq, th, un. unfold goto, issue; cbn [pwrite pread mem thr buf tr].
        rewrite <- (app_nil_r (tr s)). apply (Inv_move s enq th); simpl; auto.
        * unfold J. rewrite Et, S. reflexivity.
        * rewrite S. simpl. eauto.
        * rewrite app_nil_r. apply I.
      + (* PPub *)
        injection E as <-. exists enq, (fupd th t Idle), un. unfold goto, issue, emit; cbn [pwrite pread mem thr buf tr].
        apply (Inv_move s enq th); simpl; auto.
        * unfold J. rewrite Et. destruct S as [->|(x & ->)]; reflexivity.
        * apply fupd_eq.
        * destruct S as [->|(x & ->)]; simpl; eauto.
        * intros. apply fupd_neq. auto.
        * eapply exact1; [apply I| |reflexivity]. constructor. exact T.
      + (* QLoad *) injection E as <-. exists enq, th, un.
        apply Inv_goto; simpl; auto. unfold J. rewrite Et. reflexivity.
      + (* QSeq *)
        destruct (Nat.eqb_spec (seqs (view n (buf s t) (mem s)) (pr mod n)) (pr + 1)) as [Q|Q].
        * injection E as <-. exists enq, th, un. apply Inv_goto; simpl; auto; [|lia]. unfold J. rewrite Et. reflexivity.
        * destruct (Nat.ltb_spec (seqs (view n (buf s t) (mem s)) (pr mod n)) (pr + 1)) as [F|F].
          -- injection E as <-. exists enq, (fupd th t Idle), un. apply Inv_ev; simpl; auto.
             ++ unfold J. rewrite Et. reflexivity.
             ++ destruct (pop_fails s enq th un t pr I Et F) as [NR|(t' & N & U)].
                ** eapply exact1; [apply I| |reflexivity]. eapply lin_fail_pop; eauto.
                ** eapply hist_snoc; [apply I|]. eapply tl_fail_pop; eauto.
          -- injection E as <-. exists enq, th, un. apply Inv_goto; simpl; auto. unfold J. rewrite Et. reflexivity.
      + (* QCas *)
        destruct (buf s t) as [|w b] eqn:B; [|discriminate].
        destruct (ok && (pread s =? pr)) eqn:O.
        2:{ injection E as <-. exists enq, th, un. apply Inv_goto; simpl; rewrite ?B; simpl; auto.
            unfold J. rewrite Et, B. reflexivity. }
        apply andb_prop in O as [_ O]. apply Nat.eqb_eq in O. subst pr. injection E as <-. simpl in K.
        assert (JN : J s t = JNone) by (unfold J; rewrite Et, B; reflexivity).
        pose proof (arr_claim_pop n Hn _ _ _ _ _ t R JN K) as R'.
        destruct (full_slot n Hn _ _ _ _ _ R K) as (SQ & RM & RN & DX).
        pose proof (a_le _ _ _ _ _ _ R) as LE. pose proof (a_len _ _ _ _ _ _ R) as LEN.
        destruct (nth_error enq (pread s)) as [v|] eqn:EV; [|apply nth_error_None in EV; lia].
        exists enq, (fupd th t (DidPop v)), (fupd un t (Some PopEff)).
        assert (SK : skipn (pread s) enq = v :: skipn (pread s + 1) enq).
        { replace (pread s + 1) with (Datatypes.S (pread s)) by lia. apply skipn_nth; auto. }
        assert (JX : forall t', jobof (fupd (thr s) t (QData (pread s)) t') (buf s t') = fupd (J s) t (JPop (pread s)) t').
        { intros t'. destruct (Nat.eq_dec t' t) as [->|N]; [rewrite !fupd_eq, B; auto|rewrite !fupd_neq by auto; reflexivity]. }
        destruct I. constructor; cbn [pwrite pread mem thr buf tr]; auto.
        * eapply hist_snoc; [eassumption|]. change (fupd un t (Some PopEff)) with (unseen_after (@LinPop A t) un).
          constructor. rewrite SK. apply lin_pop; auto.
        * eapply arr_ext; [|exact R']. exact JX.
        * intros t'. unfold J. cbn [thr buf]. rewrite JX. destruct (Nat.eq_dec t' t) as [->|N]; [rewrite !fupd_eq; auto|rewrite !fupd_neq by auto; auto].
        * intros t'. destruct (Nat.eq_dec t' t) as [->|N]; [rewrite !fupd_eq; simpl; eauto|].
          rewrite !fupd_neq by auto. auto.
        * intros t'. destruct (Nat.eq_dec t' t) as [->|N]; [rewrite !fupd_eq; auto|rewrite !fupd_neq by auto; auto].
        * intros t'. destruct (Nat.eq_dec t' t) as [->|N]; [rewrite !fupd_eq; simpl; auto|rewrite !fupd_neq by auto; auto].
          eapply know_mono; [| | |apply i_know0]; auto; lia.
      + (* QData *)
        injection E as <-. exists enq, th, un. rewrite S. simpl.
        pose proof (a_jok _ _ _ _ _ _ R t) as Q. unfold J in Q. rewrite Et, S in Q. simpl in Q. destruct Q as (Q1 & Q2 & Q3).
        destruct T as (v & V & T).
        apply Inv_goto; simpl; auto.
        * unfold J. rewrite Et, S. reflexivity.
        * exists v. rewrite Q3. auto.
      + (* QRel *)
        injection E as <-. destruct T as (w & NV & -> & T).
        exists enq, (fupd th t Idle), un. unfold goto, issue, emit; cbn [pwrite pread mem thr buf tr].
        apply (Inv_move s enq th); simpl; auto.
        * unfold J. rewrite Et, S. reflexivity.
        * apply fupd_eq.
        * rewrite S. simpl. eauto.
        * intros. apply fupd_neq. auto.
        * eapply exact1; [apply I| |reflexivity]. constructor. exact T.
    - (* Drain *)
      destruct (buf s t) as [|w r] eqn:B; [discriminate|]. injection E as <-.
      pose proof (i_shape _ _ _ _ I t) as S. pose proof (i_arr _ _ _ _ I) as R.
      assert (JT : J s t = jobof (thr s t) (w :: r)) by (unfold J; rewrite B; reflexivity).
      assert (SH : (exists k x, w = WData k x /\ jobof (thr s t) r = JPub k) \/
                   (exists k, w = WPub k /\ jobof (thr s t) r = JNone) \/ (exists k, w = WRel k /\ jobof (thr s t) r = JNone)).
      { rewrite B in S. destruct (thr s t); simpl in S; try discriminate; destruct S as [S|S]; try discriminate;
          first [destruct S as [(k0 & x0 & S)|[(k0 & S)|(k0 & S)]]|destruct S as [x0 S]];
          injection S as -> ->; eauto 6. }
      assert (SR : shape (thr s t) r).
      { rewrite B in S. destruct (thr s t); simpl in S |- *; try discriminate; destruct S as [S|S]; try discriminate;
          first [destruct S as [(k0 & x0 & S)|[(k0 & S)|(k0 & S)]]|destruct S as [x0 S]];
          injection S as -> ->; eauto 6. }
      assert (MON : forall i, seqs (mem s) i <= seqs (apply n w (mem s)) i).
      { intros i. pose proof (a_jok _ _ _ _ _ _ R t) as Q. rewrite JT in Q.
        destruct w; simpl in *; auto; unfold fupd; destruct (Nat.eqb_spec i (k mod n)) as [->|]; auto; lia. }
      destruct SH as [(k & x & -> & JR)|[(k & -> & JR)|(k & -> & JR)]].
      + exists enq, th, un. rewrite <- (app_nil_r (tr s)).
        eapply Inv_drain; eauto.
        * rewrite JR. apply arr_write; auto.
        * intros t'. rewrite JR. destruct (Nat.eq_dec t' t) as [->|N]; [rewrite fupd_eq|rewrite fupd_neq; auto].
          rewrite (i_un _ _ _ _ I), JT. reflexivity.
        * rewrite app_nil_r. apply I.
      + exists enq, th, (fupd un t None). unfold emit; cbn [pwrite pread mem thr buf tr].
        eapply Inv_drain; eauto.
        * rewrite JR. apply arr_pub; auto.
        * intros t'. rewrite JR. reflexivity.
        * eapply hist_snoc; [apply I|]. constructor. rewrite (i_un _ _ _ _ I), JT. discriminate.
      + exists enq, th, (fupd un t None). unfold emit; cbn [pwrite pread mem thr buf tr].
        eapply Inv_drain; eauto.
        * rewrite JR. apply arr_rel; auto.
        * intros t'. rewrite JR. reflexivity.
        * eapply hist_snoc; [apply I|]. constructor. rewrite (i_un _ _ _ _ I), JT. discriminate.
  Qed.


  Lemma Inv_exec : forall l s s', Inv s -> exec (step n) s l = Some s' -> Inv s'.
  Proof. intros. eapply (exec_inv (step n) Inv); eauto using Inv_step. Qed.
End Inv.

Section Reach.
  Context {A : Type}.
  Variable n : nat.
  Hypothesis Hn : 2 <= n.
  Notation st := (st A).

  Lemma reach : forall l (s : st), exec (step n) init_st l = Some s ->
    exists enq th un, inv n [] [] (fun _ => Idle) (fun _ => None) s enq th un.
  Proof.
    intros l s E. apply (Inv_exec n Hn [] [] (fun _ => Idle) (fun _ => None) l init_st s); auto.
    exists [], (fun _ => Idle), (fun _ => None). constructor; simpl; auto.
    - exists []. split; [reflexivity|constructor].
    - apply arr_init; auto.
  Qed.

  (** From a reachable state on. *)
  Lemma inv_restart : forall (s : st) T0 q0 th0 un0 enq th un, inv n T0 q0 th0 un0 s enq th un ->
    inv n (tr s) (skipn (pread s) enq) th un s enq th un.
  Proof.
    intros s T0 q0 th0 un0 enq th un []. constructor; auto. exists []. split; [symmetry; apply app_nil_r|constructor].
  Qed.

  Definition aid (a : act A) : nat := match a with DoPush t _ | DoPop t | Run t _ | Drain t => t end.
  Definition eid (e : tev A) : nat :=
    match e with
    | Vis t => t
    | Ev (CallPush t _) | Ev (LinPush t) | Ev (RetPush t _) | Ev (CallPop t) | Ev (LinPop t) | Ev (RetPop t _)
    | Ev (SeeEmpty t) => t
    end.

  (** A step appends at most one event, of the thread that acted. *)
  Lemma step_ev : forall (s : st) a s', step n s a = Some s' ->
    exists ex, tr s' = tr s ++ ex /\ forall e, In e ex -> eid e = aid a.
  Proof.
    assert (Z : forall l : list (tev A), exists ex, l = l ++ ex /\ forall e (a : nat), In e ex -> eid e = a).
    { intros l. exists []. rewrite app_nil_r. simpl. tauto. }
    intros s a s' E. destruct a as [t x|t|t ok|t]; cbn [step] in E.
    - destruct (thr s t); try discriminate. injection E as <-. exists [Ev (CallPush t x)]. simpl. intuition (subst; auto).
    - destruct (thr s t); try discriminate. injection E as <-. exists [Ev (CallPop t)]. simpl. intuition (subst; auto).
    - destruct (Z (tr s)) as (z & Z1 & Z2).
      destruct (thr s t) eqn:Et; try discriminate.
      + injection E as <-. exists z. auto.
      + destruct (_ =? _); [injection E as <-; exists z; auto|].
        destruct (_ <? _); injection E as <-; [|exists z; auto].
        exists [Ev (RetPush t false)]. simpl. intuition (subst; auto).
      + destruct (buf s t); [|discriminate]. destruct (_ && _); injection E as <-; [|exists z; auto].
        exists [Ev (LinPush t)]. simpl. intuition (subst; auto).
      + injection E as <-. exists z. auto.
      + injection E as <-. exists [Ev (RetPush t true)]. simpl. intuition (subst; auto).
      + injection E as <-. exists z. auto.
      + destruct (_ =? _); [injection E as <-; exists z; auto|].
        destruct (_ <? _); injection E as <-; [|exists z; auto].
        exists [Ev (RetPop t None)]. simpl. intuition (subst; auto).
      + destruct (buf s t); [|discriminate]. destruct (_ && _); injection E as <-; [|exists z; auto].
        exists [Ev (LinPop t)]. simpl. intuition (subst; auto).
      + injection E as <-. exists z. auto.
      + injection E as <-. exists [Ev (RetPop t v)]. simpl. intuition (subst; auto).
    - destruct (Z (tr s)) as (z & Z1 & Z2). destruct (buf s t) as [|w r]; [discriminate|]. injection E as <-.
      destruct w; [exists z; auto| |]; exists [Vis t]; simpl; intuition (subst; auto).
  Qed.

  Lemma exec_ev : forall t l (s s' : st), exec (step n) s l = Some s' -> (forall a, In a l -> aid a = t) ->
    exists ex, tr s' = tr s ++ ex /\ forall e, In e ex -> eid e = t.
  Proof.
    intros t. induction l as [|a l IH]; simpl; intros s s' E H.
    - injection E as <-. exists []. rewrite app_nil_r. simpl. tauto.
    - destruct (step n s a) as [s1|] eqn:E1; [|discriminate].
      destruct (step_ev s a s1 E1) as (e1 & T1 & I1).
      destruct (IH s1 s' E ltac:(auto)) as (e2 & T2 & I2).
      exists (e1 ++ e2). rewrite T2, T1, app_assoc. split; [reflexivity|].
      intros e X. apply in_app_or in X as [X|X]; auto. rewrite (I1 e X). auto.
  Qed.

  (** A history with events of one thread only, all others having been seen, is exact. *)
  Lemma alone_exact : forall t ex q0 th0 un0 q th un,
    tlins (Some n) q0 th0 un0 ex q th un -> (forall e, In e ex -> eid e = t) ->
    (forall t', t' <> t -> un0 t' = None) ->
    @lins A (Some n) false q0 th0 (events ex) q th /\ (forall t', t' <> t -> un t' = None).
  Proof.
    intros t ex q0 th0 un0 q th un L. induction L as [|q0 th0 un0 l q th un e q' th' un' L IH X]; intros H U.
    - split; [constructor|auto].
    - destruct IH as [IH U']; auto. { intros; apply H; apply in_or_app; auto. }
      assert (ID : eid e = t) by (apply H; apply in_or_app; simpl; auto).
      unfold events in *. rewrite flat_map_app. simpl. rewrite app_nil_r.
      inversion X; subst; simpl.
      + split; [eapply lins_snoc; eauto|]. intros t' N. destruct e0; simpl in *; auto; rewrite fupd_neq; auto.
      + rewrite app_nil_r. split; [auto|]. intros t' N. simpl in N. rewrite fupd_neq; auto.
      + simpl in *. rewrite U' in H2 by auto. discriminate.
      + simpl in *. rewrite U' in H2 by auto. discriminate.
  Qed.

  Lemma seen : forall (s : st) T0 q0 th0 un0 enq th un t, inv n T0 q0 th0 un0 s enq th un ->
    thr s t = Rest -> buf s t = [] -> un t = None.
  Proof. intros s T0 q0 th0 un0 enq th un t I R B. rewrite (i_un _ _ _ _ _ _ _ _ _ I). unfold J. rewrite R, B. reflexivity. Qed.

  (** A thread inside an operation can execute its next access, or one of its stores can reach
      memory. *)
  Lemma enabled : forall (s : st) t ok, thr s t <> Rest ->
    (exists s', step n s (Run t ok) = Some s') \/ (buf s t <> [] /\ exists s', step n s (Drain t) = Some s').
  Proof.
    intros s t ok H. cbn [step]. destruct (buf s t) as [|w r] eqn:B.
    - left. destruct (thr s t); try congruence; eauto; repeat (destruct (_ =? _) || destruct (_ <? _) || destruct (_ && _)); eauto.
    - right. split; [congruence|eauto].
  Qed.
End Reach.

(** What the history says about values. *)
Section Values.
  Context {A : Type}.
  Variable cap : option nat.

  Lemma tlins_values : forall tr q th un, tso_linearizable (A := A) cap tr q th un ->
    LinFacts.values (events tr) q th.
  Proof.
    unfold tso_linearizable. intros tr q th un H.
    remember (@nil A) as q0 eqn:Q0. remember (fun _ : nat => @Idle A) as th0 eqn:T0.
    induction H as [|q0 th0 un0 l q1 th1 un1 e q2 th2 un2 H IH L]; subst.
    - apply LinFacts.values_nil.
    - specialize (IH eq_refl eq_refl). unfold events in *. rewrite flat_map_app. simpl. rewrite app_nil_r.
      inversion L; subst.
      + eapply LinFacts.values_step; eauto.
      + rewrite app_nil_r. auto.
      + apply LinFacts.values_fail; auto. congruence.
      + apply LinFacts.values_fail; auto. congruence.
  Qed.
End Values.
