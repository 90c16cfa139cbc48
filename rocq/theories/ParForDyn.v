(** Dynamic scheduling without scheduler thread: every index exactly once, for every
    interleaving; every schedule is finite. *)
From Coq Require Import List ZArith Lia Bool Permutation.
From Verif Require Import Base ParForSpec ParForModel ParForLoop ParForInit ParForStatic.
Import ListNotations.
Local Open Scope Z_scope.

Definition is_sub (id : nat) (p : pc) : bool :=
  match p with WSub _ i _ _ => Nat.eqb i id | _ => false end.

Definition b2z (b : bool) : Z := if b then 1 else 0.

(** Workers between their CAS and their fetch_sub on cell [id]. *)
Fixpoint pend (id : nat) (l : list pc) : Z :=
  match l with [] => 0 | p :: l' => b2z (is_sub id p) + pend id l' end.

Lemma pend_nonneg : forall id l, 0 <= pend id l.
Proof. induction l; simpl; [lia|]. destruct (is_sub id a); simpl b2z; lia. Qed.

Lemma pend_lupd : forall id l w p q, nth_error l w = Some p ->
  pend id (lupd l w q) = pend id l - b2z (is_sub id p) + b2z (is_sub id q).
Proof.
  induction l as [|a l IH]; destruct w; simpl; intros p q E; try discriminate.
  - injection E as ->. lia.
  - rewrite (IH w p q E). lia.
Qed.

Lemma firstn_lupd : forall X (l : list X) n i x, (i < n)%nat ->
  firstn n (lupd l i x) = lupd (firstn n l) i x.
Proof.
  induction l as [|a l IH]; intros n i x H; destruct n, i; simpl; try lia; auto.
  f_equal. apply IH. lia.
Qed.

Lemma nth_error_firstn_lt : forall X (l : list X) n i, (i < n)%nat ->
  nth_error (firstn n l) i = nth_error l i.
Proof. induction l; intros [|n] [|i] H; simpl; try lia; auto. apply IHl. lia. Qed.

Definition pid (p : pc) : option nat :=
  match p with
  | WL1 _ i | WLd _ i | WCas _ i _ | WSub _ i _ _ => Some i
  | _ => None
  end.

Definition pown (w : nat) (p : pc) : Prop :=
  match p with
  | WL1 true i | WLd true i | WCas true i _ | WSub true i _ _ => i = w
  | _ => True
  end.

(** The worker has found its own cell exhausted. *)
Definition past_own (p : pc) : bool :=
  match p with
  | WL1 false _ | WLd false _ | WCas false _ _ | WSub false _ _ _ | WSel | WEnd => true
  | _ => false
  end.

Definition infl (step : Z) (p : pc) : list Z :=
  match p with WRun a b => loop a b step | WSub _ _ a e => loop a e step | _ => [] end.

Section Dyn.
  Variables (step chunk first last total : Z) (n : nat) (data0 : list cell).
  Hypothesis Hs : 1 <= step.
  Hypothesis Hc : 1 <= chunk.
  Hypothesis Hn : (1 <= n <= length data0)%nat.
  Hypothesis Hgood : forall i c, (i < n)%nat -> nth_error data0 i = Some c -> goodc step chunk c.
  Hypothesis Hcover : flat_map (rem step) (firstn n data0) = loop first last step.
  Hypothesis Hstale : forall i c, (n <= i)%nat -> nth_error data0 i = Some c -> nt c <= 0.

  Notation F := (body_plain step).

  Record dinv (s : cst) : Prop := {
    di_pcs : length (pcs s) = n;
    di_cells : length (cells s) = length data0;
    di_stale : forall i, (n <= i)%nat -> nth_error (cells s) i = nth_error data0 i;
    di_fits : forall i c, (i < n)%nat -> nth_error (cells s) i = Some c ->
                fits chunk (len (lo c) (hi c) step) (nt c - pend i (pcs s));
    di_ids : forall w p i, nth_error (pcs s) w = Some p -> pid p = Some i -> (i < n)%nat;
    di_own : forall w p, nth_error (pcs s) w = Some p -> pown w p;
    di_wait : forall w, nth_error (pcs s) w <> Some WWait;
    di_past : forall w p c, nth_error (pcs s) w = Some p -> past_own p = true ->
                nth_error (cells s) w = Some c -> hi c <= lo c;
    di_sub : forall w own i old en c, nth_error (pcs s) w = Some (WSub own i old en) ->
                nth_error (cells s) i = Some c -> en <= old -> hi c <= lo c;
    di_cnt : forall z, (cnt (map snd (log s)) z + cnt (flat_map (infl step) (pcs s)) z +
                        cnt (flat_map (rem step) (firstn n (cells s))) z =
                        cnt (loop first last step) z)%nat;
    di_log : forall e, In e (log s) -> (fst e < n)%nat }.

  (** A step that changes only worker [w]'s program counter. *)
  Lemma dinv_setpc : forall s w p q,
    dinv s -> nth_error (pcs s) w = Some p ->
    (forall i, is_sub i p = is_sub i q) -> infl step p = [] -> infl step q = [] ->
    (forall i, pid q = Some i -> (i < n)%nat) -> pown w q -> q <> WWait ->
    (past_own q = true -> forall c, nth_error (cells s) w = Some c -> hi c <= lo c) ->
    (forall own i old en, q <> WSub own i old en) ->
    dinv (setpc s w q).
  Proof.
    intros s w p q [] Ep Hsub Ip Iq Hid Hown Hw Hpast Hns.
    assert (Lw : (w < length (pcs s))%nat) by (eapply nth_error_lt; eauto).
    constructor; simpl; auto.
    - rewrite lupd_length; auto.
    - intros i c Hi Ei. rewrite (pend_lupd i _ w p q Ep), (Hsub i). 
      replace (nt c - (pend i (pcs s) - b2z (is_sub i q) + b2z (is_sub i q)))
        with (nt c - pend i (pcs s)) by lia. eauto.
    - intros v p' i E. rewrite nth_error_lupd in E. destruct (Nat.eqb_spec w v) as [->|].
      + destruct (v <? length (pcs s))%nat; [|discriminate]. injection E as <-. auto.
      + eauto.
    - intros v p' E. rewrite nth_error_lupd in E. destruct (Nat.eqb_spec w v) as [->|].
      + destruct (v <? length (pcs s))%nat; [|discriminate]. injection E as <-. auto.
      + eauto.
    - intros v E. rewrite nth_error_lupd in E. destruct (Nat.eqb_spec w v) as [->|].
      + destruct (v <? length (pcs s))%nat; [|discriminate]. congruence.
      + eapply di_wait0; eauto.
    - intros v p' c E. rewrite nth_error_lupd in E. destruct (Nat.eqb_spec w v) as [->|].
      + destruct (v <? length (pcs s))%nat; [|discriminate]. injection E as <-. auto.
      + eauto.
    - intros v own i old en c E. rewrite nth_error_lupd in E. destruct (Nat.eqb_spec w v) as [->|].
      + destruct (v <? length (pcs s))%nat; [|discriminate]. injection E as ->. exfalso. eapply Hns; eauto.
      + eauto.
    - intros z. pose proof (cnt_flat_lupd _ (infl step) (pcs s) w p q z Ep) as X.
      rewrite Ip, Iq in X. simpl in X. rewrite <- (di_cnt0 z). lia.
  Qed.

  Lemma take_exhausted : forall c, hi c <= lo c -> hi c <= chunk_end step chunk c - 1 + step.
  Proof. intros c H. unfold chunk_end. nia. Qed.

  Lemma dinv_step : forall s a s', dinv s ->
    cstep step chunk false F s a = Some s' -> dinv s'.
  Proof.
    intros s a s' I E. unfold cstep in E. remember (w_id a) as w eqn:Ew0. clear Ew0.
    destruct (nth_error (pcs s) w) as [p|] eqn:Ep; [|discriminate].
    assert (Lw : (w < length (pcs s))%nat) by (eapply nth_error_lt; eauto).
    assert (Hw : (w < n)%nat) by (rewrite <- (di_pcs s I); auto).
    assert (Lcw : (w < length (cells s))%nat) by (rewrite (di_cells s I); lia).
    destruct p as [ |x y|own id|own id|own id old|own id old en| | ]; try discriminate.
    - (* WRun *)
      injection E as <-. destruct I. constructor; simpl; auto.
      + rewrite lupd_length; auto.
      + intros i c Hi Ei. rewrite (pend_lupd i _ w _ _ Ep). simpl.
        replace (nt c - (pend i (pcs s) - 0 + 0)) with (nt c - pend i (pcs s)) by lia. eauto.
      + intros v p' i E. rewrite nth_error_lupd in E. destruct (Nat.eqb_spec w v) as [<-|]; [|eauto].
        destruct (w <? length (pcs s))%nat; [|discriminate]. injection E as <-. simpl. congruence.
      + intros v p' E. rewrite nth_error_lupd in E. destruct (Nat.eqb_spec w v) as [<-|]; [|eauto].
        destruct (w <? length (pcs s))%nat; [|discriminate]. injection E as <-. simpl. auto.
      + intros v E. rewrite nth_error_lupd in E. destruct (Nat.eqb_spec w v) as [EE|EE]; [|exact (di_wait0 v E)].
        destruct (v <? length (pcs s))%nat; discriminate.
      + intros v p' c E. rewrite nth_error_lupd in E. destruct (Nat.eqb_spec w v) as [<-|]; [|eauto].
        destruct (w <? length (pcs s))%nat; [|discriminate]. injection E as <-. simpl. discriminate.
      + intros v own i old en c E. rewrite nth_error_lupd in E. destruct (Nat.eqb_spec w v) as [<-|]; [|eauto].
        destruct (w <? length (pcs s))%nat; discriminate.
      + intros z. pose proof (cnt_flat_lupd _ (infl step) (pcs s) w _ (WL1 true w) z Ep) as X.
        simpl in X. rewrite <- (di_cnt0 z). rewrite map_app, map_map, cnt_app. simpl.
        rewrite map_id. unfold body_plain. lia.
      + intros e He. apply in_app_or in He as [He|He]; [auto|].
        apply in_map_iff in He as (q & <- & _). auto.
    - (* WL1 *)
      destruct (nth_error (cells s) id) as [c|] eqn:Ec; [|discriminate]. injection E as <-.
      pose proof (di_ids s I w _ id Ep eq_refl) as Hid.
      pose proof (di_own s I w _ Ep) as Ho. simpl in Ho.
      destruct (Z.ltb_spec 0 (nt c)) as [P|P].
      + eapply dinv_setpc; eauto; simpl; auto; try congruence; try discriminate.
        destruct own; [discriminate|]. intros _ c' Ec'. eapply (di_past s I w); eauto.
      + eapply dinv_setpc; eauto; simpl; auto; try congruence; try discriminate.
        intros _ c' Ec'. destruct own.
        * subst id. rewrite Ec in Ec'. injection Ec' as <-.
          destruct (di_fits s I w c Hw Ec) as [Z0 _].
          pose proof (pend_nonneg w (pcs s)). apply (len_0 _ _ step); auto. apply Z0. lia.
        * eapply (di_past s I w); eauto.
    - (* WLd *)
      destruct (nth_error (cells s) id) as [c|] eqn:Ec; [|discriminate]. injection E as <-.
      pose proof (di_ids s I w _ id Ep eq_refl) as Hid.
      pose proof (di_own s I w _ Ep) as Ho. simpl in Ho.
      eapply dinv_setpc; eauto; simpl; auto; try congruence; try discriminate.
      destruct own; [discriminate|]. intros _ c' Ec'. eapply (di_past s I w); eauto.
    - (* WCas *)
      destruct (nth_error (cells s) id) as [c|] eqn:Ec; [|discriminate].
      pose proof (di_ids s I w _ id Ep eq_refl) as Hid.
      pose proof (di_own s I w _ Ep) as Ho. simpl in Ho.
      destruct (w_ok a && (lo c =? old)) eqn:EB; injection E as <-.
      2:{ eapply dinv_setpc; eauto; simpl; auto; try congruence; try discriminate.
          destruct own; [discriminate|]. intros _ c' Ec'. eapply (di_past s I w); eauto. }
      apply andb_true_iff in EB as [_ EB]. apply Z.eqb_eq in EB. subst old.
      set (en := chunk_end step chunk c) in *.
      assert (CSP := chunk_split step chunk (lo c) (hi c) Hs Hc). cbv zeta in CSP.
      change (Z.min (lo c + ((chunk - 1) * step + 1)) (hi c)) with en in CSP.
      destruct CSP as (S1 & S2 & S3).
      assert (Lid : (id < length (cells s))%nat) by (eapply nth_error_lt; eauto).
      destruct I. constructor; simpl; auto.
      + rewrite lupd_length; auto.
      + rewrite lupd_length; auto.
      + intros i Hi. rewrite nth_error_lupd_neq by lia. auto.
      + intros i c' Hi Ei. rewrite (pend_lupd i _ w _ _ Ep). simpl.
        rewrite nth_error_lupd in Ei. destruct (Nat.eqb_spec id i) as [<-|NE].
        * destruct (Nat.ltb_spec id (length (cells s))); [|lia]. injection Ei as <-. simpl.
          rewrite S3. pose proof (di_fits0 id c Hid Ec) as FF.
          replace (nt c - (pend id (pcs s) - 0 + 1)) with (nt c - pend id (pcs s) - 1) by lia.
          apply fits_take; auto. apply len_nonneg.
        * simpl.
          replace (nt c' - (pend i (pcs s) - 0 + 0)) with (nt c' - pend i (pcs s)) by lia. eauto.
      + intros v p' i E. rewrite nth_error_lupd in E. destruct (Nat.eqb_spec w v) as [<-|]; [|eauto].
        destruct (w <? length (pcs s))%nat; [|discriminate]. injection E as <-. simpl. congruence.
      + intros v p' E. rewrite nth_error_lupd in E. destruct (Nat.eqb_spec w v) as [<-|]; [|eauto].
        destruct (w <? length (pcs s))%nat; [|discriminate]. injection E as <-. simpl. auto.
      + intros v E. rewrite nth_error_lupd in E. destruct (Nat.eqb_spec w v) as [EE|EE]; [|exact (di_wait0 v E)].
        destruct (v <? length (pcs s))%nat; discriminate.
      + intros v p' c' E PO Ec'.
        assert (OLD : forall c1, nth_error (cells s) v = Some c1 -> hi c1 <= lo c1).
        { intros c1 E1. rewrite nth_error_lupd in E. destruct (Nat.eqb_spec w v) as [<-|]; [|eauto].
          destruct (w <? length (pcs s))%nat; [|discriminate]. injection E as <-. simpl in PO.
          destruct own; [discriminate|]. eapply (di_past0 w); eauto. }
        rewrite nth_error_lupd in Ec'. destruct (Nat.eqb_spec id v) as [<-|]; [|eauto].
        destruct (id <? length (cells s))%nat; [|discriminate]. injection Ec' as <-. simpl.
        apply take_exhausted. auto.
      + intros v own' i old' en' c' E Ec' Hle.
        rewrite nth_error_lupd in E. destruct (Nat.eqb_spec w v) as [<-|NE].
        * destruct (w <? length (pcs s))%nat; [|discriminate]. injection E as <- <- <- <-.
          rewrite nth_error_lupd_eq in Ec' by auto. injection Ec' as <-. simpl.
          assert (en = hi c) by (unfold en, chunk_end in *; nia). lia.
        * rewrite nth_error_lupd in Ec'. destruct (Nat.eqb_spec id i) as [<-|]; [|eauto].
          destruct (id <? length (cells s))%nat; [|discriminate]. injection Ec' as <-. simpl.
          apply take_exhausted. eauto.
      + intros z. pose proof (cnt_flat_lupd _ (infl step) (pcs s) w _ (WSub own id (lo c) en) z Ep) as X.
        rewrite firstn_lupd by auto.
        pose proof (cnt_flat_lupd _ (rem step) (firstn n (cells s)) id c
                      (mkCell (nt c) (en - 1 + step) (hi c)) z) as Y.
        rewrite nth_error_firstn_lt in Y by auto. specialize (Y Ec).
        assert (R : cnt (rem step c) z = (cnt (loop (lo c) en step) z +
                    cnt (rem step (mkCell (nt c) (en - 1 + step) (hi c))) z)%nat).
        { unfold rem at 1. rewrite S1, cnt_app. reflexivity. }
        rewrite <- (di_cnt0 z). simpl in X. rewrite R in Y.
        set (q1 := cnt (loop (lo c) en step) z) in *. lia.
    - (* WSub *)
      destruct (nth_error (cells s) id) as [c|] eqn:Ec; [|discriminate]. injection E as <-.
      pose proof (di_ids s I w _ id Ep eq_refl) as Hid.
      pose proof (di_own s I w _ Ep) as Ho. simpl in Ho.
      assert (Lid : (id < length (cells s))%nat) by (eapply nth_error_lt; eauto).
      set (q := if old <? en then WRun old en else WSel).
      assert (Q1 : forall i, is_sub i q = false) by (intros; unfold q; destruct (old <? en); auto).
      assert (Q2 : infl step q = loop old en step).
      { unfold q. destruct (Z.ltb_spec old en); simpl; auto. rewrite loop_nil by lia. auto. }
      destruct I. constructor; simpl; auto.
      + rewrite lupd_length; auto.
      + rewrite lupd_length; auto.
      + intros i Hi. rewrite nth_error_lupd_neq by lia. auto.
      + intros i c' Hi Ei. rewrite (pend_lupd i _ w _ _ Ep), Q1. simpl.
        rewrite nth_error_lupd in Ei. destruct (Nat.eqb_spec id i) as [<-|NE].
        * destruct (Nat.ltb_spec id (length (cells s))); [|lia]. injection Ei as <-. simpl.
          replace (nt c - 1 - (pend id (pcs s) - 1 + 0)) with (nt c - pend id (pcs s)) by lia. eauto.
        * simpl.
          replace (nt c' - (pend i (pcs s) - 0 + 0)) with (nt c' - pend i (pcs s)) by lia. eauto.
      + intros v p' i E. rewrite nth_error_lupd in E. destruct (Nat.eqb_spec w v) as [<-|]; [|eauto].
        destruct (w <? length (pcs s))%nat; [|discriminate]. injection E as <-.
        unfold q. destruct (old <? en); simpl; discriminate.
      + intros v p' E. rewrite nth_error_lupd in E. destruct (Nat.eqb_spec w v) as [<-|]; [|eauto].
        destruct (w <? length (pcs s))%nat; [|discriminate]. injection E as <-.
        unfold q. destruct (old <? en); simpl; auto.
      + intros v E. rewrite nth_error_lupd in E. destruct (Nat.eqb_spec w v) as [EE|EE]; [|exact (di_wait0 v E)].
        destruct (v <? length (pcs s))%nat; [|discriminate].
        unfold q in E. destruct (old <? en); discriminate.
      + intros v p' c' E PO Ec'.
        assert (OLD : forall c1, nth_error (cells s) v = Some c1 -> hi c1 <= lo c1).
        { intros c1 E1. rewrite nth_error_lupd in E. destruct (Nat.eqb_spec w v) as [<-|]; [|eauto].
          destruct (w <? length (pcs s))%nat; [|discriminate]. injection E as <-.
          unfold q in PO. destruct (Z.ltb_spec old en); simpl in PO; [discriminate|].
          destruct own.
          - subst id. eapply di_sub0; eauto.
          - eapply (di_past0 w); eauto. }
        rewrite nth_error_lupd in Ec'. destruct (Nat.eqb_spec id v) as [<-|]; [|eauto].
        destruct (id <? length (cells s))%nat; [|discriminate]. injection Ec' as <-. simpl. auto.
      + intros v own' i old' en' c' E Ec' Hle.
        rewrite nth_error_lupd in E. destruct (Nat.eqb_spec w v) as [<-|NE].
        * destruct (w <? length (pcs s))%nat; [|discriminate]. unfold q in E. destruct (old <? en); discriminate.
        * rewrite nth_error_lupd in Ec'. destruct (Nat.eqb_spec id i) as [<-|]; [|eauto].
          destruct (id <? length (cells s))%nat; [|discriminate]. injection Ec' as <-. simpl. eauto.
      + intros z. pose proof (cnt_flat_lupd _ (infl step) (pcs s) w _ q z Ep) as X.
        rewrite Q2 in X. simpl in X.
        rewrite firstn_lupd by auto.
        pose proof (cnt_flat_lupd _ (rem step) (firstn n (cells s)) id c
                      (mkCell (nt c - 1) (lo c) (hi c)) z) as Y.
        rewrite nth_error_firstn_lt in Y by auto. specialize (Y Ec).
        change (rem step (mkCell (nt c - 1) (lo c) (hi c))) with (rem step c) in Y.
        rewrite <- (di_cnt0 z). lia.
    - (* WSel *)
      destruct (nth_error (cells s) (w_victim a)) as [c|] eqn:Ec; [|discriminate]. injection E as <-.
      assert (PO : forall c', nth_error (cells s) w = Some c' -> hi c' <= lo c').
      { intros c' Ec'. eapply (di_past s I w); eauto. }
      destruct (Z.ltb_spec 0 (nt c)) as [P|P].
      + assert (HV : (w_victim a < n)%nat).
        { destruct (Nat.ltb_spec (w_victim a) n); auto.
          rewrite (di_stale s I) in Ec by auto. apply Hstale in Ec; auto. lia. }
        eapply dinv_setpc; eauto; simpl; auto; try congruence; try discriminate.
      + eapply dinv_setpc; eauto; simpl; auto; try congruence; try discriminate.
  Qed.

  Variable u : setup.
  Hypothesis Hud : s_data u = data0.
  Hypothesis Hun : s_nw u = n.
  Hypothesis Huc : s_chunk u = chunk.

  Lemma pend_zero : forall id l, (forall p, In p l -> is_sub id p = false) -> pend id l = 0.
  Proof.
    induction l as [|p l IH]; simpl; intros H; auto.
    rewrite (H p (or_introl eq_refl)), IH; auto.
  Qed.

  Lemma flat_map_infl_wrun0 : forall k, flat_map (infl step) (repeat (WRun 0 0) k) = [].
  Proof. induction k; simpl; auto. Qed.

  Lemma send_round_count : forall k i data d l, (i + k <= length data)%nat ->
    send_round step chunk k i data = (d, l) -> (i + k <= n)%nat ->
    forall z, (cnt (flat_map (infl step) (map pc_of_task l)) z +
               cnt (flat_map (rem step) (firstn n d)) z =
               cnt (flat_map (rem step) (firstn n data)) z)%nat.
  Proof.
    induction k as [|k IH]; intros i data d l Hl E Hk z; simpl in E.
    - injection E as <- <-. simpl. auto.
    - destruct (nth_error data i) as [c|] eqn:Ec; [|apply nth_error_None in Ec; lia].
      assert (NC : nth i data cell0 = c) by (apply nth_error_nth; auto).
      rewrite NC in E. destruct (Z.ltb_spec 0 (nt c)) as [P|P].
      + set (en := chunk_end step chunk c) in *.
        destruct (send_round step chunk k (S i) _) as [d0 l0] eqn:E0. injection E as <- <-.
        assert (X := IH (S i) (lupd data i (mkCell (nt c - 1) (en - 1 + step) (hi c))) d0 l0).
        rewrite lupd_length in X. specialize (X ltac:(lia) E0 ltac:(lia) z).
        rewrite firstn_lupd in X by lia.
        pose proof (cnt_flat_lupd _ (rem step) (firstn n data) i c
                      (mkCell (nt c - 1) (en - 1 + step) (hi c)) z) as Y.
        rewrite nth_error_firstn_lt in Y by lia. specialize (Y Ec).
        destruct (chunk_split step chunk (lo c) (hi c) Hs Hc) as (S1 & _ & _).
        change (Z.min (lo c + ((chunk - 1) * step + 1)) (hi c)) with en in S1.
        assert (R : cnt (rem step c) z = (cnt (loop (lo c) en step) z +
                    cnt (rem step (mkCell (nt c - 1) (en - 1 + step) (hi c))) z)%nat).
        { unfold rem at 1. rewrite S1, cnt_app. reflexivity. }
        simpl. rewrite cnt_app. lia.
      + destruct (send_round step chunk k (S i) _) as [d0 l0] eqn:E0. injection E as <- <-.
        simpl. eapply IH; [|exact E0|]; lia.
  Qed.

  Lemma dinv_start : forall spinwait, dinv (conc_start step spinwait u).
  Proof.
    assert (FIT : forall i c, (i < n)%nat -> nth_error data0 i = Some c ->
              fits chunk (len (lo c) (hi c) step) (nt c)).
    { intros i c Hi E. destruct (Hgood i c Hi E). auto. }
    intros [|]; unfold conc_start; rewrite Hud, Hun.
    - assert (R : forall w p, nth_error (repeat (WRun 0 0) n) w = Some p -> p = WRun 0 0).
      { intros w p E. apply nth_error_In in E. apply repeat_spec in E. auto. }
      constructor; simpl; auto.
      + apply repeat_length.
      + intros i c Hi E. rewrite pend_zero.
        * rewrite Z.sub_0_r. eauto.
        * intros p Hp. apply repeat_spec in Hp. subst. auto.
      + intros w p i E. apply R in E. subst. discriminate.
      + intros w p E. apply R in E. subst. simpl. auto.
      + intros w E. apply R in E. discriminate.
      + intros w p c E. apply R in E. subst. discriminate.
      + intros w own i old en c E. apply R in E. discriminate.
      + intros z. rewrite flat_map_infl_wrun0, Hcover. reflexivity.
      + tauto.
    - destruct (send_round step (s_chunk u) n 0 data0) as [d l] eqn:E. rewrite Huc in E.
      pose proof (send_round_count n 0 data0 d l ltac:(lia) E ltac:(lia)) as CNT.
      apply send_round_spec in E; [|lia]. destruct E as (L1 & L2 & O & I).
      assert (R : forall w p, nth_error (map pc_of_task l) w = Some p ->
                  exists a b, p = WRun a b).
      { intros w p E. rewrite nth_error_map in E.
        assert (Hw : (w < n)%nat).
        { rewrite <- L2. destruct (nth_error l w) eqn:E1; [|discriminate]. eapply nth_error_lt; eauto. }
        destruct (nth_error data0 w) as [c|] eqn:Ec; [|apply nth_error_None in Ec; lia].
        destruct (Hgood w c Hw Ec) as [G _].
        destruct (I w c ltac:(lia) Ec) as [(_ & _ & T)|(P & _)]; [|lia].
        rewrite Nat.sub_0_r in T. rewrite T in E. simpl in E. injection E as <-. eauto. }
      constructor; simpl; auto.
      + rewrite map_length. auto.
      + intros i c Hi Ei. rewrite pend_zero.
        2:{ intros p Hp. apply In_nth_error in Hp as [w Hw]. apply R in Hw as (? & ? & ->). auto. }
        destruct (nth_error data0 i) as [c0|] eqn:Ec; [|apply nth_error_None in Ec; lia].
        destruct (I i c0 ltac:(lia) Ec) as [(P & D & T)|(P & _)].
        * rewrite Ei in D. injection D as ->. simpl.
          destruct (chunk_split step chunk (lo c0) (hi c0) Hs Hc) as (_ & _ & S3).
          unfold chunk_end. rewrite S3, Z.sub_0_r. apply fits_take; auto using len_nonneg. eauto.
        * destruct (Hgood i c0 Hi Ec). lia.
      + intros w p i E. apply R in E as (? & ? & ->). discriminate.
      + intros w p E. apply R in E as (? & ? & ->). simpl. auto.
      + intros w E. apply R in E as (? & ? & E). discriminate.
      + intros w p c E. apply R in E as (? & ? & ->). discriminate.
      + intros w own i old en c E. apply R in E as (? & ? & E). discriminate.
      + intros z. rewrite <- Hcover. apply CNT.
      + tauto.
  Qed.

  Lemma dyn_reach : forall spinwait l s,
    exec (cstep step chunk false F) (conc_start step spinwait u) l = Some s -> dinv s.
  Proof.
    intros. eapply (exec_inv (cstep step chunk false F) dinv); eauto using dinv_step, dinv_start.
  Qed.

  (** At any time: what has been run, plus what is claimed but not yet run, plus what is left
      in the table is the iteration space; in particular nothing has run twice. *)
  Lemma dyn_never_twice : forall spinwait l s,
    exec (cstep step chunk false F) (conc_start step spinwait u) l = Some s ->
    NoDup (map snd (log s)) /\ incl (map snd (log s)) (loop first last step).
  Proof.
    intros spinwait l s E. apply dyn_reach in E. destruct E.
    assert (LE : forall z, (cnt (map snd (log s)) z <= cnt (loop first last step) z)%nat).
    { intros z. rewrite <- (di_cnt0 z). lia. }
    split.
    - apply (NoDup_count_occ Z.eq_dec). intros z. specialize (LE z).
      pose proof (NoDup_loop step first last Hs) as ND.
      rewrite (NoDup_count_occ Z.eq_dec) in ND. specialize (ND z). unfold cnt in LE. lia.
    - intros z Hz. apply (count_occ_In Z.eq_dec) in Hz. apply (count_occ_In Z.eq_dec).
      specialize (LE z). unfold cnt in LE. lia.
  Qed.

  Lemma flat_map_nil : forall X Y (f : X -> list Y) l, (forall x, In x l -> f x = []) -> flat_map f l = [].
  Proof. induction l as [|x l IH]; simpl; intros H; auto. rewrite (H x), IH; auto. Qed.

  Lemma dyn_run : forall spinwait l s,
    exec (cstep step chunk false F) (conc_start step spinwait u) l = Some s -> all_ended s ->
    Permutation (map snd (log s)) (loop first last step) /\
    (forall e, In e (log s) -> (fst e < n)%nat) /\
    length (cells s) = length data0 /\
    (forall i c, (i < n)%nat -> nth_error (cells s) i = Some c -> nt c <= 0) /\
    (forall i, (n <= i)%nat -> nth_error (cells s) i = nth_error data0 i).
  Proof.
    intros spinwait l s E A. apply dyn_reach in E. destruct E.
    assert (EX : forall i c, (i < n)%nat -> nth_error (cells s) i = Some c -> hi c <= lo c).
    { intros i c Hi Ei. destruct (nth_error (pcs s) i) as [p|] eqn:Ep; [|apply nth_error_None in Ep; lia].
      eapply di_past0; eauto. apply nth_error_In in Ep. apply A in Ep. subst. reflexivity. }
    assert (P0 : forall i, pend i (pcs s) = 0).
    { intros. apply pend_zero. intros p Hp. apply A in Hp. subst. reflexivity. }
    split; [|split; [auto|split; [auto|split; [|auto]]]].
    - apply cnt_perm. intros z. rewrite <- (di_cnt0 z).
      rewrite (flat_map_nil _ _ (infl step) (pcs s)).
      2:{ intros p Hp. apply A in Hp. subst. reflexivity. }
      rewrite (flat_map_nil _ _ (rem step)).
      2:{ intros c Hc'. apply In_nth_error in Hc' as [i Ei].
          assert (Hi : (i < n)%nat).
          { apply nth_error_lt in Ei. rewrite firstn_length in Ei. lia. }
          rewrite nth_error_firstn_lt in Ei by auto. apply loop_nil. eauto. }
      simpl. lia.
    - intros i c Hi Ei. destruct (di_fits0 i c Hi Ei) as [_ F1]. rewrite P0, Z.sub_0_r in F1.
      rewrite len_nil in F1 by eauto. destruct (Z_le_gt_dec (nt c) 0); auto.
      specialize (F1 ltac:(lia)). nia.
  Qed.

  Lemma dyn_progress : forall spinwait l s w,
    exec (cstep step chunk false F) (conc_start step spinwait u) l = Some s -> (w < n)%nat ->
    nth_error (pcs s) w <> Some WEnd -> exists s', cstep step chunk false F s (W w true 0) = Some s'.
  Proof.
    intros spinwait l s w E Hw NE. apply dyn_reach in E. destruct E.
    unfold cstep. simpl w_id. simpl w_ok. simpl w_victim.
    destruct (nth_error (pcs s) w) as [p|] eqn:Ep; [|apply nth_error_None in Ep; lia].
    assert (C : forall i, (i < n)%nat -> exists c, nth_error (cells s) i = Some c).
    { intros i Hi. destruct (nth_error (cells s) i) as [c|] eqn:Ec; [eauto|apply nth_error_None in Ec; lia]. }
    destruct p as [ |x y|own id|own id|own id old|own id old en| | ];
      try (destruct (C id (di_ids0 w _ id Ep eq_refl)) as [c ->]); try (eexists; reflexivity).
    - exfalso. eapply di_wait0; eauto.
    - destruct (true && (lo c =? old)); eexists; reflexivity.
    - destruct (C 0%nat ltac:(lia)) as [c ->]. eexists; reflexivity.
    - congruence.
  Qed.

  (** ** Bound on the number of steps. *)
  Inductive cls := CA | CB | CC.
  Definition bud (s : cst) (i : nat) : Z := nt (nth i (cells s) cell0) - pend i (pcs s).
  Definition cls_of (s : cst) (i : nat) : cls :=
    if 0 <? bud s i then CA else if 0 <? nt (nth i (cells s) cell0) then CB else CC.
  Definition view (s : cst) (i : nat) : cls * Z := (cls_of s i, lo (nth i (cells s) cell0)).

  Definition rank (g : nat -> cls * Z) (p : pc) : Z :=
    match p with
    | WWait => 0 | WEnd => 0 | WSel => 5 | WRun _ _ => 7
    | WL1 _ i => match fst (g i) with CC => 6 | _ => 4 end
    | WLd _ i => match fst (g i) with CC => 10 | _ => 3 end
    | WCas _ i old => if snd (g i) =? old then match fst (g i) with CC => 9 | _ => 2 end else 11
    | WSub _ i _ _ => match fst (g i) with CC => 8 | _ => 1 end
    end.
  Fixpoint sumr (g : nat -> cls * Z) (l : list pc) : Z :=
    match l with [] => 0 | p :: l' => rank g p + sumr g l' end.

  Lemma rank_bound : forall g p, 0 <= rank g p <= 11.
  Proof.
    intros g p. destruct p; simpl; try lia; try (destruct (fst (g id)); lia).
    destruct (snd (g id) =? old); [destruct (fst (g id)); lia | lia].
  Qed.

  Lemma sumr_lupd : forall g l w p q, nth_error l w = Some p ->
    sumr g (lupd l w q) = sumr g l - rank g p + rank g q.
  Proof.
    induction l as [|a l IH]; destruct w; simpl; intros p q E; try discriminate.
    - injection E as ->. lia.
    - rewrite (IH w p q E). lia.
  Qed.

  Lemma sumr_ext : forall g g' l, (forall i, g i = g' i) -> sumr g l = sumr g' l.
  Proof.
    intros g g' l H. induction l as [|p l IH]; simpl; auto. rewrite IH. f_equal.
    destruct p; simpl; auto; rewrite H; auto.
  Qed.

  Lemma sumr_bound : forall g g' l, sumr g l <= sumr g' l + 11 * Z.of_nat (length l).
  Proof.
    induction l as [|p l IH]; [simpl; lia|]. simpl sumr.
    pose proof (rank_bound g p). pose proof (rank_bound g' p). simpl length. lia.
  Qed.

  Lemma sumr_nonneg : forall g l, 0 <= sumr g l.
  Proof. induction l as [|p l IH]; simpl; [lia|]. pose proof (rank_bound g p). lia. Qed.

  Definition cpot (s : cst) (i : nat) : Z :=
    let c := nth i (cells s) cell0 in
    Z.max 0 (bud s i) + Z.max 0 (nt c) + b2z (negb (lo c =? hi c - 1 + step)).
  Definition sumc (f : nat -> Z) (k : nat) : Z := fold_right (fun i a => f i + a) 0 (seq 0 k).

  Lemma sumc_S : forall f k, sumc f (S k) = sumc f k + f k.
  Proof. clear.
    intros. unfold sumc. rewrite seq_S, fold_right_app. simpl.
    assert (G : forall l x, fold_right (fun i a => f i + a) x l = fold_right (fun i a => f i + a) 0 l + x).
    { induction l; simpl; intros; [lia|rewrite IHl; lia]. }
    rewrite G. lia.
  Qed.

  Lemma sumc_ext : forall f g k, (forall i, (i < k)%nat -> f i = g i) -> sumc f k = sumc g k.
  Proof. clear.
    induction k; intros H; [reflexivity|]. rewrite !sumc_S, IHk, (H k); auto.
  Qed.

  Lemma sumc_change : forall f g k i, (i < k)%nat -> (forall j, j <> i -> f j = g j) ->
    sumc g k = sumc f k - f i + g i.
  Proof. clear.
    induction k as [|k IH]; intros i Hi H; [lia|]. rewrite !sumc_S.
    destruct (Nat.eq_dec i k) as [->|N].
    - rewrite (sumc_ext g f k); [lia|]. intros j Hj. symmetry. apply H. lia.
    - rewrite (IH i) by (auto; lia). rewrite <- (H k) by auto. lia.
  Qed.

  Lemma sumc_nonneg : forall f k, (forall i, 0 <= f i) -> 0 <= sumc f k.
  Proof. clear. induction k; intros; [unfold sumc; simpl; lia|]. rewrite sumc_S. specialize (H k) as Hk. specialize (IHk H). lia. Qed.

  Definition KK : Z := 11 * Z.of_nat n + 12.
  Definition phi (s : cst) : Z := KK * sumc (cpot s) n + sumr (view s) (pcs s).

  Lemma cpot_nonneg : forall s i, 0 <= cpot s i.
  Proof. intros. unfold cpot. destruct (negb _); simpl; lia. Qed.

  Lemma phi_nonneg : forall s, 0 <= phi s.
  Proof.
    intros. unfold phi. pose proof (sumc_nonneg (cpot s) n (cpot_nonneg s)).
    pose proof (sumr_nonneg (view s) (pcs s)). unfold KK. nia.
  Qed.

  (** A step that only changes a program counter leaves the cells' potential alone. *)
  Lemma phi_setpc : forall s w p q, nth_error (pcs s) w = Some p ->
    (forall i, is_sub i p = is_sub i q) ->
    phi (setpc s w q) = phi s - rank (view s) p + rank (view s) q.
  Proof.
    intros s w p q Ep H.
    assert (P : forall i, pend i (lupd (pcs s) w q) = pend i (pcs s)).
    { intros. rewrite (pend_lupd i _ w p q Ep), H. lia. }
    assert (B : forall i, bud (setpc s w q) i = bud s i).
    { intros. unfold bud. simpl. now rewrite P. }
    assert (V : forall i, view (setpc s w q) i = view s i).
    { intros. unfold view, cls_of. rewrite B. reflexivity. }
    unfold phi. rewrite (sumr_ext _ _ _ V). simpl pcs. rewrite (sumr_lupd _ _ w p q Ep).
    rewrite (sumc_ext (cpot (setpc s w q)) (cpot s)).
    - lia.
    - intros. unfold cpot. rewrite B. reflexivity.
  Qed.

  Lemma phi_step : forall s a s', dinv s -> cstep step chunk false F s a = Some s' ->
    phi s' + 1 <= phi s + (if w_ok a then 0 else 12).
  Proof.
    intros s a s' I E. unfold cstep in E. remember (w_id a) as w eqn:Ew0. clear Ew0.
    destruct (nth_error (pcs s) w) as [p|] eqn:Ep; [|discriminate].
    assert (Lw : (w < length (pcs s))%nat) by (eapply nth_error_lt; eauto).
    assert (Hw : (w < n)%nat) by (rewrite <- (di_pcs s I); auto).
    assert (OK : 0 <= (if w_ok a then 0 else 12)) by (destruct (w_ok a); lia).
    destruct p as [ |x y|own id|own id|own id old|own id old en| | ]; try discriminate.
    - injection E as <-.
      change (phi (mkCst (cells s) (lupd (pcs s) w (WL1 true w)) (log s ++ map (pair w) (F x y))))
        with (phi (setpc s w (WL1 true w))).
      rewrite (phi_setpc s w _ _ Ep) by auto. simpl rank. destruct (cls_of s w); lia.
    - destruct (nth_error (cells s) id) as [c|] eqn:Ec; [|discriminate]. injection E as <-.
      assert (NC : nth id (cells s) cell0 = c) by (apply nth_error_nth; auto).
      rewrite (phi_setpc s w _ _ Ep) by (intros; destruct (0 <? nt c); auto).
      unfold rank, view, cls_of. cbn [fst snd]. rewrite NC.
      destruct (Z.ltb_spec 0 (nt c)) as [P|P].
      + rewrite NC. destruct (0 <? bud s id) eqn:EB.
        * lia.
        * destruct (Z.ltb_spec 0 (nt c)); lia.
      + destruct (Z.ltb_spec 0 (bud s id)) as [B|B]; [|lia].
        exfalso. unfold bud in B. rewrite NC in B. pose proof (pend_nonneg id (pcs s)). lia.
    - destruct (nth_error (cells s) id) as [c|] eqn:Ec; [|discriminate]. injection E as <-.
      assert (NC : nth id (cells s) cell0 = c) by (apply nth_error_nth; auto).
      rewrite (phi_setpc s w _ _ Ep) by auto. unfold rank, view. cbn [fst snd]. rewrite NC, Z.eqb_refl.
      destruct (cls_of s id); lia.
    - destruct (nth_error (cells s) id) as [c|] eqn:Ec; [|discriminate].
      assert (NC : nth id (cells s) cell0 = c) by (apply nth_error_nth; auto).
      pose proof (di_ids s I w _ id Ep eq_refl) as Hid.
      destruct (w_ok a && (lo c =? old)) eqn:EB; injection E as <-.
      + apply andb_true_iff in EB as [OKa EB]. apply Z.eqb_eq in EB. subst old. rewrite OKa.
        set (en := chunk_end step chunk c).
        set (s1 := mkCst (lupd (cells s) id (mkCell (nt c) (en - 1 + step) (hi c)))
                         (lupd (pcs s) w (WSub own id (lo c) en)) (log s)).
        assert (Lid : (id < length (cells s))%nat) by (eapply nth_error_lt; eauto).
        assert (N1 : nth id (cells s1) cell0 = mkCell (nt c) (en - 1 + step) (hi c)).
        { apply nth_error_nth. simpl. now apply nth_error_lupd_eq. }
        assert (N2 : forall i, i <> id -> nth i (cells s1) cell0 = nth i (cells s) cell0).
        { intros i Hi. simpl.
          destruct (nth_error (cells s) i) as [ci|] eqn:Ei.
          - rewrite (nth_error_nth _ _ _ Ei). apply nth_error_nth. rewrite nth_error_lupd_neq; auto.
          - rewrite !nth_overflow; auto; try rewrite lupd_length; apply nth_error_None; auto. }
        assert (B1 : bud s1 id = bud s id - 1).
        { unfold bud. rewrite N1, NC. simpl. rewrite (pend_lupd id _ w _ _ Ep). simpl.
          rewrite Nat.eqb_refl. simpl. lia. }
        assert (B2 : forall i, i <> id -> bud s1 i = bud s i).
        { intros i Hi. unfold bud. rewrite N2 by auto. simpl. rewrite (pend_lupd i _ w _ _ Ep). simpl.
          destruct (Nat.eqb_spec id i); [congruence|]. simpl. lia. }
        assert (SC : sumc (cpot s1) n = sumc (cpot s) n - cpot s id + cpot s1 id).
        { apply sumc_change; auto. intros j Hj. unfold cpot. rewrite N2, B2 by auto. reflexivity. }
        assert (LEN : length (pcs s) = n) by apply (di_pcs s I).
        destruct (di_fits s I id c Hid Ec) as [F0 F1].
        assert (BU : bud s id = nt c - pend id (pcs s)) by (unfold bud; rewrite NC; auto).
        (* cases *)
        assert (FL : b2z (negb (lo (mkCell (nt c) (en - 1 + step) (hi c)) =? hi c - 1 + step)) <=
                     b2z (negb (lo c =? hi c - 1 + step))).
        { simpl. destruct (Z.eqb_spec (lo c) (hi c - 1 + step)) as [e|e].
          - destruct (Z.eqb_spec (en - 1 + step) (hi c - 1 + step)); simpl; [lia|].
            exfalso. unfold en, chunk_end in *. nia.
          - destruct (negb _); simpl; lia. }
        assert (DR : (sumc (cpot s1) n <= sumc (cpot s) n - 1) \/
                     (sumc (cpot s1) n <= sumc (cpot s) n /\ bud s id <= 0 /\ en - 1 + step = lo c)).
        { rewrite SC. unfold cpot. rewrite B1, N1, NC. cbn [nt lo hi] in *.
          destruct (Z_le_gt_dec (bud s id) 0) as [C0|C0]; [|left; lia].
          rewrite BU in C0. specialize (F0 C0). apply len_0 in F0; auto.
          assert (EN : en = hi c) by (unfold en, chunk_end; nia).
          destruct (Z.eq_dec (lo c) (hi c - 1 + step)) as [e|e].
          - right. split; [lia|]. split; lia.
          - left. destruct (Z.eqb_spec (lo c) (hi c - 1 + step)); [lia|].
            rewrite EN, Z.eqb_refl. simpl. lia. }
        unfold phi. destruct DR as [DR|(DR & C0 & LOE)].
        * assert (sumr (view s1) (pcs s1) <= sumr (view s) (pcs s) + 11 + 11 * Z.of_nat n).
          { pose proof (sumr_bound (view s1) (view s) (pcs s1)). simpl pcs in *. rewrite lupd_length, LEN in H.
            rewrite (sumr_lupd (view s) _ w _ _ Ep) in H.
            pose proof (rank_bound (view s) (WCas own id (lo c))).
            pose proof (rank_bound (view s) (WSub own id (lo c) en)). lia. }
          unfold KK in *. nia.
        * assert (V : forall i, view s1 i = view s i).
          { intros i. unfold view, cls_of. destruct (Nat.eq_dec i id) as [->|Ni].
            - rewrite B1, N1, NC. cbn [nt lo]. rewrite LOE.
              destruct (Z.ltb_spec 0 (bud s id - 1)), (Z.ltb_spec 0 (bud s id)); try lia. reflexivity.
            - rewrite B2, N2 by auto. reflexivity. }
          rewrite (sumr_ext _ _ _ V). simpl pcs. rewrite (sumr_lupd _ _ w _ _ Ep).
          unfold rank, view. cbn [fst snd]. rewrite NC, Z.eqb_refl.
          assert (KK * sumc (cpot s1) n <= KK * sumc (cpot s) n) by (unfold KK; nia).
          destruct (cls_of s id); lia.
      + rewrite (phi_setpc s w _ _ Ep) by auto. unfold rank, view. cbn [fst snd]. rewrite NC.
        destruct (w_ok a); simpl in EB.
        * rewrite EB. destruct (cls_of s id); lia.
        * destruct (lo c =? old); destruct (cls_of s id); lia.
    - destruct (nth_error (cells s) id) as [c|] eqn:Ec; [|discriminate]. injection E as <-.
      assert (NC : nth id (cells s) cell0 = c) by (apply nth_error_nth; auto).
      pose proof (di_ids s I w _ id Ep eq_refl) as Hid.
      set (q := if old <? en then WRun old en else WSel).
      set (s1 := mkCst (lupd (cells s) id (mkCell (nt c - 1) (lo c) (hi c)))
                       (lupd (pcs s) w q) (log s)).
      assert (Q1 : forall i, is_sub i q = false) by (intros; unfold q; destruct (old <? en); auto).
      assert (Q2 : forall g, rank g q <= 7) by (intros; unfold q; destruct (old <? en); simpl; lia).
      assert (Lid : (id < length (cells s))%nat) by (eapply nth_error_lt; eauto).
      assert (N1 : nth id (cells s1) cell0 = mkCell (nt c - 1) (lo c) (hi c)).
      { apply nth_error_nth. simpl. now apply nth_error_lupd_eq. }
      assert (N2 : forall i, i <> id -> nth i (cells s1) cell0 = nth i (cells s) cell0).
      { intros i Hi. simpl.
        destruct (nth_error (cells s) i) as [ci|] eqn:Ei.
        - rewrite (nth_error_nth _ _ _ Ei). apply nth_error_nth. rewrite nth_error_lupd_neq; auto.
        - rewrite !nth_overflow; auto; try rewrite lupd_length; apply nth_error_None; auto. }
      assert (B1 : forall i, bud s1 i = bud s i).
      { intros i. unfold bud. change (pcs s1) with (lupd (pcs s) w q).
        rewrite (pend_lupd i _ w _ _ Ep), Q1. cbn [is_sub].
        destruct (Nat.eq_dec i id) as [->|Ni].
        - rewrite N1, NC, Nat.eqb_refl. simpl. lia.
        - rewrite N2 by auto. destruct (Nat.eqb_spec id i); [congruence|]. simpl. lia. }
      assert (SC : sumc (cpot s1) n = sumc (cpot s) n - cpot s id + cpot s1 id).
      { apply sumc_change; auto. intros j Hj. unfold cpot. rewrite N2, B1 by auto. reflexivity. }
      assert (LEN : length (pcs s) = n) by apply (di_pcs s I).
      unfold phi. unfold cpot at 3 4 in SC. rewrite B1, N1, NC in SC. cbn [nt lo hi] in SC.
      destruct (Z_le_gt_dec (nt c) 0) as [C0|C0].
      + assert (V : forall i, view s1 i = view s i).
        { intros i. unfold view, cls_of. rewrite B1. destruct (Nat.eq_dec i id) as [->|Ni].
          - rewrite N1, NC. cbn [nt lo].
            destruct (Z.ltb_spec 0 (nt c - 1)), (Z.ltb_spec 0 (nt c)); try lia. reflexivity.
          - rewrite N2 by auto. reflexivity. }
        rewrite (sumr_ext _ _ _ V). simpl pcs. rewrite (sumr_lupd _ _ w _ _ Ep).
        assert (CL : cls_of s id = CC).
        { unfold cls_of, bud. rewrite NC. pose proof (pend_nonneg id (pcs s)).
          destruct (Z.ltb_spec 0 (nt c - pend id (pcs s))); [lia|].
          destruct (Z.ltb_spec 0 (nt c)); [lia|reflexivity]. }
        specialize (Q2 (view s)). unfold rank at 1. unfold view at 2. cbn [fst snd]. rewrite CL.
        replace (sumc (cpot s1) n) with (sumc (cpot s) n) by lia. lia.
      + assert (sumr (view s1) (pcs s1) <= sumr (view s) (pcs s) + 11 + 11 * Z.of_nat n).
        { pose proof (sumr_bound (view s1) (view s) (pcs s1)). simpl pcs in *. rewrite lupd_length, LEN in H.
          rewrite (sumr_lupd (view s) _ w _ _ Ep) in H.
          pose proof (rank_bound (view s) (WSub own id old en)).
          pose proof (rank_bound (view s) q). lia. }
        assert (sumc (cpot s1) n <= sumc (cpot s) n - 1) by lia.
        unfold KK in *. nia.
    - destruct (nth_error (cells s) (w_victim a)) as [c|] eqn:Ec; [|discriminate]. injection E as <-.
      assert (NC : nth (w_victim a) (cells s) cell0 = c) by (apply nth_error_nth; auto).
      rewrite (phi_setpc s w _ _ Ep) by (intros; destruct (0 <? nt c); auto).
      destruct (Z.ltb_spec 0 (nt c)) as [P|P]; [|simpl; lia].
      unfold rank, view, cls_of. cbn [fst snd]. rewrite NC.
      destruct (0 <? bud s (w_victim a)); [lia|]. destruct (Z.ltb_spec 0 (nt c)); lia.
  Qed.

  Definition spurious (l : list act) : Z :=
    fold_right (fun a z => (if w_ok a then 0 else 1) + z) 0 l.

  Lemma phi_exec : forall l s s', dinv s -> exec (cstep step chunk false F) s l = Some s' ->
    phi s' + Z.of_nat (length l) <= phi s + 12 * spurious l.
  Proof.
    induction l as [|a l IH]; intros s s' I E; simpl in E.
    - injection E as <-. simpl. lia.
    - destruct (cstep step chunk false F s a) as [s1|] eqn:E1; [|discriminate].
      pose proof (phi_step s a s1 I E1). pose proof (IH s1 s' (dinv_step s a s1 I E1) E).
      simpl spurious in *. unfold spurious in *. simpl fold_right. simpl length.
      destruct (w_ok a); lia.
  Qed.

  Lemma dyn_bounded : forall spinwait l s,
    exec (cstep step chunk false F) (conc_start step spinwait u) l = Some s ->
    Z.of_nat (length l) <= phi (conc_start step spinwait u) + 12 * spurious l.
  Proof.
    intros spinwait l s E. pose proof (phi_exec l _ s (dinv_start spinwait) E).
    pose proof (phi_nonneg s). lia.
  Qed.
End Dyn.
