From Coq Require Import List Arith Lia Bool.
From Verif Require Import Base SpscSeqModel SpscSeqProofs SpscTsoModel.
Import ListNotations.

Section Pf.
Variable n : nat.
Hypothesis Hn : 1 <= n.

Lemma pushes_app : forall t u, pushes (t ++ u) = pushes t ++ pushes u.
Proof. induction t as [|[] t IH]; simpl; intros; rewrite ?IH; auto. Qed.
Lemma pops_app : forall t u, pops (t ++ u) = pops t ++ pops u.
Proof. induction t as [|[] t IH]; simpl; intros; rewrite ?IH; auto. Qed.

(** Slot stores and payload addresses in a store buffer. *)
Fixpoint slot_stores (b : list store) : list (nat * option nat) :=
  match b with [] => [] | SSlot i v :: b' => (i, v) :: slot_stores b' | _ :: b' => slot_stores b' end.
Fixpoint pay_addrs (b : list store) : list nat :=
  match b with [] => [] | SPay a _ :: b' => a :: pay_addrs b' | _ :: b' => pay_addrs b' end.
(** Payload memory after the buffer has drained. *)
Fixpoint view (b : list store) (m : nat -> nat) : nat -> nat :=
  match b with [] => m | SPay a v :: b' => view b' (fupd m a v) | _ :: b' => view b' m end.

Lemma slot_stores_app : forall b c, slot_stores (b ++ c) = slot_stores b ++ slot_stores c.
Proof. induction b as [|[] b IH]; simpl; intros; rewrite ?IH; auto. Qed.
Lemma pay_addrs_app : forall b c, pay_addrs (b ++ c) = pay_addrs b ++ pay_addrs c.
Proof. induction b as [|[] b IH]; simpl; intros; rewrite ?IH; auto. Qed.
Lemma view_app : forall b c m, view (b ++ c) m = view c (view b m).
Proof. induction b as [|[] b IH]; simpl; intros; rewrite ?IH; auto. Qed.

Lemma view_notin : forall b m a, ~ In a (pay_addrs b) -> view b m a = m a.
Proof.
  induction b as [|[] b IH]; simpl; intros m a0 H; auto.
  rewrite IH by tauto. apply fupd_neq. intuition.
Qed.

Lemma fwd_none : forall b i, fwd b i = None -> forall v, ~ In (i, v) (slot_stores b).
Proof.
  induction b as [|[j w|a0 v0] b IH]; simpl; intros i H v; auto.
  destruct (fwd b i) eqn:E; [discriminate|].
  destruct (Nat.eqb_spec j i); [discriminate|].
  intros [K|K]; [congruence|]. eapply IH; eauto.
Qed.

Lemma fwd_some : forall b i v, fwd b i = Some v -> In (i, v) (slot_stores b).
Proof.
  induction b as [|[j w|a0 v0] b IH]; simpl; intros i v H; auto; try discriminate.
  destruct (fwd b i) eqn:E.
  - right. apply IH. congruence.
  - destruct (Nat.eqb_spec j i); [|discriminate]. left. congruence.
Qed.

Definition addr (s : st) (i : nat) : option nat := nth_error (map fst (stored s)) i.

Definition pushing (s : st) := match pp s with PInc _ _ => 1 | _ => 0 end.
Definition popping (s : st) := match cp s with CInc _ => 1 | _ => 0 end.
Definition popping2 (s : st) := match cp s with CInc _ => 1 | CUse _ => 1 | _ => 0 end.

(** After the store of address [a] no payload store to [a] is pending. *)
Fixpoint published (b : list store) : Prop :=
  match b with
  | [] => True
  | SSlot _ (Some a) :: b' => ~ In a (pay_addrs b') /\ published b'
  | _ :: b' => published b'
  end.

Lemma published_snoc_slot : forall b i v, published b -> published (b ++ [SSlot i v]).
Proof.
  induction b as [|[j w|a w] b IH]; intros i v H; simpl in *.
  - destruct v; simpl; auto.
  - destruct w; [|auto]. destruct H. split; auto.
    rewrite pay_addrs_app. simpl. now rewrite app_nil_r.
  - auto.
Qed.

Lemma published_snoc_pay : forall b a v, published b ->
  (forall i, ~ In (i, Some a) (slot_stores b)) -> published (b ++ [SPay a v]).
Proof.
  induction b as [|[j w|a' w] b IH]; intros a v H N; simpl in *; auto.
  - destruct w as [a'|].
    + destruct H. split.
      * rewrite pay_addrs_app. simpl. rewrite in_app_iff. simpl.
        intros [K|[K|[]]]; auto. subst. apply (N j). auto.
      * apply IH; auto. intros i K. apply (N i). auto.
    + apply IH; auto. intros i K. apply (N i). auto.
Qed.

Record inv (s : st) (RM WM : nat) : Prop := {
  i_rm : RM <= taken s;
  i_wm : taken s <= WM;
  i_w : WM <= length (stored s);
  i_cap : length (stored s) <= RM + n;
  i_cb : cbuf s = map (fun i => SSlot (i mod n) None) (seq RM (taken s - RM));
  i_pb : slot_stores (pbuf s) = map (fun i => (i mod n, addr s i)) (seq WM (length (stored s) - WM));
  i_mem : forall i, RM <= i -> i < WM -> slots s (i mod n) = addr s i;
  i_mem0 : forall i, WM <= i -> i < RM + n -> slots s (i mod n) = None;
  i_pw : exists k, k + pushing s = length (stored s) /\ pw s = k mod n;
  i_pr : exists k, k + popping s = taken s /\ pr s = k mod n;
  i_pub : published (pbuf s);
  i_old : forall i a, i < WM -> addr s i = Some a -> ~ In a (pay_addrs (pbuf s));
  i_view : forall a v, In (a, v) (stored s) -> view (pbuf s) (pay s) a = v;
  i_st : match pp s with
         | PIdle => True
         | PPay a v => ~ In a (map fst (stored s))
         | PChk a v => ~ In a (map fst (stored s)) /\ view (pbuf s) (pay s) a = v
         | PSt a v => ~ In a (map fst (stored s)) /\ view (pbuf s) (pay s) a = v /\
                      length (stored s) < RM + n
         | PInc a v => nth_error (stored s) (length (stored s) - 1) = Some (a, v) /\ stored s <> []
         end;
  i_rd : match cp s with
         | CRd => taken s < WM
         | CClr d => taken s < WM /\ d = addr s (taken s)
         | CInc d | CUse d => 1 <= taken s /\ d = addr s (taken s - 1)
         | _ => True end;
  i_pushes : pushes (tr s) = firstn (length (stored s) - pushing s) (stored s);
  i_pops : pops (tr s) = map (@Some _) (firstn (taken s - popping2 s) (stored s))
}.

Lemma inv_init : inv init_st 0 0.
Proof.
  constructor; simpl; auto; try lia.
  - exists 0. split; auto. now rewrite Nat.mod_0_l by lia.
  - exists 0. split; auto. now rewrite Nat.mod_0_l by lia.
Qed.

Lemma fresh_notin : forall a l, fresh a l = true -> ~ In a (map fst l).
Proof.
  intros a l H K. unfold fresh in H. apply negb_true_iff in H.
  apply in_map_iff in K. destruct K as ((a', v) & E & K). simpl in E. subst.
  assert (existsb (fun p => fst p =? a) l = true); [|congruence].
  apply existsb_exists. exists (a, v). split; auto. simpl. apply Nat.eqb_refl.
Qed.

Lemma addr_snoc : forall (sto : list (nat * nat)) p i, i < length sto ->
  nth_error (map fst (sto ++ [p])) i = nth_error (map fst sto) i.
Proof. intros. rewrite map_app, nth_error_app1; auto. now rewrite map_length. Qed.

Lemma inv_step : forall s a s' RM WM, inv s RM WM -> step n s a = Some s' ->
  exists RM' WM', inv s' RM' WM'.
Proof.
  intros [sl py pb cb w r p c sto tk t] act s' RM WM H E. destruct H; simpl in *.
  unfold pushing, popping, popping2, addr in *; simpl in *.
  destruct act as [a v| | | | |]; simpl in E.
  - (* CallPush *)
    destruct p; try discriminate. destruct (fresh a sto) eqn:F; [|discriminate].
    injection E as <-. exists RM, WM.
    constructor; unfold pushing, popping, popping2, addr; simpl; auto.
    now apply fresh_notin.
  - destruct c; try discriminate. injection E as <-. exists RM, WM.
    constructor; unfold pushing, popping, popping2, addr; simpl; auto.
  - (* P *)
    destruct p as [|a v|a v|a v|a v]; try discriminate.
    + (* PPay *)
      injection E as <-. exists RM, WM.
      assert (NA : forall i, nth_error (map fst sto) i <> Some a).
      { intros i K. apply nth_error_In in K. auto. }
      constructor; unfold pushing, popping, popping2, addr; simpl; auto.
      * rewrite slot_stores_app. simpl. now rewrite app_nil_r.
      * apply published_snoc_pay; auto.
        rewrite i_pb0. intros i K. apply in_map_iff in K. destruct K as (j & Ej & _).
        injection Ej as _ Ej. now apply (NA j).
      * intros i a0 Hi Ha. rewrite pay_addrs_app. simpl. rewrite in_app_iff. simpl.
        intros [K|[K|[]]]; [eapply i_old0; eauto|]. subst. eapply NA; eauto.
      * intros a0 v0 Hin. rewrite view_app. simpl. rewrite fupd_neq; [auto|].
        intros ->. apply i_st0. apply (in_map fst) in Hin. exact Hin.
      * split; auto. rewrite view_app. simpl. apply fupd_eq.
    + (* PChk *)
      destruct (load pb sl w) eqn:EL; injection E as <-; exists RM, WM;
        constructor; unfold pushing, popping, popping2, addr; simpl; auto.
      * rewrite pushes_app, i_pushes0. simpl. now rewrite app_nil_r.
      * rewrite pops_app, i_pops0. simpl. now rewrite app_nil_r.
      * destruct i_st0 as [F V]. repeat split; auto.
        destruct (Nat.eq_dec (length sto) (RM + n)) as [e|]; [|lia]. exfalso.
        destruct i_pw0 as (k & Ek & Ew). rewrite Nat.add_0_r in Ek. subst k w.
        unfold load in EL. destruct (fwd pb (length sto mod n)) as [u|] eqn:EF.
        -- subst u. apply fwd_some in EF. rewrite i_pb0 in EF.
           apply in_map_iff in EF. destruct EF as (j & Ej & Hj).
           injection Ej as _ Ej. apply in_seq in Hj.
           apply nth_error_None in Ej. rewrite map_length in Ej. lia.
        -- rewrite e, mod_add_n in EL by lia.
           destruct (Nat.eq_dec RM WM) as [->|].
           ++ apply fwd_none with (v := nth_error (map fst sto) WM) in EF.
              apply EF. rewrite i_pb0. apply in_map_iff. exists WM. split.
              ** rewrite e, mod_add_n by lia. reflexivity.
              ** apply in_seq. lia.
           ++ rewrite i_mem1 in EL by lia. apply nth_error_None in EL.
              rewrite map_length in EL. lia.
    + (* PSt *)
      injection E as <-. exists RM, WM.
      destruct i_st0 as (F & V & L).
      destruct i_pw0 as (k & Ek & Ew). rewrite Nat.add_0_r in Ek. subst k w.
      constructor; unfold pushing, popping, popping2, addr; simpl; auto.
      * rewrite app_length; lia.
      * rewrite app_length; simpl; lia.
      * rewrite slot_stores_app, i_pb0, app_length. simpl.
        replace (length sto + 1 - WM) with (S (length sto - WM)) by lia.
        rewrite seq_S, map_app. simpl. f_equal.
        -- apply map_ext_in. intros j Hj. apply in_seq in Hj. f_equal.
           symmetry. apply addr_snoc. lia.
        -- replace (WM + (length sto - WM)) with (length sto) by lia.
           rewrite map_app, nth_error_app2; rewrite map_length; auto.
           rewrite Nat.sub_diag. reflexivity.
      * intros i H1 H2. rewrite addr_snoc by lia. auto.
      * exists (length sto). rewrite app_length; simpl. auto.
      * apply published_snoc_slot; auto.
      * intros i a0 H1 H2. rewrite addr_snoc in H2 by lia.
        rewrite pay_addrs_app. simpl. rewrite app_nil_r. eauto.
      * intros a0 v0 K. rewrite view_app. simpl. apply in_app_iff in K.
        destruct K as [K|[K|[]]]; [auto|]. injection K as <- <-; auto.
      * rewrite app_length; simpl.
        rewrite nth_error_snoc. replace (length sto + 1 - 1) with (length sto) by lia.
        rewrite Nat.ltb_irrefl, Nat.eqb_refl. split; auto. destruct sto; discriminate.
      * destruct c; auto; destruct i_rd0; split; auto; rewrite addr_snoc; auto; lia.
      * rewrite app_length; simpl. rewrite Nat.add_sub.
        rewrite firstn_app_le, i_pushes0 by lia. now rewrite Nat.sub_0_r.
      * rewrite firstn_app_le by (destruct c; lia). auto.
    + (* PInc *)
      injection E as <-. exists RM, WM.
      destruct i_pw0 as (k & Ek & Ew). destruct i_st0 as [Hx Hne].
      constructor; unfold pushing, popping, popping2, addr; simpl; auto.
      * exists (S k). split; [lia|]. subst w.
        rewrite wrap_mod by (apply Nat.mod_upper_bound; lia).
        rewrite Nat.add_mod_idemp_l by lia. f_equal; lia.
      * rewrite pushes_app, i_pushes0. simpl.
        rewrite <- (firstn_snoc_nth _ _ _ _ Hx). f_equal. lia.
      * rewrite pops_app, i_pops0. simpl. now rewrite app_nil_r.
  - (* C *)
    destruct c as [| | |d|d|d]; try discriminate.
    + (* CChk *)
      destruct i_pr0 as (k & Ek & Er). rewrite Nat.add_0_r in Ek. subst k r.
      destruct (load cb sl (tk mod n)) eqn:EL; injection E as <-; exists RM, WM;
        constructor; unfold pushing, popping, popping2, addr; simpl; auto.
      * exists tk; split; auto.
      * unfold load in EL.
        destruct (fwd cb (tk mod n)) as [u|] eqn:EF.
        -- subst u. apply fwd_some in EF. rewrite i_cb0 in EF.
           exfalso. clear -EF. induction (seq RM (tk - RM)); simpl in *; [auto|].
           destruct EF as [K|K]; [discriminate|auto].
        -- destruct (Nat.eq_dec tk WM) as [e|]; [|lia].
           exfalso. destruct (Nat.eq_dec tk (RM + n)) as [e'|].
           ++ apply fwd_none with (v := None) in EF. apply EF.
              rewrite i_cb0.
              assert (HI : In RM (seq RM (tk - RM))) by (apply in_seq; lia).
              clear -HI e' Hn. revert HI. generalize (seq RM (tk - RM)). intros l HI.
              subst tk. rewrite mod_add_n by auto.
              induction l; simpl in *; [tauto|]. destruct HI as [->|HI]; auto.
           ++ rewrite i_mem2 in EL by lia. discriminate.
      * exists tk; split; auto.
      * rewrite pushes_app, i_pushes0. simpl. now rewrite app_nil_r.
      * rewrite pops_app, i_pops0. simpl. now rewrite app_nil_r.
    + (* CRd *)
      injection E as <-. exists RM, WM.
      destruct i_pr0 as (k & Ek & Er). rewrite Nat.add_0_r in Ek. subst k r.
      constructor; unfold pushing, popping, popping2, addr; simpl; auto.
      * exists tk; split; auto.
      * split; auto. unfold load.
        destruct (fwd cb (tk mod n)) as [u|] eqn:EF; [|apply i_mem1; lia].
        apply fwd_some in EF. exfalso.
        assert (K : exists j, In j (seq RM (tk - RM)) /\ tk mod n = j mod n).
        { rewrite i_cb0 in EF. clear -EF. revert EF. generalize (tk mod n). intros q.
          induction (seq RM (tk - RM)); simpl; [tauto|].
          intros [K|K]; [injection K as <- _; eauto|].
          destruct (IHl K) as (j & ? & ?). eauto. }
        destruct K as (j & Hj & Ej). apply in_seq in Hj.
        symmetry in Ej. apply (mod_inj_window n) in Ej; lia.
    + (* CClr *)
      injection E as <-. exists RM, WM.
      destruct i_pr0 as (k & Ek & Er). rewrite Nat.add_0_r in Ek. subst k r.
      destruct i_rd0 as [L D].
      constructor; unfold pushing, popping, popping2, addr; simpl; auto; try lia.
      * rewrite i_cb0. replace (match RM with 0 => S tk | S l => tk - l end) with (S (tk - RM)) by (destruct RM; lia).
        rewrite seq_S, map_app. simpl. do 4 f_equal. lia.
      * exists tk. split; auto. lia.
      * split; [lia|]. rewrite Nat.sub_0_r. auto.
    + (* CInc *)
      injection E as <-. exists RM, WM.
      destruct i_pr0 as (k & Ek & Er).
      constructor; unfold pushing, popping, popping2, addr; simpl; auto.
      exists (S k). split; [lia|]. subst r.
      rewrite wrap_mod by (apply Nat.mod_upper_bound; lia).
      rewrite Nat.add_mod_idemp_l by lia. f_equal; lia.
    + (* CUse *)
      injection E as <-. exists RM, WM. destruct i_rd0 as [L D].
      constructor; unfold pushing, popping, popping2, addr; simpl; auto.
      * rewrite pushes_app, i_pushes0. simpl. now rewrite app_nil_r.
      * rewrite pops_app, i_pops0. simpl.
        destruct (nth_error sto (tk - 1)) as [[a v]|] eqn:Ey.
        -- assert (Ea : nth_error (map fst sto) (tk - 1) = Some a)
             by (rewrite nth_error_map, Ey; reflexivity).
           rewrite D, Ea.
           replace (tk - 0) with (S (tk - 1)) by lia.
           rewrite (firstn_snoc_nth _ _ _ _ Ey), map_app. simpl. do 5 f_equal.
           rewrite <- (i_view0 a v) by (eapply nth_error_In; eauto).
           symmetry. apply view_notin. apply (i_old0 (tk - 1)); auto. lia.
        -- apply nth_error_None in Ey. lia.
  - (* DrainP *)
    destruct pb as [|[i v|a v] b]; try discriminate.
    + (* slot store reaches memory *)
      injection E as <-. exists RM, (S WM). simpl in *.
      destruct (length sto - WM) as [|m] eqn:EM; [discriminate|].
      simpl in i_pb0. injection i_pb0 as Ei Ev Eb.
      assert (LT : WM < length sto) by lia.
      assert (ND : exists a, nth_error (map fst sto) WM = Some a).
      { destruct (nth_error (map fst sto) WM) eqn:K; eauto.
        apply nth_error_None in K. rewrite map_length in K. lia. }
      destruct ND as (a & Ea). rewrite Ea in Ev. subst v.
      destruct i_pub0 as [NP PB].
      constructor; unfold pushing, popping, popping2, addr; simpl; auto; try lia.
      * rewrite Eb. f_equal. f_equal. lia.
      * intros j H1 H2. unfold fupd. subst i.
        destruct (Nat.eqb_spec (j mod n) (WM mod n)) as [e|ne].
        -- apply (mod_inj_window n) in e; try lia. subst j. auto.
        -- destruct (Nat.eq_dec j WM); [congruence|]. apply i_mem1; lia.
      * intros j H1 H2. unfold fupd. subst i.
        destruct (Nat.eqb_spec (j mod n) (WM mod n)) as [e|ne].
        -- symmetry in e. apply (mod_inj_window n) in e; lia.
        -- apply i_mem2; lia.
      * intros j a0 H1 H2. destruct (Nat.eq_dec j WM) as [->|].
        -- rewrite Ea in H2. injection H2 as <-. auto.
        -- apply (i_old0 j); auto. lia.
      * destruct c; auto; try lia; destruct i_rd0; split; auto; lia.
    + (* payload store reaches memory *)
      injection E as <-. exists RM, WM. simpl in *.
      constructor; unfold pushing, popping, popping2, addr; simpl; auto.
      intros i a0 H1 H2 K. apply (i_old0 i a0); auto.
  - (* DrainC *)
    destruct (tk - RM) as [|m] eqn:EM; simpl in i_cb0; subst cb; [discriminate|].
    injection E as <-. exists (S RM), WM.
    constructor; unfold pushing, popping, popping2, addr; simpl; auto; try lia.
    * f_equal. f_equal. destruct tk; lia.
    * intros j H1 H2. unfold fupd.
      destruct (Nat.eqb_spec (j mod n) (RM mod n)) as [e|ne].
      -- symmetry in e. apply (mod_inj_window n) in e; lia.
      -- apply i_mem1; lia.
    * intros j H1 H2. unfold fupd.
      destruct (Nat.eqb_spec (j mod n) (RM mod n)) as [e|ne]; auto.
      destruct (Nat.eq_dec j (RM + n)) as [->|].
      -- rewrite mod_add_n in ne by auto. congruence.
      -- apply i_mem2; lia.
    * destruct p; auto. intuition; lia.
Qed.

Lemma inv_reach : forall l s, exec (step n) init_st l = Some s -> exists RM WM, inv s RM WM.
Proof.
  intros l s. apply (exec_inv (step n) (fun s => exists RM WM, inv s RM WM)).
  - intros s0 a s' (RM & WM & H) E. eapply inv_step; eauto.
  - exists 0, 0. apply inv_init.
Qed.

Lemma fifo : forall l s, exec (step n) init_st l = Some s ->
  prefix (pushes (tr s)) (stored s) /\ length (stored s) <= length (pushes (tr s)) + 1 /\
  prefix (pops (tr s)) (map (@Some _) (stored s)) /\
  length (pops (tr s)) <= taken s <= length (stored s) /\
  length (stored s) <= taken s + n /\ pw s < n /\ pr s < n.
Proof.
  intros l s H. apply inv_reach in H. destruct H as (RM & WM & H). destruct H.
  destruct i_pw0 as (k & _ & ->), i_pr0 as (k' & _ & ->).
  rewrite i_pushes0, i_pops0.
  assert (pushing s <= 1) by (unfold pushing; destruct (pp s); lia).
  repeat split; try (apply Nat.mod_upper_bound; lia); auto; try lia.
  - apply prefix_firstn.
  - rewrite firstn_length. lia.
  - destruct (prefix_firstn _ (taken s - popping2 s) (stored s)) as [x Hx].
    exists (map (@Some _) x). rewrite <- map_app. f_equal. exact Hx.
  - rewrite map_length, firstn_length. lia.
Qed.
End Pf.

Section Cor.
Variable n : nat.
Hypothesis Hn : 1 <= n.

Definition pend (s : st) : list (nat * nat) := match pp s with PInc a v => [(a, v)] | _ => [] end.

Lemma stored_eq : forall l s, exec (step n) init_st l = Some s ->
  stored s = pushes (tr s) ++ pend s.
Proof.
  intros l s H. apply (inv_reach n Hn) in H. destruct H as (RM & WM & H). destruct H.
  rewrite i_pushes0.
  unfold pushing, pend in *. destruct (pp s) eqn:E;
    try (rewrite Nat.sub_0_r, firstn_all, app_nil_r; reflexivity).
  destruct i_st0 as [Hx Hne].
  rewrite <- (firstn_snoc_nth _ _ _ _ Hx).
  replace (S (length (stored s) - 1)) with (length (stored s)).
  - now rewrite firstn_all.
  - destruct (stored s); [congruence|simpl; lia].
Qed.

Lemma fifo_api : forall l s, exec (step n) init_st l = Some s ->
  prefix (pops (tr s)) (map (@Some _) (pushes (tr s) ++ pend s)) /\
  (cp s = CIdle -> length (pushes (tr s) ++ pend s) <= length (pops (tr s)) + n) /\
  pw s < n /\ pr s < n.
Proof.
  intros l s H. rewrite <- (stored_eq l s H).
  pose proof (fifo n Hn l s H) as (F1 & F2 & F3 & F4 & F5 & F6 & F7).
  apply (inv_reach n Hn) in H. destruct H as (RM & WM & H). destruct H.
  repeat split; auto.
  intro Ec. rewrite i_pops0, map_length, firstn_length. unfold popping2. rewrite Ec. lia.
Qed.
End Cor.
