From Coq Require Import List Arith Lia.
From Verif Require Import Base SpscSeqModel SpscSeqProofs SpscConcModel.
Import ListNotations.

Section Pf.
Context {A : Type}.
Variable n : nat.
Hypothesis Hn : 1 <= n.
Notation st := (st A).

Lemma pushes_app : forall t u : list (event A), pushes (t ++ u) = pushes t ++ pushes u.
Proof. induction t as [|[] t IH]; simpl; intros; rewrite ?IH; auto. Qed.
Lemma pops_app : forall t u : list (event A), pops (t ++ u) = pops t ++ pops u.
Proof. induction t as [|[] t IH]; simpl; intros; rewrite ?IH; auto. Qed.

Definition pushing (s : st) := match pp s with PInc _ => 1 | _ => 0 end.
Definition popping (s : st) := match cp s with CInc _ => 1 | _ => 0 end.

Record inv (s : st) : Prop := {
  i_le : taken s <= length (stored s);
  i_cap : length (stored s) <= taken s + n;
  i_full : forall i, taken s <= i -> i < taken s + n -> slots s (i mod n) = nth_error (stored s) i;
  i_pw : exists k, k + pushing s = length (stored s) /\ pw s = k mod n;
  i_pr : exists k, k + popping s = taken s /\ pr s = k mod n;
  i_st : match pp s with PSt _ => length (stored s) < taken s + n
                       | PInc x => nth_error (stored s) (length (stored s) - 1) = Some x /\ stored s <> []
                       | _ => True end;
  i_rd : match cp s with CRd => taken s < length (stored s)
                       | CClr d => taken s < length (stored s) /\ d = nth_error (stored s) (taken s)
                       | CInc d => 1 <= taken s /\ d = nth_error (stored s) (taken s - 1)
                       | _ => True end;
  i_pushes : pushes (tr s) = firstn (length (stored s) - pushing s) (stored s);
  i_pops : pops (tr s) = map (@Some A) (firstn (taken s - popping s) (stored s))
}.

Lemma inv_init : inv init_st.
Proof.
  constructor; unfold pushing, popping; simpl; auto; try lia.
  - intros i _ _. destruct i; reflexivity.
  - exists 0. split; auto. now rewrite Nat.mod_0_l by lia.
  - exists 0. split; auto. now rewrite Nat.mod_0_l by lia.
Qed.

Lemma nth_firstn_app : forall (l : list A) x k, k <= length l ->
  firstn k (l ++ [x]) = firstn k l.
Proof. intros; apply firstn_app_le; auto. Qed.

Lemma inv_step : forall s a s', inv s -> step n s a = Some s' -> inv s'.
Proof.
  intros [sl w r p c sto tk t] a s' H E. destruct H; simpl in *.
  unfold pushing, popping in *; simpl in *.
  destruct a as [x| | |]; simpl in E.
  - (* CallPush *)
    destruct p; try discriminate. injection E as <-.
    constructor; unfold pushing, popping; simpl; auto.
  - destruct c; try discriminate. injection E as <-.
    constructor; unfold pushing, popping; simpl; auto.
  - (* P *)
    destruct p as [|x|x|x]; try discriminate.
    + (* PChk *)
      destruct i_pw0 as (k & Ek & Ew).
      destruct (sl w) eqn:Es; injection E as <-; constructor; unfold pushing, popping; simpl; eauto.
      * rewrite pushes_app, i_pushes0. simpl. now rewrite app_nil_r.
      * rewrite pops_app, i_pops0. simpl. now rewrite app_nil_r.
      * (* room *)
        destruct (Nat.eq_dec (length sto) (tk + n)) as [e|]; [|lia].
        exfalso. subst w. replace k with (tk + n) in Es by lia.
        rewrite mod_add_n in Es by lia.
        rewrite i_full0 in Es by lia.
        apply nth_error_None in Es. lia.
    + (* PSt *)
      injection E as <-.
      destruct i_pw0 as (k & Ek & Ew). rewrite Nat.add_0_r in Ek.
      constructor; unfold pushing, popping; simpl; eauto; try lia.
      * rewrite app_length; simpl; lia.
      * rewrite app_length; simpl; lia.
      * intros i H1 H2. rewrite nth_error_snoc. unfold fupd.
        destruct (Nat.eqb_spec (i mod n) w) as [e|ne].
        -- subst w. assert (i = length sto).
           { rewrite Ek in e. destruct (Nat.le_gt_cases i (length sto)).
             - apply (mod_inj_window n); auto; lia.
             - symmetry. apply (mod_inj_window n); auto; lia. }
           subst i. now rewrite Nat.ltb_irrefl, Nat.eqb_refl.
        -- rewrite i_full0 by auto.
           destruct (Nat.ltb_spec i (length sto)); auto.
           destruct (Nat.eqb_spec i (length sto)); [congruence|].
           apply nth_error_None; lia.
      * exists k. rewrite app_length; simpl. split; auto; lia.
      * rewrite app_length, nth_error_snoc; simpl.
        replace (length sto + 1 - 1) with (length sto) by lia.
        rewrite Nat.ltb_irrefl, Nat.eqb_refl. split; auto.
        destruct sto; discriminate.
      * destruct c; auto.
        -- rewrite app_length; lia.
        -- destruct i_rd0. split; [rewrite app_length; lia|].
           rewrite nth_error_app1; auto.
        -- destruct i_rd0. split; auto. rewrite nth_error_app1; auto. lia.
      * rewrite app_length; simpl. rewrite Nat.add_sub.
        rewrite firstn_app_le, i_pushes0 by lia. now rewrite Nat.sub_0_r.
      * rewrite firstn_app_le by lia. auto.
    + (* PInc *)
      injection E as <-.
      destruct i_pw0 as (k & Ek & Ew). destruct i_st0 as [Hx Hne].
      constructor; unfold pushing, popping; simpl; eauto.
      * exists (S k). split; [lia|]. subst w.
        rewrite wrap_mod by (apply Nat.mod_upper_bound; lia).
        rewrite Nat.add_mod_idemp_l by lia. f_equal; lia.
      * rewrite pushes_app, i_pushes0. simpl.
        rewrite <- (firstn_snoc_nth _ _ _ _ Hx).
        f_equal. lia.
      * rewrite pops_app, i_pops0. simpl. now rewrite app_nil_r.
  - (* C *)
    destruct c as [| | |d|d]; try discriminate.
    + destruct i_pr0 as (k & Ek & Er). rewrite Nat.add_0_r in Ek. subst k r.
      rewrite i_full0 in E by lia.
      destruct (nth_error sto tk) eqn:Es; injection E as <-; constructor; unfold pushing, popping; simpl; eauto.
      * eapply nth_error_lt; eauto.
      * rewrite pushes_app, i_pushes0. simpl. now rewrite app_nil_r.
      * rewrite pops_app, i_pops0. simpl. now rewrite app_nil_r.
    + injection E as <-. destruct i_pr0 as (k & Ek & Er).
      rewrite Nat.add_0_r in Ek. subst k r.
      constructor; unfold pushing, popping; simpl; eauto.
      * split; auto. apply i_full0; lia.
    + injection E as <-. destruct i_pr0 as (k & Ek & Er). destruct i_rd0 as [L D].
      rewrite Nat.add_0_r in Ek. subst k r.
      constructor; unfold pushing, popping; simpl; eauto; try lia.
      * intros i H1 H2. unfold fupd.
        destruct (Nat.eqb_spec (i mod n) (tk mod n)) as [e|ne].
        -- destruct (Nat.eq_dec i (tk + n)) as [->|].
           ++ symmetry; apply nth_error_None; lia.
           ++ symmetry in e. apply (mod_inj_window n) in e; lia.
        -- destruct (Nat.eq_dec i (tk + n)) as [->|].
           ++ exfalso; apply ne. apply mod_add_n; auto.
           ++ apply i_full0; lia.
      * exists tk; split; auto; lia.
      * destruct p; auto; lia.
      * split; [lia|]. simpl. rewrite Nat.sub_0_r. auto.
    + injection E as <-. destruct i_pr0 as (k & Ek & Er). destruct i_rd0 as [L D].
      constructor; unfold pushing, popping; simpl; eauto.
      * exists (S k). split; [lia|]. subst r.
        rewrite wrap_mod by (apply Nat.mod_upper_bound; lia).
        rewrite Nat.add_mod_idemp_l by lia. f_equal; lia.
      * rewrite pushes_app, i_pushes0. simpl. now rewrite app_nil_r.
      * rewrite pops_app, i_pops0. simpl.
        destruct (nth_error sto (tk - 1)) as [y|] eqn:Ey.
        -- subst d. replace (tk - 0) with (S (tk - 1)) by lia.
           rewrite (firstn_snoc_nth _ _ _ _ Ey), map_app. reflexivity.
        -- apply nth_error_None in Ey. lia.
Qed.

Lemma inv_reach : forall l s, exec (step n) init_st l = Some s -> inv s.
Proof. intros l s. apply exec_inv; [apply inv_step|apply inv_init]. Qed.

Lemma fifo : forall l s, exec (step n) init_st l = Some s ->
  prefix (pushes (tr s)) (stored s) /\ length (stored s) <= length (pushes (tr s)) + 1 /\
  prefix (pops (tr s)) (map (@Some A) (stored s)) /\
  length (pops (tr s)) <= taken s <= length (stored s) /\
  length (stored s) <= taken s + n /\ pw s < n /\ pr s < n.
Proof.
  intros l s H. apply inv_reach in H. destruct H.
  destruct i_pw0 as (k & _ & ->), i_pr0 as (k' & _ & ->).
  rewrite i_pushes0, i_pops0.
  assert (pushing s <= 1) by (unfold pushing; destruct (pp s); lia).
  repeat split; try (apply Nat.mod_upper_bound; lia); auto.
  - apply prefix_firstn.
  - rewrite firstn_length. lia.
  - destruct (prefix_firstn _ (taken s - popping s) (stored s)) as [x Hx].
    exists (map (@Some A) x). rewrite <- map_app. f_equal. exact Hx.
  - rewrite map_length, firstn_length. lia.
Qed.

Lemma fail_empty : forall l (s : st) s', exec (step n) init_st l = Some s ->
  step n s C = Some s' -> tr s' = tr s ++ [EPopEmpty] -> taken s = length (stored s).
Proof.
  intros l s s' H E T. apply inv_reach in H. destruct H. unfold popping in *.
  simpl in E. destruct (cp s) eqn:Ec; try discriminate.
  - destruct i_pr0 as (k & Ek & Er). rewrite Nat.add_0_r in Ek. subst k.
    rewrite Er, i_full0 in E by lia.
    destruct (nth_error (stored s) (taken s)) eqn:En; injection E as <-; simpl in T.
    + rewrite <- app_nil_r in T at 1. apply app_inv_head in T. discriminate.
    + apply nth_error_None in En. lia.
  - injection E as <-; simpl in T. rewrite <- app_nil_r in T at 1. apply app_inv_head in T. discriminate.
  - injection E as <-; simpl in T. rewrite <- app_nil_r in T at 1. apply app_inv_head in T. discriminate.
  - injection E as <-; simpl in T. apply app_inv_head in T. discriminate.
Qed.

Lemma fail_full : forall l (s : st) s' x, exec (step n) init_st l = Some s ->
  step n s P = Some s' -> tr s' = tr s ++ [EPushFull x] -> length (stored s) = taken s + n.
Proof.
  intros l s s' x H E T. apply inv_reach in H. destruct H. unfold pushing in *.
  simpl in E. destruct (pp s) eqn:Ec; try discriminate.
  - destruct i_pw0 as (k & Ek & Er). rewrite Nat.add_0_r in Ek. subst k.
    rewrite Er in E.
    destruct (slots s (length (stored s) mod n)) eqn:En; injection E as <-; simpl in T.
    + destruct (Nat.eq_dec (length (stored s)) (taken s + n)); auto.
      rewrite i_full0 in En by lia. apply nth_error_lt in En. lia.
    + rewrite <- app_nil_r in T at 1. apply app_inv_head in T. discriminate.
  - injection E as <-; simpl in T. rewrite <- app_nil_r in T at 1. apply app_inv_head in T. discriminate.
  - injection E as <-; simpl in T. apply app_inv_head in T. discriminate.
Qed.

(** Steps a call in progress still needs. *)
Definition pleft (s : st) := match pp s with PIdle => 0 | PChk _ => 3 | PSt _ => 2 | PInc _ => 1 end.
Definition cleft (s : st) := match cp s with CIdle => 0 | CChk => 4 | CRd => 3 | CClr _ => 2 | CInc _ => 1 end.

Lemma wait_free : forall s : st,
  (pp s <> PIdle -> exists s', step n s P = Some s' /\ pleft s' < pleft s) /\
  (cp s <> CIdle -> exists s', step n s C = Some s' /\ cleft s' < cleft s) /\
  (forall s', step n s C = Some s' -> pp s' = pp s) /\
  (forall s', step n s P = Some s' -> cp s' = cp s).
Proof.
  intros [sl w r p c sto tk t]; unfold pleft, cleft; simpl. repeat split.
  - intro H. destruct p; try congruence; try (destruct (sl w)); eexists; split; eauto; simpl; lia.
  - intro H. destruct c; try congruence; try (destruct (sl r)); eexists; split; eauto; simpl; lia.
  - intros s'. destruct c; try discriminate; try destruct (sl r); intro E; injection E as <-; auto.
  - intros s'. destruct p; try discriminate; try destruct (sl w); intro E; injection E as <-; auto.
Qed.
End Pf.

Section Cor.
Context {A : Type}.
Variable n : nat.
Hypothesis Hn : 1 <= n.

Definition pend (s : st A) : list A := match pp s with PInc x => [x] | _ => [] end.

Lemma stored_eq : forall l (s : st A), exec (step n) init_st l = Some s ->
  stored s = pushes (tr s) ++ pend s.
Proof.
  intros l s H. apply (inv_reach n Hn) in H. destruct H. rewrite i_pushes0.
  unfold pushing, pend in *. destruct (pp s) eqn:E;
    try (rewrite Nat.sub_0_r, firstn_all, app_nil_r; reflexivity).
  destruct i_st0 as [Hx Hne].
  rewrite <- (firstn_snoc_nth _ _ _ _ Hx).
  replace (S (length (stored s) - 1)) with (length (stored s)).
  - now rewrite firstn_all.
  - destruct (stored s); [congruence|simpl; lia].
Qed.

Lemma fifo_api : forall l (s : st A), exec (step n) init_st l = Some s ->
  prefix (pops (tr s)) (map (@Some A) (pushes (tr s) ++ pend s)) /\
  (cp s = CIdle -> length (pushes (tr s) ++ pend s) <= length (pops (tr s)) + n) /\
  (pp s = PIdle -> length (pops (tr s)) <= length (pushes (tr s))) /\ pw s < n /\ pr s < n.
Proof.
  intros l s H. rewrite <- (stored_eq l s H).
  pose proof (fifo n Hn l s H) as (F1 & F2 & F3 & F4 & F5 & F6 & F7).
  pose proof (stored_eq l s H) as SE.
  apply (inv_reach n Hn) in H. destruct H.
  repeat split; auto.
  - intro Ec. rewrite i_pops0, map_length, firstn_length. unfold popping. rewrite Ec. lia.
  - intro Ep. unfold pend in SE. rewrite Ep, app_nil_r in SE. rewrite <- SE. lia.
Qed.
End Cor.
