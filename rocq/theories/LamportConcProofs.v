From Coq Require Import List Arith Lia.
From Verif Require Import Base SpscSeqModel SpscSeqProofs LamportConcModel.
Import ListNotations.

Section Pf.
Context {A : Type}.
Variable n : nat.
Hypothesis Hn : 2 <= n.
Notation st := (st A).

Lemma pushes_app : forall t u : list (event A), pushes (t ++ u) = pushes t ++ pushes u.
Proof. induction t as [|[] t IH]; simpl; intros; rewrite ?IH; auto. Qed.
Lemma pops_app : forall t u : list (event A), pops (t ++ u) = pops t ++ pops u.
Proof. induction t as [|[] t IH]; simpl; intros; rewrite ?IH; auto. Qed.

Definition R (s : st) := length (pops (tr s)).
Definition W (s : st) := length (pub s).

Record inv (s : st) : Prop := {
  i_le : R s <= W s;
  i_cap : W s < R s + n;
  i_slots : forall i, R s <= i -> i < W s -> slots s (i mod n) = nth_error (pub s) i;
  i_pw : pw s = W s mod n;
  i_pr : pr s = R s mod n;
  i_st : match pp s with
         | PSt _ nx => W s + 1 < R s + n /\ nx = (W s + 1) mod n
         | PInc x nx => W s + 1 < R s + n /\ nx = (W s + 1) mod n /\ slots s (W s mod n) = Some x
         | _ => True end;
  i_rd : match cp s with
         | CRd => R s < W s
         | CInc d => R s < W s /\ d = nth_error (pub s) (R s)
         | _ => True end;
  i_pushes : pushes (tr s) = pub s;
  i_pops : pops (tr s) = map (@Some A) (firstn (R s) (pub s))
}.

Lemma inv_init : inv init_st.
Proof.
  constructor; unfold R, W; simpl; auto; try lia; now rewrite Nat.mod_0_l by lia.
Qed.

Lemma wrap_next : forall k, wrap n (k mod n) = (k + 1) mod n.
Proof.
  intros. rewrite wrap_mod by (apply Nat.mod_upper_bound; lia).
  now rewrite Nat.add_mod_idemp_l by lia.
Qed.

Lemma inv_step : forall s a s', inv s -> step n s a = Some s' -> inv s'.
Proof.
  intros [sl w r p c pb t] a s' H E. destruct H; unfold R, W in *; simpl in *.
  destruct a as [x| | |]; simpl in E.
  - destruct p; try discriminate. injection E as <-. constructor; unfold R, W; simpl; auto.
  - destruct c; try discriminate. injection E as <-. constructor; unfold R, W; simpl; auto.
  - destruct p as [|x|x nx|x nx]; try discriminate.
    + destruct (Nat.eqb_spec (wrap n w) r) as [e|ne]; injection E as <-;
        constructor; unfold R, W; simpl; rewrite ?pops_app, ?pushes_app; simpl;
        rewrite ?app_nil_r; auto.
      subst w. rewrite wrap_next in *. split; auto.
      destruct (Nat.eq_dec (length pb + 1) (length (pops t) + n)) as [e|]; [|lia].
      exfalso. apply ne. rewrite e, mod_add_n by lia. auto.
    + injection E as <-. destruct i_st0 as [L ->].
      constructor; unfold R, W; simpl; auto.
      * intros i H1 H2. unfold fupd. subst w.
        destruct (Nat.eqb_spec (i mod n) (length pb mod n)) as [e|]; auto.
        apply (mod_inj_window n) in e; lia.
      * repeat split; auto. subst w. apply fupd_eq.
    + injection E as <-. destruct i_st0 as (L & -> & Hx).
      constructor; unfold R, W; simpl; rewrite ?pops_app, ?pushes_app; simpl;
        rewrite ?app_nil_r, ?app_length; simpl; auto; try lia.
      * intros i H1 H2. rewrite nth_error_snoc.
        destruct (Nat.ltb_spec i (length pb)); auto.
        destruct (Nat.eqb_spec i (length pb)) as [->|]; auto. lia.
      * destruct c; auto; try lia. destruct i_rd0. split; [lia|].
        rewrite nth_error_app1; auto.
      * now rewrite i_pushes0.
      * rewrite firstn_app_le by lia. auto.
  - destruct c as [| | |d]; try discriminate.
    + destruct (Nat.eqb_spec w r) as [e|ne]; injection E as <-;
        constructor; unfold R, W; simpl; rewrite ?pops_app, ?pushes_app; simpl;
        rewrite ?app_nil_r; auto.
      destruct (Nat.eq_dec (length (pops t)) (length pb)) as [e|]; [|lia].
      exfalso. apply ne. subst. now rewrite e.
    + injection E as <-. constructor; unfold R, W; simpl; auto.
      split; auto. subst r. apply i_slots0; lia.
    + injection E as <-. destruct i_rd0 as [L D].
      constructor; unfold R, W; simpl; rewrite ?pops_app, ?pushes_app; simpl;
        rewrite ?app_nil_r, ?app_length; simpl; auto; try lia.
      * intros i H1 H2. apply i_slots0; lia.
      * subst r. apply wrap_next.
      * destruct p; auto; destruct i_st0 as [? H]; (split; [lia|auto]).
      * rewrite i_pops0 at 1. rewrite Nat.add_1_r.
        destruct (nth_error pb (length (pops t))) as [y|] eqn:Ey.
        -- subst d. rewrite (firstn_snoc_nth _ _ _ _ Ey), map_app. reflexivity.
        -- apply nth_error_None in Ey. lia.
Qed.

Lemma inv_reach : forall l s, exec (step n) init_st l = Some s -> inv s.
Proof. intros l s. apply exec_inv; [apply inv_step|apply inv_init]. Qed.

Lemma fifo : forall l (s : st), exec (step n) init_st l = Some s ->
  prefix (pops (tr s)) (map (@Some A) (pushes (tr s))) /\
  length (pushes (tr s)) <= length (pops (tr s)) + (n - 1) /\ pw s < n /\ pr s < n.
Proof.
  intros l s H. apply inv_reach in H. destruct H. unfold R, W in *.
  rewrite i_pw0, i_pr0.
  repeat split; try (apply Nat.mod_upper_bound; lia).
  - rewrite i_pops0 at 1. rewrite i_pushes0.
    destruct (prefix_firstn _ (length (pops (tr s))) (pub s)) as [x Hx].
    exists (map (@Some A) x). rewrite <- map_app. f_equal. exact Hx.
  - rewrite i_pushes0. lia.
Qed.
End Pf.
