From Coq Require Import List Arith Bool Lia.
From Verif Require Import Base Outcome SvectorModel SvectorSpec.
Import ListNotations.

Section P.
  Context {T : Type}.
  Variable d : T.

  Record Inv (v : vec T) (l : list T) : Prop := {
    v_len : len v = length l;
    v_cap : len v <= cap v;
    v_chunk : 1 <= chunk v;
    v_null : null v = true -> cap v = 0;
    v_val : forall i x, nth_error l i = Some x -> mem v i = Some x }.

  Lemma nonnull : forall v l i, Inv v l -> i < cap v -> negb (null v) && (i <? cap v) = true.
  Proof.
    intros v l i I H. apply Nat.ltb_lt in H as H'. rewrite H'.
    destruct (null v) eqn:E; auto. rewrite (v_null _ _ I E) in H. lia.
  Qed.

  Lemma Inv_reserve : forall v l n, Inv v l -> Inv (reserve v n) l /\ cap (reserve v n) = max n (cap v) /\ len (reserve v n) = len v
     /\ mem (reserve v n) = mem v /\ chunk (reserve v n) = chunk v.
  Proof.
    intros v l n [A B C D E]. unfold reserve. destruct (Nat.leb_spec n (cap v)).
    - split; [constructor; auto|]. split; [lia|auto].
    - split; [|cbn; split; [lia|auto]]. constructor; cbn; auto; try lia; try discriminate.
  Qed.

  Lemma Inv_load : forall v l i x, Inv v l -> nth_error l i = Some x -> load v i = Done x.
  Proof.
    intros v l i x I E. assert (i < length l) by (apply nth_error_Some; congruence).
    unfold load. rewrite (nonnull v l i I) by (pose proof (v_len _ _ I); pose proof (v_cap _ _ I); lia).
    rewrite (v_val _ _ I i x E). auto.
  Qed.

  Lemma Inv_store_end : forall v l x, Inv v l -> len v < cap v ->
    exists v1, store v (len v) (Some x) = Done v1 /\ Inv (with_len v1 (len v + 1)) (l ++ [x]) /\ cap v1 = cap v.
  Proof.
    intros v l x I H. unfold store. rewrite (nonnull v l _ I H). eexists. split; [reflexivity|]. split; [|reflexivity].
    destruct I as [A B C D E]. constructor; cbn [with_len len cap null chunk mem]; auto; try lia.
    - rewrite app_length. simpl. lia.
    - intros i y. rewrite nth_error_snoc. destruct (Nat.ltb_spec i (length l)).
      + intros X. rewrite fupd_neq by lia. auto.
      + destruct (Nat.eqb_spec i (length l)); [|discriminate]. intros X. injection X as <-. subst i.
        rewrite <- A. apply fupd_eq.
  Qed.

  Lemma Inv_push : forall v l x, Inv v l -> exists v', push_back v x = Done v' /\ Inv v' (l ++ [x]) /\ cap v' >= cap v.
  Proof.
    intros v l x I. unfold push_back.
    assert (G : forall v1, Inv v1 l -> len v1 < cap v1 -> cap v1 >= cap v ->
              exists v', obind (store v1 (len v1) (Some x)) (fun v2 => Done (with_len v2 (len v1 + 1))) = Done v' /\ Inv v' (l ++ [x]) /\ cap v' >= cap v).
    { intros v1 I1 H1 H2. destruct (Inv_store_end v1 l x I1 H1) as (v2 & -> & I2 & C2). simpl.
      eexists. split; [reflexivity|]. split; auto. simpl. lia. }
    destruct (Nat.eqb_spec (len v) (cap v)) as [E|E].
    - destruct (Inv_reserve v l (cap v + chunk v) I) as (I1 & C1 & L1 & _).
      pose proof (v_chunk _ _ I). apply G; auto; lia.
    - apply G; auto. pose proof (v_cap _ _ I). lia.
  Qed.

  Lemma Inv_pop : forall v l x, Inv v (l ++ [x]) -> exists v', pop_back v = Done v' /\ Inv v' l.
  Proof.
    intros v l x I. assert (E : len v = S (length l)) by (rewrite (v_len _ _ I), app_length; simpl; lia).
    unfold pop_back. rewrite E.
    rewrite (Inv_load v _ (length l) x I) by (rewrite nth_error_app2, Nat.sub_diag by lia; auto).
    simpl. unfold store. rewrite (nonnull v _ (length l) I) by (pose proof (v_cap _ _ I); lia). simpl.
    eexists. split; [reflexivity|]. destruct I as [A B C D F]. constructor; cbn; auto; try lia.
    intros i y Hy. assert (i < length l) by (apply nth_error_Some; congruence).
    rewrite fupd_neq by lia. apply F. rewrite nth_error_app1; auto.
  Qed.

  Lemma snoc_cases : forall (l : list T), l = [] \/ exists l' x, l = l' ++ [x].
  Proof. intros l. destruct l as [|a l] using rev_ind; eauto. Qed.

  Lemma removelast_snoc : forall (l : list T) x, removelast (l ++ [x]) = l.
  Proof. intros. rewrite removelast_app by discriminate. simpl. apply app_nil_r. Qed.

  Lemma Inv_pop_n : forall n v l, Inv v l -> n <= length l -> exists v', pop_n n v = Done v' /\ Inv v' (firstn (length l - n) l).
  Proof.
    induction n as [|n IH]; intros v l I H; cbn [pop_n].
    - exists v. split; auto. rewrite Nat.sub_0_r, firstn_all. auto.
    - destruct (snoc_cases l) as [->|(l' & x & ->)]; [simpl in H; lia|].
      destruct (Inv_pop v l' x I) as (v1 & -> & I1). simpl. rewrite app_length in *. simpl in *.
      destruct (IH v1 l' I1 ltac:(lia)) as (v2 & -> & I2). exists v2. split; auto.
      rewrite firstn_app. replace (length l' + 1 - S n) with (length l' - n) by lia.
      replace (length l' - n - length l') with 0 by lia. simpl. rewrite app_nil_r. auto.
  Qed.

  Lemma Inv_fill : forall n v l, Inv v l -> length l + n <= cap v -> exists v', fill_n d n v = Done v' /\ Inv v' (l ++ repeat d n).
  Proof.
    induction n as [|n IH]; intros v l I H; cbn [fill_n].
    - exists v. simpl. rewrite app_nil_r. auto.
    - pose proof (v_len _ _ I). destruct (Inv_store_end v l d I ltac:(lia)) as (v1 & -> & I1 & C1). cbn [obind].
      destruct (IH _ _ I1) as (v2 & E2 & I2).
      { rewrite app_length. simpl. lia. }
      exists v2. split; auto. rewrite <- app_assoc in I2. exact I2.
  Qed.

  Lemma Inv_append : forall m v l, Inv v l -> exists v', append v m = Done v' /\ Inv v' (l ++ m).
  Proof.
    induction m as [|x m IH]; intros v l I; cbn [append].
    - exists v. rewrite app_nil_r. auto.
    - destruct (Inv_push v l x I) as (v1 & -> & I1 & _). simpl.
      destruct (IH _ _ I1) as (v2 & E2 & I2). exists v2. rewrite <- app_assoc in I2. auto.
  Qed.

  Lemma shift_down_spec : forall n p (m : nat -> option T) j, shift_down n p m j =
    if (p <=? j) && (j <? p + n) then m (j + 1) else m j.
  Proof.
    induction n as [|n IH]; intros p m j; cbn [shift_down].
    - destruct (Nat.leb_spec p j), (Nat.ltb_spec j (p + 0)); simpl; auto; lia.
    - rewrite IH. destruct (Nat.eq_dec j p) as [->|N].
      + replace (p + 1 <=? p) with false by (symmetry; apply Nat.leb_gt; lia). simpl.
        rewrite fupd_eq. replace (p <=? p) with true by (symmetry; apply Nat.leb_le; lia).
        replace (p <? p + S n) with true by (symmetry; apply Nat.ltb_lt; lia). auto.
      + rewrite (fupd_neq _ _ _ j) by auto.
        destruct (Nat.leb_spec (p + 1) j), (Nat.ltb_spec j (p + 1 + n)), (Nat.leb_spec p j), (Nat.ltb_spec j (p + S n)); simpl; try lia; auto.
        apply fupd_neq. lia.
  Qed.

  Lemma shift_up_spec : forall n i2 (m : nat -> option T) j, n <= i2 + 1 -> shift_up n i2 m j =
    if (i2 + 1 <? j + n) && (j <=? i2 + 1) then m (j - 1) else m j.
  Proof.
    induction n as [|n IH]; intros i2 m j H; cbn [shift_up].
    - destruct (Nat.ltb_spec (i2 + 1) (j + 0)), (Nat.leb_spec j (i2 + 1)); simpl; auto; lia.
    - destruct (Nat.eq_dec n 0) as [->|Nn].
      + cbn [shift_up]. destruct (Nat.eq_dec j (i2 + 1)) as [->|N].
        * rewrite fupd_eq. replace (i2 + 1 <? i2 + 1 + 1) with true by (symmetry; apply Nat.ltb_lt; lia).
          replace (i2 + 1 <=? i2 + 1) with true by (symmetry; apply Nat.leb_le; lia). simpl. f_equal. lia.
        * rewrite fupd_neq by auto. destruct (Nat.ltb_spec (i2 + 1) (j + 1)), (Nat.leb_spec j (i2 + 1)); simpl; auto; lia.
      + rewrite IH by lia. replace (i2 - 1 + 1) with i2 by lia.
        destruct (Nat.eq_dec j (i2 + 1)) as [->|N].
        * replace (i2 + 1 <=? i2) with false by (symmetry; apply Nat.leb_gt; lia). rewrite andb_false_r.
          rewrite fupd_eq. replace (i2 + 1 <? i2 + 1 + S n) with true by (symmetry; apply Nat.ltb_lt; lia).
          replace (i2 + 1 <=? i2 + 1) with true by (symmetry; apply Nat.leb_le; lia). simpl. f_equal. lia.
        * rewrite (fupd_neq _ _ _ j) by auto.
          destruct (Nat.ltb_spec i2 (j + n)), (Nat.leb_spec j i2), (Nat.ltb_spec (i2 + 1) (j + S n)), (Nat.leb_spec j (i2 + 1)); simpl; try lia; auto.
          apply fupd_neq. lia.
  Qed.

  Lemma nth_error_skipn' : forall (l : list T) n i, nth_error (skipn n l) i = nth_error l (n + i).
  Proof. induction l; destruct n; simpl; intros; auto. destruct i; auto. Qed.

  Lemma nth_error_firstn' : forall n (l : list T) i, nth_error (firstn n l) i = if i <? n then nth_error l i else None.
  Proof.
    induction n; destruct l; destruct i; simpl; intros; auto.
    - destruct (S i <? S n); auto.
    - rewrite IHn. reflexivity.
  Qed.

  Lemma Inv_erase : forall v l p, Inv v l -> p < length l -> exists v', erase v p = Done v' /\ Inv v' (firstn p l ++ skipn (p + 1) l).
  Proof.
    intros v l p I H. unfold erase. pose proof (v_len _ _ I) as EL. pose proof (v_cap _ _ I) as EC.
    replace (p <? len v) with true by (symmetry; apply Nat.ltb_lt; lia).
    assert (N : null v = false). { destruct (null v) eqn:E; auto. pose proof (v_null _ _ I E). lia. }
    rewrite N. replace (len v <=? cap v) with true by (symmetry; apply Nat.leb_le; lia). simpl.
    eexists. split; [reflexivity|]. destruct I as [A B C D E]. constructor; cbn [len cap chunk null mem]; auto; try lia; try discriminate.
    - rewrite app_length, firstn_length, skipn_length. lia.
    - intros i x Hx. rewrite shift_down_spec.
      destruct (Nat.lt_ge_cases i p) as [Hi|Hi].
      + rewrite nth_error_app1 in Hx by (rewrite firstn_length; lia). rewrite nth_error_firstn' in Hx.
        replace (i <? p) with true in Hx by (symmetry; apply Nat.ltb_lt; lia).
        replace (p <=? i) with false by (symmetry; apply Nat.leb_gt; lia). simpl. auto.
      + rewrite nth_error_app2 in Hx by (rewrite firstn_length; lia). rewrite firstn_length, nth_error_skipn' in Hx.
        replace (p + 1 + (i - Nat.min p (length l))) with (i + 1) in Hx by lia.
        assert (i + 1 < length l) by (apply nth_error_Some; congruence).
        replace (p <=? i) with true by (symmetry; apply Nat.leb_le; lia).
        replace (i <? p + (len v - p - 1)) with true by (symmetry; apply Nat.ltb_lt; lia). simpl. auto.
  Qed.

  Lemma Inv_insert : forall v l p x, Inv v l -> p = length l \/ (p < length l /\ length l + 1 < cap v) ->
    exists v', insert v p x = Done v' /\ Inv v' (firstn p l ++ x :: skipn p l).
  Proof.
    intros v l p x I H. unfold insert. pose proof (v_len _ _ I) as EL. pose proof (v_cap _ _ I) as EC.
    destruct (Nat.eqb_spec p (len v)) as [->|Np].
    - destruct (Inv_push v l x I) as (v' & -> & I' & _). exists v'. split; auto.
      rewrite EL, firstn_all, skipn_all. auto.
    - destruct H as [H|[H H2]]; [lia|].
      replace (p <? len v) with true by (symmetry; apply Nat.ltb_lt; lia).
      replace (len v + 1 =? cap v) with false by (symmetry; apply Nat.eqb_neq; lia).
      rewrite (nonnull v l (len v + 1) I) by lia.
      eexists. split; [reflexivity|]. destruct I as [A B C D E]. constructor; cbn [len cap chunk null mem]; auto; try lia.
      + rewrite app_length. cbn [length]. rewrite firstn_length, skipn_length. lia.
      + intros i y Hy. destruct (Nat.lt_trichotomy i p) as [Hi|[->|Hi]].
        * rewrite fupd_neq by lia. rewrite shift_up_spec by lia.
          replace (len v + 1 <? i + (len v - p + 1)) with false by (symmetry; apply Nat.ltb_ge; lia). simpl.
          rewrite nth_error_app1 in Hy by (rewrite firstn_length; lia). rewrite nth_error_firstn' in Hy.
          replace (i <? p) with true in Hy by (symmetry; apply Nat.ltb_lt; lia). auto.
        * rewrite fupd_eq. rewrite nth_error_app2 in Hy by (rewrite firstn_length; lia).
          rewrite firstn_length in Hy. replace (p - Nat.min p (length l)) with 0 in Hy by lia. simpl in Hy. auto.
        * rewrite fupd_neq by lia. rewrite shift_up_spec by lia.
          rewrite nth_error_app2 in Hy by (rewrite firstn_length; lia).
          rewrite firstn_length in Hy. replace (i - Nat.min p (length l)) with (S (i - p - 1)) in Hy by lia.
          cbn [nth_error] in Hy. rewrite nth_error_skipn' in Hy. replace (p + (i - p - 1)) with (i - 1) in Hy by lia.
          assert (i - 1 < length l) by (apply nth_error_Some; congruence).
          replace (len v + 1 <? i + (len v - p + 1)) with true by (symmetry; apply Nat.ltb_lt; lia).
          replace (i <=? len v + 1) with true by (symmetry; apply Nat.leb_le; lia). simpl. auto.
  Qed.

  Lemma Inv_append_self : forall n v l k, Inv v (l ++ firstn k l) -> k + n = length l -> length l + length l <= cap v ->
    exists v', append_self n k v = Done v' /\ Inv v' (l ++ l).
  Proof.
    induction n as [|n IH]; intros v l k I H C; cbn [append_self].
    - exists v. split; auto. replace k with (length l) in I by lia. rewrite firstn_all in I. auto.
    - destruct (nth_error l k) as [x|] eqn:E; [|apply nth_error_None in E; lia].
      rewrite (Inv_load v _ k x I) by (rewrite nth_error_app1; auto; lia). cbn [obind].
      pose proof (v_len _ _ I) as EL. rewrite app_length, firstn_length in EL.
      replace (len v =? cap v) with false by (symmetry; apply Nat.eqb_neq; lia).
      destruct (Inv_push v _ x I) as (v1 & -> & I1 & C1). cbn [obind].
      apply (IH v1 l (k + 1)); auto; try lia.
      + rewrite <- app_assoc in I1. replace (k + 1) with (S k) by lia.
        rewrite (firstn_snoc_nth _ l k x E). auto.
  Qed.

  (** Calls for which the implementation is right; [cap v] is what capacity() reports. *)
  Definition good (v : vec T) (l : list T) (o : op T) : Prop :=
    match o with
    | Insert p _ => p = length l \/ length l + 1 < cap v
    | AppendSelf => length l + length l <= cap v
    | _ => True
    end.

  Lemma step_refines : forall v l o, Inv v l -> legal l o -> good v l o ->
    exists v', step d v o = Done (v', snd (spec_step d l o)) /\ Inv v' (fst (spec_step d l o)).
  Proof.
    intros v l o I LG G. pose proof (v_len _ _ I) as EL. pose proof (v_cap _ _ I) as EC.
    destruct o; cbn [step spec_step fst snd legal good] in *; unfold upd, val.
    - destruct (Inv_push v l x I) as (v' & -> & I' & _). simpl; eauto.
    - destruct (snoc_cases l) as [->|(l' & x & ->)]; [congruence|]. rewrite removelast_snoc.
      destruct (Inv_pop v l' x I) as (v' & -> & I'). simpl; eauto.
    - destruct (snoc_cases l) as [->|(l' & x & ->)]; [congruence|].
      unfold back. rewrite EL, app_length. cbn [length]. replace (length l' + 1) with (S (length l')) by lia.
      cbn [Nat.sub]. rewrite Nat.sub_0_r.
      assert (E : nth_error (l' ++ [x]) (length l') = Some x) by (rewrite nth_error_app2, Nat.sub_diag by lia; auto).
      rewrite (Inv_load v _ _ _ I E), E. simpl; eauto.
    - destruct l as [|x l]; [congruence|]. unfold front. rewrite (Inv_load v _ 0 x I eq_refl). simpl; eauto.
    - destruct (Inv_reserve v l (i + 1) I) as (I1 & _). unfold get.
      destruct (nth_error l i) as [x|] eqn:E; [|apply nth_error_None in E; lia].
      rewrite (Inv_load _ _ _ _ I1 E). simpl; eauto.
    - destruct (Inv_erase v l p I LG) as (v' & -> & I'). simpl; eauto.
    - destruct (Inv_insert v l p x I) as (v' & -> & I'); [destruct G; auto; destruct (Nat.eq_dec p (length l)); auto; right; lia|]. simpl; eauto.
    - destruct (Inv_reserve v l n I) as (I1 & _). simpl; eauto.
    - unfold resize. destruct (Nat.leb_spec n (len v)).
      + destruct (Inv_pop_n (len v - n) v l I ltac:(lia)) as (v' & -> & I').
        replace (length l - (len v - n)) with n in I' by lia. replace (n - length l) with 0 by lia.
        simpl. rewrite app_nil_r. eauto.
      + destruct (Inv_reserve v l n I) as (I1 & C1 & L1 & _).
        destruct (Inv_fill (n - len v) _ l I1 ltac:(lia)) as (v' & -> & I').
        rewrite EL in *. rewrite firstn_all2 by lia. simpl; eauto.
    - unfold clear. destruct (Inv_pop_n (len v) v l I ltac:(lia)) as (v' & -> & I').
      replace (length l - len v) with 0 in I' by lia. simpl; eauto.
    - rewrite EL. eauto.
    - unfold assign, clear. destruct (Inv_pop_n (len v) v l I ltac:(lia)) as (v1 & -> & I1).
      replace (length l - len v) with 0 in I1 by lia. cbn [obind firstn] in *.
      destruct (Inv_append l0 v1 [] I1) as (v' & -> & I'). simpl; eauto.
    - destruct (Inv_append l0 v l I) as (v' & -> & I'). simpl; eauto.
    - destruct (Inv_append_self (len v) v l 0) as (v' & -> & I'); auto; try lia.
      + rewrite app_nil_r. auto.
      + simpl; eauto.
  Qed.

  Lemma Inv_mk : forall ck, Inv (mk ck) [].
  Proof.
    intros ck. unfold mk. apply Inv_reserve. constructor; cbn; auto.
    - destruct (Nat.eqb_spec ck 0); lia.
    - intros i x E. destruct i; discriminate.
  Qed.

  Lemma Inv_copy : forall ck l, 1 <= ck -> exists v, copy ck l = Done v /\ Inv v l.
  Proof.
    intros ck l H. destruct l as [|x l].
    - eexists. split; [reflexivity|]. apply Inv_reserve. constructor; cbn; auto. intros i y E. destruct i; discriminate.
    - unfold copy. destruct (Inv_append (x :: l) (Vec false (fun _ => None) 0 0 ck) []) as (v & E & I); [|eauto].
      constructor; cbn; auto; try discriminate. intros i y E. destruct i; discriminate.
  Qed.

  (** Histories: legality is judged on the specification, [good] on the capacity actually reported. *)
  Fixpoint good_run (v : vec T) (l : list T) (os : list (op T)) : Prop :=
    match os with
    | [] => True
    | o :: os' => legal l o /\ good v l o /\
        forall v' r, step d v o = Done (v', r) -> good_run v' (fst (spec_step d l o)) os'
    end.

  Lemma svector_run : forall os v l, Inv v l -> good_run v l os ->
    exists v', orun (step d) v os = Done (v', snd (srun (spec_step d) l os)).
  Proof.
    induction os as [|o os IH]; intros v l I A; simpl in *; [eauto|].
    destruct A as (LG & G & A). destruct (step_refines v l o I LG G) as (v1 & E & I1).
    specialize (A _ _ E). rewrite E. cbn [obind]. destruct (spec_step d l o) as [l1 r]. cbn [fst snd] in *.
    destruct (IH v1 l1 I1 A) as (v2 & E2). rewrite E2. cbn [obind]. destruct (srun (spec_step d) l1 os). cbn [snd]. eauto.
  Qed.

  Lemma svector_no_insert : forall os ck, allowed (spec_step d) (fun l o => legal l o /\
      match o with Insert p _ => p = length l | AppendSelf => l = [] | _ => True end) [] os ->
    exists v', orun (step d) (mk ck) os = Done (v', snd (srun (spec_step d) [] os)).
  Proof.
    intros os ck A.
    match type of A with allowed _ ?pre _ _ =>
      destruct (orun_refines (step d) (spec_step d) pre Inv) with (l := os) (s := mk (T:=T) ck) (q := @nil T) as (s' & E & _)
    end; eauto.
    - intros s q o I [LG C]. apply step_refines; auto. destruct o; simpl; auto. subst. simpl. lia.
    - apply Inv_mk.
  Qed.
End P.
