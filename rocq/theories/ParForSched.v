(** Dynamic scheduling with the scheduler thread: every index exactly once, no deadlock. *)
From Coq Require Import List ZArith Lia Bool Permutation.
From Verif Require Import Base ParForSpec ParForModel ParForLoop ParForInit ParForStatic ParForDyn.
Import ListNotations.
Local Open Scope Z_scope.

Lemma sumnt_lupd : forall l i c c', nth_error l i = Some c ->
  sumnt (lupd l i c') = sumnt l - nt c + nt c'.
Proof.
  induction l as [|a l IH]; destruct i; simpl; intros c c' E; try discriminate.
  - injection E as ->. lia.
  - rewrite (IH i c c' E). lia.
Qed.

Definition qlen {X} (l : list (list X)) : Z := fold_right (fun q a => Z.of_nat (length q) + a) 0 l.

Lemma qlen_lupd : forall X (l : list (list X)) i q q', nth_error l i = Some q ->
  qlen (lupd l i q') = qlen l - Z.of_nat (length q) + Z.of_nat (length q').
Proof.
  unfold qlen. induction l as [|a l IH]; destruct i; simpl; intros q q' E; try discriminate.
  - injection E as ->. lia.
  - rewrite (IH i q q' E). lia.
Qed.

Lemma qlen_nonneg : forall X (l : list (list X)), 0 <= qlen l.
Proof. unfold qlen. induction l; simpl; lia. Qed.

Lemma qlen_0 : forall X (l : list (list X)) q, qlen l = 0 -> In q l -> q = [].
Proof.
  induction l as [|a l IH]; intros q H I; [destruct I|]. pose proof (qlen_nonneg X l) as N.
  change (qlen (a :: l)) with (Z.of_nat (length a) + qlen l) in H. destruct I as [->|I].
  - destruct q; auto. simpl length in H. lia.
  - apply IH; auto. lia.
Qed.

Lemma qlen_pos : forall X (l : list (list X)), 1 <= qlen l -> exists w x q, nth_error l w = Some (x :: q).
Proof.
  unfold qlen. induction l as [|a l IH]; simpl; intros H; [lia|].
  destruct a as [|x a].
  - destruct IH as (w & x & q & E); [simpl in H; lia|]. exists (S w), x, q. auto.
  - exists 0%nat, x, a. auto.
Qed.

Lemma sumnt_zero : forall l, (forall c, In c l -> 0 <= nt c) -> sumnt l = 0 ->
  forall c, In c l -> nt c = 0.
Proof.
  induction l as [|a l IH]; simpl; intros H S c I; [tauto|].
  assert (0 <= sumnt l).
  { clear - H. induction l; simpl; [lia|]. assert (0 <= nt a0) by (apply H; simpl; auto).
    assert (0 <= sumnt l) by (apply IHl; intros; apply H; simpl in *; tauto). lia. }
  pose proof (H a (or_introl eq_refl)). destruct I as [->|I]; [lia|]. apply IH; auto. lia.
Qed.

Lemma sumnt_nonneg : forall l, (forall c, In c l -> 0 <= nt c) -> 0 <= sumnt l.
Proof.
  induction l as [|a l IH]; simpl; intros H; [lia|].
  pose proof (H a (or_introl eq_refl)). assert (0 <= sumnt l) by auto. lia.
Qed.

Lemma max_from_spec : forall l i best bv pre,
  length pre = i -> (best < i)%nat -> nt (nth best pre cell0) = bv ->
  (forall c, In c pre -> nt c <= bv) ->
  let m := max_from l i best bv in
  (m < i + length l)%nat /\ forall c, In c (pre ++ l) -> nt c <= nt (nth m (pre ++ l) cell0).
Proof.
  induction l as [|a l IH]; intros i best bv pre L B V A; simpl.
  - rewrite app_nil_r. split; [lia|]. intros c I. rewrite V. auto.
  - destruct (Z.ltb_spec bv (nt a)) as [P|P].
    + specialize (IH (S i) i (nt a) (pre ++ [a])). rewrite <- app_assoc in IH. simpl in IH.
      destruct IH as [X Y].
      * rewrite app_length. simpl. lia.
      * lia.
      * rewrite app_nth2, <- L, Nat.sub_diag by lia. reflexivity.
      * intros c I. apply in_app_or in I as [I|[->|[]]]; [|lia]. specialize (A c I). lia.
      * split; [lia|exact Y].
    + specialize (IH (S i) best bv (pre ++ [a])). rewrite <- app_assoc in IH. simpl in IH.
      destruct IH as [X Y].
      * rewrite app_length. simpl. lia.
      * lia.
      * rewrite app_nth1 by lia. auto.
      * intros c I. apply in_app_or in I as [I|[->|[]]]; [auto|lia].
      * split; [lia|exact Y].
Qed.

Lemma max_element_spec : forall l, l <> [] ->
  (max_element l < length l)%nat /\ forall c, In c l -> nt c <= nt (nth (max_element l) l cell0).
Proof.
  intros [|a l] H; [congruence|]. unfold max_element.
  destruct (max_from_spec l 1 0 (nt a) [a]) as [X Y]; simpl; auto; try lia.
  intros c [->|[]]; lia.
Qed.

Definition rng (step : Z) (t : Z * Z) : list Z := loop (fst t) (snd t) step.

Section Sch.
  Variables (step chunk first last : Z) (n : nat) (data0 : list cell).
  Hypothesis Hs : 1 <= step.
  Hypothesis Hc : 1 <= chunk.
  Hypothesis Hn : (1 <= n <= length data0)%nat.
  Hypothesis Hgood : forall i c, (i < n)%nat -> nth_error data0 i = Some c -> goodc step chunk c.
  Hypothesis Hcover : flat_map (rem step) (firstn n data0) = loop first last step.
  Hypothesis Hstale : forall i c, (n <= i)%nat -> nth_error data0 i = Some c -> nt c <= 0.

  Notation F := (body_plain step).

  (** Table invariant. *)
  Record tinv (d : list cell) : Prop := {
    ti_len : length d = length data0;
    ti_stale : forall i, (n <= i)%nat -> nth_error d i = nth_error data0 i;
    ti_fits : forall i c, (i < n)%nat -> nth_error d i = Some c ->
                0 <= nt c /\ fits chunk (len (lo c) (hi c) step) (nt c) }.

  Lemma tinv_take : forall d id c, tinv d -> (id < n)%nat -> nth_error d id = Some c -> 0 < nt c ->
    let en := chunk_end step chunk c in
    let d' := lupd d id (mkCell (nt c - 1) (en - 1 + step) (hi c)) in
    tinv d' /\ sumnt (firstn n d') = sumnt (firstn n d) - 1 /\
    (forall z, (cnt (rng step (lo c, en)) z + cnt (flat_map (rem step) (firstn n d')) z =
                cnt (flat_map (rem step) (firstn n d)) z)%nat).
  Proof.
    intros d id c [L O Fi] Hid Ec P en d'.
    assert (Lid : (id < length d)%nat) by (eapply nth_error_lt; eauto).
    destruct (chunk_split step chunk (lo c) (hi c) Hs Hc) as (S1 & S2 & S3).
    change (Z.min (lo c + ((chunk - 1) * step + 1)) (hi c)) with en in S1, S2, S3.
    split; [|split].
    - constructor; unfold d'.
      + rewrite lupd_length; auto.
      + intros i Hi. rewrite nth_error_lupd_neq by lia. auto.
      + intros i c' Hi E. rewrite nth_error_lupd in E. destruct (Nat.eqb_spec id i) as [<-|]; [|eauto].
        destruct (id <? length d)%nat; [|discriminate]. injection E as <-. simpl. split; [lia|].
        rewrite S3. apply fits_take; auto using len_nonneg. apply (Fi id c Hid Ec).
    - unfold d'. rewrite firstn_lupd by auto. rewrite (sumnt_lupd _ id c).
      + simpl. lia.
      + rewrite nth_error_firstn_lt; auto.
    - intros z. unfold d'. rewrite firstn_lupd by auto.
      pose proof (cnt_flat_lupd _ (rem step) (firstn n d) id c
                    (mkCell (nt c - 1) (en - 1 + step) (hi c)) z) as Y.
      rewrite nth_error_firstn_lt in Y by auto. specialize (Y Ec).
      assert (R : cnt (rem step c) z = (cnt (loop (lo c) en step) z +
                  cnt (rem step (mkCell (nt c - 1) (en - 1 + step) (hi c))) z)%nat).
      { unfold rem at 1. rewrite S1, cnt_app. reflexivity. }
      unfold rng. simpl fst. simpl snd. lia.
  Qed.

  Lemma tinv_nth : forall d i, tinv d -> (i < length d)%nat -> nth_error d i = Some (nth i d cell0).
  Proof. intros. apply nth_error_nth'. auto. Qed.

  Lemma tinv_pos : forall d i, tinv d -> 0 < nt (nth i d cell0) -> (i < n)%nat.
  Proof.
    intros d i T P. destruct (Nat.ltb_spec i n); auto.
    destruct (Nat.ltb_spec i (length d)).
    - pose proof (tinv_nth d i T H0) as E. rewrite (ti_stale d T) in E by auto.
      apply Hstale in E; auto. lia.
    - rewrite nth_overflow in P by auto. simpl in P. lia.
  Qed.

  Lemma next_task_spec : forall d m wid d' m' t, tinv d -> (wid < n)%nat ->
    next_task step chunk wid d m = (d', m', t) ->
    tinv d' /\
    match t with
    | Some r => sumnt (firstn n d') = sumnt (firstn n d) - 1 /\
        (forall z, (cnt (rng step r) z + cnt (flat_map (rem step) (firstn n d')) z =
                    cnt (flat_map (rem step) (firstn n d)) z)%nat)
    | None => d' = d /\ sumnt (firstn n d) = 0
    end.
  Proof.
    intros d m wid d' m' t T Hw E. unfold next_task in E.
    assert (LD : (n <= length d)%nat) by (rewrite (ti_len d T); lia).
    assert (FROM : forall id mm, (0 < nt (nth id d cell0)) ->
      (let '(d1, t1) := take_from step chunk id d in (d1, mm, Some t1)) = (d', m', t) ->
      tinv d' /\ match t with
       | Some r => sumnt (firstn n d') = sumnt (firstn n d) - 1 /\
          (forall z, (cnt (rng step r) z + cnt (flat_map (rem step) (firstn n d')) z =
                    cnt (flat_map (rem step) (firstn n d)) z)%nat)
       | None => d' = d /\ sumnt (firstn n d) = 0 end).
    { intros id mm P E0. unfold take_from in E0. injection E0 as <- <- <-.
      pose proof (tinv_pos d id T P) as Hid.
      pose proof (tinv_nth d id T ltac:(lia)) as Ei.
      destruct (tinv_take d id _ T Hid Ei P) as (A & B & C). auto. }
    assert (L2 : (if 0 <? nt (nth (max_element d) d cell0)
                  then let '(d1, t1) := take_from step chunk (max_element d) d in
                       (d1, Some (max_element d), Some t1)
                  else (d, Some (max_element d), None)) = (d', m', t) ->
      tinv d' /\ match t with
       | Some r => sumnt (firstn n d') = sumnt (firstn n d) - 1 /\
          (forall z, (cnt (rng step r) z + cnt (flat_map (rem step) (firstn n d')) z =
                    cnt (flat_map (rem step) (firstn n d)) z)%nat)
       | None => d' = d /\ sumnt (firstn n d) = 0 end).
    { destruct (Z.ltb_spec 0 (nt (nth (max_element d) d cell0))) as [P|P]; [apply FROM; auto|].
      intros E0. injection E0 as <- <- <-. split; [auto|]. split; [auto|].
      destruct (max_element_spec d) as [_ MX]; [intros ->; simpl in LD; lia|].
      assert (A : forall c, In c (firstn n d) -> nt c = 0).
      { intros c I. apply In_nth_error in I as [i Ei].
        assert (Hi : (i < n)%nat).
        { apply nth_error_lt in Ei. rewrite firstn_length in Ei. lia. }
        rewrite nth_error_firstn_lt in Ei by auto.
        pose proof (proj1 (ti_fits d T i c Hi Ei)). apply nth_error_In in Ei.
        specialize (MX c Ei). lia. }
      clear - A. induction (firstn n d) as [|c l IH]; simpl; auto.
      rewrite (A c), IH; simpl in *; auto. }
    destruct (Z.eqb_spec (nt (nth wid d cell0)) 0) as [Z0|NZ]; simpl in E.
    - destruct m as [mm|].
      + destruct (Z.ltb_spec 0 (nt (nth mm d cell0))) as [P|P]; [exact (FROM mm _ P E)|apply L2; auto].
      + apply L2; auto.
    - pose proof (tinv_nth d wid T ltac:(lia)) as Ei.
      pose proof (proj1 (ti_fits d T wid _ Hw Ei)). apply (FROM wid m); [lia|exact E].
  Qed.

  Definition qcnt (wq : list (list (Z * Z))) (z : Z) : nat :=
    cnt (flat_map (flat_map (rng step)) wq) z.

  Record hinv (s : sst) : Prop := {
    hi_tab : tinv (d_cells s);
    hi_wq : length (d_wq s) = n;
    hi_fb : length (d_fb s) = n;
    hi_eos : length (d_eos s) = n;
    hi_sum : d_left s = sumnt (firstn n (d_cells s)) + qlen (d_wq s) + qlen (d_fb s);
    hi_cnt : forall z, (cnt (map snd (d_log s)) z + qcnt (d_wq s) z +
               cnt (flat_map (rem step) (firstn n (d_cells s))) z = cnt (loop first last step) z)%nat;
    hi_log : forall e, In e (d_log s) -> (fst e < n)%nat;
    hi_out : d_out s = true -> d_left s = 0;
    hi_live : d_out s = false -> 1 <= d_left s;
    hi_work : d_out s = false -> forall w, (w < n)%nat ->
        sumnt (firstn n (d_cells s)) = 0 \/ nth w (d_wq s) [] <> [] \/ nth w (d_fb s) [] <> [] }.

  Lemma firstn_In_nth : forall (d : list cell) c, In c (firstn n d) ->
    exists i, (i < n)%nat /\ nth_error d i = Some c.
  Proof.
    intros d c I. apply In_nth_error in I as [i Ei].
    assert (Hi : (i < n)%nat).
    { apply nth_error_lt in Ei. rewrite firstn_length in Ei. lia. }
    rewrite nth_error_firstn_lt in Ei by auto. eauto.
  Qed.

  Lemma tinv_sum_nonneg : forall d, tinv d -> 0 <= sumnt (firstn n d).
  Proof.
    intros d T. apply sumnt_nonneg. intros c I. apply firstn_In_nth in I as (i & Hi & Ei).
    apply (ti_fits d T i c Hi Ei).
  Qed.

  Lemma nth_lupd_eq : forall X (l : list X) i x d, (i < length l)%nat -> nth i (lupd l i x) d = x.
  Proof. intros. apply nth_error_nth. now apply nth_error_lupd_eq. Qed.
  Lemma nth_lupd_neq : forall X (l : list X) i j x d, i <> j -> nth j (lupd l i x) d = nth j l d.
  Proof.
    induction l as [|a l IH]; destruct i, j; simpl; intros; auto; try congruence.
  Qed.

  Lemma hinv_step : forall s a s', hinv s -> sstep step chunk F s a = Some s' -> hinv s'.
  Proof.
    intros s a s' I E. destruct I. destruct a as [w|w]; simpl in E.
    - destruct (nth_error (d_wq s) w) as [[|[x y] q]|] eqn:Ew; try discriminate.
      injection E as <-.
      assert (Hw : (w < n)%nat) by (rewrite <- hi_wq0; eapply nth_error_lt; eauto).
      destruct (nth_error (d_fb s) w) as [fq|] eqn:Ef; [|apply nth_error_None in Ef; lia].
      assert (NF : nth w (d_fb s) [] = fq) by (apply nth_error_nth; auto).
      constructor; simpl; auto.
      + rewrite lupd_length; auto.
      + rewrite lupd_length; auto.
      + rewrite (qlen_lupd _ _ w _ q Ew), (qlen_lupd _ _ w _ _ Ef), NF, app_length. simpl length. lia.
      + intros z. pose proof (cnt_flat_lupd _ (flat_map (rng step)) (d_wq s) w _ q z Ew) as X.
        simpl in X. rewrite cnt_app in X. rewrite <- (hi_cnt0 z).
        rewrite map_app, map_map, cnt_app. simpl. rewrite map_id. unfold qcnt, body_plain.
        change (rng step (x, y)) with (loop x y step) in X. lia.
      + intros e He. apply in_app_or in He as [He|He]; [auto|].
        apply in_map_iff in He as (r & <- & _). auto.
      + intros Ho v Hv. destruct (hi_work0 Ho v Hv) as [W|W]; [auto|]. right.
        destruct (Nat.eq_dec w v) as [<-|Nv].
        * right. rewrite nth_lupd_eq by lia. destruct (nth w (d_fb s) []); discriminate.
        * rewrite !nth_lupd_neq by auto. auto.
    - destruct (d_out s) eqn:Eo; [discriminate|].
      destruct (nth_error (d_fb s) w) as [[|t0 q]|] eqn:Ew; try discriminate.
      assert (Hw : (w < n)%nat) by (rewrite <- hi_fb0; eapply nth_error_lt; eauto).
      specialize (hi_live0 eq_refl). specialize (hi_work0 eq_refl).
      pose proof (qlen_lupd _ _ w _ q Ew) as QL. simpl length in QL.
      pose proof (tinv_sum_nonneg _ hi_tab0). pose proof (qlen_nonneg _ (d_wq s)).
      pose proof (qlen_nonneg _ (lupd (d_fb s) w q)).
      destruct (Z.leb_spec (d_left s - 1) 0) as [LE|GT].
      + injection E as <-. constructor; simpl; auto.
        * rewrite lupd_length; auto.
        * rewrite lupd_length; auto.
        * lia.
        * intros _. lia.
        * discriminate.
        * discriminate.
      + destruct (next_task step chunk w (d_cells s) (d_maxid s)) as [[d m] t] eqn:EN.
        apply next_task_spec in EN; auto. destruct EN as [TD EN].
        destruct (nth_error (d_wq s) w) as [wq|] eqn:Eq; [|apply nth_error_None in Eq; lia].
        assert (NQ : nth w (d_wq s) [] = wq) by (apply nth_error_nth; auto).
        destruct t as [r|]; injection E as <-.
        * destruct EN as [SM CT]. constructor; simpl; auto.
          -- rewrite lupd_length; auto.
          -- rewrite lupd_length; auto.
          -- rewrite (qlen_lupd _ _ w _ _ Eq), NQ, app_length. simpl length. lia.
          -- intros z. pose proof (cnt_flat_lupd _ (flat_map (rng step)) (d_wq s) w _ (wq ++ [r]) z Eq) as X.
             rewrite flat_map_app, cnt_app in X. simpl in X. rewrite app_nil_r in X.
             rewrite <- (hi_cnt0 z), NQ. unfold qcnt. specialize (CT z). lia.
          -- discriminate.
          -- intros _. lia.
          -- intros _ v Hv. destruct (Nat.eq_dec w v) as [<-|Nv].
             ++ right; left. rewrite nth_lupd_eq by lia. destruct (nth w (d_wq s) []); discriminate.
             ++ rewrite !nth_lupd_neq by auto.
                destruct (hi_work0 v Hv) as [W|W]; [|auto]. exfalso.
                pose proof (tinv_sum_nonneg d TD). lia.
        * destruct EN as [-> SM]. constructor; simpl; auto.
          -- rewrite lupd_length; auto.
          -- rewrite lupd_length; auto.
          -- lia.
          -- discriminate.
          -- intros _. lia.
  Qed.

  Lemma push_round_length : forall wq l, length (push_round wq l) = length wq.
  Proof. induction wq as [|q wq IH]; destruct l as [|[t|] l]; simpl; auto. Qed.

  (** What one sendTask round does to table and queues. *)
  Lemma send_round_ok : forall k i d d' l, tinv d -> (i + k <= n)%nat ->
    send_round step chunk k i d = (d', l) ->
    tinv d' /\ length l = k /\
    forall pre wq, length pre = i -> length wq = k ->
      sumnt (firstn n d') + qlen (pre ++ push_round wq l) = sumnt (firstn n d) + qlen (pre ++ wq) /\
      (forall z, (qcnt (push_round wq l) z + cnt (flat_map (rem step) (firstn n d')) z =
                  qcnt wq z + cnt (flat_map (rem step) (firstn n d)) z)%nat).
  Proof.
    induction k as [|k IH]; intros i d d' l T Hk E; simpl in E.
    - injection E as <- <-. split; [auto|]. split; [auto|]. intros pre wq Hp Hq.
      destruct wq; [|simpl in Hq; lia]. simpl. auto.
    - assert (LD : (n <= length d)%nat) by (rewrite (ti_len d T); lia).
      pose proof (tinv_nth d i T ltac:(lia)) as Ei.
      set (c := nth i d cell0) in *.
      destruct (Z.ltb_spec 0 (nt c)) as [P|P].
      + destruct (tinv_take d i c T ltac:(lia) Ei P) as (T1 & SM & CT).
        set (en := chunk_end step chunk c) in *.
        destruct (send_round step chunk k (S i) _) as [d1 l1] eqn:E1. injection E as <- <-.
        destruct (IH (S i) _ d1 l1 T1 ltac:(lia) E1) as (T2 & L2 & R2).
        split; [auto|]. split; [simpl; auto|]. intros pre wq Hp Hq.
        destruct wq as [|q wq]; [simpl in Hq; lia|]. simpl push_round.
        destruct (R2 (pre ++ [q ++ [(lo c, en)]]) wq) as [A B].
        * rewrite app_length. simpl. lia.
        * simpl in Hq. lia.
        * rewrite <- !app_assoc in A. simpl app in A. split.
          -- assert (Q : forall (a b : list (list (Z * Z))), qlen (a ++ b) = qlen a + qlen b).
             { clear. intros a b. induction a as [|x a IHa]; [reflexivity|].
               unfold qlen in *. simpl. rewrite IHa. lia. }
             rewrite !Q in *. unfold qlen in *. simpl in *. rewrite app_length in *. simpl length in *. lia.
          -- intros z. specialize (B z). specialize (CT z). unfold qcnt in *. simpl.
             rewrite !cnt_app, flat_map_app, cnt_app. simpl. rewrite app_nil_r.
             change (rng step (lo c, en)) with (loop (lo c) en step) in CT.
             unfold rng at 2. simpl. lia.
      + destruct (send_round step chunk k (S i) d) as [d1 l1] eqn:E1. injection E as <- <-.
        destruct (IH (S i) d d1 l1 T ltac:(lia) E1) as (T2 & L2 & R2).
        split; [auto|]. split; [simpl; auto|]. intros pre wq Hp Hq.
        destruct wq as [|q wq]; [simpl in Hq; lia|]. simpl push_round.
        destruct (R2 (pre ++ [q]) wq) as [A B].
        * rewrite app_length. simpl. lia.
        * simpl in Hq. lia.
        * rewrite <- !app_assoc in A. simpl app in A. split; [exact A|].
          intros z. specialize (B z). unfold qcnt in *. simpl. rewrite !cnt_app. lia.
  Qed.

  Lemma push_round_nonempty : forall l wq w,
    nth w wq [] <> [] -> nth w (push_round wq l) [] <> [].
  Proof.
    intros l wq. revert l. induction wq as [|q wq IH]; intros l w H.
    - destruct l as [|[t|] l]; simpl; auto.
    - destruct l as [|[t|] l], w; simpl in *; auto.
      + destruct q; discriminate.
  Qed.

  Definition qinv (total : Z) (x : list cell * list (list (Z * Z)) * bool) : Prop :=
    let '(d, wq, _) := x in
    tinv d /\ length wq = n /\ sumnt (firstn n d) + qlen wq = total /\
    (forall z, (qcnt wq z + cnt (flat_map (rem step) (firstn n d)) z = cnt (loop first last step) z)%nat).

  Lemma send_task_ok : forall total skipmore x, qinv total x ->
    qinv total (send_task step chunk n total skipmore x) /\
    (forall w, nth w (snd (fst x)) [] <> [] ->
       nth w (snd (fst (send_task step chunk n total skipmore x))) [] <> []).
  Proof.
    intros total skipmore [[d wq] sk] (T & L & S & C). unfold send_task.
    destruct (send_round step chunk n 0 d) as [d1 l1] eqn:E1.
    destruct (send_round_ok n 0 d d1 l1 T ltac:(lia) E1) as (T1 & L1 & R1).
    destruct (R1 [] wq eq_refl L) as [A1 B1]. simpl app in A1.
    destruct (negb skipmore && negb (sk || existsb is_none l1) && (4 * Z.of_nat n <=? total)).
    - destruct (send_round step chunk n 0 d1) as [d2 l2] eqn:E2.
      destruct (send_round_ok n 0 d1 d2 l2 T1 ltac:(lia) E2) as (T2 & L2 & R2).
      assert (LW : length (push_round wq l1) = n) by (rewrite push_round_length; auto).
      destruct (R2 [] (push_round wq l1) eq_refl LW) as [A2 B2]. simpl app in A2.
      split.
      + split; [exact T2|]. split; [|split].
        * rewrite push_round_length; auto.
        * lia.
        * intros z. rewrite B2, B1. auto.
      + simpl. intros w H. auto using push_round_nonempty.
    - split.
      + split; [exact T1|]. split; [|split].
        * rewrite push_round_length; auto.
        * lia.
        * intros z. rewrite B1. auto.
      + simpl. intros w H. auto using push_round_nonempty.
  Qed.

  (** The first round reaches every worker. *)
  Lemma push_round_some : forall l wq w, length wq = length l -> (w < length l)%nat ->
    (exists t, nth_error l w = Some (Some t)) -> nth w (push_round wq l) [] <> [].
  Proof.
    induction l as [|o l IH]; intros wq w L Hw [t E]; [simpl in Hw; lia|].
    destruct wq as [|q wq]; [simpl in L; lia|]. destruct w; simpl in *.
    - injection E as ->. simpl. destruct q; discriminate.
    - destruct o; simpl; apply IH; eauto; lia.
  Qed.

  Lemma first_send : forall total skipmore wq sk w, length wq = n -> (w < n)%nat ->
    nth w (snd (fst (send_task step chunk n total skipmore (data0, wq, sk)))) [] <> [].
  Proof.
    intros total skipmore wq sk w L Hw. unfold send_task.
    destruct (send_round step chunk n 0 data0) as [d1 l1] eqn:E1.
    assert (X : nth w (push_round wq l1) [] <> []).
    { apply send_round_spec in E1; [|lia]. destruct E1 as (_ & L1 & _ & I).
      apply push_round_some; [lia|lia|].
      destruct (nth_error data0 w) as [c|] eqn:Ec; [|apply nth_error_None in Ec; lia].
      destruct (I w c ltac:(lia) Ec) as [(_ & _ & X)|(P & _)].
      - rewrite Nat.sub_0_r in X. eauto.
      - destruct (Hgood w c Hw Ec). lia. }
    destruct (negb skipmore && negb (sk || existsb is_none l1) && (4 * Z.of_nat n <=? total)).
    - destruct (send_round step chunk n 0 d1) as [d2 l2] eqn:E2. simpl. now apply push_round_nonempty.
    - exact X.
  Qed.

  Lemma tinv0 : tinv data0.
  Proof.
    constructor; auto. intros i c Hi E. destruct (Hgood i c Hi E). split; [lia|auto].
  Qed.

  Variable u : setup.
  Hypothesis Hud : s_data u = data0.
  Hypothesis Hun : s_nw u = n.
  Hypothesis Huc : s_chunk u = chunk.
  Hypothesis Hut : s_total u = sumnt (firstn n data0).
  Hypothesis Hup : 1 <= s_total u.

  Lemma qlen_repeat : forall k, qlen (repeat (@nil (Z * Z)) k) = 0.
  Proof. unfold qlen. induction k; simpl; auto. Qed.

  Lemma hinv_start : forall spinwait, hinv (sched_start step spinwait u).
  Proof.
    intros spinwait. unfold sched_start. rewrite Hud, Hun, Huc.
    set (x0 := (data0, repeat [] n, false)).
    assert (Q0 : qinv (s_total u) x0).
    { split; [apply tinv0|]. split; [apply repeat_length|]. split; [rewrite qlen_repeat; lia|].
      intros z. rewrite Hcover. unfold qcnt. replace (flat_map (flat_map (rng step)) (repeat [] n)) with (@nil Z).
      - reflexivity.
      - clear. induction n; simpl; auto. }
    set (x1 := if spinwait then send_task step chunk n (s_total u) true x0 else x0).
    assert (Q1 : qinv (s_total u) x1).
    { unfold x1. destruct spinwait; auto. apply send_task_ok. auto. }
    destruct (send_task_ok (s_total u) false x1 Q1) as [Q2 M2].
    assert (W : forall w, (w < n)%nat -> nth w (snd (fst (send_task step chunk n (s_total u) false x1))) [] <> []).
    { intros w Hw. unfold x1 in *. destruct spinwait.
      - apply M2. apply first_send; auto. apply repeat_length.
      - apply first_send; auto. apply repeat_length. }
    destruct (send_task step chunk n (s_total u) false x1) as [[d wq] sk].
    destruct Q2 as (T & L & S & C). simpl in W.
    constructor; simpl; auto using repeat_length.
    - rewrite qlen_repeat. lia.
    - tauto.
    - discriminate.
  Qed.

  Lemma sched_reach : forall spinwait l s,
    exec (sstep step chunk F) (sched_start step spinwait u) l = Some s -> hinv s.
  Proof.
    intros. eapply (exec_inv (sstep step chunk F) hinv); eauto using hinv_step, hinv_start.
  Qed.

  Lemma sched_run : forall spinwait l s,
    exec (sstep step chunk F) (sched_start step spinwait u) l = Some s -> d_out s = true ->
    Permutation (map snd (d_log s)) (loop first last step) /\
    (forall e, In e (d_log s) -> (fst e < n)%nat) /\
    length (d_cells s) = length data0 /\
    (forall i c, (i < n)%nat -> nth_error (d_cells s) i = Some c -> nt c <= 0) /\
    (forall i, (n <= i)%nat -> nth_error (d_cells s) i = nth_error data0 i).
  Proof.
    intros spinwait l s E Ho. apply sched_reach in E. destruct E.
    specialize (hi_out0 Ho).
    pose proof (tinv_sum_nonneg _ hi_tab0). pose proof (qlen_nonneg _ (d_wq s)).
    pose proof (qlen_nonneg _ (d_fb s)).
    assert (NZ : forall i c, (i < n)%nat -> nth_error (d_cells s) i = Some c -> nt c = 0).
    { intros i c Hi Ei. apply (sumnt_zero (firstn n (d_cells s))).
      - intros c' I. apply firstn_In_nth in I as (j & Hj & Ej). apply (ti_fits _ hi_tab0 j c' Hj Ej).
      - lia.
      - apply nth_error_In with i. rewrite nth_error_firstn_lt; auto. }
    split; [|split; [auto|split; [apply hi_tab0|split; [|apply hi_tab0]]]].
    - apply cnt_perm. intros z. rewrite <- (hi_cnt0 z). unfold qcnt.
      rewrite (flat_map_nil _ _ (flat_map (rng step)) (d_wq s)).
      2:{ intros q Hq. rewrite (qlen_0 _ (d_wq s) q); [reflexivity|lia|auto]. }
      rewrite (flat_map_nil _ _ (rem step)).
      2:{ intros c I. apply firstn_In_nth in I as (i & Hi & Ei).
          destruct (ti_fits _ hi_tab0 i c Hi Ei) as [_ [F0 _]].
          pose proof (NZ i c Hi Ei). apply loop_nil. apply (len_0 _ _ step Hs). apply F0. lia. }
      simpl. lia.
    - intros i c Hi Ei. rewrite (NZ i c Hi Ei). lia.
  Qed.

  (** While the scheduler has not finished, some thread can move. *)
  Lemma sched_progress : forall spinwait l s,
    exec (sstep step chunk F) (sched_start step spinwait u) l = Some s -> d_out s = false ->
    exists a s', sstep step chunk F s a = Some s'.
  Proof.
    intros spinwait l s E Ho. apply sched_reach in E. destruct E.
    specialize (hi_live0 Ho). specialize (hi_work0 Ho).
    pose proof (qlen_nonneg _ (d_wq s)). pose proof (qlen_nonneg _ (d_fb s)).
    assert (X : 1 <= qlen (d_wq s) \/ 1 <= qlen (d_fb s)).
    { destruct (Z_le_gt_dec 1 (qlen (d_wq s))); [auto|].
      destruct (Z_le_gt_dec 1 (qlen (d_fb s))); [auto|].
      destruct (hi_work0 0%nat ltac:(lia)) as [W|[W|W]].
      - lia.
      - exfalso. apply W. apply (qlen_0 _ (d_wq s)); [lia|]. apply nth_In. lia.
      - exfalso. apply W. apply (qlen_0 _ (d_fb s)); [lia|]. apply nth_In. lia. }
    destruct X as [X|X]; apply qlen_pos in X as (w & [x y] & q & E).
    - exists (Worker w). simpl. rewrite E. eexists; reflexivity.
    - exists (Sched w). simpl. rewrite Ho, E.
      destruct (d_left s - 1 <=? 0); [eexists; reflexivity|].
      destruct (next_task step chunk w (d_cells s) (d_maxid s)) as [[d m] [t|]]; eexists; reflexivity.
  Qed.

  (** Every schedule is finite. *)
  Lemma sched_measure : forall s a s', hinv s -> sstep step chunk F s a = Some s' ->
    2 * d_left s' + qlen (d_wq s') < 2 * d_left s + qlen (d_wq s).
  Proof.
    intros s a s' I E. destruct I. destruct a as [w|w]; simpl in E.
    - destruct (nth_error (d_wq s) w) as [[|[x y] q]|] eqn:Ew; try discriminate.
      injection E as <-. cbn [d_left d_wq]. rewrite (qlen_lupd _ _ w _ q Ew). simpl length. lia.
    - destruct (d_out s) eqn:Eo; [discriminate|].
      destruct (nth_error (d_fb s) w) as [[|t0 q]|] eqn:Ew; try discriminate.
      assert (Hw : (w < n)%nat) by (rewrite <- hi_fb0; eapply nth_error_lt; eauto).
      destruct (Z.leb_spec (d_left s - 1) 0); [injection E as <-; cbn [d_left d_wq]; lia|].
      destruct (next_task step chunk w (d_cells s) (d_maxid s)) as [[d m] [t|]]; injection E as <-; cbn [d_left d_wq].
      + destruct (nth_error (d_wq s) w) as [wq|] eqn:Eq; [|apply nth_error_None in Eq; lia].
        rewrite (nth_error_nth _ _ _ Eq), (qlen_lupd _ _ w _ _ Eq), app_length. simpl length. lia.
      + lia.
  Qed.

  Lemma sched_bounded : forall spinwait l s,
    exec (sstep step chunk F) (sched_start step spinwait u) l = Some s ->
    Z.of_nat (length l) <= 3 * s_total u.
  Proof.
    intros spinwait l s E.
    assert (G : forall l s s', hinv s -> exec (sstep step chunk F) s l = Some s' ->
       Z.of_nat (length l) + (2 * d_left s' + qlen (d_wq s')) <= 2 * d_left s + qlen (d_wq s)).
    { clear l s E. induction l as [|a l IH]; intros s s' I E; simpl in E.
      - injection E as <-. simpl. lia.
      - destruct (sstep step chunk F s a) as [s1|] eqn:E1; [|discriminate].
        pose proof (sched_measure s a s1 I E1). pose proof (IH s1 s' (hinv_step s a s1 I E1) E).
        simpl length. lia. }
    pose proof (G l _ s (hinv_start spinwait) E) as X.
    pose proof (hinv_start spinwait) as [T _ _ _ SM _ _ _ _ _].
    assert (DL : d_left (sched_start step spinwait u) = s_total u).
    { unfold sched_start. destruct (send_task step (s_chunk u) (s_nw u) (s_total u) false _) as [[? ?] ?]. reflexivity. }
    apply sched_reach in E. destruct E.
    pose proof (qlen_nonneg _ (d_wq s)). pose proof (qlen_nonneg _ (d_fb s)).
    pose proof (tinv_sum_nonneg _ hi_tab0). pose proof (tinv_sum_nonneg _ T).
    pose proof (qlen_nonneg _ (d_fb (sched_start step spinwait u))). lia.
  Qed.
End Sch.
