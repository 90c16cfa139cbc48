(** Static scheduling: tables of init_data_static and the run of the workers over them. *)
From Coq Require Import List ZArith Lia Bool Permutation.
From Verif Require Import Base ParForSpec ParForModel ParForLoop ParForInit.
Import ListNotations.
Local Open Scope Z_scope.

(** What worker [i] is given by the first (and only) chunk of its cell. *)
Definition share (step chunk : Z) (F : Z -> Z -> list Z) (c : cell) : list Z :=
  F (lo c) (chunk_end step chunk c).

Lemma fill_static_length : forall step chunk stop r k i start data,
  length (fill_static step chunk stop r k i start data) = length data.
Proof.
  induction k; simpl; intros; auto. rewrite IHk. apply lupd_length.
Qed.

Lemma fill_static_before : forall step chunk stop r k i start data j, (j < i)%nat ->
  nth_error (fill_static step chunk stop r k i start data) j = nth_error data j.
Proof.
  induction k; simpl; intros; auto. rewrite IHk by lia. apply nth_error_lupd_neq. lia.
Qed.

Section FillStatic.
  Variables (step chunk stop r : Z).
  Hypothesis Hs : 1 <= step.

  (** A predicate on (start) preserved by the loop and giving something about each cell. *)
  Lemma fill_static_gen : forall (P : nat -> Z -> Prop) (Q : cell -> Prop),
    (forall i start, P i start ->
       let e := start + (chunk - 1) * step + 1 + (if Z.of_nat i <? r then step else 0) in
       let en := if e <? stop then e else stop in
       Q (mkCell 1 start en) /\ P (S i) (en - 1 + step)) ->
    forall k i start data, P i start -> (i + k <= length data)%nat ->
    exists seg, fill_static step chunk stop r k i start data =
                firstn i data ++ seg ++ skipn (i + k) data /\
                length seg = k /\ Forall Q seg /\ Forall (fun c => nt c = 1) seg.
  Proof.
    intros P Q HP. induction k as [|k IH]; intros i start data Hp Hl; simpl.
    - exists []. rewrite Nat.add_0_r. simpl. rewrite firstn_skipn. auto.
    - destruct (HP i start Hp) as [HQ HP'].
      set (e := start + (chunk - 1) * step + 1 + (if Z.of_nat i <? r then step else 0)) in *.
      set (en := if e <? stop then e else stop) in *. cbv zeta in HQ, HP'.
      destruct (IH (S i) (en - 1 + step) (lupd data i (mkCell 1 start en)) HP')
        as (seg & E & L & F1 & F2); [rewrite lupd_length; lia|].
      exists (mkCell 1 start en :: seg). rewrite E, firstn_lupd_S, skipn_lupd_gt by lia.
      rewrite <- app_assoc. cbn [app length]. rewrite Nat.add_succ_r, Nat.add_succ_l. auto.
  Qed.
End FillStatic.

Lemma fill_static_cover : forall step chunk stop r, 1 <= step -> 0 <= chunk -> 0 <= r ->
  forall k i start data, (i + k <= length data)%nat -> r <= Z.of_nat (i + k) ->
  len start stop step = Z.of_nat k * chunk + Z.max 0 (r - Z.of_nat i) ->
  exists seg, fill_static step chunk stop r k i start data =
              firstn i data ++ seg ++ skipn (i + k) data /\
              length seg = k /\ Forall (fun c => nt c = 1) seg /\
              Forall (fun c => len (lo c) (hi c) step <= chunk + (if r =? 0 then 0 else 1)) seg /\
              flat_map (rem step) seg = loop start stop step.
Proof.
  intros step chunk stop r Hs Hc Hr0.
  induction k as [|k IH]; intros i start data Hl Hr HL; cbn [fill_static].
  - exists []. rewrite Nat.add_0_r. simpl. rewrite firstn_skipn.
    assert (len start stop step = 0) by lia. apply len_0 in H; auto.
    rewrite loop_nil by auto. repeat split; auto.
  - set (t := chunk + (if Z.of_nat i <? r then 1 else 0)).
    set (e := start + (chunk - 1) * step + 1 + (if Z.of_nat i <? r then step else 0)).
    set (en := if e <? stop then e else stop).
    assert (Ee : e = start + ((t - 1) * step + 1)).
    { unfold e, t. destruct (Z.of_nat i <? r); lia. }
    assert (Een : en = Z.min (start + ((t - 1) * step + 1)) stop).
    { unfold en. rewrite <- Ee. destruct (Z.ltb_spec e stop); lia. }
    assert (T0 : 0 <= t) by (unfold t; destruct (Z.of_nat i <? r); lia).
    assert (X : loop start stop step = loop start en step ++ loop (en - 1 + step) stop step /\
                len start en step = Z.min t (len start stop step) /\
                len (en - 1 + step) stop step = Z.max 0 (len start stop step - t)).
    { destruct (Z.eq_dec t 0) as [Z0|NZ].
      - assert (en <= start) by (rewrite Een, Z0; lia).
        assert (len (en - 1 + step) stop step = len start stop step /\
                loop (en - 1 + step) stop step = loop start stop step) as [A B].
        { destruct (Z_lt_le_dec e stop) as [L|L].
          - replace (en - 1 + step) with start by (rewrite Een, Z0; lia). auto.
          - assert (en = stop) by (rewrite Een, <- Ee; lia).
            unfold len. rewrite !loop_nil by lia. auto. }
        rewrite (loop_nil start en), (len_nil start en), A, B by lia.
        pose proof (len_nonneg start stop step). split; [reflexivity|lia].
      - rewrite Een. apply chunk_split; lia. }
    destruct X as (X1 & X2 & X3).
    assert (TL : t <= len start stop step).
    { rewrite HL. unfold t. destruct (Z.ltb_spec (Z.of_nat i) r); nia. }
    destruct (IH (S i) (en - 1 + step) (lupd data i (mkCell 1 start en)))
      as (seg & E & L & F1 & F2 & F3).
    + rewrite lupd_length; lia.
    + lia.
    + rewrite X3, HL. unfold t. destruct (Z.ltb_spec (Z.of_nat i) r); nia.
    + exists (mkCell 1 start en :: seg). rewrite E, firstn_lupd_S, skipn_lupd_gt by lia.
      rewrite <- app_assoc. cbn [app length]. rewrite Nat.add_succ_r, Nat.add_succ_l.
      repeat split; auto.
      * constructor; auto. simpl. rewrite X2. unfold t.
        destruct (Z.ltb_spec (Z.of_nat i) r), (Z.eqb_spec r 0); lia.
      * simpl. rewrite F3. unfold rem. simpl. symmetry. exact X1.
Qed.

Lemma loop_share : forall step chunk c, 1 <= step ->
  len (lo c) (hi c) step <= chunk \/ hi c <= lo c ->
  share step chunk (body_plain step) c = rem step c.
Proof.
  intros step chunk c Hs H. unfold share, body_plain, rem, chunk_end.
  destruct (Z_le_gt_dec (hi c) (lo c)).
  - rewrite !loop_nil by lia. reflexivity.
  - assert (1 <= len (lo c) (hi c) step).
    { rewrite len_cons by lia. pose proof (len_nonneg (lo c + step) (hi c) step). lia. }
    destruct (chunk_split step chunk (lo c) (hi c)) as (A & B & C); [lia|lia|].
    rewrite A. assert (L : len (Z.min (lo c + ((chunk - 1) * step + 1)) (hi c) - 1 + step) (hi c) step = 0) by lia.
    apply len_0 in L; auto. rewrite (loop_nil _ (hi c)) by auto. now rewrite app_nil_r.
Qed.

(** Default static scheduling, any range (empty ones included). *)
Lemma init_static_ok : forall first last step nw data,
  1 <= step -> (1 <= nw)%nat -> last - first < 2 ^ 64 ->
  exists u, setloop first last step 0 nw data = Done u /\
    s_static u = true /\ s_nw u = nw /\ length (s_data u) = nw /\ s_total u = Z.of_nat nw /\
    (forall c, In c (s_data u) -> nt c = 1) /\
    flat_map (share step (s_chunk u) (body_plain step)) (s_data u) = loop first last step.
Proof.
  intros first last step nw data Hs Hw HB. unfold setloop. simpl (0 =? 0). cbv iota.
  unfold init_data_static0, finish_setloop.
  set (N := ceil_div (last - first) step). set (W := Z.of_nat nw).
  assert (W1 : 1 <= W) by (unfold W; lia).
  destruct (Z.ltb_spec W 1); [lia|]. rewrite Z.leb_refl. simpl orb. cbv iota.
  replace (Z.to_nat W) with nw by (unfold W; lia).
  eexists. split; [reflexivity|]. cbn [s_nw s_data s_chunk s_total s_static].
  set (r := N mod 2 ^ 64 mod W). set (ch := Z.quot N W).
  assert (R0 : 0 <= r < W) by (unfold r; apply Z.mod_pos_bound; lia).
  split; [reflexivity|]. split; [reflexivity|].
  split; [rewrite fill_static_length; apply resize_length|].
  split; [reflexivity|].
  destruct (Z_le_gt_dec first last) as [C|C].
  - assert (HN : N = len first last step) by (unfold N; rewrite len_ceil by lia; reflexivity).
    pose proof (len_nonneg first last step).
    assert (N < 2 ^ 64).
    { assert (N <= last - first); [|lia]. unfold N, ceil_div. apply Z.lt_succ_r. apply Z.div_lt_upper_bound; nia. }
    assert (RN : r = N mod W) by (unfold r; rewrite (Z.mod_small N) by lia; reflexivity).
    assert (CN : ch = N / W) by (unfold ch; apply Z.quot_div_nonneg; lia).
    pose proof (Z.div_mod N W ltac:(lia)) as DM.
    assert (0 <= ch) by (rewrite CN; apply Z.div_pos; lia).
    destruct (fill_static_cover step ch last r Hs ltac:(lia) ltac:(lia) nw 0 first (resize nw data))
      as (seg & E & L & F1 & F2 & F3).
    + rewrite resize_length. lia.
    + simpl. fold W. lia.
    + rewrite <- HN. fold W. simpl Z.of_nat. rewrite Z.sub_0_r, Z.max_r by lia. lia.
    + rewrite E. simpl. rewrite skipn_all2 by (rewrite resize_length; lia). rewrite app_nil_r.
      rewrite Forall_forall in F1, F2. split; [exact F1|]. rewrite <- F3.

      assert (X : forall l, (forall c, In c l -> In c seg) ->
                flat_map (share step (if r =? 0 then ch else ch + 1) (body_plain step)) l =
                flat_map (rem step) l).
      { induction l as [|c l IH]; intros I; auto. cbn [flat_map]. rewrite IH.
        - f_equal. apply loop_share; auto. left.
          specialize (F2 c (I c (or_introl eq_refl))). destruct (r =? 0); lia.
        - intros; apply I; right; auto. }
      apply X; auto.
  - rewrite (loop_nil first last) by lia.
    assert (N0 : N <= 0).
    { unfold N, ceil_div. assert ((last - first + step - 1) / step < 1); [|lia].
      apply Z.div_lt_upper_bound; lia. }
    assert (C0 : ch <= 0).
    { unfold ch. rewrite <- (Z.opp_involutive N), Z.quot_opp_l by lia.
      assert (0 <= Z.quot (- N) W) by (apply Z.quot_pos; lia). lia. }
    destruct (fill_static_gen step ch last r
               (fun i start => ch < 0 \/ last <= start) (fun c => hi c <= lo c)) with
      (k := nw) (i := 0%nat) (start := first) (data := resize nw data)
      as (seg & E & L & F1 & F2).
    + intros i start HP. cbv zeta. simpl.
      destruct (Z.of_nat i <? r);
      match goal with |- context [if ?x <? last then _ else _] => destruct (Z.ltb_spec x last) end;
      (assert (ch = 0 \/ ch <= -1) as [Z0|Z1] by lia;
       [rewrite Z0 in *; destruct HP as [HP|HP]; [lia|]; split; [lia|right; lia]
       |assert (ch * step <= - step) by nia; split; [lia|left; lia]]).
    + lia.
    + rewrite resize_length. lia.
    + rewrite E. simpl. rewrite skipn_all2 by (rewrite resize_length; lia). rewrite app_nil_r.
      rewrite Forall_forall in F1, F2. split; [exact F2|].
      assert (X : forall l, (forall c, In c l -> In c seg) ->
                flat_map (share step (if r =? 0 then ch else ch + 1) (body_plain step)) l = []).
      { induction l as [|c l IH]; intros I; auto. cbn [flat_map]. rewrite IH.
        - rewrite app_nil_r. unfold share, body_plain, chunk_end. apply loop_nil.
          specialize (F1 c (I c (or_introl eq_refl))). lia.
        - intros; apply I; right; auto. }
      apply X; auto.
Qed.

(** sendTask(true). *)
Lemma send_round_spec : forall step chunk k i data d l, (i + k <= length data)%nat ->
  send_round step chunk k i data = (d, l) ->
  length d = length data /\ length l = k /\
  (forall j, (j < i \/ i + k <= j)%nat -> nth_error d j = nth_error data j) /\
  (forall j c, (i <= j < i + k)%nat -> nth_error data j = Some c ->
     let en := chunk_end step chunk c in
     (0 < nt c /\ nth_error d j = Some (mkCell (nt c - 1) (en - 1 + step) (hi c)) /\
      nth_error l (j - i) = Some (Some (lo c, en))) \/
     (nt c <= 0 /\ nth_error d j = Some c /\ nth_error l (j - i) = Some None)).
Proof.
  intros step chunk. induction k as [|k IH]; intros i data d l Hl E; simpl in E.
  - injection E as <- <-. repeat split; auto. intros; lia.
  - assert (Hi : (i < length data)%nat) by lia.
    destruct (nth_error data i) as [c|] eqn:Ec; [|apply nth_error_None in Ec; lia].
    assert (NC : nth i data cell0 = c) by (apply nth_error_nth; auto).
    rewrite NC in E.
    destruct (Z.ltb_spec 0 (nt c)) as [P|P].
    + set (en := chunk_end step chunk c) in *.
      destruct (send_round step chunk k (S i) _) as [d0 l0] eqn:E0.
      injection E as <- <-.
      apply IH in E0; [|rewrite lupd_length; lia].
      destruct E0 as (L1 & L2 & O & I). rewrite lupd_length in L1.
      split; [auto|]. split; [simpl; auto|]. split.
      * intros j Hj. rewrite O by lia. apply nth_error_lupd_neq. lia.
      * intros j c' Hj Ec'. destruct (Nat.eq_dec j i) as [->|N].
        -- rewrite Ec in Ec'. injection Ec' as <-. left. split; [auto|].
           rewrite O by lia. rewrite nth_error_lupd_eq by auto. rewrite Nat.sub_diag. auto.
        -- specialize (I j c' ltac:(lia)). rewrite nth_error_lupd_neq in I by lia.
           specialize (I Ec'). replace (j - i)%nat with (S (j - S i)) by lia. exact I.
    + destruct (send_round step chunk k (S i) _) as [d0 l0] eqn:E0.
      injection E as <- <-.
      apply IH in E0; [|lia]. destruct E0 as (L1 & L2 & O & I).
      split; [auto|]. split; [simpl; auto|]. split.
      * intros j Hj. apply O. lia.
      * intros j c' Hj Ec'. destruct (Nat.eq_dec j i) as [->|N].
        -- rewrite Ec in Ec'. injection Ec' as <-. right. split; [auto|].
           rewrite O by lia. rewrite Nat.sub_diag. auto.
        -- specialize (I j c' ltac:(lia) Ec'). replace (j - i)%nat with (S (j - S i)) by lia. exact I.
Qed.

(** The indices run by worker [w], in order. *)
Definition wlog (w : nat) (lg : list (nat * Z)) : list Z :=
  map snd (filter (fun e => Nat.eqb (fst e) w) lg).

Lemma wlog_app : forall w l m, wlog w (l ++ m) = wlog w l ++ wlog w m.
Proof. intros. unfold wlog. now rewrite filter_app, map_app. Qed.

Lemma wlog_pair : forall w v l, wlog w (map (pair v) l) = if Nat.eqb v w then l else [].
Proof.
  intros. unfold wlog. induction l as [|x l IH]; simpl; [destruct (Nat.eqb v w); auto|].
  destruct (Nat.eqb v w); simpl; [f_equal; auto|auto].
Qed.

Lemma lupd_same : forall X (l : list X) i x, nth_error l i = Some x -> lupd l i x = l.
Proof.
  induction l as [|y l IH]; destruct i; simpl; intros x E; try discriminate.
  - congruence.
  - f_equal. auto.
Qed.

Section StaticRun.
  Variables (step chunk : Z) (F : Z -> Z -> list Z).
  Hypothesis F0 : forall x y, y <= x -> F x y = [].
  Variable u : setup.
  Let n := s_nw u.
  Hypothesis Hn : (n <= length (s_data u))%nat.
  Hypothesis Hnt : forall w c, (w < n)%nat -> nth_error (s_data u) w = Some c -> nt c = 1.
  Hypothesis Hch : s_chunk u = chunk.

  Definition phase (w : nat) (c : cell) (p : pc) (cl : cell) (lw : list Z) : Prop :=
    let en := chunk_end step chunk c in
    (p = WRun 0 0 /\ cl = c /\ lw = []) \/
    ((p = WL1 true w \/ p = WLd true w \/ p = WCas true w (lo c)) /\ cl = c /\ lw = []) \/
    (p = WSub true w (lo c) en /\ nt cl = 1 /\ lw = []) \/
    (p = WRun (lo c) en /\ nt cl = 0 /\ lw = []) \/
    ((p = WL1 true w \/ p = WSel \/ p = WEnd) /\ nt cl = 0 /\ lw = F (lo c) en).

  Definition sinv (s : cst) : Prop :=
    length (pcs s) = n /\ length (cells s) = length (s_data u) /\
    (forall w c, (w < n)%nat -> nth_error (s_data u) w = Some c ->
       exists p cl, nth_error (pcs s) w = Some p /\ nth_error (cells s) w = Some cl /\
                    phase w c p cl (wlog w (log s))) /\
    (forall j, (n <= j)%nat -> nth_error (cells s) j = nth_error (s_data u) j) /\
    (forall e, In e (log s) -> (fst e < n)%nat).

  Lemma sinv_start : forall spinwait, sinv (conc_start step spinwait u).
  Proof.
    intros [|]; unfold conc_start.
    - split; [simpl; apply repeat_length|]. split; [reflexivity|]. split; [|split; [auto|simpl; tauto]].
      intros w c Hw Ec. exists (WRun 0 0), c. simpl.
      split; [|split; [auto|left; auto]].
      rewrite (nth_error_nth' _ WWait) by (rewrite repeat_length; auto).
      f_equal. rewrite nth_repeat_lt || idtac.
      pose proof (nth_In (repeat (WRun 0 0) (s_nw u)) WWait (n := w)) as I.
      rewrite repeat_length in I. specialize (I Hw). apply repeat_spec in I. auto.
    - destruct (send_round step (s_chunk u) (s_nw u) 0 (s_data u)) as [d l] eqn:E.
      apply send_round_spec in E; [|simpl; exact Hn].
      destruct E as (L1 & L2 & O & I). unfold sinv. simpl.
      split; [rewrite map_length; auto|]. split; [auto|].
      split; [|split; [intros; apply O; simpl; fold n; lia|tauto]].
      intros w c Hw Ec. specialize (I w c ltac:(simpl; fold n; lia) Ec). rewrite Hch in I.
      specialize (Hnt w c Hw Ec).
      destruct I as [(P & D & T)|(P & _)]; [|lia].
      rewrite Nat.sub_0_r in T.
      exists (WRun (lo c) (chunk_end step chunk c)). eexists.
      split; [rewrite nth_error_map, T; reflexivity|]. split; [exact D|].
      right; right; right; left. simpl. repeat split; lia.
  Qed.

  Lemma sinv_step : forall s a s', sinv s -> cstep step chunk true F s a = Some s' -> sinv s'.
  Proof.
    intros s a s' (L1 & L2 & I & O & G) E. unfold cstep in E.
    set (w := w_id a) in *.
    destruct (nth_error (pcs s) w) as [p|] eqn:Ep; [|discriminate].
    assert (Hw : (w < n)%nat) by (rewrite <- L1; eapply nth_error_lt; eauto).
    destruct (nth_error (s_data u) w) as [c|] eqn:Ec; [|apply nth_error_None in Ec; lia].
    destruct (I w c Hw Ec) as (p' & cl & Ep' & Ecl & PH).
    rewrite Ep in Ep'. injection Ep' as <-.
    assert (Lp : (w < length (pcs s))%nat) by lia.
    assert (Lc : (w < length (cells s))%nat) by (eapply nth_error_lt; eauto).
    (* generic rebuilding: worker w gets pc p1 and cell cl1, log grows by l1 of w *)
    assert (RB : forall p1 cl1 l1,
      phase w c p1 cl1 (wlog w (log s) ++ l1) ->
      sinv (mkCst (lupd (cells s) w cl1) (lupd (pcs s) w p1) (log s ++ map (pair w) l1))).
    { intros p1 cl1 l1 PH1. split; [simpl; rewrite lupd_length; auto|].
      split; [simpl; rewrite lupd_length; auto|]. split; [|split].
      - intros v cv Hv Ev. simpl. destruct (Nat.eq_dec v w) as [->|N].
        + rewrite Ec in Ev. injection Ev as <-. exists p1, cl1.
          rewrite !nth_error_lupd_eq by auto. rewrite wlog_app, wlog_pair, Nat.eqb_refl. auto.
        + destruct (I v cv Hv Ev) as (pv & clv & A & B & P). exists pv, clv.
          rewrite !nth_error_lupd_neq by auto. rewrite wlog_app, wlog_pair.
          destruct (Nat.eqb_spec w v); [congruence|]. rewrite app_nil_r. auto.
      - intros j Hj. simpl. rewrite nth_error_lupd_neq by lia. auto.
      - simpl. intros e He. apply in_app_or in He as [He|He]; [auto|].
        apply in_map_iff in He as (x & <- & _). simpl. auto. }
    assert (LC : lupd (cells s) w cl = cells s).
    { now apply lupd_same. }
    assert (RB0 : forall p1, phase w c p1 cl (wlog w (log s)) -> sinv (setpc s w p1)).
    { intros p1 P1. unfold setpc. specialize (RB p1 cl []). rewrite LC in RB. simpl in RB.
      rewrite !app_nil_r in RB. auto. }
    assert (RB1 : forall p1 cl1, phase w c p1 cl1 (wlog w (log s)) ->
       sinv (mkCst (lupd (cells s) w cl1) (lupd (pcs s) w p1) (log s))).
    { intros p1 cl1 P1. specialize (RB p1 cl1 []). simpl in RB. rewrite !app_nil_r in RB. auto. }
    assert (RB2 : forall p1 l1, phase w c p1 cl (wlog w (log s) ++ l1) ->
       sinv (mkCst (cells s) (lupd (pcs s) w p1) (log s ++ map (pair w) l1))).
    { intros p1 l1 P1. specialize (RB p1 cl l1). rewrite LC in RB. auto. }
    clear RB.
    destruct PH as [(-> & -> & LW)|[([->|[->| ->]] & -> & LW)|[(-> & NT & LW)|[(-> & NT & LW)|([->|[->| ->]] & NT & LW)]]]].
    - injection E as <-. apply RB2. rewrite (F0 0 0) by lia. rewrite app_nil_r. right; left. auto.
    - rewrite Ecl in E. injection E as <-. apply RB0. specialize (Hnt w c Hw Ec).
      destruct (Z.ltb_spec 0 (nt c)); [|lia]. right; left. auto.
    - rewrite Ecl in E. injection E as <-. apply RB0. right; left. auto.
    - rewrite Ecl in E. rewrite Z.eqb_refl, andb_true_r in E.
      destruct (w_ok a); injection E as <-.
      + apply RB1. right; right; left. simpl. specialize (Hnt w c Hw Ec). auto.
      + apply RB0. right; left. auto.
    - rewrite Ecl in E. injection E as <-. apply RB1.
      destruct (Z.ltb_spec (lo c) (chunk_end step chunk c)).
      + right; right; right; left. simpl. repeat split; auto; lia.
      + right; right; right; right. simpl. split; [auto|]. split; [lia|]. rewrite F0 by lia. auto.
    - injection E as <-. apply RB2. right; right; right; right. rewrite LW. auto.
    - rewrite Ecl in E. injection E as <-. apply RB0.
      destruct (Z.ltb_spec 0 (nt cl)); [lia|]. right; right; right; right. auto.
    - injection E as <-. apply RB0. right; right; right; right. auto.
    - discriminate.
  Qed.

  Lemma static_run : forall spinwait l s,
    exec (cstep step chunk true F) (conc_start step spinwait u) l = Some s -> all_ended s ->
    (forall w c, (w < n)%nat -> nth_error (s_data u) w = Some c ->
        wlog w (log s) = share step chunk F c /\
        exists cl, nth_error (cells s) w = Some cl /\ nt cl = 0) /\
    (forall e, In e (log s) -> (fst e < n)%nat) /\
    (forall j, (n <= j)%nat -> nth_error (cells s) j = nth_error (s_data u) j).
  Proof.
    intros spinwait l s E A.
    assert (sinv s) as (L1 & L2 & I & O & G).
    { eapply (exec_inv (cstep step chunk true F) sinv); eauto using sinv_step, sinv_start. }
    split; [|split; auto]. intros w c Hw Ec. destruct (I w c Hw Ec) as (p & cl & Ep & Ecl & PH).
    apply nth_error_In in Ep. apply A in Ep. subst p.
    destruct PH as [(X & _)|[([X|[X|X]] & _)|[(X & _)|[(X & _)|(_ & NT & LW)]]]]; try discriminate.
    split; [exact LW|]. exists cl. auto.
  Qed.

  (** No worker can get stuck. *)
  Lemma static_progress : forall spinwait l s w,
    exec (cstep step chunk true F) (conc_start step spinwait u) l = Some s -> (w < n)%nat ->
    nth_error (pcs s) w <> Some WEnd -> exists s', cstep step chunk true F s (W w true 0) = Some s'.
  Proof.
    intros spinwait l s w E Hw NE.
    assert (sinv s) as (L1 & L2 & I & O & G).
    { eapply (exec_inv (cstep step chunk true F) sinv); eauto using sinv_step, sinv_start. }
    destruct (nth_error (s_data u) w) as [c|] eqn:Ec; [|apply nth_error_None in Ec; lia].
    destruct (I w c Hw Ec) as (p & cl & Ep & Ecl & PH).
    unfold cstep. simpl. rewrite Ep in *.
    destruct PH as [(-> & -> & LW)|[([->|[->| ->]] & -> & LW)|[(-> & NT & LW)|[(-> & NT & LW)|([->|[->| ->]] & NT & LW)]]]];
      try rewrite Ecl; try (eexists; reflexivity); try congruence.
    simpl. destruct (lo c =? lo c); eexists; reflexivity.
  Qed.
End StaticRun.

(** Splitting a log by worker. *)
Lemma log_split : forall n lg, (forall e, In e lg -> (fst e < n)%nat) ->
  Permutation (map snd lg) (flat_map (fun w => wlog w lg) (seq 0 n)).
Proof.
  intros n lg H. apply cnt_perm. intros z. induction lg as [|[w x] lg IH].
  - simpl. induction (seq 0 n); simpl; auto.
  - cbn [map snd]. change (x :: map snd lg) with ([x] ++ map snd lg). rewrite cnt_app, IH.
    2:{ intros; apply H; right; auto. }
    specialize (H (w, x) (or_introl eq_refl)). simpl in H.
    assert (G : forall a k, cnt (flat_map (fun v => wlog v ((w, x) :: lg)) (seq a k)) z =
        ((if (a <=? w)%nat && (w <? a + k)%nat then cnt [x] z else 0) +
         cnt (flat_map (fun v => wlog v lg) (seq a k)) z)%nat).
    { intros a k. revert a. induction k as [|k IHk]; intros a; cbn [seq flat_map].
      - destruct (Nat.leb_spec a w), (Nat.ltb_spec w (a + 0)); simpl; auto; lia.
      - rewrite !cnt_app, IHk.
        change ((w, x) :: lg) with (map (pair w) [x] ++ lg) at 1. rewrite wlog_app, wlog_pair, cnt_app.
        destruct (Nat.eqb_spec w a), (Nat.leb_spec a w), (Nat.leb_spec (S a) w),
                 (Nat.ltb_spec w (a + S k)), (Nat.ltb_spec w (S a + k)); simpl andb; cbv iota;
          change (cnt [] z) with 0%nat; try lia. }
    rewrite G. simpl (0 <=? w)%nat. destruct (Nat.ltb_spec w (0 + n)); [|lia]. reflexivity.
Qed.
