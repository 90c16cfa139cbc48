(** The tables built by setloop cover the iteration space. *)
From Coq Require Import List ZArith Lia Bool Permutation.
From Verif Require Import Base ParForSpec ParForModel ParForLoop.
Import ListNotations.
Local Open Scope Z_scope.

Ltac ands := repeat match goal with |- _ /\ _ => split end.

Definition rem (s : Z) (c : cell) : list Z := loop (lo c) (hi c) s.
Definition sumnt (l : list cell) : Z := fold_right (fun c a => nt c + a) 0 l.

Lemma sumnt_app : forall l m, sumnt (l ++ m) = sumnt l + sumnt m.
Proof. induction l; simpl; intros; [lia|rewrite IHl; lia]. Qed.

Lemma lupd_split : forall X (l : list X) i x, (i < length l)%nat ->
  lupd l i x = firstn i l ++ x :: skipn (S i) l.
Proof.
  induction l as [|a l IH]; destruct i; simpl; intros x H; try lia; auto.
  f_equal. apply IH. lia.
Qed.

Lemma skipn_lupd_gt : forall X (l : list X) i k x, (i < k)%nat ->
  skipn k (lupd l i x) = skipn k l.
Proof.
  induction l as [|a l IH]; intros i k x H; destruct k, i; simpl; try lia; auto.
  apply IH; lia.
Qed.

Lemma firstn_lupd_S : forall X (l : list X) i x, (i < length l)%nat ->
  firstn (S i) (lupd l i x) = firstn i l ++ [x].
Proof.
  induction l as [|a l IH]; destruct i; simpl; intros x H; try lia; auto.
  f_equal. apply IH. lia.
Qed.

Lemma resize_length : forall n l, length (resize n l) = n.
Proof.
  intros. unfold resize. rewrite app_length, firstn_length, repeat_length. lia.
Qed.

Section Fill.
  Variables (step chunk stop ntxw r : Z).
  Hypothesis Hs : 1 <= step.
  Hypothesis Hc : 1 <= chunk.
  Hypothesis Hn : 1 <= ntxw.

  (** Tasks still to hand out against workers left. *)
  Definition budget (i k : nat) (tot : Z) : Prop :=
    (1 < r /\ tot = Z.of_nat k * ntxw + Z.max 0 (r - Z.of_nat i)) \/
    (r = 0 /\ ntxw = 1 /\ tot <= Z.of_nat k) \/
    (0 <= r <= 1 /\ tot = Z.of_nat k * ntxw + r).

  Definition goodc (c : cell) : Prop :=
    1 <= nt c /\ fits chunk (len (lo c) (hi c) step) (nt c).

  Lemma fill_spec : forall k i start tot data d' tot',
    fill step chunk stop ntxw r k i start tot data = (d', tot') ->
    (i + k <= length data)%nat -> 0 <= tot -> budget i k tot -> (1 < r -> r <= Z.of_nat (i + k)) ->
    fits chunk (len start stop step) tot ->
    exists seg start',
      d' = firstn i data ++ seg ++ skipn (i + length seg) data /\
      (length seg <= k)%nat /\ (length seg = k \/ (r = 0 /\ ntxw = 1 /\ tot' = 0)) /\
      Forall goodc seg /\ (r <= 1 -> Forall (fun c => nt c = ntxw) seg) /\
      loop start stop step = flat_map (rem step) seg ++ loop start' stop step /\
      tot = sumnt seg + tot' /\ (tot' = 0 \/ (tot' = 1 /\ r = 1)) /\
      fits chunk (len start' stop step) tot' /\
      ((1 <= k)%nat -> 1 <= tot -> exists seg0 cl, seg = seg0 ++ [cl] /\
          loop (lo cl) stop step = rem step cl ++ loop start' stop step /\
          fits chunk (len (lo cl) stop step) (nt cl + tot')).
  Proof.
    induction k as [|k IH]; intros i start tot data d' tot' E Hl H0 HB Hr HF; simpl in E.
    - injection E as <- <-. exists [], start. simpl.
      rewrite Nat.add_0_r, firstn_skipn.
      assert (tot = 0 \/ (tot = 1 /\ r = 1)).
      { destruct HB as [[? ?]|[[? [? ?]]|[? ?]]]; lia. }
      ands; auto; try lia.
    - destruct (Z.ltb_spec 0 tot) as [Lt|Ge].
      2:{ injection E as <- <-. exists [], start. simpl.
          rewrite Nat.add_0_r, firstn_skipn.
          assert (tot = 0) by lia.
          assert (r = 0 /\ ntxw = 1) by (destruct HB as [[? ?]|[[? [? ?]]|[? ?]]]; nia).
          ands; auto; try lia. }
      set (t := ntxw + (if (1 <? r) && (Z.of_nat i <? r) then 1 else 0)) in *.
      set (e := start + (t * chunk - 1) * step + 1) in *.
      set (en := if e <? stop then e else stop) in *.
      assert (Een : en = Z.min (start + ((t * chunk - 1) * step + 1)) stop).
      { unfold en. destruct (Z.ltb_spec e stop); unfold e in *; lia. }
      assert (T1 : 1 <= t) by (unfold t; destruct (_ && _); lia).
      assert (TT : t <= tot).
      { unfold t. destruct HB as [[? ?]|[[? [? ?]]|[? ?]]];
        destruct (Z.ltb_spec 1 r); destruct (Z.ltb_spec (Z.of_nat i) r); simpl; nia. }
      destruct (chunk_split step (t * chunk) start stop Hs) as (S1 & S2 & S3); [nia|].
      rewrite <- Een in S1, S2, S3.
      pose proof (len_nonneg start stop step) as Ln.
      destruct HF as [F0 F1]. destruct F1 as [F1 F2]; [lia|].
      assert (GC : goodc (mkCell t start en)).
      { split; simpl; [lia|]. rewrite S2. split; intros; [lia|].
        assert (t < tot \/ t = tot) as [C|C] by lia; [|subst]; nia. }
      assert (FR : fits chunk (len (en - 1 + step) stop step) (tot - t)).
      { rewrite S3. split; intros.
        - assert (t = tot) by lia. subst. nia.
        - nia. }
      assert (RL : loop start stop step = rem step (mkCell t start en) ++ loop (en - 1 + step) stop step).
      { exact S1. }
      destruct (IH (S i) (en - 1 + step) (tot - t) (lupd data i (mkCell t start en)) d' tot' E)
        as (seg & st' & D & L1 & L2 & G & NT & CV & SM & TO & FT & LS).
      + rewrite lupd_length. lia.
      + lia.
      + unfold budget in *. unfold t.
        destruct HB as [[? ?]|[[? [? ?]]|[? ?]]];
        destruct (Z.ltb_spec 1 r); destruct (Z.ltb_spec (Z.of_nat i) r); simpl;
        solve [left; split; [lia|nia] | right; left; lia | right; right; split; [lia|nia]].
      + intros; specialize (Hr H); lia.
      + exact FR.
      + exists (mkCell t start en :: seg), st'.
        assert (D2 : d' = firstn i data ++ (mkCell t start en :: seg) ++
                     skipn (i + length (mkCell t start en :: seg)) data).
        { rewrite D, firstn_lupd_S, skipn_lupd_gt by lia. rewrite <- app_assoc.
          cbn [app length]. rewrite Nat.add_succ_r, Nat.add_succ_l. reflexivity. }
        split; [exact D2|]. simpl length.
        ands; auto; try lia.
        * intros Hr1. constructor; auto. simpl. unfold t.
          destruct (Z.ltb_spec 1 r); [lia|simpl; lia].
        * simpl. rewrite <- app_assoc, <- CV. exact RL.
        * simpl. lia.
        * intros _ _. destruct (Z_le_gt_dec 1 (tot - t)) as [C|C].
          -- destruct k as [|k'].
             ++ simpl in L1. assert (seg = []) by (destruct seg; simpl in L1; [auto|lia]).
                subst seg. exists [], (mkCell t start en). simpl in *.
                split; [reflexivity|]. rewrite S1, CV. split; [reflexivity|].
                replace (t + tot') with tot by lia. split; intros; lia.
             ++ destruct LS as (seg0 & cl & -> & A & B); [lia|lia|].
                exists (mkCell t start en :: seg0), cl. auto.
          -- assert (tot - t = 0) by lia.
             assert (seg = []).
             { destruct seg as [|c q]; auto. inversion G as [|? ? G1 G2]; subst.
               exfalso. destruct G1 as [G1 _]. simpl in SM.
               assert (SQ : forall q, Forall goodc q -> 0 <= sumnt q).
               { clear. induction 1 as [|c0 q0 [? _] ? IH0]; simpl; lia. }
               pose proof (SQ q G2). lia. }
             subst seg. exists [], (mkCell t start en). simpl in *.
             split; [reflexivity|]. rewrite S1, CV. split; [reflexivity|].
             replace (t + tot') with tot by lia. split; intros; lia.
  Qed.
End Fill.

(** What a table must satisfy for a dynamic loop. *)
Record table_ok (first last step chunk total : Z) (nw : nat) (data old : list cell) : Prop := {
  tk_chunk : 1 <= chunk;
  tk_nw : (1 <= nw <= length data)%nat;
  tk_cells : forall i c, (i < nw)%nat -> nth_error data i = Some c -> goodc step chunk c;
  tk_cover : flat_map (rem step) (firstn nw data) = loop first last step;
  tk_sum : total = sumnt (firstn nw data);
  tk_rest : forall i c, (nw <= i)%nat -> nth_error data i = Some c ->
              c = cell0 \/ nth_error old i = Some c }.

Lemma nth_error_resize : forall n l i c, nth_error (resize n l) i = Some c ->
  c = cell0 \/ nth_error l i = Some c.
Proof.
  intros n l i c H. unfold resize in H.
  destruct (Nat.ltb_spec i (length (firstn n l))).
  - rewrite nth_error_app1 in H by auto. right.
    rewrite <- (firstn_skipn n l). rewrite nth_error_app1; auto.
  - rewrite nth_error_app2 in H by auto. apply nth_error_In in H. apply repeat_spec in H. auto.
Qed.

Lemma sum_const : forall (l : list cell) v, Forall (fun c => nt c = v) l ->
  sumnt l = Z.of_nat (length l) * v.
Proof. induction 1; simpl sumnt; [simpl; lia|]. rewrite IHForall, H. simpl length. nia. Qed.

Lemma sum_ge : forall (l : list cell), Forall (fun c => 1 <= nt c) l -> Z.of_nat (length l) <= sumnt l.
Proof. induction 1; simpl sumnt; [simpl; lia|]. simpl length. nia. Qed.

Lemma init_data_ok : forall first last step chunk nw data,
  first < last -> 1 <= step -> 1 <= chunk -> (1 <= nw)%nat ->
  exists u, setloop first last step chunk nw data = Done u /\ s_static u = false /\
            (s_nw u <= nw)%nat /\ length (s_data u) = nw /\
            ((1 < s_nw u)%nat \/ s_nw u = 1%nat) /\
            table_ok first last step (s_chunk u) (s_total u) (s_nw u) (s_data u) data.
Proof.
  intros first last step chunk nw data HL Hs Hc Hw.
  unfold setloop. destruct (Z.eqb_spec chunk 0); [lia|]. destruct (Z.ltb_spec chunk 0); [lia|].
  unfold init_data.
  set (N := ceil_div (last - first) step).
  assert (HN : N = len first last step) by (unfold N; rewrite len_ceil by lia; reflexivity).
  assert (N1 : 1 <= N).
  { rewrite HN, len_cons by lia. pose proof (len_nonneg (first + step) last step). lia. }
  set (total := ceil_div N chunk).
  pose proof (fits_ceil chunk N Hc ltac:(lia)) as FT. fold total in FT.
  assert (T1 : 1 <= total).
  { destruct FT as [F0 _]. destruct (Z_le_gt_dec total 0); [specialize (F0 l); lia|lia]. }
  set (W := Z.of_nat nw) in *. assert (W1 : 1 <= W) by (unfold W; lia).
  pose proof (Z.div_mod total W ltac:(lia)) as DM.
  pose proof (Z.mod_pos_bound total W ltac:(lia)) as MB.
  assert (DP : 0 <= total / W) by (apply Z.div_pos; lia).
  set (small := (total / W =? 0) && (1 <=? total mod W)).
  set (ntxw := if small then 1 else total / W).
  set (r := if small then 0 else total mod W).
  assert (HB : 1 <= ntxw /\ budget ntxw r 0 nw total /\ (1 < r -> r <= W)).
  { unfold ntxw, r, small, budget. fold W.
    destruct (Z.eqb_spec (total / W) 0) as [E|E]; destruct (Z.leb_spec 1 (total mod W)); simpl.
    - split; [lia|]. split; [right; left; nia | lia].
    - exfalso. nia.
    - split; [lia|]. split; [|lia].
      destruct (Z_lt_le_dec 1 (total mod W)); [left; split; [lia|nia] | right; right; split; [lia|nia]].
    - split; [lia|]. split; [|lia]. right; right; split; [lia|nia]. }
  destruct HB as (Hn & HB & Hr).
  destruct (fill step chunk last ntxw r nw 0 first total (resize nw data)) as [d1 lft] eqn:EF.
  destruct (fill_spec step chunk last ntxw r Hs Hc Hn nw 0 first total (resize nw data) d1 lft EF)
    as (seg & st' & D & L1 & L2 & G & NT & CV & SM & TO & FT' & LS).
  - rewrite resize_length. lia.
  - lia.
  - exact HB.
  - intros. rewrite Nat.add_0_l. apply Hr; auto.
  - rewrite <- HN. exact FT.
  - simpl in D.
    assert (LD : length d1 = nw).
    { rewrite D, app_length, skipn_length, resize_length. lia. }
    assert (Hseg : (1 <= length seg)%nat).
    { destruct seg; [|simpl; lia]. simpl in SM. destruct TO as [?|[? ?]]; [lia|].
      destruct L2; [simpl in H1; lia | lia]. }
    assert (NS : Forall (fun c => 1 <= nt c) seg).
    { eapply Forall_impl; [|exact G]. intros c [? _]; auto. }
    destruct TO as [TO|[TO Hr1]]; subst lft.
    + (* no task left over *)
      simpl (0 =? 0). cbv iota. unfold finish_setloop.
      destruct (Z.ltb_spec total 1); [lia|].
      destruct FT' as [FT0 _]. specialize (FT0 ltac:(lia)).
      apply len_0 in FT0; auto. rewrite (loop_nil st') in CV by auto. rewrite app_nil_r in CV.
      eexists. split; [reflexivity|]. cbn [s_nw s_data s_chunk s_total s_static]. fold W.
      set (nw' := if (total <=? W) || (total =? 1) then Z.to_nat total else nw).
      assert (NW : nw' = length seg).
      { pose proof (sum_ge seg NS). unfold nw', W in *.
        destruct (Z.leb_spec total (Z.of_nat nw)) as [C|C]; simpl.
        - (* total <= nw: every filled cell has one task *)
          assert (r <= 1 /\ ntxw = 1) as [R1 X1].
          { unfold r, ntxw, small. 
            assert (total < Z.of_nat nw \/ total = Z.of_nat nw) as [C'|C'] by lia.
            - rewrite Z.div_small, Z.mod_small by lia. simpl.
              destruct (Z.leb_spec 1 total); simpl; lia.
            - rewrite C', Z.div_same, Z.mod_same by lia. simpl. lia. }
          specialize (NT R1). apply sum_const in NT. rewrite X1 in NT. lia.
        - destruct (Z.eqb_spec total 1); [lia|].
          destruct L2 as [L2|(R0 & X1 & _)]; [lia|].
          specialize (NT ltac:(lia)). apply sum_const in NT. rewrite X1 in NT. lia. }
      assert (FN : firstn nw' d1 = seg).
      { rewrite NW, D. rewrite firstn_app, Nat.sub_diag, firstn_all. simpl. apply app_nil_r. }
      split; [reflexivity|]. split; [rewrite NW; exact L1|]. split; [exact LD|].
      split; [rewrite NW; lia|].
      constructor.
      * exact Hc.
      * rewrite NW, LD. lia.
      * intros i c Hi E. rewrite <- FN in G. rewrite Forall_forall in G. apply G.
        rewrite <- (firstn_skipn nw' d1) in E. rewrite nth_error_app1 in E.
        -- eapply nth_error_In; eauto.
        -- rewrite firstn_length. lia.
      * rewrite FN. auto.
      * rewrite FN. lia.
      * intros i c Hi E. rewrite D in E. rewrite nth_error_app2 in E by lia.
        apply (nth_error_resize nw). rewrite <- E. 
        rewrite <- (firstn_skipn (length seg) (resize nw data)) at 1.
        rewrite nth_error_app2; rewrite firstn_length, resize_length; [f_equal; lia|lia].
    + (* one task left over for the last worker *)
      assert (SL : length seg = nw) by (destruct L2 as [?|(? & ? & ?)]; lia).
      assert (D' : d1 = seg).
      { rewrite D, SL. rewrite skipn_all2 by (rewrite resize_length; lia). apply app_nil_r. }
      clear D. subst d1.
      destruct LS as (seg0 & cl & SE & LC & FC); [lia|lia|].
      assert (L0 : (nw - 1)%nat = length seg0).
      { rewrite <- SL, SE, app_length. simpl. lia. }
      assert (NC : nth (nw - 1) seg cell0 = cl).
      { rewrite SE, L0, app_nth2, Nat.sub_diag by lia. reflexivity. }
      simpl (1 =? 0). simpl (negb (1 =? 1)). cbv iota. rewrite NC.
      assert (LU : forall x, lupd seg (nw - 1) x = seg0 ++ [x]).
      { intros x. rewrite SE, L0. rewrite lupd_split by (rewrite app_length; simpl; lia).
        rewrite skipn_all2 by (rewrite app_length; simpl; lia).
        rewrite firstn_app, Nat.sub_diag, firstn_all. simpl. rewrite app_nil_r. reflexivity. }
      rewrite !LU. specialize (NT ltac:(lia)).
      rewrite SE in G, NT, CV, SM. apply Forall_app in G as [G0 G1]. apply Forall_app in NT as [NT0 NT1].
      apply Forall_inv in G1 as [Gc1 Gc2]. apply Forall_inv in NT1 as NTc.
      rewrite flat_map_app in CV. simpl in CV. rewrite app_nil_r, <- app_assoc in CV.
      rewrite <- LC in CV. rewrite sumnt_app in SM. simpl in SM.
      apply sum_const in NT0 as SM0. rewrite SM0, <- L0, NTc in SM.
      assert (Wn : (1 <= nw)%nat) by lia.
      assert (TW : W < total).
      { unfold W. nia. }
      destruct (Z.ltb_spec 1 ntxw) as [C|C].
      * unfold finish_setloop. destruct (Z.ltb_spec total 1); [lia|].
        eexists. split; [reflexivity|]. cbn [s_nw s_data s_chunk s_total s_static]. fold W.
        destruct (Z.leb_spec total W); [lia|]. destruct (Z.eqb_spec total 1); [lia|]. simpl orb. cbv iota.
        assert (LL : length (seg0 ++ [mkCell (nt cl + 1) (lo cl) last]) = nw).
        { rewrite app_length. simpl. lia. }
        split; [reflexivity|]. split; [lia|]. split; [exact LL|]. split; [lia|].
        assert (FN : firstn nw (seg0 ++ [mkCell (nt cl + 1) (lo cl) last]) =
                     seg0 ++ [mkCell (nt cl + 1) (lo cl) last]).
        { rewrite <- LL at 1. apply firstn_all. }
        constructor.
        -- exact Hc.
        -- rewrite LL. lia.
        -- intros i c Hi E. apply nth_error_In, in_app_or in E as [E|[E|[]]].
           ++ rewrite Forall_forall in G0. auto.
           ++ subst c. split; simpl; [lia|exact FC].
        -- rewrite FN, flat_map_app. simpl. rewrite app_nil_r. symmetry. exact CV.
        -- rewrite FN, sumnt_app. simpl. rewrite SM0, <- L0. lia.
        -- intros i c Hi E. apply nth_error_lt in E. lia.
      * assert (X1 : ntxw = 1) by lia. unfold finish_setloop.
        destruct (Z.ltb_spec (total - 1) 1); [lia|].
        eexists. split; [reflexivity|]. cbn [s_nw s_data s_chunk s_total s_static]. fold W.
        assert (TE : total - 1 = W) by (unfold W; nia). rewrite TE, Z.leb_refl. simpl orb. cbv iota.
        replace (Z.to_nat W) with nw by (unfold W; lia).
        assert (LL : length (seg0 ++ [mkCell (nt cl) (lo cl) last]) = nw).
        { rewrite app_length. simpl. lia. }
        split; [reflexivity|]. split; [lia|]. split; [exact LL|]. split; [lia|].
        assert (FN : firstn nw (seg0 ++ [mkCell (nt cl) (lo cl) last]) =
                     seg0 ++ [mkCell (nt cl) (lo cl) last]).
        { rewrite <- LL at 1. apply firstn_all. }
        constructor.
        -- lia.
        -- rewrite LL. lia.
        -- intros i c Hi E. apply nth_error_In, in_app_or in E as [E|[E|[]]].
           ++ rewrite Forall_forall in G0, NT0. specialize (G0 _ E) as [_ [_ G0]]. specialize (NT0 _ E).
              split; [lia|]. rewrite NT0, X1 in *. specialize (G0 ltac:(lia)). split; intros; lia.
           ++ subst c. destruct FC as [_ FC]. split; simpl; [lia|]. rewrite NTc, X1 in *.
              specialize (FC ltac:(lia)). split; intros; lia.
        -- rewrite FN, flat_map_app. simpl. rewrite app_nil_r. symmetry. exact CV.
        -- rewrite FN, sumnt_app. simpl. rewrite SM0, <- L0. unfold W. rewrite NTc. nia.
        -- intros i c Hi E. apply nth_error_lt in E. lia.
Qed.
