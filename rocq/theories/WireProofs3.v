(** One iteration of the pipeline's loop: outcome and effect, for every pair of stages. *)
From Coq Require Import List Arith Bool Lia.
From Verif Require Import WireModel WireSpec WireProofs WireProofs2.
Import ListNotations.

Section Link.
  Variables (i : nat) (p c : stage) (h : heap).
  Hypothesis FO : forall x, In x (exit i p ++ [(i, Obj)]) -> nout h x = None /\ outN h x = [].
  Hypothesis FI : forall y, In y (entry (S i) c) -> nin h y = None /\ inN h y = [].

  Lemma fo : forall x, In x (exit i p) -> nout h x = None /\ outN h x = [].
  Proof using FO. intros. apply FO. apply in_or_app; auto. Qed.
  Lemma fobj : nout h (i, Obj) = None /\ outN h (i, Obj) = [].
  Proof using FO. apply FO. apply in_or_app; right; left; auto. Qed.

  Lemma full_labels : forall base x y, full p c = true -> blab p c base x y = base + pos y * np p + pos x.
  Proof using Type. intros base x y F. unfold blab. rewrite F. auto. Qed.

  Lemma done_cross : full p c = true -> exit_mo p = true -> entry_mi c = true -> deferred p c = false -> ~ In (i, Obj) (exit i p) ->
    exists h', cross (exit i p) (entry (S i) c) h = Some h' /\ done i p c h h'.
  Proof using FO FI.
    intros F EM IM DF NO.
    destruct (cross_form (exit i p) (entry (S i) c) h (posd_nodup _ (posd_exit i p)) (posd_nodup _ (posd_entry (S i) c)))
      as (h' & E & B & N1 & N2 & K & P & Q & R). exists h'. split; [auto|]. split; [|split; [|split]].
    - unfold BP. rewrite DF. split; [|rewrite K; [apply fobj|auto]]. unfold BF. rewrite EM, IM.
      eapply cross_bundle; eauto using posd_exit, posd_entry.
      + intros x Hx. apply (fo x Hx).
      + intros y Hy. apply (FI y Hy).
      + intros x y Hx Hy. rewrite full_labels, length_exit; auto.
      + intros x Hx. unfold aft. rewrite F. auto.
      + intros x Hx. unfold bef. rewrite F. auto.
    - rewrite B. unfold bcnt. rewrite F, length_exit, length_entry. auto.
    - intros x Hx. rewrite N2, K; auto. intros A. apply Hx. apply in_or_app; auto.
    - intros y Hy. rewrite N1, Q; auto.
  Qed.

  (** One producer, one consumer. *)
  Lemma done_one : forall x y h', exit i p = [x] -> entry (S i) c = [y] -> deferred p c = false ->
    writes (exit_mo p) h' x = [Some (nb h)] -> reads (entry_mi c) h' y = [Some (nb h)] ->
    (forall z, In (Nref z) (outN h' x) -> z = y) -> (forall z, In (Nref z) (inN h' y) -> z = x \/ z = (i, Obj)) ->
    outN h' (i, Obj) = [] -> nb h' = S (nb h) -> keepO [x; (i, Obj)] h h' -> keepI [y] h h' -> done i p c h h'.
  Proof using Type.
    intros x y h' EX EY DF W R CX CY OO B KO KI.
    assert (PX : pos x = 0) by (apply (posd_exit i p 0 x); rewrite EX; auto).
    assert (PY : pos y = 0) by (apply (posd_entry (S i) c 0 y); rewrite EY; auto).
    assert (NP : np p = 1) by (rewrite <- (length_exit i), EX; auto).
    assert (NC : nc c = 1) by (rewrite <- (length_entry (S i)), EY; auto).
    assert (F : full p c = true) by (apply full_one_p; auto).
    split; [|split; [|split]].
    - unfold BP. rewrite DF. split; [|auto]. unfold BF, bundle. rewrite EX, EY. split.
      + intros x' [<-|[]]. split; [|intros z Hz; left; symmetry; auto]. rewrite W. unfold aft. rewrite F, EY. simpl. rewrite full_labels, PX, PY by auto.
        do 2 f_equal. lia.
      + intros y' [<-|[]]. split; [|intros z Hz; destruct (CY z Hz) as [->| ->]; simpl; auto]. rewrite R. unfold bef. rewrite F, EX. simpl.
        rewrite full_labels, PX, PY by auto. do 2 f_equal. lia.
    - rewrite B. unfold bcnt. rewrite F, NP, NC. lia.
    - rewrite EX. exact KO.
    - rewrite EY. exact KI.
  Qed.

  Lemma done_p2p : forall h1 h', np p = nc c -> (full p c = true -> np p = 1) -> deferred p c = false ->
    (forall x, In x (exit i p) -> forall y, In y (entry (S i) c) -> pos y = pos x ->
       writes (exit_mo p) h' x = [Some (nb h + pos x)] /\ reads (entry_mi c) h' y = [Some (nb h + pos x)] /\
       (forall z, In (Nref z) (outN h' x) -> z = y) /\ (forall z, In (Nref z) (inN h' y) -> z = x)) ->
    nb h' = nb h + np p -> keepO (exit i p) h h1 -> keepI (entry (S i) c) h h1 -> ~ In (i, Obj) (exit i p) ->
    keepO (exit i p) h1 h' -> keepI (entry (S i) c) h1 h' -> done i p c h h'.
  Proof using FO.
    intros h1 h' L F DF W B KO1 KI1 NO KO KI.
    assert (KO2 : keepO (exit i p) h h').
    { intros x Hx. destruct (KO1 x Hx), (KO x Hx). split; congruence. }
    split; [|split; [|split]].
    - unfold BP. rewrite DF. split; [|destruct (KO2 _ NO) as [_ Q]; rewrite Q; apply fobj]. unfold BF, bundle. split.
      + intros x Hx. destruct (combine_in (exit i p) (entry (S i) c) (posd_exit _ _) (posd_entry _ _)) with (x := x) as (y & Hy & E & NY & NX); auto.
        { rewrite length_exit, length_entry. auto. }
        apply nth_error_In in NY. destruct (W x Hx y NY E) as (W1 & W2 & W3 & W4).
        destruct (p2p_labels i p c (nb h) x y L F Hx NY E) as (A1 & A2 & A3).
        rewrite A1. simpl. rewrite A3, W1. split; [auto|]. intros z Hz. rewrite (W3 z Hz). auto.
      + intros y Hy. destruct (combine_in (entry (S i) c) (exit i p) (posd_entry _ _) (posd_exit _ _)) with (x := y) as (x & Hx & E & NX & NY); auto.
        { rewrite length_exit, length_entry. auto. }
        apply nth_error_In in NX. symmetry in E. destruct (W x NX y Hy E) as (W1 & W2 & W3 & W4).
        destruct (p2p_labels i p c (nb h) x y L F NX Hy E) as (A1 & A2 & A3).
        rewrite A2. simpl. rewrite A3, W2. split; [auto|]. intros z Hz. rewrite (W4 z Hz). apply in_or_app; auto.
    - rewrite B. unfold bcnt. destruct (full p c); auto. rewrite <- L, (F eq_refl). auto.
    - intros x Hx. apply KO2. intros A. apply Hx. apply in_or_app; auto.
    - intros y Hy. destruct (KI1 y Hy), (KI y Hy). split; congruence.
  Qed.
End Link.

Lemma deferred_false : forall p c, single p = true \/ entry_mi c = true \/ is_a2a c = true -> deferred p c = false.
Proof. intros p [k|n kw cc o|n1 k1 n2 k2] H; simpl in *; auto. destruct H as [H|[H|H]]; try discriminate; rewrite H; simpl; auto using andb_false_r. Qed.

Definition outcome (i : nat) (p c : stage) (h : heap) (ok : bool) : Prop :=
  if ok then exists h', connect i p c h = Some h' /\ done i p c h h' else connect i p c h = None.

(** The current stage has one multi-input entry (a multi-input node, or a farm). *)
Lemma connect_sm : forall i p c h, pview i p -> is_a2a c = false -> entry_mi c = true ->
  (forall x, In x (exit i p ++ [(i, Obj)]) -> nout h x = None /\ outN h x = []) ->
  (forall y, In y (entry (S i) c) -> nin h y = None /\ inN h y = []) -> outcome i p c h true.
Proof.
  intros i p c h V A M FO FI. set (y := in_node (S i) c).
  assert (EY : entry (S i) c = [y]) by (destruct c; try discriminate; auto).
  assert (MI : multi_in c = true) by (destruct c; try discriminate; auto).
  assert (DF : deferred p c = false) by (apply deferred_false; auto).
  assert (C : connect i p c h =
        if p_ss p then bind (stage_create_output i p h) (fun h => Some (add_in y [stage_ref i p] h))
        else if p_sm p then
          let b := nb h in
          bind (ignore (stage_set_output i p [Bref b] (alloc h)) (alloc h)) (fun h => Some (add_in y [Bref b] h))
        else if p_ms p then
          bind (stage_create_output i p h) (fun h => Some (add_in y (map Nref (out_nodes i p)) h))
        else cross (out_nodes i p) [y] h).
  { unfold connect. destruct c; try discriminate; simpl in MI; fold y; cbv zeta; simpl multi_in; try rewrite MI; auto. }
  destruct (FI y) as [FI1 FI2]; [rewrite EY; left; auto|].
  assert (F : full p c = true) by (apply full_one_c; rewrite <- (length_entry (S i)), EY; auto).
  unfold outcome. rewrite C. destruct V as [x EX PX NX EM SP P1 SB CR|x EX PX NX EM SP P1 P2 SO|NP1 SP P1 P2 P3 EN EMO NO CR SO]; rewrite P1.
  - destruct (fo i p h FO x) as [O1 O2]; [rewrite EX; left; auto|]. destruct (fobj i p h FO) as [O3 O4].
    destruct (CR h O1 O3) as (h1 & z & E & B & N1 & N2 & N3 & W & RF & HZ & WZ & K). rewrite E. simpl. eexists. split; [reflexivity|].
    apply done_one with (x := x) (y := y); auto.
    + rewrite EM. simpl. rewrite W. auto.
    + rewrite M. simpl. rewrite upd_eq, N2, FI2. simpl. rewrite RF. simpl. rewrite WZ. auto.
    + simpl. rewrite N3, O2. contradiction.
    + simpl. rewrite upd_eq, N2, FI2, RF. intros w [E'|[]]. injection E' as <-. tauto.
    + simpl. rewrite N3. auto.
    + intros w Hw. simpl. rewrite N3. split; [apply K; intros ->; apply Hw; simpl; auto|auto].
    + intros w Hw. simpl. rewrite N1, N2, upd_neq; auto. intros <-. apply Hw. left; auto.
  - rewrite P2. cbv zeta. rewrite SO. cbn [ignore bind]. change (Some (add_in y [Bref (nb h)] (add_out x [Bref (nb h)] (alloc h)))) with (cross [x] [y] h).
    rewrite <- EX, <- EY. apply done_cross; auto. rewrite EX. intros [->|[]]; auto.
  - rewrite P2, P3. destruct (exit_mo p) eqn:EM; simpl.
    + rewrite EN. rewrite <- EY. apply done_cross; auto.
    + rewrite CR, EN. destruct (create_out_iter (exit i p) h) as (h1 & E & B & N1 & N2 & N3 & K & P); [apply posd_nodup, posd_exit| |].
      { intros x Hx. apply (fo i p h FO x Hx). }
      rewrite E. simpl. eexists. split; [reflexivity|]. split; [|split; [|split]].
      * unfold BP. rewrite DF. split; [|simpl; rewrite N3; apply (fobj i p h FO)]. unfold BF, bundle. rewrite EM, M, EY. split.
        -- intros x Hx. destruct (posd_in _ _ (posd_exit i p) Hx) as [XN _]. unfold aft. rewrite F, EY. simpl. rewrite (P _ _ XN). split.
           ++ rewrite full_labels by auto. simpl. do 2 f_equal. assert (PY : pos y = 0) by (apply (posd_entry (S i) c 0 y); rewrite EY; auto). rewrite PY. lia.
           ++ rewrite N3. destruct (fo i p h FO x Hx) as [_ ->]. contradiction.
        -- intros y' [<-|[]]. simpl. rewrite upd_eq, N2, FI2. simpl. split.
           ++ unfold bef. rewrite F. rewrite map_map. apply map_ext_in. intros x Hx. destruct (posd_in _ _ (posd_exit i p) Hx) as [XN _].
              simpl. rewrite (P _ _ XN), full_labels by auto. f_equal.
              assert (PY : pos y = 0) by (apply (posd_entry (S i) c 0 y); rewrite EY; auto). rewrite PY. lia.
           ++ intros z Hz. apply in_map_iff in Hz. destruct Hz as (w & E' & Hw). injection E' as <-. apply in_or_app; auto.
      * simpl. rewrite B. unfold bcnt. rewrite F, length_exit. replace (nc c) with 1; [lia|]. rewrite <- (length_entry (S i)), EY. auto.
      * intros w Hw. simpl. rewrite N3, K; auto. intros Q. apply Hw. apply in_or_app; auto.
      * intros w Hw. rewrite EY in Hw. simpl. rewrite N1, N2, upd_neq; auto. intros <-. apply Hw. left; auto.
Qed.

(** The current stage is a standard node. *)
Lemma connect_ss : forall i p k h, pview i p -> mi k = false ->
  (forall x, In x (exit i p ++ [(i, Obj)]) -> nout h x = None /\ outN h x = []) ->
  (forall y, In y (entry (S i) (SNode k)) -> nin h y = None /\ inN h y = []) -> outcome i p (SNode k) h (link_pre p (SNode k)).
Proof.
  intros i p k h V M FO FI. unfold outcome, link_pre. rewrite M. simpl. rewrite M. destruct (FI (S i, Self)) as [FI1 FI2]; [left; auto|].
  unfold create_in. rewrite FI1. cbn [bind]. destruct V as [x EX PX NX EM SP P1 SB CR|x EX PX NX EM SP P1 P2 SO|NP1 SP P1 P2 P3 EN EMO NO CR SO]; rewrite P1, SP.
  - simpl. rewrite SB. eexists. split; [reflexivity|]. destruct (fo i p h FO x) as [O1 O2]; [rewrite EX; left; auto|]. destruct (fobj i p h FO) as [O3 O4].
    apply done_one with (x := x) (y := (S i, Self)); auto.
    + simpl. rewrite M, SP. auto.
    + rewrite EM. simpl. rewrite !upd_eq. auto.
    + simpl. rewrite M. simpl. rewrite upd_eq. auto.
    + simpl. rewrite O2. contradiction.
    + simpl. rewrite FI2. contradiction.
    + intros w Hw. simpl. rewrite upd_neq; auto. intros <-. apply Hw. simpl; auto.
    + intros w Hw. simpl. rewrite upd_neq; auto. intros <-. apply Hw. simpl; auto.
  - simpl. rewrite P2, SO. simpl. eexists. split; [reflexivity|]. destruct (fo i p h FO x) as [O1 O2]; [rewrite EX; left; auto|]. destruct (fobj i p h FO) as [O3 O4].
    apply done_one with (x := x) (y := (S i, Self)); auto.
    + simpl. rewrite M, SP. auto.
    + rewrite EM. simpl. rewrite upd_eq, O2. simpl. rewrite upd_eq. auto.
    + simpl. rewrite M. simpl. rewrite upd_eq. auto.
    + simpl. rewrite upd_eq, O2. intros z [E|[]]. congruence.
    + simpl. rewrite FI2. contradiction.
    + simpl. rewrite upd_neq; auto.
    + intros w Hw. simpl. rewrite upd_neq; auto. intros <-. apply Hw. simpl; auto.
    + intros w Hw. simpl. rewrite upd_neq; auto. intros <-. apply Hw. simpl; auto.
  - rewrite P2, EN, length_exit. simpl. destruct (fobj i p h FO) as [O3 O4]. destruct (Nat.eqb_spec (np p) 1) as [Q|Q].
    + rewrite Q. simpl. rewrite SO by auto. simpl. eexists. split; [reflexivity|].
      assert (F : full p (SNode k) = true) by (apply full_one_p; auto). split; [|split; [|split]].
      * unfold BP. replace (deferred p (SNode k)) with true by (simpl; rewrite M, SP; auto). split; [auto|]. split; [simpl; rewrite upd_eq, O4; auto|].
        split; [simpl; rewrite upd_eq; auto|]. split; [simpl; auto|]. intros x Hx. simpl. destruct (fo i p h FO x Hx) as [O1 O2].
        rewrite upd_neq; auto. intros <-. auto.
      * simpl. unfold bcnt. rewrite F, Q. simpl. lia.
      * intros w Hw. simpl. rewrite upd_neq; auto. intros <-. apply Hw. apply in_or_app; simpl; auto.
      * intros w Hw. simpl. rewrite upd_neq; auto. intros <-. apply Hw. simpl; auto.
    + destruct (Nat.ltb_spec 1 (np p)) as [L|L]; auto. lia.
Qed.

Lemma full_inv : forall p c, full p c = true -> exit_mo p && entry_mi c = false -> np p = 1 \/ nc c = 1.
Proof. intros p c F E. unfold full in F. rewrite E, orb_false_r in F. apply orb_prop in F. rewrite !Nat.eqb_eq in F. auto. Qed.
Lemma lw_one : forall i n, n = 1 -> lw i n = [(i, Lw 0)]. Proof. intros i n ->. auto. Qed.
Lemma length_lw : forall i n, length (lw i n) = n. Proof. intros. unfold lw. rewrite map_length, seq_length. auto. Qed.

(** The current stage is an all-to-all. *)
Lemma connect_m : forall i p n1 k1 n2 k2 h, pview i p -> 1 <= n1 ->
  (forall x, In x (exit i p ++ [(i, Obj)]) -> nout h x = None /\ outN h x = []) ->
  (forall y, In y (entry (S i) (SA2A n1 k1 n2 k2)) -> nin h y = None /\ inN h y = []) ->
  outcome i p (SA2A n1 k1 n2 k2) h (link_pre p (SA2A n1 k1 n2 k2)).
Proof.
  intros i p n1 k1 n2 k2 h V N FO FI. set (c := SA2A n1 k1 n2 k2) in *.
  assert (EN : entry (S i) c = lw (S i) n1) by reflexivity.
  assert (NC : nc c = n1) by (unfold nc; apply length_lw).
  assert (DF : deferred p c = false) by reflexivity.
  assert (EI : entry_mi c = mi k1) by reflexivity.
  assert (PY : posd (lw (S i) n1)) by apply posd_lw.
  assert (ONE : n1 = 1 -> forall x h1, exit i p = [x] -> pos x = 0 -> x <> (i, Obj) -> exit_mo p = false ->
            iter (create_in (mi k1)) (lw (S i) n1) h = Some h1 -> done i p c h (set_nout x (nin h1 (S i, Lw 0)) h1)).
  { intros N1 x h1 EX PX NX EM E. destruct (fo i p h FO x) as [O1 O2]; [rewrite EX; left; auto|]. destruct (fobj i p h FO) as [O3 O4].
    destruct (FI (S i, Lw 0)) as [F1 F2]; [rewrite EN, lw_one by auto; left; auto|].
    destruct (create_in_iter (mi k1) (lw (S i) n1) h) as (h2 & E2 & B & M1 & M2 & K & P); [apply posd_nodup; auto| |].
    { intros y Hy. apply FI. auto. }
    assert (h2 = h1) by congruence. subst h2. destruct (P 0 (S i, Lw 0)) as [P1 P2]; [rewrite lw_one by auto; auto|].
    rewrite Nat.add_0_r in P1, P2. rewrite F2 in P2. simpl in P2.
    apply done_one with (x := x) (y := (S i, Lw 0)); auto.
    - rewrite EN, lw_one; auto.
    - rewrite EM. simpl. rewrite upd_eq, P1. auto.
    - rewrite EI. unfold reads. simpl. destruct (mi k1); [rewrite P2; auto|rewrite P1; auto].
    - simpl. rewrite M2, O2. contradiction.
    - simpl. rewrite P2. intros z Hz. destruct (mi k1); simpl in Hz; [destruct Hz as [Hz|[]]; discriminate|contradiction].
    - simpl. rewrite M2. auto.
    - simpl. rewrite B, length_lw. lia.
    - intros w Hw. simpl. rewrite M1, M2, upd_neq; auto. intros <-. apply Hw. simpl; auto.
    - intros w Hw. simpl. apply K. rewrite lw_one by auto. auto. }
  assert (CI : forall m, exists h1, iter (create_in m) (lw (S i) n1) h = Some h1).
  { intros m. destruct (create_in_iter m (lw (S i) n1) h) as (h2 & E2 & _); [apply posd_nodup; auto| |eauto]. intros y Hy. apply FI. auto. }
  assert (X1 : forall x, exit i p = [x] -> np p = 1) by (intros x E; rewrite <- (length_exit i), E; auto).
  unfold outcome, link_pre. fold c. rewrite NC. unfold connect, c. fold c.
  destruct V as [x EX PX NX EM SP P1 SB CR|x EX PX NX EM SP P1 P2 SO|NP1 SP P1 P2 P3 EO EMO NO CR SO]; rewrite P1, SP.
  - rewrite EM. simpl. destruct (Nat.eqb_spec n1 1) as [Q|Q].
    + replace (1 <? n1) with false by (symmetry; apply Nat.ltb_ge; lia). destruct (CI (mi k1)) as (h1 & E1).
      exists (set_nout x (nin h1 (S i, Lw 0)) h1). split; [|auto]. destruct (mi k1); rewrite E1; simpl; apply SB.
    + replace (1 <? n1) with true by (symmetry; apply Nat.ltb_lt; lia). destruct (mi k1); auto.
  - rewrite P2, EM. simpl. assert (F : full p c = true) by (apply full_one_p; eauto). destruct (mi k1) eqn:MK.
    + replace (iter _ (lw (S i) n1) h) with (cross [x] (lw (S i) n1) h).
      * rewrite <- EX, <- EN. apply done_cross; auto. rewrite EX. intros [->|[]]; auto.
      * unfold cross. apply iter_ext. intros y h1 _. rewrite SO. reflexivity.
    + destruct (create_in_iter false (lw (S i) n1) h) as (h1 & E1 & B & M1 & M2 & K & P); [apply posd_nodup; auto| |].
      { intros y Hy. apply FI. auto. }
      rewrite E1. cbn [bind]. rewrite SO. eexists. split; [reflexivity|].
      destruct (fo i p h FO x) as [O1 O2]; [rewrite EX; left; auto|]. destruct (fobj i p h FO) as [O3 O4].
      split; [|split; [|split]].
      * unfold BP. rewrite DF. split; [|simpl; rewrite M2, upd_neq; auto]. unfold BF, bundle. rewrite EX, EN, EM, EI, ?MK. split.
        -- intros x' [<-|[]]. simpl. rewrite upd_eq, M2, O2. simpl. split.
           ++ unfold aft. rewrite F, EN, map_map. apply map_ext_in. intros y Hy. destruct (posd_in _ _ PY Hy) as [YN _].
              simpl. destruct (P _ _ YN) as [Q1 _]. rewrite Q1, full_labels, PX, (X1 _ EX) by auto. f_equal. lia.
           ++ intros z Hz. apply in_map_iff in Hz. destruct Hz as (w & E' & Hw). injection E' as <-. auto.
        -- intros y Hy. destruct (posd_in _ _ PY Hy) as [YN _]. destruct (P _ _ YN) as [Q1 Q2]. simpl. split.
           ++ rewrite Q1. unfold bef. rewrite F, EX. simpl. rewrite full_labels, PX, (X1 _ EX) by auto. do 2 f_equal. lia.
           ++ rewrite Q2, app_nil_r. destruct (FI y Hy) as [_ ->]. contradiction.
      * simpl. rewrite B, length_lw. unfold bcnt. rewrite F, NC, (X1 _ EX). lia.
      * intros w Hw. simpl. rewrite M1, M2, upd_neq; auto. intros <-. apply Hw. rewrite EX. simpl; auto.
      * intros w Hw. simpl. apply K. auto.
  - rewrite P2, P3, EO, length_exit. destruct (mi k1) eqn:MK.
    + destruct (exit_mo p) eqn:EM; simpl.
      * rewrite <- EN. apply done_cross; auto. unfold full. rewrite EM, EI. apply orb_true_r.
      * destruct (Nat.eqb_spec (np p) n1) as [Q|Q]; auto. rewrite CR.
        destruct (create_out_iter (exit i p) h) as (h1 & E & B & N1 & N2 & N3 & K & P); [apply posd_nodup, posd_exit| |].
        { intros x Hx. apply (fo i p h FO x Hx). }
        rewrite E. cbn [bind]. assert (LL : length (exit i p) = length (lw (S i) n1)) by (rewrite length_exit, length_lw; auto).
        destruct (link_iter (combine (exit i p) (lw (S i) n1)) h1) as (h2 & E2 & B2 & U1 & U2 & U3 & K2 & Q2).
        { rewrite map_snd_combine by auto. apply posd_nodup; auto. }
        rewrite map_snd_combine in K2 by auto.
        rewrite E2. eexists. split; [reflexivity|]. apply done_p2p with (h1 := h1); auto.
        -- congruence.
        -- intros T. destruct (full_inv p c T) as [|T1]; [rewrite EM; auto|auto|congruence].
        -- intros x Hx y Hy E3. rewrite EM, EI. rewrite ?MK. cbn [writes reads].
           destruct (combine_in (exit i p) (lw (S i) n1) (posd_exit _ _) PY LL x Hx) as (y' & Hy' & E4 & NY & NX).
           destruct (posd_in _ _ PY Hy) as [YN _]. rewrite E3 in YN. assert (y' = y) by congruence. subst y'.
           destruct (posd_in _ _ (posd_exit i p) Hx) as [XN _].
           assert (EI2 : inN h2 y = [Nref x]) by (rewrite (Q2 x y Hy'), N2; destruct (FI y Hy) as [_ ->]; auto).
           rewrite EI2, U2, U3, N3. simpl. rewrite U2. rewrite (P _ _ XN). split; [auto|]. split; [auto|]. split.
           ++ destruct (fo i p h FO x Hx) as [_ ->]. contradiction.
           ++ intros z [T|[]]. congruence.
        -- rewrite B2, B, length_exit. auto.
        -- intros w Hw. rewrite N3. auto.
        -- intros w Hw. rewrite N1, N2. auto.
        -- intros w Hw. rewrite U2, U3. auto.
        -- intros w Hw. rewrite U1. rewrite K2; auto.
    + rewrite andb_false_r. simpl. destruct (Nat.eqb_spec (np p) n1) as [Q|Q]; auto.
      destruct (create_in_iter false (lw (S i) n1) h) as (h1 & E1 & B & M1 & M2 & K & P); [apply posd_nodup; auto| |].
      { intros y Hy. apply FI. auto. }
      rewrite E1. cbn [bind]. assert (LL : length (exit i p) = length (lw (S i) n1)) by (rewrite length_exit, length_lw; auto).
      destruct (join_iter (out_mo p) (combine (exit i p) (lw (S i) n1)) h1) as (h2 & E2 & B2 & U1 & U2 & K2 & Q2).
      { rewrite map_fst_combine by auto. apply posd_nodup, posd_exit. }
      rewrite map_fst_combine in K2 by auto.
      rewrite E2. eexists. split; [reflexivity|]. apply done_p2p with (h1 := h1); auto.
      * congruence.
      * intros T. destruct (full_inv p c T) as [|T1]; [rewrite EI; apply andb_false_r|auto|congruence].
      * intros x Hx y Hy E3. rewrite EI, ?MK.
        destruct (combine_in (exit i p) (lw (S i) n1) (posd_exit _ _) PY LL x Hx) as (y' & Hy' & E4 & NY & NX).
        destruct (posd_in _ _ PY Hy) as [YN _]. rewrite E3 in YN. assert (y' = y) by congruence. subst y'.
        destruct (fo i p h FO x Hx) as [O1 O2]. destruct (FI y Hy) as [F1 F2].
        destruct (P _ _ NY) as [R1 R2]. rewrite F2 in R2. simpl in R2.
        specialize (Q2 x y Hy'). rewrite EMO in Q2. unfold writes, reads. rewrite U1, R1, U2, R2. simpl.
        destruct (exit_mo p); destruct Q2 as [Q21 Q22]; rewrite Q22, M2, O2; simpl.
        -- rewrite U1, R1. repeat split; auto; try contradiction. intros z [T|[]]. congruence.
        -- rewrite Q21, R1. repeat split; auto; contradiction.
      * rewrite B2, B, length_lw. auto.
      * intros w Hw. rewrite M1, M2. auto.
      * intros w Hw. rewrite U1, U2. auto.
Qed.

Lemma connect_spec : forall i p c h, populated p = true -> populated c = true -> ordered_coll p ->
  (forall x, In x (exit i p ++ [(i, Obj)]) -> nout h x = None /\ outN h x = []) ->
  (forall y, In y (entry (S i) c) -> nin h y = None /\ inN h y = []) -> outcome i p c h (link_pre p c).
Proof.
  intros i p c h PP PC OP FO FI. pose proof (view i p PP OP) as V. destruct c as [k|n kw cc o|n1 k1 n2 k2].
  - destruct (mi k) eqn:M; [|apply connect_ss; auto]. unfold link_pre. rewrite M. apply connect_sm; auto.
  - apply connect_sm; auto.
  - apply connect_m; auto. simpl in PC. apply andb_prop in PC. apply Nat.ltb_lt. tauto.
Qed.
