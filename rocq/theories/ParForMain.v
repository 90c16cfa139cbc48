(** The whole parallel_for / parallel_reduce call, on any table an earlier sequence of loops can
    leave behind. *)
From Coq Require Import List ZArith Lia Bool Permutation.
From Verif Require Import Base ParForSpec ParForModel ParForLoop ParForInit ParForStatic ParForDyn ParForSched.
Import ListNotations.
Local Open Scope Z_scope.

(** ** The grained static table *)
Lemma fill_grain_spec : forall c start stop k i data d,
  fill_grain c start stop k i data = Done d ->
  length d = length data /\
  (forall j, (j < i \/ i + k <= j)%nat -> nth_error d j = nth_error data j) /\
  (forall j, (i <= j < i + k)%nat -> nth_error d j = Some (mkCell 1 (start + Z.of_nat j * c) stop)).
Proof.
  induction k as [|k IH]; intros i data d E; simpl in E.
  - injection E as <-. split; [auto|]. split; [auto|]. intros; lia.
  - destruct (Nat.ltb_spec i (length data)); [|discriminate].
    apply IH in E as (L & O & I). rewrite lupd_length in L. split; [auto|]. split.
    + intros j Hj. rewrite O by lia. apply nth_error_lupd_neq. lia.
    + intros j Hj. destruct (Nat.eq_dec j i) as [->|].
      * rewrite O by lia. apply nth_error_lupd_eq. auto.
      * apply I. lia.
Qed.

Lemma fill_grain_total : forall c start stop k i data, (i + k <= length data)%nat ->
  exists d, fill_grain c start stop k i data = Done d.
Proof.
  induction k as [|k IH]; intros i data H; simpl; [eauto|].
  destruct (Nat.ltb_spec i (length data)); [|lia]. apply IH. rewrite lupd_length. lia.
Qed.

Lemma setloop_grain : forall first last step chunk nw data u, chunk < 0 ->
  setloop first last step chunk nw data = Done u ->
  (1 <= s_nw u <= nw)%nat /\ s_static u = true /\ s_total u = Z.of_nat (s_nw u) /\ s_chunk u = last /\
  Z.of_nat (s_nw u) = Z.min (Z.of_nat nw) (ceil_div (ceil_div (last - first) step) (- chunk)) /\
  (s_nw u <= length data)%nat /\ length (s_data u) = length data /\
  (forall j, (s_nw u <= j)%nat -> nth_error (s_data u) j = nth_error data j) /\
  (forall j, (j < s_nw u)%nat ->
     nth_error (s_data u) j = Some (mkCell 1 (first + Z.of_nat j * - chunk) last)).
Proof.
  intros first last step chunk nw data u Hc E. unfold setloop in E.
  destruct (Z.eqb_spec chunk 0); [lia|]. destruct (Z.ltb_spec chunk 0); [|lia].
  unfold init_data_grain in E. cbv zeta in E.
  set (m := Z.min (Z.of_nat nw) (ceil_div (ceil_div (last - first) step) (- chunk))) in *.
  destruct (fill_grain (- chunk) first last (Z.to_nat m) 0 data) as [d| |] eqn:Ef; try discriminate.
  unfold finish_setloop in E. destruct (Z.ltb_spec m 1); [discriminate|].
  assert (m <= Z.of_nat nw) by (unfold m; lia).
  destruct (Z.leb_spec m (Z.of_nat nw)); [|lia]. simpl in E. injection E as <-.
  cbn [s_nw s_static s_total s_chunk s_data].
  pose proof Ef as Ef'. apply fill_grain_spec in Ef as (L & O & I).
  split; [lia|]. split; [reflexivity|]. split; [lia|]. split; [reflexivity|]. split; [lia|].
  split; [|split; [exact L|split; [intros; apply O; lia|intros; apply I; lia]]].
  destruct (Nat.leb_spec (Z.to_nat m) (length data)); auto. exfalso.
  assert (X : nth_error d (length data) = Some (mkCell 1 (first + Z.of_nat (length data) * - chunk) last))
    by (apply I; lia).
  apply nth_error_lt in X. lia.
Qed.

Lemma setloop_dyn_range : forall first last step chunk nw data u, 1 <= step -> 1 <= chunk -> (1 <= nw)%nat ->
  setloop first last step chunk nw data = Done u -> first < last.
Proof.
  intros first last step chunk nw data u Hs Hc Hw E.
  destruct (Z_lt_le_dec first last); auto. exfalso. unfold setloop in E.
  destruct (Z.eqb_spec chunk 0); [lia|]. destruct (Z.ltb_spec chunk 0); [lia|].
  unfold init_data in E. cbv zeta in E.
  assert (CD : forall x y, x <= 0 -> 1 <= y -> ceil_div x y <= 0).
  { intros x y Hx Hy. unfold ceil_div. apply Z.lt_succ_r. apply Z.div_lt_upper_bound; lia. }
  set (T := ceil_div (ceil_div (last - first) step) chunk) in *.
  assert (T0 : T <= 0) by (apply CD; auto; apply CD; lia).
  destruct nw as [|k]; [lia|]. simpl fill in E.
  destruct (Z.ltb_spec 0 T); [lia|].
  destruct (Z.eqb_spec T 0).
  - unfold finish_setloop in E. destruct (Z.ltb_spec T 1); [discriminate|lia].
  - destruct (Z.eqb_spec T 1); [lia|]. simpl in E. discriminate.
Qed.

(** ** Tables left behind by earlier loops: every cell but the first is exhausted. *)
Definition quiet (d : list cell) : Prop :=
  forall i c, (1 <= i)%nat -> nth_error d i = Some c -> nt c <= 0.

Lemma body_static_nil : forall step chunk n x y, y <= x -> body_static step chunk n x y = [].
Proof. intros. unfold body_static. rewrite loop_nil by auto. reflexivity. Qed.

Lemma body_plain_nil : forall step x y, y <= x -> body_plain step x y = [].
Proof. intros. apply loop_nil. auto. Qed.

Lemma stale_of_table : forall first last step chunk total n data old,
  table_ok first last step chunk total n data old -> quiet old ->
  forall i c, (n <= i)%nat -> nth_error data i = Some c -> nt c <= 0.
Proof.
  intros first last step chunk total n data old T Q i c Hi E.
  pose proof (tk_nw _ _ _ _ _ _ _ _ T).
  destruct (tk_rest _ _ _ _ _ _ _ _ T i c Hi E) as [->|E']; [simpl; lia|].
  apply (Q i c); auto. lia.
Qed.

Lemma quiet_of : forall n d, (1 <= n)%nat ->
  (forall i c, (i < n)%nat -> nth_error d i = Some c -> nt c <= 0) ->
  (forall i c, (n <= i)%nat -> nth_error d i = Some c -> nt c <= 0) -> quiet d.
Proof.
  intros n d Hn A B i c Hi E. destruct (Nat.ltb_spec i n); eauto.
Qed.

Lemma quiet_run : forall first last step chunk nw data used lg d',
  quiet data -> 1 <= step -> (1 <= nw)%nat -> last - first < 2 ^ 64 ->
  parfor_run first last step chunk (fun u => body_of step chunk u) nw data used lg d' -> quiet d'.
Proof.
  intros first last step chunk nw data used lg d' Q Hs Hw HB R.
  destruct (Z_lt_le_dec chunk 0) as [Neg|NN].
  - assert (SU : forall u, setloop first last step chunk nw data = Done u ->
                 forall i c, (s_nw u <= i)%nat -> nth_error (s_data u) i = Some c -> nt c <= 0).
    { intros u Eu i c Hi Ei. apply setloop_grain in Eu as (N1 & _ & _ & _ & _ & _ & _ & O & _); auto.
      rewrite O in Ei by auto. apply (Q i c); auto. lia. }
    inversion R as [u Eu N1|u sp l s Eu N1 Ex A|u sp l s Eu N1 NT Ex A]; subst.
    + intros i c Hi Ei. apply (SU u Eu i c); auto. lia.
    + specialize (SU u Eu).
      pose proof Eu as Eu'. apply setloop_grain in Eu' as (G1 & ST & _ & Ech & _ & LD & LN & O & I); auto.
      rewrite ST in Ex. apply static_run with (chunk := s_chunk u) in Ex as (X & _ & Y); auto.
      * apply (quiet_of (s_nw u)); [lia| |].
        -- intros i c Hi Ei. destruct (nth_error (s_data u) i) as [c0|] eqn:E0.
           ++ destruct (X i c0 Hi E0) as (_ & cl & Ecl & N0). rewrite Ecl in Ei.
              injection Ei as <-. lia.
           ++ apply nth_error_None in E0. lia.
        -- intros i c Hi Ei. rewrite Y in Ei by auto. eauto.
      * intros. unfold body_of. destruct (chunk <? 0); [apply body_static_nil|apply body_plain_nil]; auto.
      * lia.
      * intros w c Hi Ei. rewrite I in Ei by auto. injection Ei as <-. reflexivity.
    + apply setloop_grain in Eu as (_ & _ & TT & _); auto. lia.
  - assert (BP : forall u, body_of step chunk u = body_plain step).
    { intros u. unfold body_of. destruct (Z.ltb_spec chunk 0); auto; lia. }
    destruct (Z.eq_dec chunk 0) as [->|NZ].
    + destruct (init_static_ok first last step nw data Hs Hw HB)
        as (u0 & E0 & ST & SN & SL & TT & ON & _).
      inversion R as [u Eu N1|u sp l s Eu N1 Ex A|u sp l s Eu N1 NT Ex A]; subst;
        rewrite E0 in Eu; injection Eu as <-.
      * intros i c Hi Ei. apply nth_error_lt in Ei. lia.
      * rewrite ST in Ex. apply static_run with (chunk := s_chunk u0) in Ex as (X & _ & Y); auto.
        -- apply (quiet_of (s_nw u0)); [lia| |].
           ++ intros i c Hi Ei. destruct (nth_error (s_data u0) i) as [c0|] eqn:Ec0.
              ** destruct (X i c0 Hi Ec0) as (_ & cl & Ecl & N0). rewrite Ecl in Ei.
                 injection Ei as <-. lia.
              ** apply nth_error_None in Ec0. lia.
           ++ intros i c Hi Ei. rewrite Y in Ei by auto. apply nth_error_lt in Ei. lia.
        -- intros. rewrite BP. apply body_plain_nil; auto.
        -- lia.
        -- intros w c Hi Ei. apply ON. eapply nth_error_In; eauto.
      * lia.
    + assert (HL : first < last).
      { assert (G : exists u, setloop first last step chunk nw data = Done u) by (inversion R; eauto).
        destruct G as [u G]. eapply setloop_dyn_range; [exact Hs| |exact Hw|exact G]. lia. }
      destruct (init_data_ok first last step chunk nw data HL Hs ltac:(lia) Hw)
        as (u0 & E0 & ST & SN & SL & _ & TK).
      pose proof (stale_of_table _ _ _ _ _ _ _ _ TK Q) as STL.
      inversion R as [u Eu N1|u sp l s Eu N1 Ex A|u sp l s Eu N1 NT Ex A]; subst;
        rewrite E0 in Eu; injection Eu as <-.
      * intros i c Hi Ei. apply (STL i c); auto. lia.
      * rewrite ST, BP in Ex. destruct TK.
        apply (dyn_run step (s_chunk u0) first last (s_nw u0) (s_data u0)) in Ex as (_ & _ & _ & X & Y); auto.
        apply (quiet_of (s_nw u0)); [lia|exact X|]. intros i c Hi Ei. rewrite Y in Ei by auto. eauto.
      * rewrite BP in Ex. destruct TK.
        apply (sched_run step (s_chunk u0) first last (s_nw u0) (s_data u0)) in Ex as (_ & _ & _ & X & Y); auto; try lia.
        apply (quiet_of (s_nw u0)); [lia|exact X|]. intros i c Hi Ei. rewrite Y in Ei by auto. eauto.
Qed.

Lemma reach_quiet : forall maxnw d, reach_table maxnw d -> quiet d.
Proof.
  induction 1 as [|d c used lg d' R IH Hw Hs HB P].
  - intros i c _ E. apply nth_error_In in E. apply repeat_spec in E. subst. simpl. lia.
  - eapply quiet_run; [exact IH|exact Hs| |exact HB|exact P]. lia.
Qed.

(** ** Dynamic scheduling *)
Lemma spurious_filter : forall l, spurious l = Z.of_nat (length (filter (fun a => negb (w_ok a)) l)).
Proof.
  unfold spurious. induction l as [|a l IH]; [reflexivity|]. cbn [fold_right filter]. rewrite IH.
  destruct (w_ok a); simpl negb; cbv iota; [lia|]. cbn [length]. lia.
Qed.

Lemma dynamic_main : forall maxnw data first last step grain nw used lg d',
  reach_table maxnw data -> (1 <= nw <= maxnw)%nat -> first < last -> 1 <= step -> 1 <= grain ->
  parfor_run first last step grain (fun _ => body_plain step) nw data used lg d' ->
  Permutation (map snd lg) (loop first last step) /\
  (1 <= used <= nw)%nat /\ (forall e, In e lg -> (fst e < used)%nat).
Proof.
  intros maxnw data first last step grain nw used lg d' RT Hw HL Hs Hg R.
  apply reach_quiet in RT.
  destruct (init_data_ok first last step grain nw data HL Hs Hg ltac:(lia))
        as (u0 & E0 & ST & SN & SL & _ & TK).
  pose proof (stale_of_table _ _ _ _ _ _ _ _ TK RT) as STL.
  inversion R as [u Eu N1|u sp l s Eu N1 Ex A|u sp l s Eu N1 NT Ex A]; subst;
    rewrite E0 in Eu; injection Eu as <-.
  - split; [|split; [lia|]].
    + rewrite map_map. simpl. rewrite map_id. apply Permutation_refl.
    + intros e He. apply in_map_iff in He as (x & <- & _). simpl. lia.
  - rewrite ST in Ex. destruct TK.
    apply (dyn_run step (s_chunk u0) first last (s_nw u0) (s_data u0)) in Ex as (X & Y & _); auto; split; auto; split; auto; lia.
  - destruct TK.
    apply (sched_run step (s_chunk u0) first last (s_nw u0) (s_data u0)) in Ex as (X & Y & _); auto; try lia; split; auto; split; auto; lia.
Qed.

Lemma dynamic_terminates_main : forall maxnw data first last step grain nw,
  reach_table maxnw data -> (1 <= nw <= maxnw)%nat -> first < last -> 1 <= step -> 1 <= grain ->
  exists u, setloop first last step grain nw data = Done u /\
  forall spinwait,
    (exists B, forall l s,
       exec (cstep step (s_chunk u) false (body_plain step)) (conc_start step spinwait u) l = Some s ->
       Z.of_nat (length l) <= B + 12 * Z.of_nat (length (filter (fun a => negb (w_ok a)) l)) /\
       forall w p, nth_error (pcs s) w = Some p -> p <> WEnd ->
         exists s', cstep step (s_chunk u) false (body_plain step) s (W w true 0) = Some s') /\
    (forall l s,
       exec (sstep step (s_chunk u) (body_plain step)) (sched_start step spinwait u) l = Some s ->
       Z.of_nat (length l) <= 3 * s_total u /\
       (d_out s = false -> exists a s', sstep step (s_chunk u) (body_plain step) s a = Some s')).
Proof.
  intros maxnw data first last step grain nw RT Hw HL Hs Hg. apply reach_quiet in RT.
  destruct (init_data_ok first last step grain nw data HL Hs Hg ltac:(lia))
        as (u & E0 & ST & SN & SL & _ & TK).
  pose proof (stale_of_table _ _ _ _ _ _ _ _ TK RT) as STL.
  assert (T1 : 1 <= s_total u).
  { unfold setloop in E0. clear - E0 Hg. destruct (Z.eqb_spec grain 0); [lia|].
    destruct (Z.ltb_spec grain 0); [lia|].
    destruct (init_data first last step grain nw data) as [x| |]; try discriminate.
    unfold finish_setloop in E0. destruct x as [[d c] t]. destruct (Z.ltb_spec t 1); [discriminate|].
    injection E0 as <-. simpl. lia. }
  destruct TK.
  exists u. split; [auto|]. intros spinwait. split.
  - exists (phi step (s_nw u) (conc_start step spinwait u)). intros l s Ex. split.
    + pose proof (dyn_bounded step (s_chunk u) first last (s_nw u) (s_data u)) as D.
      rewrite <- spurious_filter. eapply D; eauto.
    + intros w p Ep NE.
      eapply (dyn_progress step (s_chunk u) first last (s_nw u) (s_data u)); eauto.
      * pose proof (dyn_reach step (s_chunk u) first last (s_nw u) (s_data u)) as D.
        eapply D in Ex; eauto. destruct Ex. apply nth_error_lt in Ep. lia.
      * congruence.
  - intros l s Ex. split.
    + eapply (sched_bounded step (s_chunk u) first last (s_nw u) (s_data u)); eauto.
    + intros Ho. eapply (sched_progress step (s_chunk u) first last (s_nw u) (s_data u)); eauto.
Qed.

(** ** Default static scheduling *)
Lemma flat_map_seq : forall X (f : X -> list Z) (g : nat -> list Z) (l : list X),
  (forall i x, nth_error l i = Some x -> g i = f x) ->
  flat_map g (seq 0 (length l)) = flat_map f l.
Proof.
  intros X f g l. assert (G : forall l k, (forall i x, nth_error l i = Some x -> g (k + i)%nat = f x) ->
    flat_map g (seq k (length l)) = flat_map f l).
  { clear l. induction l as [|x l IH]; intros k H; simpl; auto. f_equal.
    - specialize (H 0%nat x eq_refl). now rewrite Nat.add_0_r in H.
    - apply IH. intros i y E. rewrite <- (H (S i) y E). f_equal. lia. }
  intros H. apply G. exact H.
Qed.

Lemma wlog0_all : forall l, wlog 0 (map (pair 0%nat) l) = l.
Proof. intros. rewrite wlog_pair. reflexivity. Qed.

Lemma static_main : forall first last step nw data used lg d',
  1 <= step -> (1 <= nw)%nat -> last - first < 2 ^ 64 ->
  parfor_run first last step 0 (fun _ => body_plain step) nw data used lg d' ->
  used = nw /\ (forall e, In e lg -> (fst e < nw)%nat) /\
  flat_map (fun w => wlog w lg) (seq 0 nw) = loop first last step.
Proof.
  intros first last step nw data used lg d' Hs Hw HB R.
  destruct (init_static_ok first last step nw data Hs Hw HB)
    as (u0 & E0 & ST & SN & SL & TT & ON & CV).
  inversion R as [u Eu N1|u sp l s Eu N1 Ex A|u sp l s Eu N1 NT Ex A]; subst used lg d';
    rewrite E0 in Eu; injection Eu as <-.
  - split; [lia|]. split.
    + intros e He. apply in_map_iff in He as (x & <- & _). simpl. lia.
    + rewrite <- SN, N1. cbn [seq flat_map]. rewrite wlog0_all, app_nil_r. reflexivity.
  - rewrite ST in Ex. apply static_run with (chunk := s_chunk u0) in Ex as (X & Y & _); auto.
    + split; [auto|]. split; [rewrite <- SN; auto|]. rewrite <- CV. rewrite <- SL at 1.
      apply flat_map_seq. intros i c Ei. apply X; auto. rewrite SN, <- SL. eapply nth_error_lt; eauto.
    + intros; apply body_plain_nil; auto.
    + lia.
    + intros w c Hi Ei. apply ON. eapply nth_error_In; eauto.
  - lia.
Qed.

Section StaticBound.
  Variables (step chunk : Z) (F : Z -> Z -> list Z) (u : setup).
  Hypothesis F0 : forall x y, y <= x -> F x y = [].
  Hypothesis Hn : (s_nw u <= length (s_data u))%nat.
  Hypothesis Hnt : forall w c, (w < s_nw u)%nat -> nth_error (s_data u) w = Some c -> nt c = 1.
  Hypothesis Hch : s_chunk u = chunk.

  Definition rnk (p : pc) (c : cell) : Z :=
    match p with
    | WRun _ _ => if nt c =? 1 then 9 else 4
    | WL1 _ _ => if nt c =? 1 then 8 else 3
    | WLd _ _ => 7 | WCas _ _ _ => 6 | WSub _ _ _ _ => 5 | WSel => 2 | _ => 0
    end.
  Definition srank (s : cst) : Z :=
    sumc (fun w => rnk (nth w (pcs s) WEnd) (nth w (cells s) cell0)) (s_nw u).

  Lemma rnk_bound : forall p c, 0 <= rnk p c <= 9.
  Proof. intros [] c; simpl; try destruct (nt c =? 1); lia. Qed.

  Lemma srank_bound : forall s, 0 <= srank s <= 9 * Z.of_nat (s_nw u).
  Proof.
    intros s. unfold srank. generalize (s_nw u) as k. induction k as [|k IH]; [unfold sumc; simpl; lia|].
    rewrite sumc_S. pose proof (rnk_bound (nth k (pcs s) WEnd) (nth k (cells s) cell0)). lia.
  Qed.

  Lemma srank_change : forall s s' w p c p' c', (w < s_nw u)%nat ->
    nth_error (pcs s) w = Some p -> nth_error (cells s) w = Some c ->
    nth_error (pcs s') w = Some p' -> nth_error (cells s') w = Some c' ->
    (forall j, j <> w -> nth_error (pcs s') j = nth_error (pcs s) j) ->
    (forall j, j <> w -> nth_error (cells s') j = nth_error (cells s) j) ->
    srank s' = srank s - rnk p c + rnk p' c'.
  Proof.
    intros s s' w p c p' c' Hw E1 E2 E3 E4 O1 O2. unfold srank.
    assert (NE : forall X (l m : list X) j d, nth_error l j = nth_error m j -> nth j l d = nth j m d).
    { intros X l m j d E. destruct (nth_error l j) eqn:E'.
      - rewrite (nth_error_nth _ _ d E'). symmetry in E. rewrite (nth_error_nth _ _ d E). auto.
      - symmetry in E. apply nth_error_None in E, E'. rewrite !nth_overflow; auto. }
    rewrite (sumc_change (fun v => rnk (nth v (pcs s') WEnd) (nth v (cells s') cell0))
                         (fun v => rnk (nth v (pcs s) WEnd) (nth v (cells s) cell0)) (s_nw u) w Hw).
    - rewrite (nth_error_nth _ _ WEnd E1), (nth_error_nth _ _ cell0 E2),
              (nth_error_nth _ _ WEnd E3), (nth_error_nth _ _ cell0 E4). lia.
    - intros j Hj. rewrite (NE _ _ _ _ WEnd (O1 j Hj)), (NE _ _ _ _ cell0 (O2 j Hj)). reflexivity.
  Qed.

  Lemma srank_step : forall s a s', sinv step chunk F u s -> cstep step chunk true F s a = Some s' ->
    srank s' + 1 <= srank s + (if w_ok a then 0 else 3).
  Proof.
    intros s a s' (L1 & L2 & I & O & G) E. set (w := w_id a) in *.
    unfold cstep in E. fold w in E.
    destruct (nth_error (pcs s) w) as [p|] eqn:Ep; [|discriminate].
    assert (Hw : (w < s_nw u)%nat) by (rewrite <- L1; eapply nth_error_lt; eauto).
    assert (Lp : (w < length (pcs s))%nat) by lia.
    destruct (nth_error (s_data u) w) as [c|] eqn:Ec; [|apply nth_error_None in Ec; lia].
    destruct (I w c Hw Ec) as (p' & cl & Ep' & Ecl & PH).
    assert (p' = p) by congruence. subst p'. clear Ep'.
    pose proof (Hnt w c Hw Ec) as NT1.
    assert (Lc : (w < length (cells s))%nat) by (eapply nth_error_lt; eauto).
    assert (RB : forall d q cl' lg, s' = mkCst d (lupd (pcs s) w q) lg ->
        nth_error d w = Some cl' -> (forall j, j <> w -> nth_error d j = nth_error (cells s) j) ->
        srank s' = srank s - rnk p cl + rnk q cl').
    { intros d q cl' lg -> Ed Od. eapply srank_change; eauto; simpl.
      - apply nth_error_lupd_eq; auto.
      - intros j Hj. apply nth_error_lupd_neq; auto. }
    destruct PH as [(-> & -> & LW)|[([->|[->| ->]] & -> & LW)|[(-> & NT & LW)|[(-> & NT & LW)|([->|[->| ->]] & NT & LW)]]]];
      try rewrite Ecl in E; try discriminate.
    - injection E as <-. rewrite (RB _ _ c _ eq_refl Ecl (fun _ _ => eq_refl)). simpl. rewrite NT1. simpl.
      destruct (w_ok a); lia.
    - injection E as <-. rewrite (RB _ _ c _ eq_refl Ecl (fun _ _ => eq_refl)). simpl. rewrite NT1. simpl.
      destruct (w_ok a); lia.
    - injection E as <-. rewrite (RB _ _ c _ eq_refl Ecl (fun _ _ => eq_refl)). simpl.
      destruct (w_ok a); lia.
    - destruct (w_ok a) eqn:Ok; simpl in E.
      + rewrite Z.eqb_refl in E. injection E as <-. erewrite (RB _ _ _ _ eq_refl).
        * simpl rnk. lia.
        * apply nth_error_lupd_eq; auto.
        * intros; apply nth_error_lupd_neq; auto.
      + injection E as <-. rewrite (RB _ _ c _ eq_refl Ecl (fun _ _ => eq_refl)). simpl. rewrite NT1. simpl. lia.
    - injection E as <-. rewrite (RB _ _ (mkCell (nt cl - 1) (lo cl) (hi cl)) _ eq_refl).
      + destruct (lo c <? chunk_end step chunk c); simpl rnk; try rewrite NT; simpl; destruct (w_ok a); lia.
      + apply nth_error_lupd_eq; auto.
      + intros; apply nth_error_lupd_neq; auto.
    - injection E as <-. rewrite (RB _ _ cl _ eq_refl Ecl (fun _ _ => eq_refl)). simpl. rewrite NT. simpl.
      destruct (w_ok a); lia.
    - injection E as <-. rewrite NT in *. rewrite (RB _ _ cl _ eq_refl Ecl (fun _ _ => eq_refl)). simpl. rewrite NT. simpl.
      destruct (w_ok a); lia.
    - injection E as <-. rewrite (RB _ _ cl _ eq_refl Ecl (fun _ _ => eq_refl)). simpl.
      destruct (w_ok a); lia.
  Qed.

  Lemma static_bounded : forall spinwait l s,
    exec (cstep step chunk true F) (conc_start step spinwait u) l = Some s ->
    Z.of_nat (length l) <= 9 * Z.of_nat (s_nw u) +
                           3 * Z.of_nat (length (filter (fun a => negb (w_ok a)) l)).
  Proof.
    intros spinwait l s E.
    assert (G : forall l s s', sinv step chunk F u s -> exec (cstep step chunk true F) s l = Some s' ->
       srank s' + Z.of_nat (length l) <= srank s + 3 * Z.of_nat (length (filter (fun a => negb (w_ok a)) l))).
    { clear l s E. induction l as [|a l IH]; intros s s' I E; simpl in E.
      - injection E as <-. simpl. lia.
      - destruct (cstep step chunk true F s a) as [s1|] eqn:E1; [|discriminate].
        pose proof (srank_step s a s1 I E1) as R1.
        assert (I1 : sinv step chunk F u s1) by (eapply sinv_step; eauto).
        specialize (IH s1 s' I1 E). cbn [filter length]. destruct (w_ok a); simpl negb; cbv iota; cbn [length]; lia. }
    pose proof (G l _ s (sinv_start step chunk F u Hn Hnt Hch spinwait) E).
    pose proof (srank_bound s). pose proof (srank_bound (conc_start step spinwait u)). lia.
  Qed.
End StaticBound.

(** ** Static scheduling with a grain *)
Lemma loop_split : forall s k a b, 1 <= s -> (0 <= k) ->
  loop a b s = loop a (Z.min b (a + k * s)) s ++ loop (a + k * s) b s.
Proof.
  intros s k a b Hs Hk. revert k Hk a. apply (natlike_ind (fun k => forall a,
     loop a b s = loop a (Z.min b (a + k * s)) s ++ loop (a + k * s) b s)).
  - intros a. rewrite Z.mul_0_l, Z.add_0_r. rewrite (loop_nil a (Z.min b a)) by lia. reflexivity.
  - intros k Hk IH a. destruct (Z_lt_le_dec a b).
    + rewrite (loop_cons a b) by auto. rewrite (IH (a + s)).
      rewrite (loop_cons a (Z.min b (a + Z.succ k * s))) by nia.
      replace (a + Z.succ k * s) with (a + s + k * s) by lia. reflexivity.
    + rewrite !loop_nil by nia. reflexivity.
Qed.

Lemma body_static_cons : forall s g m a b, 1 <= s -> 1 <= g -> (1 <= m)%nat -> a < b ->
  body_static s (- g) m a b = loop a (Z.min b (a + g * s)) s ++ body_static s (- g) m (a + Z.of_nat m * g * s) b.
Proof.
  intros s g m a b Hs Hg Hm H. unfold body_static.
  replace (Z.of_nat m * (- - g * s)) with (Z.of_nat m * g * s) by lia.
  replace (- - g * s) with (g * s) by lia.
  rewrite (loop_cons a b (Z.of_nat m * g * s)) by nia. reflexivity.
Qed.

Lemma body_static_one : forall s g a b, 1 <= s -> 1 <= g -> body_static s (- g) 1 a b = loop a b s.
Proof.
  intros s g a b Hs Hg.
  apply (loop_ind (g * s) (fun a b => body_static s (- g) 1 a b = loop a b s)); [nia| |].
  - intros. rewrite body_static_nil, loop_nil; auto.
  - clear a b. intros a b H IH. rewrite body_static_cons by auto.
    replace (a + Z.of_nat 1 * g * s) with (a + g * s) by lia. rewrite IH.
    rewrite (loop_split s g a b) by lia. reflexivity.
Qed.

Lemma blocks_tile : forall g b k a, 0 <= g ->
  flat_map (fun i => loop (a + Z.of_nat i * g) (Z.min b (a + Z.of_nat i * g + g)) 1) (seq 0 k) =
  loop a (Z.min b (a + Z.of_nat k * g)) 1.
Proof.
  intros g b k a Hg. induction k as [|k IH].
  - simpl. rewrite loop_nil by lia. reflexivity.
  - rewrite seq_S, flat_map_app, IH. cbn [flat_map]. rewrite app_nil_r.
    rewrite (loop_split 1 (Z.of_nat k * g) a (Z.min b (a + Z.of_nat (S k) * g))) by nia.
    f_equal.
    + f_equal. nia.
    + simpl (0 + k)%nat. f_equal; [lia|]. f_equal. lia.
Qed.

Lemma block_cyclic : forall g m b, 1 <= g -> (1 <= m)%nat -> forall a,
  Permutation (flat_map (fun i => body_static 1 (- g) m (a + Z.of_nat i * g) b) (seq 0 m)) (loop a b 1).
Proof.
  intros g m b Hg Hm a. apply cnt_perm. intros z.
  apply (loop_ind (Z.of_nat m * g)
     (fun a b => cnt (flat_map (fun i => body_static 1 (- g) m (a + Z.of_nat i * g) b) (seq 0 m)) z =
                 cnt (loop a b 1) z)); [nia| |].
  - clear a b. intros a b H. rewrite loop_nil by auto. rewrite flat_map_nil; auto.
    intros i _. apply body_static_nil. nia.
  - clear a b. intros a b H IH.
    rewrite (loop_split 1 (Z.of_nat m * g) a b), cnt_app by nia.
    replace (a + Z.of_nat m * g * 1) with (a + Z.of_nat m * g) by lia.
    rewrite <- IH, <- (blocks_tile g b m a) by lia.
    generalize (seq 0 m) as L. induction L as [|i L IHL]; [reflexivity|].
    cbn [flat_map]. rewrite !cnt_app, IHL.
    assert (X : body_static 1 (- g) m (a + Z.of_nat i * g) b =
                loop (a + Z.of_nat i * g) (Z.min b (a + Z.of_nat i * g + g)) 1 ++
                body_static 1 (- g) m (a + Z.of_nat m * g + Z.of_nat i * g) b).
    { destruct (Z_lt_le_dec (a + Z.of_nat i * g) b).
      - rewrite body_static_cons by (auto; lia). f_equal; [f_equal; lia|f_equal; lia].
      - rewrite !body_static_nil by nia. rewrite loop_nil by lia. reflexivity. }
    rewrite X, cnt_app. lia.
Qed.

Lemma flat_map_ext_in : forall X Y (f h : X -> list Y) l, (forall x, In x l -> f x = h x) ->
  flat_map f l = flat_map h l.
Proof. induction l as [|x l IH]; simpl; intros H; auto. rewrite (H x), IH; auto. Qed.

Lemma grain_main : forall first last step grain nw data used lg d',
  first < last -> 1 <= step -> 1 <= grain -> (1 <= nw)%nat ->
  (step = 1 /\ 0 <= first) \/ nw = 1%nat ->
  parfor_run first last step (- grain) (fun u => body_static step (- grain) (s_nw u)) nw data used lg d' ->
  Permutation (map snd lg) (loop first last step) /\
  (1 <= used <= nw)%nat /\ (forall e, In e lg -> (fst e < used)%nat).
Proof.
  intros first last step grain nw data used lg d' HL Hs Hg Hw C R.
  inversion R as [u Eu N1|u sp l s Eu N1 Ex A|u sp l s Eu N1 NT Ex A]; subst used lg d'.
  - split; [|split; [lia|]].
    + rewrite map_map. simpl. rewrite map_id, N1, body_static_one by auto. apply Permutation_refl.
    + intros e He. apply in_map_iff in He as (x & <- & _). simpl. lia.
  - apply setloop_grain in Eu as (G1 & ST & TT & Ech & NW & LD & LN & O & I); [|lia].
    destruct C as [[-> H0]|]; [|lia].
    rewrite ST in Ex. apply static_run with (chunk := s_chunk u) in Ex as (X & Y & _); auto.
    + split; [|split; [lia|auto]].
      rewrite (log_split (s_nw u)) by auto.
      rewrite <- (block_cyclic grain (s_nw u) last Hg ltac:(lia) first).
      match goal with |- Permutation ?x ?y => assert (Q : x = y); [|rewrite Q; apply Permutation_refl] end.
      apply flat_map_ext_in.
      intros w Hin. apply in_seq in Hin. destruct (X w _ ltac:(lia) (I w ltac:(lia))) as [-> _].
      unfold share, chunk_end. cbn [lo hi]. rewrite Ech. f_equal; [lia|]. nia.
    + intros; apply body_static_nil; auto.
    + lia.
    + intros w c Hi Ei. rewrite I in Ei by auto. injection Ei as <-. reflexivity.
  - apply setloop_grain in Eu as (_ & _ & TT & _); lia.
Qed.

(** ** Reductions *)
Section Reduce.
  Context {T : Type} (op : T -> T -> T) (e : T) (g : Z -> T).
  Hypothesis op_assoc : forall x y z, op (op x y) z = op x (op y z).
  Hypothesis op_e : forall x, op x e = x.

  Notation body := (fun acc i => op acc (g i)).

  Lemma fold_op : forall l v, op v (fold_left body l e) = fold_left body l v.
  Proof.
    intros l. assert (G : forall l v x, op v (fold_left body l x) = fold_left body l (op v x)).
    { clear l. induction l as [|i l IH]; intros v x; simpl; auto. rewrite IH. f_equal. auto. }
    intros v. rewrite G, op_e. reflexivity.
  Qed.

  Lemma reduce_split : forall lg n var,
    fold_left (fun v w => op v (worker_res body e lg w)) (seq 0 n) var =
    reduce_seq op g var (flat_map (fun w => wlog w lg) (seq 0 n)).
  Proof.
    intros lg n. generalize (seq 0 n) as L. induction L as [|w L IH]; intros var; simpl; auto.
    rewrite IH. unfold reduce_seq. rewrite fold_left_app. f_equal. unfold worker_res. apply fold_op.
  Qed.

  Hypothesis op_comm : forall x y, op x y = op y x.

  Lemma reduce_perm : forall l l', Permutation l l' -> forall v, reduce_seq op g v l = reduce_seq op g v l'.
  Proof.
    unfold reduce_seq. induction 1; intros v; simpl; auto.
    - f_equal. rewrite !op_assoc. f_equal. auto.
    - rewrite IHPermutation1. auto.
  Qed.
End Reduce.

Lemma reduce_any : forall T (op : T -> T -> T) e g nw lg var L,
  (forall x y z, op (op x y) z = op x (op y z)) -> (forall x, op x e = x) ->
  (forall x y, op x y = op y x) ->
  (1 <= nw)%nat -> (forall x, In x lg -> (fst x < nw)%nat) -> Permutation (map snd lg) L ->
  reduce_result (fun acc i => op acc (g i)) op e var nw lg = reduce_seq op g var L.
Proof.
  intros T op e g nw lg var L A U C Hn W P. unfold reduce_result.
  destruct (Nat.leb_spec nw 1).
  - change (reduce_seq op g var (map snd lg) = reduce_seq op g var L). apply reduce_perm; auto.
  - rewrite (reduce_split op e g A U). apply reduce_perm; auto.
    rewrite <- P. symmetry. apply log_split. auto.
Qed.

Lemma reduce_blocks : forall T (op : T -> T -> T) e g nw lg var L,
  (forall x y z, op (op x y) z = op x (op y z)) -> (forall x, op x e = x) ->
  (1 <= nw)%nat -> (forall x, In x lg -> (fst x < nw)%nat) ->
  flat_map (fun w => wlog w lg) (seq 0 nw) = L ->
  reduce_result (fun acc i => op acc (g i)) op e var nw lg = reduce_seq op g var L.
Proof.
  intros T op e g nw lg var L A U Hn W P. unfold reduce_result.
  destruct (Nat.leb_spec nw 1).
  - assert (nw = 1%nat) by lia. subst nw. cbn [seq flat_map] in P. rewrite app_nil_r in P.
    assert (Q : wlog 0 lg = map snd lg).
    { unfold wlog. f_equal. clear - W. induction lg as [|[w x] lg IH]; auto. cbn [filter].
      pose proof (W (w, x) (or_introl eq_refl)). simpl in H. assert (w = 0%nat) by lia. subst.
      cbn [fst]. rewrite Nat.eqb_refl. f_equal. apply IH. intros; apply W; right; auto. }
    rewrite Q in P. subst L. reflexivity.
  - rewrite (reduce_split op e g A U), P. reflexivity.
Qed.

Lemma static_terminates_main : forall first last step nw data,
  1 <= step -> (1 <= nw)%nat -> last - first < 2 ^ 64 ->
  exists u, setloop first last step 0 nw data = Done u /\ s_nw u = nw /\
  forall spinwait l s,
    exec (cstep step (s_chunk u) true (body_plain step)) (conc_start step spinwait u) l = Some s ->
    Z.of_nat (length l) <=
      9 * Z.of_nat nw + 3 * Z.of_nat (length (filter (fun a => negb (w_ok a)) l)) /\
    forall w, (w < nw)%nat -> nth_error (pcs s) w <> Some WEnd ->
      exists s', cstep step (s_chunk u) true (body_plain step) s (W w true 0) = Some s'.
Proof.
  intros first last step nw data Hs Hw HB.
  destruct (init_static_ok first last step nw data Hs Hw HB)
    as (u & E0 & ST & SN & SL & TT & ON & CV).
  assert (A1 : forall w c, (w < s_nw u)%nat -> nth_error (s_data u) w = Some c -> nt c = 1).
  { intros w c _ E. apply ON. eapply nth_error_In; eauto. }
  assert (A2 : (s_nw u <= length (s_data u))%nat) by lia.
  exists u. split; [auto|]. split; [auto|]. intros sp l s E. rewrite <- SN. split.
  - eapply static_bounded; eauto. intros; apply body_plain_nil; auto.
  - intros w Hi NE. eapply static_progress; eauto. intros; apply body_plain_nil; auto.
Qed.

Lemma grain_done : forall data first last step grain nw,
  first < last -> 1 <= step -> 1 <= grain -> (1 <= nw <= length data)%nat ->
  exists u, setloop first last step (- grain) nw data = Done u.
Proof.
  intros data first last step grain nw HL Hs Hg Hw. unfold setloop.
  destruct (Z.eqb_spec (- grain) 0); [lia|]. destruct (Z.ltb_spec (- grain) 0); [|lia].
  unfold init_data_grain. cbv zeta. rewrite Z.opp_involutive.
  set (T := ceil_div (ceil_div (last - first) step) grain).
  assert (T1 : 1 <= T).
  { unfold T, ceil_div. apply Z.div_le_lower_bound; [lia|].
    assert (1 <= (last - first + step - 1) / step) by (apply Z.div_le_lower_bound; lia). lia. }
  destruct (fill_grain_total grain first last (Z.to_nat (Z.min (Z.of_nat nw) T)) 0 data) as [d ->]; [lia|].
  unfold finish_setloop. destruct (Z.ltb_spec (Z.min (Z.of_nat nw) T) 1); [lia|]. eauto.
Qed.

Lemma static_empty_main : forall first last step nw data used lg data',
  last <= first -> 1 <= step -> (1 <= nw)%nat ->
  parfor_run first last step 0 (fun _ => body_plain step) nw data used lg data' -> lg = [].
Proof.
  intros first last step nw data used lg d' HL Hs Hw R.
  destruct (static_main first last step nw data used lg d' Hs Hw ltac:(lia) R) as (_ & B & C).
  rewrite loop_nil in C by auto.
  pose proof (log_split nw lg B) as P. rewrite C in P. apply Permutation_sym, Permutation_nil in P.
  destruct lg; auto. discriminate.
Qed.

Lemma empty_abort : forall first last step grain nw data,
  last <= first -> 1 <= step -> 1 <= grain -> (1 <= nw)%nat ->
  setloop first last step grain nw data = Abort /\
  setloop first last step (- grain) nw data = Abort.
Proof.
  intros first last step grain nw data HL Hs Hg Hw.
  assert (CD : forall x y, x <= 0 -> 1 <= y -> ceil_div x y <= 0).
  { intros x y Hx Hy. unfold ceil_div. apply Z.lt_succ_r. apply Z.div_lt_upper_bound; lia. }
  assert (T0 : ceil_div (ceil_div (last - first) step) grain <= 0) by (apply CD; auto; apply CD; lia).
  split; unfold setloop.
  - destruct (Z.eqb_spec grain 0); [lia|]. destruct (Z.ltb_spec grain 0); [lia|].
    unfold init_data. cbv zeta.
    set (T := ceil_div (ceil_div (last - first) step) grain) in *.
    destruct nw as [|k]; [lia|]. simpl fill. destruct (Z.ltb_spec 0 T); [lia|].
    destruct (Z.eqb_spec T 0).
    + unfold finish_setloop. destruct (Z.ltb_spec T 1); [reflexivity|lia].
    + destruct (Z.eqb_spec T 1); [lia|]. reflexivity.
  - destruct (Z.eqb_spec (- grain) 0); [lia|]. destruct (Z.ltb_spec (- grain) 0); [|lia].
    unfold init_data_grain. cbv zeta. rewrite Z.opp_involutive.
    set (T := ceil_div (ceil_div (last - first) step) grain) in *.
    replace (Z.to_nat (Z.min (Z.of_nat nw) T)) with 0%nat by lia. simpl fill_grain.
    unfold finish_setloop. destruct (Z.ltb_spec (Z.min (Z.of_nat nw) T) 1); [reflexivity|lia].
Qed.

Lemma chunk_le_double : forall first last step grain nw data u,
  first < last -> 1 <= step -> 1 <= grain -> (1 <= nw)%nat ->
  setloop first last step grain nw data = Done u ->
  s_chunk u = grain \/ s_chunk u = 2 * grain.
Proof.
  intros first last step grain nw data u HL Hs Hg Hw E. unfold setloop in E.
  destruct (Z.eqb_spec grain 0); [lia|]. destruct (Z.ltb_spec grain 0); [lia|].
  destruct (init_data first last step grain nw data) as [x| |] eqn:Ei; try discriminate.
  assert (X : s_chunk u = snd (fst x)).
  { unfold finish_setloop in E. destruct x as [[d c] t]. destruct (t <? 1); [discriminate|].
    injection E as <-. reflexivity. }
  rewrite X. unfold init_data in Ei. cbv zeta in Ei.
  destruct (fill _ _ _ _ _ _ _ _ _ _) as [d t] in Ei.
  destruct (t =? 0); [injection Ei as <-; auto|].
  destruct (negb (t =? 1)); [discriminate|].
  match type of Ei with (if ?b then _ else _) = _ => destruct b end; injection Ei as <-; cbn [fst snd]; lia.
Qed.
