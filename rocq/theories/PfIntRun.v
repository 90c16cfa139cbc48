(** Proofs: no overflow while a parallel_for runs. *)
From Coq Require Import List ZArith Lia Bool.
From Verif Require Import Base ParForSpec ParForModel ParForLoop ParForInit ParForStatic ParForMain PfIntSpec PfIntModel PfIntProofs.
Import ListNotations.
Local Open Scope Z_scope.

Lemma in_lupd : forall X (l : list X) i x y, In y (lupd l i x) -> y = x \/ In y l.
Proof. induction l; destruct i; simpl; intros; intuition. apply IHl in H0. intuition. Qed.

Section Run.
  Variables (step ch : Z) (In_ : cell -> Prop) (B : Z -> Z -> Prop).
  Local Notation ec := ((ch - 1) * step + 1).
  Hypothesis Hec : m_endchunk step ch = Some ec.
  Hypothesis Htake : forall n a b, In_ (mkCell n a b) ->
    m_take step ec a b = Some (chunk_end step ch (mkCell n a b), chunk_end step ch (mkCell n a b) - 1 + step) /\
    forall n', In_ (mkCell n' (chunk_end step ch (mkCell n a b) - 1 + step) b).

  Hypothesis Hb : forall c, In_ c -> B (lo c) (chunk_end step ch c).
  Definition tasks_in (l : list (option (Z * Z))) : Prop := forall a b, In (Some (a, b)) l -> B a b.

  Lemma take_cell : forall c, In_ c ->
    m_take step ec (lo c) (hi c) = Some (chunk_end step ch c, chunk_end step ch c - 1 + step) /\
    forall n', In_ (mkCell n' (chunk_end step ch c - 1 + step) (hi c)).
  Proof using Hec Htake Hb. intros [n a b] H. apply (Htake n a b H). Qed.


  (** Cells with tasks are within the range. *)
  Definition pos_in (d : list cell) : Prop := forall i c, nth_error d i = Some c -> 0 < nt c -> In_ c.

  Lemma pos_nth : forall d i, pos_in d -> 0 < nt (nth i d cell0) ->
    nth_error d i = Some (nth i d cell0) /\ In_ (nth i d cell0).
  Proof using.
    intros d i P H. destruct (Nat.ltb_spec i (length d)).
    - assert (E : nth_error d i = Some (nth i d cell0)) by (apply nth_error_nth'; auto). split; eauto.
    - rewrite nth_overflow in H by auto. simpl in H. lia.
  Qed.

  Lemma pos_take : forall d i c n, pos_in d -> In_ c ->
    (forall n', In_ (mkCell n' (chunk_end step ch c - 1 + step) (hi c))) ->
    pos_in (lupd d i (mkCell n (chunk_end step ch c - 1 + step) (hi c))).
  Proof using.
    intros d i c n P I H j c' E Hp. rewrite nth_error_lupd in E. destruct (Nat.eqb_spec i j) as [<- |]; [| eauto].
    destruct (i <? length d)%nat; [| discriminate]. injection E as <-. apply H.
  Qed.

  Lemma send_round_eq : forall k i d, pos_in d ->
    m_send_round step ec k i d = Some (send_round step ch k i d) /\ pos_in (fst (send_round step ch k i d)) /\
    tasks_in (snd (send_round step ch k i d)).
  Proof using Hec Htake Hb.
    induction k as [| k IH]; intros i d P; cbn [m_send_round send_round].
    { split; [auto |]. split; [auto |]. intros a b []. }
    destruct (Z.ltb_spec 0 (nt (nth i d cell0))) as [H | H].
    - destruct (pos_nth d i P H) as (E1 & E2). destruct (take_cell _ E2) as (T1 & T2).
      rewrite T1. cbn [bind fst snd].
      pose proof (pos_take d i _ (nt (nth i d cell0) - 1) P E2 T2) as P'.
      destruct (IH (S i) _ P') as (R1 & R2 & R3). rewrite R1. cbn [bind].
      destruct (send_round step ch k (S i) _) as (d0, l0) in *. cbn [fst snd] in *. split; [auto |]. split; [auto |].
      intros a b [E | H']; [injection E as <- <-; apply Hb; auto | apply R3; auto].
    - destruct (IH (S i) d P) as (R1 & R2 & R3). rewrite R1. cbn [bind].
      destruct (send_round step ch k (S i) _) as (d0, l0) in *. cbn [fst snd] in *. split; [auto |]. split; [auto |].
      intros a b [E | H']; [discriminate | apply R3; auto].
  Qed.

  (** ** Workers alone *)
  Section Conc.
    Variables (static : bool) (F : Z -> Z -> list Z).
    Variable G : nat -> Prop.

    Definition pc_in (cs : list cell) (p : pc) : Prop :=
      match p with
      | WLd _ id => G id
      | WCas _ id old => G id /\ forall c, nth_error cs id = Some c -> In_ (mkCell (nt c) old (hi c))
      | WSub _ id old en => G id /\ (old < en -> B old en)
      | WRun x y => B x y
      | _ => True
      end.
    Record cinv (s : cst) : Prop := {
      ci_cells : forall i c, nth_error (cells s) i = Some c -> (0 < nt c -> G i) /\ (G i -> In_ c);
      ci_pcs : forall p, In p (pcs s) -> pc_in (cells s) p }.
    Hypothesis Hnt : forall c n, In_ c -> In_ (mkCell n (lo c) (hi c)).

    Lemma pc_in_cells : forall cs id c c' p, nth_error cs id = Some c -> hi c' = hi c -> pc_in cs p ->
      pc_in (lupd cs id c') p.
    Proof using Hnt.
      intros cs id c c' p E H P. destruct p; auto. destruct P as (P1 & P2). split; auto.
      intros x Ex. rewrite nth_error_lupd in Ex. destruct (Nat.eqb_spec id id0) as [<- |]; [| auto].
      destruct (id <? length cs)%nat; [| discriminate]. injection Ex as <-. specialize (P2 c E).
      rewrite H. apply (Hnt _ (nt c')) in P2. exact P2.
    Qed.

    Lemma cinv_step : forall s a t, cinv s -> cstep step ch static F s a = Some t -> cinv t.
    Proof using Hec Htake Hb Hnt.
      intros s a t [C P] E. unfold cstep in E. destruct (nth_error (pcs s) (w_id a)) as [p |] eqn:Ep; [| discriminate].
      pose proof (P p (nth_error_In _ _ Ep)) as Pp.
      assert (PP : forall q, pc_in (cells s) q -> forall x, In x (lupd (pcs s) (w_id a) q) -> pc_in (cells s) x).
      { intros q Hq x Hx. apply in_lupd in Hx as [-> | Hx]; auto. }
      assert (CU : forall id c c', nth_error (cells s) id = Some c -> hi c' = hi c -> (0 < nt c' -> 0 < nt c) ->
                (In_ c -> G id -> In_ c') -> forall i x, nth_error (lupd (cells s) id c') i = Some x -> (0 < nt x -> G i) /\ (G i -> In_ x)).
      { intros id c c' Ec Hh Hn Hi i x Ex. rewrite nth_error_lupd in Ex. destruct (Nat.eqb_spec id i) as [<- |]; [| auto].
        destruct (id <? length (cells s))%nat; [| discriminate]. injection Ex as <-. destruct (C id c Ec) as (C1 & C2). auto. }
      assert (PU : forall id c c' q, nth_error (cells s) id = Some c -> hi c' = hi c -> pc_in (lupd (cells s) id c') q ->
                forall x, In x (lupd (pcs s) (w_id a) q) -> pc_in (lupd (cells s) id c') x).
      { intros id c c' q Ec Hh Hq x Hx. apply in_lupd in Hx as [-> | Hx]; auto. eapply pc_in_cells; eauto. }
      destruct p as [| x y | own id | own id | own id old | own id old en | |]; try discriminate.
      - injection E as <-. constructor; cbn [cells pcs]; auto. apply PP. exact Logic.I.
      - destruct (nth_error (cells s) id) as [c |] eqn:Ec; [| discriminate]. injection E as <-.
        constructor; cbn [setpc cells pcs]; auto. apply PP. destruct (Z.ltb_spec 0 (nt c)); simpl; auto. apply (C id c Ec). auto.
      - destruct (nth_error (cells s) id) as [c |] eqn:Ec; [| discriminate]. injection E as <-.
        constructor; cbn [setpc cells pcs]; auto. apply PP. simpl in Pp |- *. split; auto.
        intros c' Ec'. rewrite Ec in Ec'. injection Ec' as <-. apply Hnt. apply (C id c Ec). auto.
      - destruct (nth_error (cells s) id) as [c |] eqn:Ec; [| discriminate]. destruct Pp as (P1 & P2).
        destruct (w_ok a && (lo c =? old)) eqn:Ew.
        + injection E as <-. constructor; cbn [cells pcs].
          * apply (CU id c); auto. intros Ic _. destruct (take_cell c Ic) as (_ & T). apply T.
          * apply (PU id c); auto. cbn [pc_in]. split; auto. intros _.
            pose proof (Hb _ (P2 c Ec)) as Y. cbn [lo] in Y. unfold chunk_end in Y |- *. cbn [lo hi] in Y |- *.
            apply andb_true_iff in Ew as (_ & Ew). apply Z.eqb_eq in Ew. rewrite Ew. exact Y.
        + injection E as <-. constructor; cbn [setpc cells pcs]; auto. apply PP. exact Logic.I.
      - destruct (nth_error (cells s) id) as [c |] eqn:Ec; [| discriminate]. injection E as <-.
        constructor; cbn [cells pcs].
        + apply (CU id c); auto; simpl; try lia; auto.
        + apply (PU id c); auto. destruct Pp as (_ & P2). destruct (Z.ltb_spec old en); cbn [pc_in]; auto.
      - destruct static.
        + injection E as <-. constructor; cbn [setpc cells pcs]; auto. apply PP. exact Logic.I.
        + destruct (nth_error (cells s) (w_victim a)) as [c |] eqn:Ec; [| discriminate]. injection E as <-.
          constructor; cbn [setpc cells pcs]; auto. apply PP. destruct (0 <? nt c); exact Logic.I.
    Qed.

    Lemma cinv_fits : forall s a, cinv s -> m_cstep step ch static F s a = Some (cstep step ch static F s a).
    Proof using Hec Htake Hb Hnt.
      intros s a [C P]. unfold m_cstep, cstep. destruct (nth_error (pcs s) (w_id a)) as [p |] eqn:Ep; auto.
      pose proof (P p (nth_error_In _ _ Ep)) as Pp.
      destruct p as [| x y | own id | own id | own id old | own id old en | |]; auto.
      - rewrite Hec. reflexivity.
      - destruct (nth_error (cells s) id) as [c |] eqn:Ec; auto. rewrite Hec. cbn [bind].
        destruct Pp as (P1 & P2). destruct (Htake _ _ _ (P2 c Ec)) as (T & _). rewrite T. cbn [bind fst snd].
        destruct (w_ok a); simpl; auto. destruct (Z.eqb_spec (lo c) old) as [<- |]; auto.
    Qed.
  End Conc.

  (** ** With the scheduler thread *)
  Section Sched.
    Variable (F : Z -> Z -> list Z).
    Variables (n : nat) (total : Z).
    Hypothesis Ht : total < 2 ^ 63.

    Definition nonneg (d : list cell) : Prop := forall i c, (i < n)%nat -> nth_error d i = Some c -> 0 <= nt c.
    Record sinv (s : sst) : Prop := {
      si_pos : pos_in (d_cells s);
      si_nn : nonneg (d_cells s);
      si_wq : forall q x y, In q (d_wq s) -> In (x, y) q -> B x y;
      si_fb : length (d_fb s) = n;
      si_left : d_left s <= total;
      si_low : d_out s = false -> 1 <= d_left s }.

    Lemma nonneg_take : forall d i c x, nonneg d -> nth_error d i = Some c -> 0 < nt c -> nt x = nt c - 1 -> nonneg (lupd d i x).
    Proof using.
      intros d i c x N E H Hx j c' Hj Ej. rewrite nth_error_lupd in Ej. destruct (Nat.eqb_spec i j) as [<- |]; [| eauto].
      destruct (i <? length d)%nat; [| discriminate]. injection Ej as <-. lia.
    Qed.

    Lemma take_from_eq : forall d id, pos_in d -> nonneg d -> 0 < nt (nth id d cell0) ->
      m_take_from step ec id d = Some (take_from step ch id d) /\
      B (fst (snd (take_from step ch id d))) (snd (snd (take_from step ch id d))) /\
      pos_in (fst (take_from step ch id d)) /\ nonneg (fst (take_from step ch id d)).
    Proof using Hec Htake Hb.
      intros d id P N H. destruct (pos_nth d id P H) as (E1 & E2). destruct (take_cell _ E2) as (T1 & T2).
      unfold m_take_from, take_from. rewrite T1. cbn [bind fst snd]. split; [reflexivity |].
      split; [apply Hb; auto |]. split; [apply pos_take; auto |]. eapply nonneg_take; eauto.
    Qed.

    Lemma next_task_eq : forall d m wid, pos_in d -> nonneg d -> (wid < n)%nat ->
      m_next_task step ch wid d m = Some (next_task step ch wid d m) /\
      (forall x y, snd (next_task step ch wid d m) = Some (x, y) -> B x y) /\
      pos_in (fst (fst (next_task step ch wid d m))) /\ nonneg (fst (fst (next_task step ch wid d m))).
    Proof using Hec Htake Hb.
      intros d m wid P N Hw. unfold m_next_task, next_task. rewrite Hec. cbn [bind].
      assert (W : forall (mm : option nat) id, 0 < nt (nth id d cell0) ->
        (x <- m_take_from step ec id d; Some (fst x, mm, Some (snd x))) = Some (let '(d', t) := take_from step ch id d in (d', mm, Some t)) /\
        (forall x y, snd (let '(d', t) := take_from step ch id d in (d', mm, Some t)) = Some (x, y) -> B x y) /\
        pos_in (fst (fst (let '(d', t) := take_from step ch id d in (d', mm, Some t)))) /\
        nonneg (fst (fst (let '(d', t) := take_from step ch id d in (d', mm, Some t))))).
      { intros mm id H. destruct (take_from_eq d id P N H) as (T1 & T0 & T2 & T3). rewrite T1. cbn [bind].
        destruct (take_from step ch id d) as (d', t). cbn [fst snd] in *. split; [auto |]. split; [| auto].
        intros x y E. injection E as E. rewrite E in T0. exact T0. }
      set (l2m := if 0 <? nt (nth (max_element d) d cell0) then _ else Some (d, Some (max_element d), None)).
      set (l2 := if 0 <? nt (nth (max_element d) d cell0) then _ else (d, Some (max_element d), None)).
      assert (L2 : l2m = Some l2 /\ (forall x y, snd l2 = Some (x, y) -> B x y) /\ pos_in (fst (fst l2)) /\ nonneg (fst (fst l2))).
      { unfold l2m, l2. destruct (Z.ltb_spec 0 (nt (nth (max_element d) d cell0))); [apply W; auto |]. split; [auto |]. split; [discriminate | auto]. }
      destruct (Z.eqb_spec (nt (nth wid d cell0)) 0) as [Z0 | Z0]; cbn [negb].
      - destruct m as [m |]; auto. destruct (Z.ltb_spec 0 (nt (nth m d cell0))); auto.
      - apply W. destruct (Nat.ltb_spec wid (length d)).
        + pose proof (N wid (nth wid d cell0) Hw (nth_error_nth' d cell0 H)). lia.
        + rewrite nth_overflow in Z0 by auto. exfalso. apply Z0. reflexivity.
    Qed.

    Lemma sinv_both : forall s a, sinv s ->
      m_sstep step ch F s a = Some (sstep step ch F s a) /\ (forall t, sstep step ch F s a = Some t -> sinv t).
    Proof using Hec Htake Hb Ht.
      intros s a [P N Q LB L O]. destruct a as [w | w]; cbn [m_sstep sstep].
      - split; [reflexivity |]. intros t E. destruct (nth_error (d_wq s) w) as [[| (x, y) q] |] eqn:Ew; try discriminate.
        injection E as <-. constructor; cbn; auto; [| rewrite lupd_length; auto].
        intros q' x' y' Hq Hx. apply in_lupd in Hq as [-> | Hq]; [| eauto].
        apply (Q _ _ _ (nth_error_In _ _ Ew)). right. exact Hx.
      - destruct (d_out s) eqn:Eo; [split; [reflexivity | discriminate] |]. specialize (O eq_refl).
        destruct (nth_error (d_fb s) w) as [[| t0 q] |] eqn:Ef; try (split; [reflexivity | discriminate]).
        assert (Hw : (w < n)%nat) by (rewrite <- LB; eapply nth_error_lt; eauto).
        assert (P0 : 0 < 2 ^ 63) by (apply Z.pow_pos_nonneg; lia).
        rewrite w64_some by lia. cbn [bind]. destruct (Z.leb_spec (d_left s - 1) 0).
        + split; [reflexivity |]. intros t E. injection E as <-. constructor; cbn; auto; try lia; try discriminate.
          rewrite lupd_length. auto.
        + destruct (next_task_eq (d_cells s) (d_maxid s) w P N Hw) as (E1 & E0 & E2 & E3). rewrite E1. cbn [bind].
          destruct (next_task step ch w (d_cells s) (d_maxid s)) as ((d, m), t). cbn [fst snd] in *. split.
          * destruct t; reflexivity.
          * intros t' E. destruct t as [r |]; injection E as <-; constructor; cbn; auto; try lia; try (rewrite lupd_length; auto).
            intros q' x' y' Hq Hx. apply in_lupd in Hq as [-> | Hq]; [| eauto].
            apply in_app_iff in Hx as [Hx | [-> | []]]; [| apply E0; reflexivity].
            destruct (Nat.ltb_spec w (length (d_wq s))).
            -- apply (Q (nth w (d_wq s) [])); auto. apply nth_In. auto.
            -- rewrite nth_overflow in Hx by auto. destruct Hx.
    Qed.

    Lemma send_round_nn : forall k i d, pos_in d -> nonneg d -> nonneg (fst (send_round step ch k i d)).
    Proof using Hec Htake Hb.
      induction k as [| k IH]; intros i d P N; cbn [send_round]; auto.
      destruct (Z.ltb_spec 0 (nt (nth i d cell0))) as [H | H].
      - destruct (pos_nth d i P H) as (E1 & E2). destruct (take_cell _ E2) as (T1 & T2).
        pose proof (IH (S i) (lupd d i (mkCell (nt (nth i d cell0) - 1) (chunk_end step ch (nth i d cell0) - 1 + step) (hi (nth i d cell0))))) as R.
        destruct (send_round step ch k (S i) _) as (d0, l0). apply R; [apply pos_take; auto |]. eapply nonneg_take; eauto.
      - pose proof (IH (S i) d P N) as R. destruct (send_round step ch k (S i) d) as (d0, l0). auto.
    Qed.

    Definition wq_in (wq : list (list (Z * Z))) : Prop := forall q x y, In q wq -> In (x, y) q -> B x y.
    Lemma push_round_in : forall wq l, wq_in wq -> tasks_in l -> wq_in (push_round wq l).
    Proof using.
      induction wq as [| q wq IH]; intros l H T; cbn [push_round]; auto.
      assert (H' : wq_in wq) by (intros q' x y Hq; apply H; right; auto).
      destruct l as [| [t |] l]; auto.
      - assert (T' : tasks_in l) by (intros a b Hx; apply T; right; auto).
        intros q' x y [<- | Hq] Hx; [| apply (IH l H' T' q'); auto].
        apply in_app_iff in Hx as [Hx | [-> | []]]; [apply (H q); auto; left; auto | apply T; left; auto].
      - assert (T' : tasks_in l) by (intros a b Hx; apply T; right; auto).
        intros q' x y [<- | Hq] Hx; [apply (H q); auto; left; auto | apply (IH l H' T' q'); auto].
    Qed.

    Lemma send_task_eq : forall nw tt sk x, pos_in (fst (fst x)) -> nonneg (fst (fst x)) -> wq_in (snd (fst x)) ->
      m_send_task step ch nw tt sk x = Some (send_task step ch nw tt sk x) /\
      wq_in (snd (fst (send_task step ch nw tt sk x))) /\
      pos_in (fst (fst (send_task step ch nw tt sk x))) /\ nonneg (fst (fst (send_task step ch nw tt sk x))).
    Proof using Hec Htake Hb.
      intros nw tt sk ((d, wq), s1) P N Q. cbn [fst snd] in P, N, Q. unfold m_send_task, send_task. rewrite Hec. cbn [bind].
      destruct (send_round_eq nw 0 d P) as (R1 & R2 & R4). pose proof (send_round_nn nw 0 d P N) as R3. rewrite R1. cbn [bind].
      destruct (send_round step ch nw 0 d) as (d1, l1). cbn [fst snd] in R2, R3, R4. pose proof (push_round_in wq l1 Q R4) as Q1.
      destruct (negb sk && negb (s1 || existsb is_none l1) && (4 * Z.of_nat nw <=? tt)); [| auto].
      destruct (send_round_eq nw 0 d1 R2) as (S1 & S2 & S4). pose proof (send_round_nn nw 0 d1 R2 R3) as S3. rewrite S1. cbn [bind].
      destruct (send_round step ch nw 0 d1) as (d2, l2). cbn [fst snd] in *. split; [auto |]. split; [| auto].
      apply push_round_in; auto.
    Qed.
  End Sched.
End Run.

(** * The whole call *)
Lemma body_ok : forall step first last x y, 1 <= step -> - 2 ^ 63 <= first - step -> last + step < 2 ^ 63 ->
  (first <= x /\ y <= last \/ x = 0 /\ y = 0) -> m_body step x y = Some (loop x y step).
Proof.
  intros step first last x y Hs Hl Hh [(A & C) | (-> & ->)]; [| reflexivity].
  unfold m_body, loop.
  assert (G : forall f a, first <= a -> m_loop_fuel f a y step = Some (loop_fuel f a y step)).
  { induction f as [| f IH]; intros a Ha; cbn [m_loop_fuel loop_fuel]; auto.
    destruct (Z.ltb_spec a y); auto. rewrite w64_some by lia. cbn [bind]. rewrite IH by lia. reflexivity. }
  apply G. auto.
Qed.

Section Main.
  Variables (first last step grain : Z) (maxnw nw : nat) (data : list cell) (u : setup).
  Hypothesis HF : fits64 first last step grain.
  Hypothesis HW : (1 <= nw)%nat.
  Hypothesis HW2 : Z.of_nat nw <= 2 ^ 8.
  Hypothesis HR : reach_table maxnw data.
  Hypothesis HU : setloop first last step grain nw data = Done u.

  Let In_ := inside first last step.
  Let B (x y : Z) : Prop := m_body step x y = Some (loop x y step).

  Lemma main_facts :
    m_endchunk step (s_chunk u) = Some ((s_chunk u - 1) * step + 1) /\
    (forall n a b, In_ (mkCell n a b) ->
       m_take step ((s_chunk u - 1) * step + 1) a b =
         Some (chunk_end step (s_chunk u) (mkCell n a b), chunk_end step (s_chunk u) (mkCell n a b) - 1 + step) /\
       forall n', In_ (mkCell n' (chunk_end step (s_chunk u) (mkCell n a b) - 1 + step) b)) /\
    (forall c, In_ c -> B (lo c) (chunk_end step (s_chunk u) c)) /\ B 0 0 /\
    tab_ok first last step (s_nw u) (s_data u) /\ 1 <= s_total u < 2 ^ 63.
  Proof using HF HW HW2 HR HU.
    destruct HF as [H1 H2 H3 H4 H5 H6]. apply reach_quiet in HR.
    destruct (setup_ok first last step grain H1 H2 H3 H4 H5 H6 nw data u HW HR HU) as (S1 & S2 & S3 & S4).
    assert (HS : last + step < 2 ^ 63).
    { destruct (h3 grain step H3 H2) as (CC & _).
      assert (E4 : (2 * grain + 4) * step = 2 * (grain * step) + 4 * step) by ring. rewrite E4 in H6. lia. }
    split; [apply (endchunk_ok first last step grain); auto |].
    split; [intros; apply (take_ok first last step grain); auto |].
    split.
    { intros c (I1 & I2). apply (body_ok step first last); auto. left. unfold chunk_end. lia. }
    split; [apply (body_ok step first last); auto |]. split; [auto |]. split; [lia |].
    assert (2 ^ 53 < 2 ^ 63) by (apply Z.pow_lt_mono_r; lia). assert (2 ^ 8 < 2 ^ 63) by (apply Z.pow_lt_mono_r; lia). lia.
  Qed.

  Lemma conc_main : forall spinwait static F,
    m_conc_start step spinwait u = Some (conc_start step spinwait u) /\
    forall l s, exec (cstep step (s_chunk u) static F) (conc_start step spinwait u) l = Some s ->
      (forall a, m_cstep step (s_chunk u) static F s a = Some (cstep step (s_chunk u) static F s a)) /\
      (forall w x y, nth_error (pcs s) w = Some (WRun x y) -> m_body step x y = Some (loop x y step)).
  Proof using HF HW HW2 HR HU.
    intros spinwait static F. destruct main_facts as (Hec & Ht & Hb & B0 & TO & _).
    assert (Hnt : forall c n, In_ c -> In_ (mkCell n (lo c) (hi c))) by (intros c n I; exact I).
    assert (PI : pos_in In_ (s_data u)) by (intros i c Ei; apply (TO i c Ei)).
    destruct (send_round_eq step (s_chunk u) In_ B Hec Ht Hb (s_nw u) 0 (s_data u) PI) as (R1 & R2 & R3).
    split.
    - unfold m_conc_start, conc_start. destruct spinwait; auto. rewrite Hec. cbn [bind]. rewrite R1. cbn [bind].
      destruct (send_round step (s_chunk u) (s_nw u) 0 (s_data u)); reflexivity.
    - intros l s E. set (G := fun i => exists c, nth_error (cells (conc_start step spinwait u)) i = Some c /\ 0 < nt c).
      assert (I : cinv In_ B G s).
      { refine (exec_inv _ (cinv In_ B G) _ l _ s _ E).
        - intros x a y Ix Ex. eapply (cinv_step step (s_chunk u) In_ B); eauto.
        - assert (PD : pos_in In_ (cells (conc_start step spinwait u))).
          { unfold conc_start. destruct spinwait; auto. destruct (send_round step (s_chunk u) (s_nw u) 0 (s_data u)); auto. }
          constructor.
          + intros i c Ei. split; [intros H; exists c; auto |]. intros (c' & E' & H). rewrite Ei in E'. injection E' as <-. eauto.
          + intros p Hp. unfold conc_start in Hp. destruct spinwait; cbn [pcs] in Hp.
            * apply repeat_spec in Hp. subst p. exact B0.
            * destruct (send_round step (s_chunk u) (s_nw u) 0 (s_data u)) as (d, l0). cbn [pcs] in Hp.
              apply in_map_iff in Hp as ([(x, y) |] & <- & Hx); cbn [pc_of_task pc_in]; auto. }
      split.
      + intros a. eapply (cinv_fits step (s_chunk u) In_ B); eauto.
      + intros w x y Ew. apply (ci_pcs _ _ _ _ I _ (nth_error_In _ _ Ew)).
  Qed.

  Lemma sched_main : forall spinwait F,
    m_sched_start step spinwait u = Some (sched_start step spinwait u) /\
    forall l s, exec (sstep step (s_chunk u) F) (sched_start step spinwait u) l = Some s ->
      (forall a, m_sstep step (s_chunk u) F s a = Some (sstep step (s_chunk u) F s a)) /\
      (forall q x y, In q (d_wq s) -> In (x, y) q -> m_body step x y = Some (loop x y step)).
  Proof using HF HW HW2 HR HU.
    intros spinwait F. destruct main_facts as (Hec & Ht & Hb & B0 & TO & TT).
    assert (PI : pos_in In_ (s_data u)) by (intros i c Ei; apply (TO i c Ei)).
    assert (NI : nonneg (s_nw u) (s_data u)) by (intros i c Hi Ei; apply (TO i c Ei); auto).
    assert (QI : wq_in B (repeat [] (s_nw u))).
    { intros q x y Hq Hx. apply repeat_spec in Hq. subst q. destruct Hx. }
    set (x0 := (s_data u, repeat (@nil (Z * Z)) (s_nw u), false)).
    set (x1 := if spinwait then send_task step (s_chunk u) (s_nw u) (s_total u) true x0 else x0).
    assert (X1 : (if spinwait then m_send_task step (s_chunk u) (s_nw u) (s_total u) true x0 else Some x0) = Some x1 /\
                 wq_in B (snd (fst x1)) /\ pos_in In_ (fst (fst x1)) /\ nonneg (s_nw u) (fst (fst x1))).
    { unfold x1. destruct spinwait; [| auto].
      apply (send_task_eq step (s_chunk u) In_ B Hec Ht Hb (s_nw u)); auto. }
    destruct X1 as (X1 & X2 & X3 & X4).
    destruct (send_task_eq step (s_chunk u) In_ B Hec Ht Hb (s_nw u) (s_nw u) (s_total u) false x1 X3 X4 X2) as (Y1 & Y2 & Y3 & Y4).
    split.
    - unfold m_sched_start, sched_start. fold x0. rewrite X1. cbn [bind]. rewrite Y1. cbn [bind]. fold x1.
      destruct (send_task step (s_chunk u) (s_nw u) (s_total u) false x1) as ((d, wq), b). reflexivity.
    - intros l s E. assert (I : sinv In_ B (s_nw u) (s_total u) s).
      { refine (exec_inv _ (sinv In_ B (s_nw u) (s_total u)) _ l _ s _ E).
        - intros x a y Ix Ex. destruct (sinv_both step (s_chunk u) In_ B Hec Ht Hb F (s_nw u) (s_total u) (proj2 TT) x a Ix) as (_ & Q). auto.
        - unfold sched_start. fold x0. fold x1.
          destruct (send_task step (s_chunk u) (s_nw u) (s_total u) false x1) as ((d, wq), b). cbn [fst snd] in *.
          constructor; cbn; auto; [apply repeat_length | lia | lia]. }
      split.
      + intros a. apply (sinv_both step (s_chunk u) In_ B Hec Ht Hb F (s_nw u) (s_total u) (proj2 TT) s a I).
      + intros q x y Hq Hx. apply (si_wq _ _ _ _ _ I q x y Hq Hx).
  Qed.
End Main.
