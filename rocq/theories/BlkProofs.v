(** Blocking mode: safety, and delivery under every fair schedule. *)
From Coq Require Import List Arith Bool Lia.
From Verif Require Import Base BlkModel BlkSpec.
Import ListNotations.

Section Proofs.
  Context {X : Type}.
  Variables (W : nat) (cap : nat -> option nat) (again : bool).
  Notation st := (st X).
  Notation step := (step W cap again).
  Notation turn := (turn W cap again true).
  Notation run := (run W cap again true).

  Ltac fupds := repeat (rewrite fupd_eq || (rewrite fupd_neq by congruence)).

  (** ** Safety *)
  Definition safe (xs : nat -> list X) (s : st) : Prop :=
    (forall w, got_from w s ++ q s w ++ left s w = xs w) /\
    (forall w b, cap w = Some b -> length (q s w) <= b) /\
    (forall w x, In (w, x) (out s) -> w < W) /\ (forall w, W <= w -> q s w = []).

  Lemma got_snoc : forall w (s : st) i x, got_from w (mkSt (q s) (left s) (pp s) (cp s) (out s ++ [(i, x)])) = got_from w s ++ if i =? w then [x] else [].
  Proof using Type. intros. unfold got_from. cbn [out]. rewrite filter_app, map_app. simpl. destruct (i =? w); auto. Qed.

  Lemma safe_step : forall xs s a s', safe xs s -> step s a = Some s' -> safe xs s'.
  Proof using Type.
    intros xs s a s' (H1 & H2 & H3 & H4) E. destruct a as [w|w| |]; cbn [BlkModel.step] in E.
    - destruct (negb (w <? W)) eqn:LW; [discriminate|]. apply negb_false_iff, Nat.ltb_lt in LW. destruct (pp s w) as [|e| | |].
      + destruct (is_nil (left s w)); [discriminate|]. injection E as <-. repeat split; auto.
      + destruct (left s w) as [|x r] eqn:EL; [discriminate|]. destruct (room cap s w) eqn:RM; injection E as <-; [|repeat split; auto].
        unfold safe, got_from; cbn [q left out]. split; [|split; [|split]]; auto.
        * intros v. destruct (Nat.eq_dec v w) as [->|NE]; fupds; [|apply H1]. rewrite <- app_assoc. cbn [app]. rewrite <- EL. apply H1.
        * intros v b C. destruct (Nat.eq_dec v w) as [->|NE]; fupds; [|apply H2; auto]. unfold room in RM. rewrite C in RM. apply Nat.ltb_lt in RM.
          rewrite app_length. simpl. lia.
        * intros v V. rewrite fupd_neq by lia. auto.
      + injection E as <-. repeat split; auto.
      + injection E as <-. repeat split; auto.
      + discriminate.
    - destruct (negb (w <? W)); [discriminate|]. destruct (pp s w); try discriminate. injection E as <-. repeat split; auto.
    - destruct (cp s) as [i k|i|i]; try discriminate.
      + destruct (q s i) as [|x r] eqn:EQ.
        * destruct (S k =? W); injection E as <-; repeat split; auto.
        * injection E as <-. unfold safe; cbn [q left out]. split; [|split; [|split]].
          -- intros v. unfold got_from. cbn [out]. rewrite filter_app, map_app. cbn [filter fst].
             destruct (Nat.eqb_spec i v) as [<-|NE].
             ++ rewrite fupd_eq. cbn [map snd]. rewrite <- app_assoc. cbn [app]. rewrite <- (H1 i), EQ. auto.
             ++ rewrite fupd_neq by congruence. simpl. rewrite app_nil_r. apply H1.
          -- intros v b C. destruct (Nat.eq_dec v i) as [->|NE]; fupds; [|auto]. pose proof (H2 i b C) as L. rewrite EQ in L. simpl in L. lia.
          -- intros v y HI. apply in_app_or in HI. destruct HI as [HI|[HI|[]]]; [eapply H3; eauto|]. injection HI as <- <-.
             destruct (Nat.lt_ge_cases i W) as [L|L]; auto. rewrite (H4 i L) in EQ. discriminate.
          -- intros v V. destruct (Nat.eq_dec v i) as [->|NE]; fupds; auto. rewrite (H4 i V) in EQ. discriminate.
      + injection E as <-. repeat split; auto.
    - destruct (cp s); try discriminate. injection E as <-. repeat split; auto.
  Qed.
  Lemma safe_init : forall xs, safe xs (init xs).
  Proof using Type. intros xs. unfold safe, init; cbn [q left out]. repeat split; auto; try (intros; simpl; lia); contradiction. Qed.
  Lemma safe_reach : forall xs l s, exec step (init xs) l = Some s -> safe xs s.
  Proof using Type. intros xs l s E. eapply (exec_inv step (safe xs)); eauto; [intros; eapply safe_step; eauto|apply safe_init]. Qed.

  (** ** Progress *)
  Hypothesis CAP : forall w b, cap w = Some b -> 1 <= b.
  (** What is still to be done: every value has to be pushed and popped. *)
  Fixpoint sum (f : nat -> nat) (n : nat) : nat := match n with 0 => 0 | S m => sum f m + f m end.
  Definition todo (s : st) : nat := sum (fun w => 2 * length (left s w) + length (q s w)) W.

  Lemma sum_ext : forall f g n, (forall i, i < n -> f i = g i) -> sum f n = sum g n.
  Proof using Type. induction n as [|n IH]; intros H; simpl; auto. rewrite IH by auto. rewrite H by lia. auto. Qed.
  Lemma sum_lt : forall f g n k, k < n -> f k < g k -> (forall i, i <> k -> f i = g i) -> sum f n < sum g n.
  Proof using Type.
    induction n as [|n IH]; intros k L D H; [lia|]. simpl. destruct (Nat.eq_dec k n) as [->|NE].
    - rewrite (sum_ext f g n); [lia|]. intros i Hi. apply H. lia.
    - rewrite (H n) by auto. pose proof (IH k ltac:(lia) D H). lia.
  Qed.
  Lemma sum_pos : forall f n, 0 < sum f n -> exists k, k < n /\ 0 < f k.
  Proof using Type.
    induction n as [|n IH]; simpl; intros H; [lia|]. destruct (f n) as [|m] eqn:E; [|exists n; lia].
    destruct IH as (k & K & P); [lia|]. exists k. lia.
  Qed.

  (** A turn does work, or leaves the channels and what is left to send as they are. *)
  Definition same (s s' : st) : Prop := q s' = q s /\ left s' = left s.
  Lemma same_todo : forall s s', same s s' -> todo s' = todo s.
  Proof using Type. intros s s' [A B]. unfold todo. rewrite A, B. auto. Qed.

  Definition bounded (s : st) : Prop := forall w, W <= w -> q s w = [].

  Lemma step_work : forall s a s', bounded s -> step s a = Some s' -> bounded s' /\ (todo s' < todo s \/ same s s').
  Proof using Type.
    intros s a s' BD E. destruct a as [w|w| |]; cbn [BlkModel.step] in E.
    - destruct (negb (w <? W)) eqn:LW; [discriminate|]. apply negb_false_iff, Nat.ltb_lt in LW. destruct (pp s w) as [|e| | |].
      + destruct (is_nil (left s w)); [discriminate|]. injection E as <-. split; [auto|right; split; auto].
      + destruct (left s w) as [|x r] eqn:EL; [discriminate|]. destruct (room cap s w) eqn:RM; injection E as <-; [|split; [auto|right; split; auto]].
        split.
        * intros v V. cbn [q]. rewrite fupd_neq by lia. auto.
        * left. unfold todo. cbn [q left]. apply (sum_lt _ _ W w LW).
          -- fupds. rewrite EL, app_length. simpl. lia.
          -- intros v NE. fupds. auto.
      + injection E as <-. split; [auto|right; split; auto].
      + injection E as <-. split; [auto|right; split; auto].
      + discriminate.
    - destruct (negb (w <? W)); [discriminate|]. destruct (pp s w); try discriminate. injection E as <-. split; [auto|right; split; auto].
    - destruct (cp s) as [i k|i|i]; try discriminate.
      + destruct (q s i) as [|x r] eqn:EQ.
        * destruct (S k =? W); injection E as <-; (split; [auto|right; split; auto]).
        * injection E as <-. assert (LI : i < W) by (destruct (Nat.lt_ge_cases i W) as [L|L]; auto; rewrite (BD i L) in EQ; discriminate). split.
          -- intros v V. cbn [q]. rewrite fupd_neq by lia. auto.
          -- left. unfold todo. cbn [q left]. apply (sum_lt _ _ W i LI).
             ++ fupds. rewrite EQ. simpl. lia.
             ++ intros v NE. fupds. auto.
      + injection E as <-. split; [auto|right; split; auto].
    - destruct (cp s); try discriminate. injection E as <-. split; [auto|right; split; auto].
  Qed.
  Lemma turn_work : forall s t, bounded s -> bounded (turn s t) /\ (todo (turn s t) < todo s \/ same s (turn s t)).
  Proof using Type.
    intros s t BD. unfold BlkSpec.turn. destruct t as [w|].
    - destruct (step s (PStep w)) eqn:E; [eapply step_work; eauto|]. destruct (step s (PTime w)) eqn:E2; [eapply step_work; eauto|]. split; [auto|right; split; auto].
    - destruct (step s CStep) eqn:E; [eapply step_work; eauto|]. destruct (step s CTime) eqn:E2; [eapply step_work; eauto|]. split; [auto|right; split; auto].
  Qed.

  (** Turns of the consumer until it pops, given that channel w holds something. *)
  Definition dist (i w : nat) : nat := if i <=? w then w - i else w + W - i.
  Definition ctime (w : nat) (s : st) : nat :=
    match cp s with
    | CScan i k => if k + dist i w <? W then dist i w else (W - k) + W + 3
    | CLock _ => W + 2
    | CWait _ => W + 1
    end.
  Definition in_range (s : st) : Prop := match cp s with CScan i k => i < W /\ k < W | CLock i | CWait i => i < W end.

  Lemma next_lt : forall i, i < W -> next W i < W.
  Proof using Type. intros i L. unfold next. destruct (Nat.eqb_spec (S i) W); lia. Qed.
  Lemma dist_lt : forall i w, i < W -> w < W -> dist i w < W.
  Proof using Type. intros i w. unfold dist. destruct (Nat.leb_spec i w); lia. Qed.
  Lemma dist_next : forall i w, i < W -> w < W -> i <> w -> S (dist (next W i) w) = dist i w.
  Proof using Type.
    intros i w L LW NE. unfold next, dist. destruct (Nat.eqb_spec (S i) W).
    - destruct (Nat.leb_spec 0 w); destruct (Nat.leb_spec i w); lia.
    - destruct (Nat.leb_spec (S i) w); destruct (Nat.leb_spec i w); lia.
  Qed.

  Lemma range_turn : forall s t, in_range s -> in_range (turn s t).
  Proof using Type.
    intros s t R. unfold BlkSpec.turn. unfold in_range in *. destruct t as [w|]; cbn [BlkModel.step].
    - destruct (negb (w <? W)); [auto|]. destruct (pp s w) as [|e| | |].
      + destruct (is_nil (left s w)); auto.
      + destruct (left s w); auto. destruct (room cap s w); auto.
      + cbn [cset cp]. destruct (cp s); cbn [wake]; auto. lia.
      + auto.
      + auto.
    - destruct (cp s) as [i k|i|i] eqn:C.
      + destruct R as [R1 R2]. pose proof (next_lt i R1). destruct (q s i).
        * destruct (Nat.eqb_spec (S k) W); cbn [cset cp]; auto; lia.
        * cbn [cp]. lia.
      + cbn [cset cp]. auto.
      + cbn [cset cp]. lia.
  Qed.

  (** A turn of a producer does not delay the consumer. *)
  Lemma ctime_producer : forall s v w, in_range s -> w < W -> ctime w (turn s (Producer v)) <= ctime w s.
  Proof using Type.
    intros s v w R LW. unfold BlkSpec.turn. unfold in_range in R. cbn [BlkModel.step]. 
    destruct (negb (v <? W)); [auto|]. destruct (pp s v) as [|e| | |]; auto.
    - destruct (is_nil (left s v)); auto.
    - destruct (left s v); auto. destruct (room cap s v); auto.
    - unfold ctime. cbn [cset cp]. destruct (cp s) as [i k|i|i]; cbn [wake]; auto. pose proof (dist_lt i w R LW). rewrite Nat.add_0_l.
      destruct (Nat.ltb_spec (dist i w) W); lia.
  Qed.
  (** A turn of the consumer pops, or brings it closer. *)
  Lemma ctime_consumer : forall s w, bounded s -> in_range s -> w < W -> q s w <> [] ->
    todo (turn s Consumer) < todo s \/ ctime w (turn s Consumer) < ctime w s.
  Proof using Type.
    intros s w BD R LW Q. destruct (turn_work s Consumer BD) as [_ [T|T]]; auto. right.
    unfold BlkSpec.turn, same in *. unfold in_range in R. cbn [BlkModel.step] in *. unfold ctime. 
    destruct (cp s) as [i k|i|i].
    - destruct R as [R1 R2]. destruct (q s i) as [|x r] eqn:EQ.
      + assert (NE : i <> w) by congruence. pose proof (dist_next i w R1 LW NE) as DN. pose proof (dist_lt i w R1 LW) as DL.
        destruct (Nat.eqb_spec (S k) W); cbn [cset cp].
        * destruct (Nat.ltb_spec (k + dist i w) W); [lia|]. lia.
        * destruct (Nat.ltb_spec (S k + dist (next W i) w) W); destruct (Nat.ltb_spec (k + dist i w) W); lia.
      + exfalso. cbn [q] in T. destruct T as [T _]. apply (f_equal (fun g => length (g i))) in T. rewrite fupd_eq, EQ in T. simpl in T. lia.
    - cbn [cset cp]. lia.
    - cbn [cset cp]. pose proof (dist_lt i w R LW). rewrite Nat.add_0_l. destruct (Nat.ltb_spec (dist i w) W); lia.
  Qed.

  (** Turns of producer w until it pushes, given that its channel is empty. *)
  Definition ptime (w : nat) (s : st) : nat :=
    match pp s w with PIdle => 1 | PPush _ => 0 | PSig => 2 | PLock => 3 | PWait => 2 end.
  Lemma ptime_other : forall s t w, t <> Producer w -> ptime w (turn s t) = ptime w s.
  Proof using Type.
    intros s t w NE. unfold BlkSpec.turn, ptime. destruct t as [v|]; cbn [BlkModel.step].
    - assert (VW : w <> v) by congruence. destruct (negb (v <? W)); [auto|]. destruct (pp s v) as [|e| | |].
      + destruct (is_nil (left s v)); auto. cbn [pset pp]. fupds. auto.
      + destruct (left s v); auto. destruct (room cap s v); cbn [pset pp]; fupds; auto.
      + cbn [pset cset pp]. fupds. auto.
      + cbn [pset pp]. fupds. auto.
      + cbn [pset pp]. fupds. auto.
    - destruct (cp s) as [i k|i|i]; auto. destruct (q s i); auto. destruct (S k =? W); auto.
  Qed.
  Lemma ptime_self : forall s w, bounded s -> w < W -> left s w <> [] -> q s w = [] ->
    todo (turn s (Producer w)) < todo s \/ ptime w (turn s (Producer w)) < ptime w s.
  Proof using CAP.
    intros s w BD LW L Q. destruct (turn_work s (Producer w) BD) as [_ [T|T]]; auto. right.
    unfold BlkSpec.turn, same in *. cbn [BlkModel.step] in *. unfold ptime. replace (negb (w <? W)) with false in * by (symmetry; apply negb_false_iff, Nat.ltb_lt; auto).
    destruct (pp s w) as [|e| | |].
    - destruct (left s w); [congruence|]. cbn [is_nil pset pp]. fupds. lia.
    - exfalso. destruct (left s w) as [|x r] eqn:EL; [congruence|].
      assert (RM : room cap s w = true). { unfold room. destruct (cap w) as [b|] eqn:C; auto. rewrite Q. simpl. apply Nat.ltb_lt. apply CAP in C. lia. }
      rewrite RM in T. cbn [left] in T. destruct T as [_ T]. apply (f_equal (fun g => length (g w))) in T. rewrite fupd_eq, EL in T. simpl in T. lia.
    - cbn [pset cset pp]. fupds. lia.
    - cbn [pset pp]. fupds. lia.
    - cbn [pset pp]. fupds. destruct again; lia.
  Qed.

  (** ** Schedules *)
  Lemma run_add : forall sched m k (s : st), run sched (k + m) s = run (fun i => sched (m + i)) k (run sched m s).
  Proof using Type.
    intros sched m. induction k as [|k IH]; intros s; auto. cbn [Nat.add BlkSpec.run]. rewrite IH. replace (k + m) with (m + k) by lia. auto.
  Qed.
  Lemma fair_shift : forall sched m, fair W sched -> fair W (fun i => sched (m + i)).
  Proof using Type. intros sched m F i t T. destruct (F (m + i) t T) as (j & J & E). exists (j - m). split; [lia|]. replace (m + (j - m)) with j by lia. auto. Qed.
  Lemma run_ok : forall sched s n, bounded s -> in_range s -> bounded (run sched n s) /\ in_range (run sched n s) /\ todo (run sched n s) <= todo s.
  Proof using Type.
    intros sched s n BD R. induction n as [|n (I1 & I2 & I3)]; [auto|]. cbn [BlkSpec.run]. destruct (turn_work (run sched n s) (sched n) I1) as [B W'].
    split; [auto|]. split; [apply range_turn; auto|]. destruct W' as [L|S]; [lia|]. rewrite (same_todo _ _ S). auto.
  Qed.

  Definition less (sched : nat -> thread) (s : st) : Prop := exists n, todo (run sched n s) < todo s.

  (** A quantity m that thread t lowers and the others do not raise, until some work is done. *)
  Lemma until : forall (P : st -> Prop) (m : st -> nat) (t : thread), (t = Consumer \/ exists w, w < W /\ t = Producer w) ->
    (forall s s', P s -> same s s' -> P s') ->
    (forall s, bounded s -> in_range s -> P s -> todo (turn s t) < todo s \/ m (turn s t) < m s) ->
    (forall s t', bounded s -> in_range s -> P s -> t' <> t -> todo (turn s t') < todo s \/ m (turn s t') <= m s) ->
    forall k s sched, fair W sched -> bounded s -> in_range s -> P s -> m s <= k -> less sched s.
  Proof using Type.
    intros P m t HT PS HS HO. 
    assert (DEC : forall t' : thread, t' = t \/ t' <> t).
    { intros [v|]; destruct t as [w|]; try (right; discriminate); auto. destruct (Nat.eq_dec v w) as [->|NE]; [auto|right; congruence]. }
    assert (ONE : forall s sched, less (fun i => sched (1 + i)) (turn s (sched 0)) -> todo (turn s (sched 0)) = todo s -> less sched s).
    { intros s sched (n & L) E. exists (n + 1). rewrite run_add. cbn [BlkSpec.run]. rewrite <- E. exact L. }
    induction k as [|k IH]; intros s sched F BD R HP HM.
    - destruct (F 0 t HT) as (j & _ & EJ). revert s sched F BD R HP HM EJ. induction j as [|j IJ]; intros s sched F BD R HP HM EJ.
      + destruct (HS s BD R HP) as [L|L]; [|lia]. exists 1. cbn [BlkSpec.run]. rewrite EJ. auto.
      + destruct (turn_work s (sched 0) BD) as [B [L|S]]; [exists 1; auto|]. apply ONE; [|apply same_todo; auto].
        apply IJ; auto.
        * apply (fair_shift sched 1 F).
        * apply range_turn; auto.
        * eapply PS; eauto.
        * pose proof (same_todo _ _ S) as ST. destruct (DEC (sched 0)) as [EQ|NE].
          -- destruct (HS s BD R HP) as [L|L]; rewrite <- EQ in L; lia.
          -- destruct (HO s (sched 0) BD R HP NE) as [L|L]; lia.
    - destruct (F 0 t HT) as (j & _ & EJ). revert s sched F BD R HP HM EJ. induction j as [|j IJ]; intros s sched F BD R HP HM EJ.
      + destruct (turn_work s (sched 0) BD) as [B [L|S]]; [exists 1; auto|]. pose proof (same_todo _ _ S) as ST. apply ONE; auto.
        destruct (HS s BD R HP) as [L|L]; [rewrite <- EJ in L; lia|]. rewrite <- EJ in L. apply IH; auto.
        * apply (fair_shift sched 1 F).
        * apply range_turn; auto.
        * eapply PS; eauto.
        * lia.
      + destruct (turn_work s (sched 0) BD) as [B [L|S]]; [exists 1; auto|]. pose proof (same_todo _ _ S) as ST. apply ONE; auto.
        apply IJ; auto.
        * apply (fair_shift sched 1 F).
        * apply range_turn; auto.
        * eapply PS; eauto.
        * destruct (DEC (sched 0)) as [EQ|NE].
          -- destruct (HS s BD R HP) as [L|L]; rewrite <- EQ in L; lia.
          -- destruct (HO s (sched 0) BD R HP NE) as [L|L]; lia.
  Qed.

  Lemma progress : forall s sched, fair W sched -> bounded s -> in_range s -> 0 < todo s -> less sched s.
  Proof using CAP.
    intros s sched F BD R T. destruct (sum_pos _ _ T) as (w & LW & P). destruct (q s w) as [|x r] eqn:Q.
    - assert (L : left s w <> []) by (intros C; rewrite C in P; simpl in P; lia).
      apply (until (fun s => left s w <> [] /\ q s w = []) (ptime w) (Producer w)) with (k := ptime w s); auto.
      + eauto.
      + intros s1 s2 [A B] [E1 E2]. rewrite E1, E2. auto.
      + intros s1 B1 _ [A B]. apply ptime_self; auto.
      + intros s1 t' _ _ _ NE. right. rewrite ptime_other; auto.
    - apply (until (fun s => q s w <> []) (ctime w) Consumer) with (k := ctime w s); auto.
      + intros s1 s2 A [E1 _]. rewrite E1. auto.
      + intros s1 B1 R1 A. apply ctime_consumer; auto.
      + intros s1 [v|] B1 R1 _ NE; [right; apply ctime_producer; auto|congruence].
      + rewrite Q. discriminate.
  Qed.

  Lemma delivered : forall k s sched, fair W sched -> bounded s -> in_range s -> todo s <= k -> exists n, todo (run sched n s) = 0.
  Proof using CAP.
    induction k as [|k IH]; intros s sched F BD R T; [exists 0; simpl; lia|].
    destruct (todo s) as [|d] eqn:ET; [exists 0; auto|].
    destruct (progress s sched F BD R) as (n & L); [lia|]. destruct (run_ok sched s n BD R) as (B & R' & _).
    destruct (IH (run sched n s) (fun i => sched (n + i)) (fair_shift sched n F) B R') as (m & M); [lia|].
    exists (m + n). rewrite run_add. auto.
  Qed.

  Lemma todo_zero : forall s w, todo s = 0 -> w < W -> left s w = [] /\ q s w = [].
  Proof using Type.
    intros s w T LW. unfold todo in T. assert (G : forall n, w < n -> sum (fun w => 2 * length (left s w) + length (q s w)) n = 0 -> 2 * length (left s w) + length (q s w) = 0).
    { induction n as [|n IH]; intros L E; [lia|]. simpl in E. destruct (Nat.eq_dec w n) as [->|NE]; [simpl; lia|apply IH; simpl; lia]. }
    pose proof (G W LW T). destruct (left s w), (q s w); simpl in *; auto; lia.
  Qed.

  Lemma run_safe : forall xs sched n s, safe xs s -> safe xs (run sched n s).
  Proof using Type.
    intros xs sched n s S. induction n as [|n IH]; auto. cbn [BlkSpec.run]. unfold BlkSpec.turn. destruct (sched n) as [w|].
    - destruct (step _ (PStep w)) eqn:E; [eapply safe_step; eauto|]. destruct (step _ (PTime w)) eqn:E2; [eapply safe_step; eauto|auto].
    - destruct (step _ CStep) eqn:E; [eapply safe_step; eauto|]. destruct (step _ CTime) eqn:E2; [eapply safe_step; eauto|auto].
  Qed.
End Proofs.
