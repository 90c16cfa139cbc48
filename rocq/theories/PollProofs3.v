From Coq Require Import List Arith Bool Lia.
From Verif Require Import Base PollModel PollSpec PollProofs PollProofs2.
Import ListNotations.

Section P.
  Context {X : Type}.
  Variable F : cfg.
  Notation st := (st X).
  Notation step := (step F).
  Notation exec := (exec step).

  Lemma polls_on : forall l : list (act X), Forall on_poll l -> polls l = length l.
  Proof.
    induction 1 as [|a l (u & -> & _) H IH]; [reflexivity|]. unfold polls in *. simpl. rewrite IH. reflexivity.
  Qed.
  Lemma keeps_of_on : forall l : list (act X), Forall on_poll l -> Forall keeps_on l.
  Proof. intros l H. eapply Forall_impl; [|exact H]. intros a (u & -> & A & B). simpl. auto. Qed.
  Lemma on_over : forall (l : list (act X)) (s t : st), Forall on_poll l -> over s = true -> exec s l = Some t -> l = [].
  Proof.
    intros [|a l] s t K O H; [reflexivity|]. inversion K as [|? ? (u & -> & _) _]; subst.
    simpl in H. rewrite O in H. discriminate.
  Qed.

  Lemma avail_len : forall s : st, inv F s -> length (avail s) <= length (avail0 F).
  Proof. intros s I. apply NoDup_incl_length; [exact (i_nodup _ _ I)|exact (i_incl _ _ I)]. Qed.

  (** Twice around the list, something is read. *)
  Lemma progress : forall (l : list (act X)) (s t : st), c_ok F s -> active s = true -> Forall on_poll l ->
    exec s l = Some t -> (forall c, In c (sources F) -> existsb is_eos (sent s c) = true) -> over s = false ->
    2 * length (avail0 F) <= length l -> length (log s) < length (log t).
  Proof.
    intros l s t O Ac K H Cl Ov Ln.
    destruct (run_cases F l s t O Ac K H) as (_ & _ & Le & _ & Same).
    destruct (Nat.eq_dec (length (log t)) (length (log s))) as [Eq|]; [|lia]. exfalso.
    destruct (Same Eq) as (Ec & Ea & Eg & Eo). clear Same.
    destruct O as [I C]. assert (Lv := avail_len s I). assert (P := i_pos _ _ I).
    (* every polled channel is empty *)
    assert (Em : forall c, In c (avail s) -> ch s c = []).
    { intros c Ic. destruct (ch s c) eqn:E; [reflexivity|exfalso].
      apply In_nth_error in Ic. destruct Ic as [i Ei].
      assert (Li : i < length (avail s)) by (apply nth_error_Some; congruence).
      destruct (fair_read F l s t i c I Ac Ei) as [R|R]; auto.
      - congruence.
      - apply keeps_of_on. assumption.
      - rewrite polls_on by assumption. assert (D := dist_bound s i P Li). lia.
      - congruence.
      - rewrite Eg in R. lia. }
    assert (L0 := i_go _ _ I Ov).
    (* so is the queue *)
    destruct (inq F) eqn:Q.
    - destruct (ch s Inq) as [|m r] eqn:Eb.
      + assert (Z : left s = 0); [|lia]. apply (all_left F); [assumption|]. intros c Ic. specialize (Cl c Ic).
        rewrite (i_fifo _ _ I) in Cl. unfold sources in Ic. rewrite Q in Ic. apply in_app_iff in Ic.
        destruct Ic as [Ic|[<-|[]]].
        * destruct (in_dec (fun a b => match src_eqb_spec a b with ReflectT _ e => Specif.left e | ReflectF _ e => Specif.right e end) c (avail s)) as [Ia|Na].
          -- rewrite Em in Cl by assumption. rewrite app_nil_r in Cl. assumption.
          -- apply existsb_exists. exists Eos. split; [apply (i_gone _ _ I); assumption|reflexivity].
        * rewrite Eb, app_nil_r in Cl. assumption.
      + assert (R : length (log s) < length (log t)); [|lia].
        eapply (quiet_read F l s t); eauto; [split; assumption|congruence|]. lia.
    - assert (Z : left s = 0); [|lia]. apply (all_left F); [assumption|]. intros c Ic. specialize (Cl c Ic).
      rewrite (i_fifo _ _ I) in Cl. unfold sources in Ic. rewrite Q, app_nil_r in Ic.
      destruct (in_dec (fun a b => match src_eqb_spec a b with ReflectT _ e => Specif.left e | ReflectF _ e => Specif.right e end) c (avail s)) as [Ia|Na].
      + rewrite Em in Cl by assumption. rewrite app_nil_r in Cl. assumption.
      + apply existsb_exists. exists Eos. split; [apply (i_gone _ _ I); assumption|reflexivity].
  Qed.

  Lemma waiting_zero : forall s : st, waiting F s = 0 -> forall c, In c (sources F) -> ch s c = [].
  Proof.
    intros s. unfold waiting. induction (sources F) as [|a l IH]; intros Z c I; [contradiction|].
    simpl in Z. destruct I as [->|I]; [destruct (ch s c); [reflexivity|simpl in Z; lia]|].
    apply IH; [lia|assumption].
  Qed.

  Lemma terminates : forall n (l : list (act X)) (s t : st), waiting F s <= n -> c_ok F s -> active s = true ->
    Forall on_poll l -> exec s l = Some t -> (forall c, In c (sources F) -> existsb is_eos (sent s c) = true) ->
    length l <= 2 * length (avail0 F) * n.
  Proof.
    induction n as [|n IH]; intros l s t W O Ac K H Cl.
    - destruct (over s) eqn:Ov; [rewrite (on_over l s t K Ov H); simpl; lia|exfalso].
      assert (Z : left s = 0).
      { apply (all_left F); [apply O|]. intros c Ic. specialize (Cl c Ic). rewrite (i_fifo _ _ (proj1 O)) in Cl.
        rewrite (waiting_zero s) in Cl; auto; [|lia]. rewrite app_nil_r in Cl. assumption. }
      assert (G := i_go _ _ (proj1 O) Ov). lia.
    - destruct (over s) eqn:Ov; [rewrite (on_over l s t K Ov H); simpl; lia|].
      destruct (le_lt_dec (2 * length (avail0 F)) (length l)) as [Lg|Lg]; [|nia].
      rewrite <- (firstn_skipn (2 * length (avail0 F)) l) in H, K.
      apply exec_app in H. destruct H as (m & H1 & H2). apply Forall_app in K. destruct K as [K1 K2].
      assert (L1 : length (firstn (2 * length (avail0 F)) l) = 2 * length (avail0 F)) by (rewrite firstn_length; lia).
      assert (P := progress _ _ _ O Ac K1 H1 Cl Ov ltac:(lia)).
      destruct (run_cases F _ _ _ O Ac K1 H1) as (Am & Es & _ & Eq & _).
      assert (Om := exec_ok F _ _ _ O H1).
      assert (R : length (skipn (2 * length (avail0 F)) l) <= 2 * length (avail0 F) * n).
      { eapply (IH _ m t); eauto; [lia|]. rewrite Es. assumption. }
      rewrite skipn_length in R. nia.
  Qed.

  (** Input not active. *)
  Definition nulls (l : list (event X)) : nat := length (filter (fun e => match e with ENull => true | _ => false end) l).

  Lemma nulls_app : forall a b, nulls (a ++ b) = nulls a + nulls b.
  Proof. intros. unfold nulls. rewrite filter_app, app_length. reflexivity. Qed.

  Lemma nulls_mono : forall (l : list (act X)) (s t : st), exec s l = Some t -> nulls (log s) <= nulls (log t).
  Proof.
    induction l as [|a l IH]; intros s t H; simpl in H.
    - injection H as <-. auto.
    - destruct (step s a) as [m|] eqn:E; [|discriminate]. apply IH in H.
      assert (nulls (log s) <= nulls (log m)); [|lia]. destruct a as [c x|u].
      + unfold PollModel.step in E. destruct (_ && _); [|discriminate]. injection E as <-. simpl. auto.
      + apply poll_turn in E. destruct E as (_ & c & _ & T). destruct T; simpl; auto; try (destruct m; simpl);
          rewrite nulls_app; lia.
  Qed.

  Lemma null_call : forall (l : list (act X)) (s t : st), c_ok F s -> active s = false ->
    (forall i c, nth_error (avail s) i = Some c -> is_input F i = false -> ch s c = []) ->
    is_input F 0 = false -> exec s l = Some t -> polls l = length l ->
    (length (avail s) - S (cnt s)) * length (avail s) + (length (avail s) - pos s) <= length l ->
    nulls (log s) < nulls (log t).
  Proof.
    induction l as [|a l IH]; intros s t O Ac Em Z H Pl Ln.
    - simpl in Ln. assert (P := i_pos _ _ (proj1 O)). lia.
    - simpl in H. destruct (step s a) as [m|] eqn:E; [|discriminate].
      assert (Om := step_ok F _ _ _ O E). destruct O as [I C]. assert (P := i_pos _ _ I).
      destruct a as [c x|u].
      { exfalso. unfold polls in Pl. simpl in Pl.
        assert (G : forall l : list (act X), length (filter is_poll l) <= length l).
        { intro l0. induction l0 as [|b l0 IHl]; simpl; [lia|]. destruct (is_poll b); simpl; lia. }
        specialize (G l). lia. }
      assert (Pl' : polls l = length l) by (unfold polls in *; simpl in Pl; lia).
      assert (Mn := nulls_mono _ _ _ H).
      apply poll_turn in E. destruct E as (Ov & c & Ec & T).
      assert (Ln0 : next s < length (avail s)) by (apply nth_error_Some; congruence).
      inversion T as [T1 T2 T3|m0 r T1 T2 T3|T1 T2 T3 T4 T5|m0 r T1 T2 T3 T4 T5 T6|T1 T2 T3 T4 T5|T1 T2 T3 T4]; subst m; try congruence.
      + assert (G := IH _ t Om). simpl in G. apply G; auto.
        unfold next in *. destruct (Nat.eqb_spec (S (pos s)) (length (avail s))); simpl in Ln; [congruence|lia].
      + destruct T1 as [T1|T1]; [congruence|]. rewrite (Em _ _ Ec T1) in T2. discriminate.
      + simpl in Mn. rewrite nulls_app in Mn. unfold nulls at 2 in Mn. simpl in Mn. lia.
      + assert (G := IH _ t Om). simpl in G. apply G; auto. simpl in Ln.
        unfold next in *. destruct (Nat.eqb_spec (S (pos s)) (length (avail s))); simpl in Ln; nia.
  Qed.

  Lemma inactive_stuck : forall (l : list (act X)) (s t : st), nwk F + nfb F = 0 -> nmi F <> 0 -> active s = false ->
    exec s l = Some t -> log t = log s /\ got t = got s /\ over t = over s /\ active t = false.
  Proof.
    induction l as [|a l IH]; intros s t Z N Ac H; simpl in H.
    - injection H as <-. auto.
    - destruct (step s a) as [m|] eqn:E; [|discriminate].
      assert (Ii : forall k, is_input F k = true).
      { intro k. unfold is_input, mis. destruct (nmi F); [congruence|]. rewrite Z. reflexivity. }
      assert (G : log m = log s /\ got m = got s /\ over m = over s /\ active m = false).
      { destruct a as [c x|u].
        - unfold PollModel.step in E. destruct (_ && _); [|discriminate]. injection E as <-. simpl. auto.
        - apply poll_turn in E. destruct E as (Ov & c & Ec & T).
          destruct T; try congruence; simpl; auto.
          + destruct H0 as [H0|H0]; [congruence|rewrite Ii in H0; discriminate]. }
      destruct G as (G1 & G2 & G3 & G4). destruct (IH _ _ Z N G4 H) as (R1 & R2 & R3 & R4).
      repeat split; congruence.
  Qed.

  (** Channel numbers. *)
  Lemma nth_seq_map : forall (f : nat -> src) n k c, nth_error (map f (seq 0 n)) k = Some c -> k < n /\ c = f k.
  Proof.
    intros f n k c H.
    assert (L : k < n).
    { assert (k < length (map f (seq 0 n))) by (apply nth_error_Some; congruence).
      rewrite map_length, seq_length in *. assumption. }
    split; [assumption|]. rewrite nth_error_map in H.
    rewrite (nth_error_nth' (seq 0 n) 0) in H by (rewrite seq_length; assumption).
    rewrite seq_nth in H by assumption. simpl in H. congruence.
  Qed.

  Lemma avail0_nth : forall k c, nth_error (avail0 F) k = Some c ->
    (k < nwk F /\ c = Wk k) \/ (nwk F <= k < nwk F + nfb F /\ c = Fbk (k - nwk F)) \/
    (nwk F + nfb F <= k < nwk F + nfb F + nmi F /\ c = Min (k - (nwk F + nfb F))).
  Proof.
    intros k c H. unfold avail0 in H. destruct (le_lt_dec (nwk F) k) as [L|L].
    - rewrite nth_error_app2 in H by (rewrite map_length, seq_length; assumption).
      rewrite map_length, seq_length in H. right. destruct (le_lt_dec (nwk F + nfb F) k) as [L2|L2].
      + rewrite nth_error_app2 in H by (rewrite map_length, seq_length; lia).
        rewrite map_length, seq_length in H. apply nth_seq_map in H. destruct H as [A ->]. right.
        split; [lia|]. f_equal. lia.
      + rewrite nth_error_app1 in H by (rewrite map_length, seq_length; lia).
        apply nth_seq_map in H. left. destruct H as [A ->]. split; [lia|reflexivity].
    - rewrite nth_error_app1 in H by (rewrite map_length, seq_length; assumption).
      apply nth_seq_map in H. auto.
  Qed.

  Lemma shrink_eq : forall (l : list (act X)) (s t : st), exec s l = Some t -> length (avail t) = length (avail s) -> avail t = avail s.
  Proof.
    induction l as [|a l IH]; intros s t H E; simpl in H; [congruence|].
    destruct (step s a) as [m|] eqn:Es; [|discriminate].
    destruct (exec_mono F _ _ _ H) as (_ & B & _). destruct (step_mono F _ _ _ Es) as (_ & B' & _).
    rewrite (IH _ _ H) by lia. destruct a as [c x|u].
    - unfold PollModel.step in Es. destruct (_ && _); [|discriminate]. injection Es as <-. reflexivity.
    - apply poll_turn in Es. destruct Es as (Ov & c & Ec & T). destruct T; try reflexivity.
      + destruct (deliver_avail F s c (Some (next s)) m r (next s) u) as [[E1 _]|]; [|assumption|lia].
        intros i [= <-]. apply nth_error_Some. congruence.
      + destruct (deliver_avail F s Inq None m r (next s) u) as [[E1 _]|]; [discriminate|assumption|lia].
  Qed.

  Lemma ids_right : forall (l : list (act X)) (s t : st), avail s = avail0 F -> Forall (right_id F) (log s) ->
    exec s l = Some t -> avail t = avail0 F -> Forall (right_id F) (log t).
  Proof.
    induction l as [|a l IH]; intros s t Av R H At; simpl in H; [congruence|].
    destruct (step s a) as [m|] eqn:Es; [|discriminate].
    destruct (exec_mono F _ _ _ H) as (_ & B & _). destruct (step_mono F _ _ _ Es) as (_ & B' & _).
    assert (Am : avail m = avail0 F).
    { rewrite <- Av. apply (shrink_eq [a]); [simpl; rewrite Es; reflexivity|]. rewrite At in B. rewrite Av in *. lia. }
    apply (IH m t); auto. destruct a as [c x|u].
    - unfold PollModel.step in Es. destruct (_ && _); [|discriminate]. injection Es as <-. assumption.
    - apply poll_turn in Es. destruct Es as (Ov & c & Ec & T). rewrite Av in Ec. apply avail0_nth in Ec.
      destruct T; auto; try (destruct m); simpl; try (apply Forall_app; split; [assumption|repeat constructor]).
      unfold mis.
      destruct Ec as [[A ->]|[[A ->]|[A ->]]]; simpl.
      + destruct (nmi F); [reflexivity|]. destruct (Nat.leb_spec (nwk F + nfb F) (next s)); [lia|reflexivity].
      + destruct (nmi F); [f_equal; lia|]. destruct (Nat.leb_spec (nwk F + nfb F) (next s)); [lia|f_equal; lia].
      + destruct (nmi F); [lia|]. destruct (Nat.leb_spec (nwk F + nfb F) (next s)); [reflexivity|lia].
  Qed.

  Lemma sides_right : forall (l : list (act X)) (s t : st), nmi F = 0 -> inv F s -> Forall right_side (log s) ->
    exec s l = Some t -> Forall right_side (log t).
  Proof.
    induction l as [|a l IH]; intros s t Z I R H; simpl in H; [congruence|].
    destruct (step s a) as [m|] eqn:Es; [|discriminate]. assert (Im := step_inv F _ _ _ I Es).
    apply (IH m t); auto. destruct a as [c x|u].
    - unfold PollModel.step in Es. destruct (_ && _); [|discriminate]. injection Es as <-. assumption.
    - apply poll_turn in Es. destruct Es as (Ov & c & Ec & T).
      assert (Ic : In c (avail0 F)) by (apply (i_incl _ _ I); eapply nth_error_In; eauto).
      destruct T; auto; try (destruct m); simpl; try (apply Forall_app; split; [assumption|repeat constructor]).
      unfold mis. rewrite Z. unfold avail0 in Ic. rewrite Z in Ic. simpl in Ic.
      rewrite app_nil_r, in_app_iff, !in_map_iff in Ic.
      destruct Ic as [(j & <- & _)|(j & <- & _)]; exact Logic.I.
  Qed.

  (** Frozen workers' channels stay in the list. *)
  Lemma frozen_keep : forall (l : list (act X)) (s t : st), (forall i, frz F i = true) -> exec s l = Some t -> avail t = avail s.
  Proof.
    induction l as [|a l IH]; intros s t Fz H; simpl in H; [congruence|].
    destruct (step s a) as [m|] eqn:Es; [|discriminate]. rewrite (IH _ _ Fz H). destruct a as [c x|u].
    - unfold PollModel.step in Es. destruct (_ && _); [|discriminate]. injection Es as <-. reflexivity.
    - apply poll_turn in Es. destruct Es as (Ov & c & Ec & T). destruct T; try reflexivity; destruct m; simpl; auto.
      rewrite Fz, !andb_false_r. reflexivity.
  Qed.
End P.
