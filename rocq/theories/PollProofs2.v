From Coq Require Import List Arith Bool Lia.
From Verif Require Import Base PollModel PollSpec PollProofs.
Import ListNotations.

Section P.
  Context {X : Type}.
  Variable F : cfg.
  Notation st := (st X).
  Notation step := (step F).
  Notation exec := (exec step).

  Definition next (s : st) : nat := if S (pos s) =? length (avail s) then 0 else S (pos s).

  (** One turn of the loop, case by case. *)
  Inductive turn (s : st) (u : reaction) (c : src) : st -> Prop :=
  | tSkip : active s = false -> is_input F (next s) = true -> turn s u c (set_poll s (next s) (cnt s))
  | tRead : forall m r, active s = true \/ is_input F (next s) = false -> ch s c = m :: r ->
      turn s u c (deliver F s c (Some (next s)) m r (next s) u)
  | tNull : is_input F (next s) = false -> ch s c = [] -> S (cnt s) = length (avail s) -> active s = false ->
      turn s u c (mkSt (ch s) (avail s) (next s) 0 (left s) (act_ u) (stop u) (sent s) (got s) (log s ++ [ENull]))
  | tQueue : forall m r, ch s c = [] -> S (cnt s) = length (avail s) -> active s = true -> inq F = true ->
      ch s Inq = m :: r -> turn s u c (deliver F s Inq None m r (next s) u)
  | tRound : ch s c = [] -> S (cnt s) = length (avail s) -> active s = true -> (inq F = false \/ ch s Inq = []) ->
      turn s u c (set_poll s (next s) 0)
  | tEmpty : active s = true \/ is_input F (next s) = false -> ch s c = [] -> S (cnt s) <> length (avail s) ->
      turn s u c (set_poll s (next s) (S (cnt s))).

  Lemma poll_turn : forall (s : st) u (t : st), step s (Poll u) = Some t ->
    over s = false /\ exists c, nth_error (avail s) (next s) = Some c /\ turn s u c t.
  Proof.
    intros s u t H. unfold PollModel.step in H; cbv zeta in H. fold (next s) in H.
    destruct (over s); [discriminate|]. split; [reflexivity|].
    destruct (nth_error (avail s) (next s)) as [c|]; [|discriminate]. exists c. split; [reflexivity|].
    destruct (active s) eqn:Ea; cbn [negb andb] in H.
    - destruct (ch s c) as [|m r] eqn:Ec; [|injection H as <-; apply tRead; auto].
      destruct (Nat.eqb_spec (S (cnt s)) (length (avail s))).
      + destruct (inq F) eqn:Eq; [|injection H as <-; apply tRound; auto].
        destruct (ch s Inq) as [|m r] eqn:Eb; injection H as <-; [apply tRound; auto|eapply tQueue; eauto].
      + injection H as <-. apply tEmpty; auto.
    - destruct (is_input F (next s)) eqn:Ei; [injection H as <-; apply tSkip; auto|].
      destruct (ch s c) as [|m r] eqn:Ec; [|injection H as <-; apply tRead; auto].
      destruct (Nat.eqb_spec (S (cnt s)) (length (avail s))); injection H as <-.
      + apply tNull; auto.
      + apply tEmpty; auto.
  Qed.

  Lemma deliver_avail : forall (s : st) c io m r k u,
    (forall i, io = Some i -> i < length (avail s)) ->
    (avail (deliver F s c io m r k u) = avail s /\ pos (deliver F s c io m r k u) = k)
    \/ length (avail (deliver F s c io m r k u)) < length (avail s).
  Proof.
    intros s c io m r k u L. destruct m as [x| |]; simpl; auto.
    - destruct io as [i|]; simpl; auto. specialize (L i eq_refl).
      destruct (_ && _); simpl; auto. right. rewrite remove_nth_length by assumption. lia.
    - destruct io; auto.
  Qed.
  Lemma deliver_got : forall (s : st) c io m r k u, got (deliver F s c io m r k u) = upd (got s) c (got s c ++ [m]).
  Proof. intros s c io [x| |] r k u; reflexivity. Qed.
  Lemma deliver_ch : forall (s : st) c io m r k u, ch (deliver F s c io m r k u) = upd (ch s) c r.
  Proof. intros s c io [x| |] r k u; reflexivity. Qed.
  Lemma deliver_active : forall (s : st) c io m r k u, active (deliver F s c io m r k u) = act_ u.
  Proof. intros s c io [x| |] r k u; reflexivity. Qed.
  Lemma deliver_sent : forall (s : st) c io m r k u, sent (deliver F s c io m r k u) = sent s.
  Proof. intros s c io [x| |] r k u; reflexivity. Qed.
  Lemma deliver_log : forall (s : st) c io m r k u, length (log (deliver F s c io m r k u)) = S (length (log s)).
  Proof. intros s c io [x| |] r k u; simpl; rewrite app_length; simpl; lia. Qed.
  Lemma deliver_cnt : forall (s : st) c io m r k u, cnt (deliver F s c io m r k u) = 0.
  Proof. intros s c io [x| |] r k u; reflexivity. Qed.

  Lemma step_mono : forall (s : st) a (t : st), step s a = Some t ->
    (forall c, length (got s c) <= length (got t c)) /\ length (avail t) <= length (avail s) /\
    (over s = true -> over t = true).
  Proof.
    intros s [c m|u] t H.
    - unfold PollModel.step in H. destruct (_ && _); [|discriminate]. injection H as <-. simpl. auto.
    - apply poll_turn in H. destruct H as (Ov & c & En & T).
      assert (Ln : next s < length (avail s)) by (apply nth_error_Some; congruence).
      split; [|split; [|congruence]].
      + intro d. destruct T; simpl; auto; rewrite deliver_got; unfold upd;
          destruct (src_eqb_spec d c) + destruct (src_eqb_spec d Inq); subst; auto; rewrite app_length; lia.
      + destruct T; simpl; auto.
        * destruct (deliver_avail s c (Some (next s)) m r (next s) u) as [[E _]|]; [intros i [= <-]; assumption| |lia].
          rewrite E. auto.
        * destruct (deliver_avail s Inq None m r (next s) u) as [[E _]|]; [discriminate| |lia].
          rewrite E. auto.
  Qed.

  Lemma exec_mono : forall (l : list (act X)) (s t : st), exec s l = Some t ->
    (forall c, length (got s c) <= length (got t c)) /\ length (avail t) <= length (avail s) /\
    (over s = true -> over t = true).
  Proof.
    induction l as [|a l IH]; intros s t H; simpl in H.
    - injection H as <-. auto.
    - destruct (step s a) as [m|] eqn:E; [|discriminate].
      destruct (step_mono _ _ _ E) as (A & B & C). destruct (IH _ _ H) as (A' & B' & C').
      repeat split; auto; [|lia]. intro c. specialize (A c). specialize (A' c). lia.
  Qed.

  (** Turns needed until position i is looked at. *)
  Definition dist (s : st) (i : nat) : nat := if pos s <? i then i - pos s else i + length (avail s) - pos s.

  Lemma dist_pos : forall (s : st) i, pos s < length (avail s) -> 0 < dist s i <= length (avail s) + i.
  Proof. intros s i H. unfold dist. destruct (Nat.ltb_spec (pos s) i); lia. Qed.
  Lemma dist_bound : forall (s : st) i, pos s < length (avail s) -> i < length (avail s) -> dist s i <= length (avail s).
  Proof. intros s i H L. unfold dist. destruct (Nat.ltb_spec (pos s) i); lia. Qed.
  Lemma dist_next : forall (s t : st) i, pos s < length (avail s) -> i < length (avail s) -> next s <> i ->
    pos t = next s -> avail t = avail s -> S (dist t i) = dist s i.
  Proof.
    intros s t i P L N E A. unfold dist. rewrite E, A. unfold next in *.
    destruct (Nat.eqb_spec (S (pos s)) (length (avail s)));
      repeat match goal with |- context [?a <? ?b] => destruct (Nat.ltb_spec a b) end; lia.
  Qed.

  Lemma fair_read : forall (l : list (act X)) (s t : st) i h, inv F s -> active s = true -> nth_error (avail s) i = Some h -> ch s h <> [] ->
    exec s l = Some t -> avail t = avail s -> Forall keeps_on l -> dist s i <= polls l ->
    over t = true \/ length (got s h) < length (got t h).
  Proof.
    induction l as [|a l IH]; intros s t i h I Ac En Nh H Av K D.
    - unfold polls in D. simpl in D. assert (P := dist_pos s i (i_pos _ _ I)). lia.
    - simpl in H. destruct (step s a) as [m|] eqn:E; [|discriminate].
      inversion K as [|? ? Ka Kl]; subst.
      assert (Im := step_inv F s a m I E).
      destruct (step_mono _ _ _ E) as (M1 & M2 & M3). destruct (exec_mono _ _ _ H) as (N1 & N2 & N3).
      rewrite Av in N2.
      assert (Li : i < length (avail s)) by (apply nth_error_Some; congruence).
      destruct a as [c x|u].
      + unfold PollModel.step in E. destruct (_ && _); [|discriminate]. injection E as <-.
        destruct (IH _ t i h Im) as [R|R]; simpl; auto.
        unfold upd. destruct (src_eqb_spec h c); subst; auto. destruct (ch s c); discriminate.
      + simpl in Ka. destruct Ka as [Ka Ks].
        change (polls (Poll u :: l)) with (S (polls l)) in D.
        apply poll_turn in E. destruct E as (Ov & c & Ec & T).
        destruct (Nat.eq_dec (next s) i) as [Ei|Ni].
        * rewrite Ei in Ec. rewrite En in Ec. injection Ec as <-. right. specialize (N1 h).
          destruct T; try congruence.
          rewrite deliver_got, upd_eq, app_length in N1. simpl in N1. lia.
        * assert (Hc : c <> h).
          { intros ->. apply Ni. eapply NoDup_nth_error; [exact (i_nodup _ _ I)| |congruence].
            apply nth_error_Some. congruence. }
          assert (Hq : h <> Inq).
          { intros ->. apply (avail0_inq F). apply (i_incl _ _ I). eapply nth_error_In; eauto. }
          assert (Rec : avail m = avail s -> pos m = next s -> active m = true -> ch m h = ch s h ->
                        over t = true \/ length (got s h) < length (got t h)).
          { intros A1 A2 A3 A4. destruct (IH m t i h) as [R|R]; auto; try congruence.
            - assert (Dn := dist_next s m i (i_pos _ _ I) Li Ni A2 A1). lia.
            - right. specialize (M1 h). lia. }
          inversion T as [T1 T2 T3|m0 r T1 T2 T3|T1 T2 T3 T4 T5|m0 r T1 T2 T3 T4 T5 T6|T1 T2 T3 T4 T5|T1 T2 T3 T4]; subst m;
            try congruence; try (apply Rec; simpl; auto; congruence).
          -- destruct (deliver_avail s c (Some (next s)) m0 r (next s) u) as [[A1 A2]|A]; [|apply Rec; auto|lia].
             ++ intros j [= <-]. apply nth_error_Some. congruence.
             ++ rewrite deliver_active. assumption.
             ++ rewrite deliver_ch, upd_neq by congruence. reflexivity.
          -- destruct (deliver_avail s Inq None m0 r (next s) u) as [[A1 A2]|A]; [discriminate|apply Rec; auto|lia].
             ++ rewrite deliver_active. assumption.
             ++ rewrite deliver_ch, upd_neq by congruence. reflexivity.
  Qed.

  (** Messages waiting in all channels. *)
  Definition waiting (s : st) : nat := list_sum (map (fun c => length (ch s c)) (sources F)).

  Lemma sum_upd : forall (f : src -> list (msg X)) c r m l, NoDup l -> In c l -> f c = m :: r ->
    S (list_sum (map (fun d => length (upd f c r d)) l)) = list_sum (map (fun d => length (f d)) l).
  Proof.
    induction l as [|a l IH]; intros N I E; [contradiction|]. inversion N; subst. simpl. destruct I as [->|I].
    - rewrite upd_eq, E. simpl. do 2 f_equal. f_equal. apply map_ext_in. intros d J. rewrite upd_neq; [reflexivity|].
      intros ->. contradiction.
    - assert (a <> c) by (intros ->; contradiction). rewrite upd_neq by assumption. rewrite <- IH by assumption. lia.
  Qed.

  Lemma deliver_waiting : forall (s : st) c io m r k u, In c (sources F) -> ch s c = m :: r ->
    S (waiting (deliver F s c io m r k u)) = waiting s.
  Proof.
    intros s c io m r k u I E. unfold waiting. rewrite deliver_ch. apply sum_upd with (m := m); auto using sources_nodup.
  Qed.

  Definition c_ok (s : st) : Prop := inv F s /\ cnt s < length (avail s).
  Lemma step_ok : forall (s : st) a (t : st), c_ok s -> step s a = Some t -> c_ok t.
  Proof.
    intros s a t [I C] H. assert (I' := step_inv F _ _ _ I H). split; [assumption|].
    assert (P := i_pos _ _ I'). destruct a as [c m|u].
    - unfold PollModel.step in H. destruct (_ && _); [|discriminate]. injection H as <-. simpl. assumption.
    - apply poll_turn in H. destruct H as (Ov & c & Ec & T).
      destruct T; simpl in *; try lia; rewrite ?deliver_cnt; try lia.
  Qed.
  Lemma init_ok : avail0 F <> [] -> c_ok (init_st F).
  Proof. intro N. split; [apply inv_init; assumption|]. simpl. destruct (avail0 F); simpl; [congruence|lia]. Qed.
  Lemma exec_ok : forall (l : list (act X)) (s t : st), c_ok s -> exec s l = Some t -> c_ok t.
  Proof.
    induction l as [|a l IH]; intros s t I H; simpl in H.
    - injection H as <-. assumption.
    - destruct (step s a) as [m|] eqn:E; [|discriminate]. eapply IH; [eapply step_ok; eauto|exact H].
  Qed.

  (** Runs of turns of an active emitter: each reads a message or only moves on. *)
  Definition on_poll (a : act X) : Prop := exists u, a = Poll u /\ act_ u = true /\ stop u = false.

  Lemma turn_active : forall (s : st) u (t : st), c_ok s -> active s = true -> act_ u = true -> step s (Poll u) = Some t ->
    active t = true /\
    ((length (log t) = S (length (log s)) /\ S (waiting t) = waiting s /\ sent t = sent s)
     \/ (exists n, t = set_poll s (next s) n)).
  Proof.
    intros s u t [I C] Ac Au H. apply poll_turn in H. destruct H as (Ov & c & Ec & T).
    assert (Ic : In c (sources F)).
    { apply avail0_sources. apply (i_incl _ _ I). eapply nth_error_In; eauto. }
    destruct T; try congruence; try (split; [assumption|right; eauto]).
    - rewrite deliver_active. split; [assumption|]. left. rewrite deliver_log, deliver_sent.
      rewrite (deliver_waiting s c (Some (next s)) m r (next s) u) by assumption. auto.
    - rewrite deliver_active. split; [assumption|]. left. rewrite deliver_log, deliver_sent.
      assert (Iq : In Inq (sources F)).
      { unfold sources. rewrite in_app_iff. right. replace (inq F) with true by assumption. left. reflexivity. }
      rewrite (deliver_waiting s Inq None m r (next s) u) by assumption. auto.
  Qed.

  (** Nothing was read: only the position changed. *)
  Lemma run_cases : forall (l : list (act X)) (s t : st), c_ok s -> active s = true -> Forall on_poll l -> exec s l = Some t ->
    active t = true /\ sent t = sent s /\ (length (log s) <= length (log t)) /\
    waiting t + length (log t) = waiting s + length (log s) /\
    (length (log t) = length (log s) -> ch t = ch s /\ avail t = avail s /\ got t = got s /\ over t = over s).
  Proof.
    induction l as [|a l IH]; intros s t O Ac K H; simpl in H.
    - injection H as <-. auto 8.
    - inversion K as [|? ? Ka Kl]; subst. destruct Ka as (u & -> & Au & Us).
      destruct (step s (Poll u)) as [m|] eqn:E; [|discriminate].
      assert (Om := step_ok _ _ _ O E).
      destruct (turn_active _ _ _ O Ac Au E) as [Am [(L & W & Se)|(n & ->)]].
      + destruct (IH _ _ Om Am Kl H) as (A & B & C & D & G). rewrite Se in B. repeat split; auto; lia.
      + destruct (IH _ _ Om Am Kl H) as (A & B & C & D & G). simpl in *. auto.
  Qed.

  (** All polled channels empty: the input queue is read at the end of the round. *)
  Lemma quiet_read : forall (l : list (act X)) (s t : st), c_ok s -> active s = true -> Forall on_poll l -> exec s l = Some t ->
    (forall c, In c (avail s) -> ch s c = []) -> inq F = true -> ch s Inq <> [] ->
    length (avail s) - cnt s <= length l -> length (log s) < length (log t).
  Proof.
    induction l as [|a l IH]; intros s t [I C] Ac K H Em Q Nq Ln.
    - simpl in Ln. lia.
    - simpl in H. inversion K as [|? ? Ka Kl]; subst. destruct Ka as (u & -> & Au & Us).
      destruct (step s (Poll u)) as [m|] eqn:E; [|discriminate].
      assert (Om := step_ok _ _ _ (conj I C) E).
      destruct (turn_active _ _ _ (conj I C) Ac Au E) as [Am [(L & W & Se)|(n & En)]].
      + destruct (run_cases _ _ _ Om Am Kl H) as (_ & _ & G & _). lia.
      + subst m. assert (E' := E). apply poll_turn in E'. destruct E' as (Ov & c & Ec & T).
        assert (Z : ch s c = []) by (apply Em; eapply nth_error_In; eauto).
        assert (Hn : n = S (cnt s)).
        { inversion T; try congruence; try (destruct H4; congruence).
          match goal with D : deliver _ _ _ _ ?m _ _ _ = _ |- _ => destruct m; simpl in D end;
            match goal with D : mkSt _ _ _ _ _ _ _ _ _ ?lg = set_poll _ _ _ |- _ =>
              apply (f_equal (fun x => length (log x))) in D; simpl in D; rewrite app_length in D; simpl in D; lia end. }
        subst n. assert (G := IH _ _ Om Am Kl H). simpl in G. apply G; auto. simpl in Ln. lia.
  Qed.
End P.
