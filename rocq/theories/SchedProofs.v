(** Proofs about the load balancer's routing. *)
From Coq Require Import List ZArith Permutation Lia Arith ZifyBool.
From Verif Require Import SchedModel SchedSpec.
Import ListNotations.

Section P.
  Context {T : Type}.
  Variable n : nat.
  Variable ok : nat -> nat -> bool.
  Hypothesis Hn : 0 < n.
  Notation turn := (turn n).
  Notation wf := (wf (T := T) n).

  Lemma turn_S : forall l i, turn ((l + 1) mod Z.of_nat n) i = turn l (S i).
  Proof.
    intros. unfold SchedSpec.turn. f_equal.
    replace ((l + 1) mod Z.of_nat n + 1 + Z.of_nat i)%Z with ((l + 1) mod Z.of_nat n + (1 + Z.of_nat i))%Z by lia.
    rewrite Zplus_mod_idemp_l. f_equal. lia.
  Qed.

  Lemma turn_0 : forall l, Z.to_nat ((l + 1) mod Z.of_nat n) = turn l 0.
  Proof. intros. unfold SchedSpec.turn. f_equal. f_equal. lia. Qed.

  Lemma turn_lt : forall l i, turn l i < n.
  Proof. intros. unfold SchedSpec.turn. pose proof (Z.mod_pos_bound (l + 1 + Z.of_nat i) (Z.of_nat n)). lia. Qed.

  Lemma turn_Z : forall l, Z.of_nat (turn l 0) = ((l + 1) mod Z.of_nat n)%Z.
  Proof. intros. rewrite <- turn_0. pose proof (Z.mod_pos_bound (l + 1) (Z.of_nat n)). lia. Qed.

  (** The state after one refused attempt. *)
  Definition next (s : lb T) : lb T := mkLb ((nextw s + 1) mod Z.of_nat n) (S (clock s)) (sent s).

  Lemma goes_step : forall s j x s', ok (clock s) (turn (nextw s) 0) = false ->
    goes_to n ok (next s) j x s' -> goes_to n ok s (S j) x s'.
  Proof.
    intros s j x s' H (A & B & C & D & E). unfold goes_to, next in *; cbn [nextw clock sent] in *.
    rewrite turn_S in *. repeat split; auto.
    - intros [|i] Hi; [rewrite Nat.add_0_r; auto|].
      specialize (A i ltac:(lia)). rewrite turn_S in A. rewrite <- A. f_equal. lia.
    - rewrite <- B. f_equal. lia.
    - lia.
  Qed.

  Lemma refused_step : forall s j s', ok (clock s) (turn (nextw s) 0) = false ->
    refused n ok (next s) j s' -> refused n ok s (S j) s'.
  Proof.
    intros s j s' H (A & B & C). unfold refused, next in *; cbn [nextw clock sent] in *.
    repeat split; auto; [|lia].
    intros [|i] Hi; [rewrite Nat.add_0_r; auto|].
    specialize (A i ltac:(lia)). rewrite turn_S in A. rewrite <- A. f_equal. lia.
  Qed.

  Lemma goes_now : forall (s : lb T) x, ok (clock s) (turn (nextw s) 0) = true ->
    goes_to n ok s 0 x (mkLb ((nextw s + 1) mod Z.of_nat n) (S (clock s)) (sent s ++ [(turn (nextw s) 0, x)])).
  Proof.
    intros. unfold goes_to; cbn [nextw clock sent]. rewrite Nat.add_0_r, turn_Z.
    repeat split; auto; lia.
  Qed.

  (** One unfolding of the loops. *)
  Lemma nb_eq : forall fuel retry cnt x (s : lb T), sched_nb n ok (S fuel) retry cnt x s =
    if ok (clock s) (turn (nextw s) 0)
    then Some (mkLb ((nextw s + 1) mod Z.of_nat n) (S (clock s)) (sent s ++ [(turn (nextw s) 0, x)]), true)
    else if retry <=? S cnt then Some (mkLb (-1) (S (clock s)) (sent s), false)
    else if S cnt =? n then sched_nb n ok fuel retry 0 x (next s)
    else sched_nb n ok fuel retry (S cnt) x (next s).
  Proof.
    intros. cbn [sched_nb]. unfold select, put. cbn [nextw clock sent]. rewrite turn_0.
    destruct (ok (clock s) (turn (nextw s) 0)); reflexivity.
  Qed.

  Lemma b_eq : forall fuel retry cnt r x (s : lb T), sched_b n ok (S fuel) retry cnt r x s =
    if ok (clock s) (turn (nextw s) 0)
    then Some (mkLb ((nextw s + 1) mod Z.of_nat n) (S (clock s)) (sent s ++ [(turn (nextw s) 0, x)]), true)
    else if S cnt =? n then
      if retry <=? S r then Some (next s, false) else sched_b n ok fuel retry 0 (S r) x (next s)
    else sched_b n ok fuel retry (S cnt) r x (next s).
  Proof.
    intros. cbn [sched_b]. unfold select, put. cbn [nextw clock sent]. rewrite turn_0.
    destruct (ok (clock s) (turn (nextw s) 0)); reflexivity.
  Qed.

  Lemma nb_true : forall fuel retry cnt x (s : lb T) s', sched_nb n ok fuel retry cnt x s = Some (s', true) ->
    exists j, j < fuel /\ goes_to n ok s j x s'.
  Proof.
    induction fuel as [|fuel IH]; intros retry cnt x s s' H; [discriminate|]. rewrite nb_eq in H.
    destruct (ok (clock s) (turn (nextw s) 0)) eqn:E.
    - injection H as <-. exists 0. split; [lia|]. apply goes_now; auto.
    - destruct (retry <=? S cnt); [discriminate|].
      destruct (S cnt =? n); apply IH in H; destruct H as (j & Lj & G); exists (S j); (split; [lia|]); apply goes_step; auto.
  Qed.

  Lemma b_true : forall fuel retry cnt r x (s : lb T) s', sched_b n ok fuel retry cnt r x s = Some (s', true) ->
    exists j, j < fuel /\ goes_to n ok s j x s'.
  Proof.
    induction fuel as [|fuel IH]; intros retry cnt r x s s' H; [discriminate|]. rewrite b_eq in H.
    destruct (ok (clock s) (turn (nextw s) 0)) eqn:E.
    - injection H as <-. exists 0. split; [lia|]. apply goes_now; auto.
    - destruct (S cnt =? n); [destruct (retry <=? S r); [discriminate|]|];
        apply IH in H; destruct H as (j & Lj & G); exists (S j); (split; [lia|]); apply goes_step; auto.
  Qed.

  Lemma refused_one : forall (s : lb T) w, ok (clock s) (turn (nextw s) 0) = false ->
    refused n ok s 1 (mkLb w (S (clock s)) (sent s)).
  Proof.
    intros s w E. unfold refused; cbn [clock sent]. repeat split; [|lia].
    intros i Hi. assert (i = 0) by lia; subst. rewrite Nat.add_0_r; auto.
  Qed.

  Lemma nb_false : forall fuel retry cnt x (s : lb T) s', cnt < n -> sched_nb n ok fuel retry cnt x s = Some (s', false) ->
    retry <= n /\ refused n ok s (Nat.max 1 (retry - cnt)) s' /\ nextw s' = (-1)%Z.
  Proof.
    induction fuel as [|fuel IH]; intros retry cnt x s s' Hc H; [discriminate|]. rewrite nb_eq in H.
    destruct (ok (clock s) (turn (nextw s) 0)) eqn:E; [discriminate|].
    destruct (Nat.leb_spec retry (S cnt)) as [L|L].
    - injection H as <-. cbn [nextw]. repeat split; try lia.
      + intros i Hi. assert (i = 0) by lia; subst. rewrite Nat.add_0_r; auto.
      + cbn [clock]; lia.
    - destruct (Nat.eqb_spec (S cnt) n) as [Ln|Ln].
      + apply IH in H; [|lia]. destruct H as (H & _). lia.
      + apply IH in H; [|lia]. destruct H as (H & R & N). repeat split; auto.
        all: replace (Nat.max 1 (retry - cnt)) with (S (Nat.max 1 (retry - S cnt))) by lia; eapply refused_step; eauto.
  Qed.

  (** Budget of the blocking loop from [cnt], [r]. *)
  Definition bud (retry cnt r : nat) : nat := (n - cnt) + n * (Nat.max 1 (retry - r) - 1).

  Lemma bud_S : forall retry cnt r, S cnt < n -> bud retry cnt r = S (bud retry (S cnt) r).
  Proof. intros. unfold bud. lia. Qed.
  Lemma bud_wrap : forall retry cnt r, S cnt = n -> S r < retry -> bud retry cnt r = S (bud retry 0 (S r)).
  Proof.
    intros. unfold bud. replace (Nat.max 1 (retry - r) - 1) with (S (Nat.max 1 (retry - S r) - 1)) by lia.
    rewrite Nat.mul_succ_r. lia.
  Qed.
  Lemma bud_last : forall retry cnt r, S cnt = n -> retry <= S r -> bud retry cnt r = 1.
  Proof. intros. unfold bud. replace (Nat.max 1 (retry - r) - 1) with 0 by lia. lia. Qed.

  Lemma b_false : forall fuel retry cnt r x (s : lb T) s', cnt < n -> sched_b n ok fuel retry cnt r x s = Some (s', false) ->
    refused n ok s (bud retry cnt r) s'.
  Proof.
    induction fuel as [|fuel IH]; intros retry cnt r x s s' Hc H; [discriminate|]. rewrite b_eq in H.
    destruct (ok (clock s) (turn (nextw s) 0)) eqn:E; [discriminate|].
    destruct (Nat.eqb_spec (S cnt) n) as [Ln|Ln].
    - destruct (Nat.leb_spec retry (S r)) as [L|L].
      + injection H as <-. rewrite bud_last by auto. apply refused_one; auto.
      + apply IH in H; [|lia]. rewrite bud_wrap by auto. apply refused_step; auto.
    - apply IH in H; [|lia]. rewrite bud_S by lia. apply refused_step; auto.
  Qed.

  (** The loops return when an attempt within the budget is accepted. *)
  Lemma next_ref : forall s i, ok (clock (next s) + i) (turn (nextw (next s)) i) = ok (clock s + S i) (turn (nextw s) (S i)).
  Proof. intros. unfold next; cbn [clock nextw]. rewrite turn_S. f_equal. lia. Qed.

  Lemma nb_accepts : forall j retry cnt x (s : lb T), cnt < n ->
    (forall i, i < j -> ok (clock s + i) (turn (nextw s) i) = false) ->
    ok (clock s + j) (turn (nextw s) j) = true -> (retry <= n -> cnt + j < Nat.max (S cnt) retry) ->
    exists s', sched_nb n ok (S j) retry cnt x s = Some (s', true).
  Proof.
    induction j as [|j IH]; intros retry cnt x s Hc Hf Ht Hb.
    - rewrite nb_eq. rewrite Nat.add_0_r in Ht. rewrite Ht. eauto.
    - rewrite nb_eq. pose proof (Hf 0 ltac:(lia)) as H0. rewrite Nat.add_0_r in H0. rewrite H0.
      destruct (Nat.leb_spec retry (S cnt)) as [L|L]; [lia|].
      assert (F : forall i, i < j -> ok (clock (next s) + i) (turn (nextw (next s)) i) = false)
        by (intros; rewrite next_ref; apply Hf; lia).
      assert (G : ok (clock (next s) + j) (turn (nextw (next s)) j) = true) by (rewrite next_ref; auto).
      destruct (Nat.eqb_spec (S cnt) n); apply IH; auto; lia.
  Qed.

  Lemma b_accepts : forall j retry cnt r x (s : lb T), cnt < n ->
    (forall i, i < j -> ok (clock s + i) (turn (nextw s) i) = false) ->
    ok (clock s + j) (turn (nextw s) j) = true -> j < bud retry cnt r ->
    exists s', sched_b n ok (S j) retry cnt r x s = Some (s', true).
  Proof.
    induction j as [|j IH]; intros retry cnt r x s Hc Hf Ht Hb.
    - rewrite b_eq. rewrite Nat.add_0_r in Ht. rewrite Ht. eauto.
    - rewrite b_eq. pose proof (Hf 0 ltac:(lia)) as H0. rewrite Nat.add_0_r in H0. rewrite H0.
      assert (F : forall i, i < j -> ok (clock (next s) + i) (turn (nextw (next s)) i) = false)
        by (intros; rewrite next_ref; apply Hf; lia).
      assert (G : ok (clock (next s) + j) (turn (nextw (next s)) j) = true) by (rewrite next_ref; auto).
      destruct (Nat.eqb_spec (S cnt) n).
      + destruct (Nat.leb_spec retry (S r)) as [L|L].
        * rewrite bud_last in Hb by auto. lia.
        * rewrite bud_wrap in Hb by auto. apply IH; auto; lia.
      + rewrite bud_S in Hb by lia. apply IH; auto; lia.
  Qed.

  (** ... and return false when the budget is exhausted. *)
  Lemma nb_gives_up : forall j retry cnt x (s : lb T), cnt < n -> retry <= n -> j = Nat.max 1 (retry - cnt) ->
    (forall i, i < j -> ok (clock s + i) (turn (nextw s) i) = false) ->
    exists s', sched_nb n ok j retry cnt x s = Some (s', false).
  Proof.
    induction j as [|j IH]; intros retry cnt x s Hc Hr Hj Hf; [lia|].
    rewrite nb_eq. pose proof (Hf 0 ltac:(lia)) as H0. rewrite Nat.add_0_r in H0. rewrite H0.
    destruct (Nat.leb_spec retry (S cnt)) as [L|L]; [eauto|].
    destruct (Nat.eqb_spec (S cnt) n); [lia|].
    apply IH; try lia. intros; rewrite next_ref; apply Hf; lia.
  Qed.

  Lemma b_gives_up : forall j retry cnt r x (s : lb T), cnt < n -> j = bud retry cnt r ->
    (forall i, i < j -> ok (clock s + i) (turn (nextw s) i) = false) ->
    exists s', sched_b n ok j retry cnt r x s = Some (s', false).
  Proof.
    induction j as [|j IH]; intros retry cnt r x s Hc Hj Hf; [unfold bud in Hj; remember (n * (Nat.max 1 (retry - r) - 1)) as m; lia|].
    rewrite b_eq. pose proof (Hf 0 ltac:(lia)) as H0. rewrite Nat.add_0_r in H0. rewrite H0.
    assert (F : forall i, i < j -> ok (clock (next s) + i) (turn (nextw (next s)) i) = false)
      by (intros; rewrite next_ref; apply Hf; lia).
    destruct (Nat.eqb_spec (S cnt) n).
    - destruct (Nat.leb_spec retry (S r)) as [L|L]; [eauto|].
      rewrite bud_wrap in Hj by auto. apply IH; auto; lia.
    - rewrite bud_S in Hj by lia. apply IH; auto; lia.
  Qed.

  (** With more retries than workers the non-blocking loop never gives up. *)
  Lemma nb_never : forall fuel retry cnt x (s : lb T), cnt < n -> n < retry ->
    (forall t w, ok t w = false) -> sched_nb n ok fuel retry cnt x s = None.
  Proof.
    induction fuel as [|fuel IH]; intros retry cnt x s Hc Hr Hf; [reflexivity|].
    rewrite nb_eq, Hf. destruct (Nat.leb_spec retry (S cnt)); [lia|].
    destruct (Nat.eqb_spec (S cnt) n); apply IH; auto; lia.
  Qed.

  (** Round robin when every queue has room. *)
  Lemma sched_room : forall blk fuel retry x (s : lb T), (forall t w, ok t w = true) ->
    schedule n ok blk (S fuel) retry x s =
    Some (mkLb ((nextw s + 1) mod Z.of_nat n) (S (clock s)) (sent s ++ [(turn (nextw s) 0, x)]), true).
  Proof.
    intros blk fuel retry x s H. unfold schedule.
    destruct blk; [rewrite b_eq|rewrite nb_eq]; rewrite H; reflexivity.
  Qed.

  Lemma rr_all : forall blk fuel retry (xs : list T) s, (forall t w, ok t w = true) ->
    exists s', schedule_all n ok blk (S fuel) retry xs s = Some s' /\
      sent s' = sent s ++ combine (map (fun k => turn (nextw s) k) (seq 0 (length xs))) xs.
  Proof.
    intros blk fuel retry xs. induction xs as [|x xs IH]; intros s H; cbn [schedule_all].
    - exists s. cbn. rewrite app_nil_r. auto.
    - rewrite sched_room by auto.
      edestruct IH as (s' & E & Q); [auto|]. exists s'. split; [exact E|].
      rewrite Q. cbn [sent nextw length seq map combine]. rewrite <- app_assoc. f_equal. cbn [app]. f_equal.
      f_equal. rewrite <- seq_shift, map_map. apply map_ext. intros. apply turn_S.
  Qed.

  Lemma turn_start : forall k, turn (-1) k = k mod n.
  Proof.
    intros. unfold SchedSpec.turn. replace (-1 + 1 + Z.of_nat k)%Z with (Z.of_nat k) by lia.
    rewrite <- Nat2Z.inj_mod. apply Nat2Z.id.
  Qed.

  (** The workers tried in [n] attempts in a row are all the workers. *)
  Lemma turn_covers : forall l w, w < n -> exists j, j < n /\ turn l j = w.
  Proof.
    intros l w Hw.
    exists (Z.to_nat ((Z.of_nat w - (l + 1)) mod Z.of_nat n)).
    pose proof (Z.mod_pos_bound (Z.of_nat w - (l + 1)) (Z.of_nat n) ltac:(lia)) as B.
    split; [lia|]. unfold SchedSpec.turn. rewrite Z2Nat.id by lia.
    rewrite Zplus_mod_idemp_r. replace (l + 1 + (Z.of_nat w - (l + 1)))%Z with (Z.of_nat w) by lia.
    rewrite Z.mod_small by lia. lia.
  Qed.

  (** send to one worker *)
  Lemma sto_b : forall fuel retry r w (x : T) s s' b, send_to_b ok fuel retry r w x s = Some (s', b) ->
    nextw s' = nextw s /\
    (b = true -> exists j, (forall i, i < j -> ok (clock s + i) w = false) /\ ok (clock s + j) w = true /\
                  sent s' = sent s ++ [(w, x)]) /\
    (b = false -> (forall i, i < Nat.max 1 (retry - r) -> ok (clock s + i) w = false) /\ sent s' = sent s).
  Proof.
    clear Hn. induction fuel as [|fuel IH]; intros retry r w x s s' b H; [discriminate|].
    cbn [send_to_b] in H. unfold put in H. destruct (ok (clock s) w) eqn:E.
    - injection H as <- <-. cbn. repeat split; try discriminate.
      intros _. exists 0. rewrite Nat.add_0_r. repeat split; auto; lia.
    - destruct (Nat.leb_spec retry (S r)).
      + injection H as <- <-. cbn [nextw sent clock]. repeat split; try discriminate.
        intros i Hi. assert (i = 0) by lia; subst. rewrite Nat.add_0_r. auto.
      + apply IH in H. cbn [clock nextw sent] in H. destruct H as (N & A & B). repeat split; auto.
        * intros Hb. destruct (A Hb) as (j & F & G & Q). exists (S j). repeat split; auto.
          -- intros [|i] Hi; [rewrite Nat.add_0_r; auto|]. rewrite <- (F i) by lia. f_equal. lia.
          -- rewrite <- G. f_equal. lia.
        * intros [|i] Hi; [rewrite Nat.add_0_r; auto|]. rewrite <- (proj1 (B ltac:(assumption)) i) by lia. f_equal. lia.
        * apply B; auto.
  Qed.

  Lemma sto_nb : forall retry w (x : T) s s' b, send_to_nb ok retry w x s = (s', b) ->
    nextw s' = nextw s /\
    (b = true -> exists j, (forall i, i < j -> ok (clock s + i) w = false) /\ ok (clock s + j) w = true /\
                  sent s' = sent s ++ [(w, x)]) /\
    (b = false -> (forall i, i < retry -> ok (clock s + i) w = false) /\ sent s' = sent s).
  Proof.
    clear Hn. induction retry as [|retry IH]; intros w x s s' b H; cbn [send_to_nb] in H.
    - injection H as <- <-. repeat split; try discriminate. intros; lia.
    - unfold put in H. destruct (ok (clock s) w) eqn:E.
      + injection H as <- <-. cbn. repeat split; try discriminate.
        intros _. exists 0. rewrite Nat.add_0_r. repeat split; auto; lia.
      + apply IH in H. cbn [clock nextw sent] in H. destruct H as (N & A & B). repeat split; auto.
        * intros Hb. destruct (A Hb) as (j & F & G & Q). exists (S j). repeat split; auto.
          -- intros [|i] Hi; [rewrite Nat.add_0_r; auto|]. rewrite <- (F i) by lia. f_equal. lia.
          -- rewrite <- G. f_equal. lia.
        * intros [|i] Hi; [rewrite Nat.add_0_r; auto|]. rewrite <- (proj1 (B ltac:(assumption)) i) by lia. f_equal. lia.
        * apply B; auto.
  Qed.

  Lemma sto_b_returns : forall j retry r w (x : T) s, j = Nat.max 1 (retry - r) ->
    exists res, send_to_b ok j retry r w x s = Some res.
  Proof.
    clear Hn. induction j as [|j IH]; intros retry r w x s Hj; [lia|].
    cbn [send_to_b]. unfold put. destruct (ok (clock s) w); [eauto|].
    destruct (Nat.leb_spec retry (S r)); [eauto|]. apply IH. lia.
  Qed.

  (** Broadcast. *)
  Definition tag (x : T) (l : list nat) : list (nat * T) := map (fun w => (w, x)) l.

  Lemma first_spec : forall ws x (s : lb T) rt s' rt', bcast_first ok ws x s rt = (s', rt') ->
    exists done, sent s' = sent s ++ tag x done /\ Permutation (done ++ rt') (ws ++ rt) /\ nextw s' = nextw s.
  Proof.
    clear Hn. induction ws as [|w ws IH]; intros x s rt s' rt' H; cbn [bcast_first] in H.
    - injection H as <- <-. exists []. cbn. rewrite app_nil_r. auto.
    - unfold put in H. destruct (ok (clock s) w).
      + apply IH in H. destruct H as (d & A & B & C). cbn [sent nextw] in *. exists (w :: d).
        repeat split; auto; [rewrite A, <- app_assoc; reflexivity|]. cbn. constructor. auto.
      + apply IH in H. destruct H as (d & A & B & C). cbn [sent nextw] in *. exists d. repeat split; auto.
        rewrite B. cbn. symmetry. apply Permutation_middle.
  Qed.

  Lemma retry_spec : forall fuel x (s : lb T) rt s', bcast_retry ok fuel x s rt = Some s' ->
    sent s' = sent s ++ tag x rt /\ nextw s' = nextw s.
  Proof.
    clear Hn. induction fuel as [|fuel IH]; intros x s [|w rt] s' H; cbn [bcast_retry] in H.
    - injection H as <-. cbn. rewrite app_nil_r. auto.
    - discriminate.
    - injection H as <-. cbn. rewrite app_nil_r. auto.
    - unfold put in H. destruct (ok (clock s) w); apply IH in H; cbn [sent nextw] in H; destruct H as [A B]; split; auto.
      rewrite A, <- app_assoc. reflexivity.
  Qed.

  Lemma bcast_spec : forall fuel x s s', broadcast n ok fuel x s = Some s' ->
    exists ws, sent s' = sent s ++ tag x ws /\ Permutation ws (seq 0 n) /\ nextw s' = nextw s.
  Proof.
    clear Hn. intros fuel x s s' H. unfold broadcast in H.
    destruct (bcast_first ok (seq 0 n) x s []) as [s1 rt] eqn:E.
    apply first_spec in E. destruct E as (d & A & B & C). apply retry_spec in H. destruct H as [D F].
    exists (d ++ rt). repeat split; [|rewrite B, app_nil_r; auto|congruence].
    rewrite D, A. unfold tag. rewrite map_app, app_assoc. reflexivity.
  Qed.

  Lemma retry_wait : forall k x (s : lb T) w rt fuel, ok (clock s + k) w = true ->
    (forall s1, exists fuel1 s', bcast_retry ok fuel1 x s1 rt = Some s') ->
    fuel = k -> exists fuel1 s', bcast_retry ok fuel1 x s (w :: rt) = Some s'.
  Proof.
    clear Hn. induction k as [|k IH]; intros x s w rt fuel Hk Hr _.
    - rewrite Nat.add_0_r in Hk.
      destruct (Hr (mkLb (nextw s) (S (clock s)) (sent s ++ [(w, x)]))) as (f & s' & E).
      exists (S f), s'. cbn [bcast_retry]. unfold put. rewrite Hk. exact E.
    - destruct (ok (clock s) w) eqn:E0.
      + destruct (Hr (mkLb (nextw s) (S (clock s)) (sent s ++ [(w, x)]))) as (f & s' & E).
        exists (S f), s'. cbn [bcast_retry]. unfold put. rewrite E0. exact E.
      + destruct (IH x (mkLb (nextw s) (S (clock s)) (sent s)) w rt k) as (f & s' & E); auto.
        { cbn [clock]. rewrite <- Hk. f_equal. lia. }
        exists (S f), s'. cbn [bcast_retry]. unfold put. rewrite E0. exact E.
  Qed.

  Lemma retry_returns : (forall t w, w < n -> exists k, ok (t + k) w = true) ->
    forall rt (x : T) s, Forall (fun w => w < n) rt -> exists fuel s', bcast_retry ok fuel x s rt = Some s'.
  Proof.
    clear Hn. intros Hf rt. induction rt as [|w rt IH]; intros x s F.
    - exists 0, s. reflexivity.
    - inversion F; subst. destruct (Hf (clock s) w) as (k & Hk); auto.
      eapply retry_wait; eauto.
  Qed.

  Lemma bcast_returns : (forall t w, w < n -> exists k, ok (t + k) w = true) ->
    forall (x : T) s, exists fuel s', broadcast n ok fuel x s = Some s'.
  Proof.
    clear Hn. intros Hf x s. unfold broadcast.
    destruct (bcast_first ok (seq 0 n) x s []) as [s1 rt] eqn:E.
    apply first_spec in E. destruct E as (d & A & B & C). apply retry_returns; auto.
    apply Forall_forall. intros w Hw. rewrite app_nil_r in B.
    assert (In w (seq 0 n)) by (eapply Permutation_in; [exact B|apply in_or_app; auto]).
    apply in_seq in H. lia.
  Qed.

  (** get_next_free_channel *)
  Lemma rem_turn : forall l x, (-1 <= l)%Z -> 1 <= x ->
    Z.to_nat (Z.rem (l + Z.of_nat x) (Z.of_nat n)) = turn l (x - 1).
  Proof.
    intros. rewrite Z.rem_mod_nonneg by lia. unfold SchedSpec.turn. f_equal. f_equal. lia.
  Qed.

  Lemma rem_next : forall l x, (-1 <= l)%Z -> 1 <= x ->
    turn (Z.rem (l + Z.of_nat x - 1) (Z.of_nat n)) 0 = turn l (x - 1) /\
    (-1 <= Z.rem (l + Z.of_nat x - 1) (Z.of_nat n) < Z.of_nat n)%Z.
  Proof.
    intros l x Hl Hx. destruct (Z.eq_dec (l + Z.of_nat x) 0) as [E|E].
    - replace (l + Z.of_nat x - 1)%Z with (-1)%Z by lia. assert (x = 1) by lia; subst x.
      assert (l = -1)%Z by lia; subst l.
      destruct (Nat.eq_dec n 1) as [->|N1]; [cbn; split; [reflexivity|lia]|].
      replace (Z.rem (-1) (Z.of_nat n)) with (-1)%Z.
      2:{ change (-1)%Z with (- (1))%Z. rewrite Z.rem_opp_l by lia. rewrite Z.rem_small by lia. reflexivity. }
      split; [reflexivity|lia].
    - rewrite Z.rem_mod_nonneg by lia. pose proof (Z.mod_pos_bound (l + Z.of_nat x - 1) (Z.of_nat n)).
      split; [|lia]. unfold SchedSpec.turn. f_equal.
      replace ((l + Z.of_nat x - 1) mod Z.of_nat n + 1 + Z.of_nat 0)%Z with ((l + Z.of_nat x - 1) mod Z.of_nat n + 1)%Z by lia.
      rewrite Zplus_mod_idemp_l. f_equal. lia.
  Qed.

  Lemma next_free_spec : forall free fuel bound x (s : lb T) s' r, wf s -> 1 <= x ->
    next_free n free fuel bound x s = Some (s', r) ->
    sent s' = sent s /\ clock s' = clock s /\ wf s' /\
    match r with
    | Some w => exists j, x <= j /\ w = turn (nextw s) (j - 1) /\ free j w = true /\ turn (nextw s') 0 = w /\
        (forall i, x <= i < j -> free i (turn (nextw s) (i - 1)) = false)
    | None => s' = s /\ exists b, bound = Some b /\ (forall i, x <= i <= b -> free i (turn (nextw s) (i - 1)) = false)
    end.
  Proof.
    intros free. induction fuel as [|fuel IH]; intros bound x s s' r W Hx H; [discriminate|].
    cbn [next_free] in H. unfold SchedSpec.wf in W. rewrite rem_turn in H by lia.
    destruct (rem_next (nextw s) x) as [R1 R2]; try lia.
    destruct (free x (turn (nextw s) (x - 1))) eqn:F.
    - injection H as <- <-. cbn [sent clock nextw]. repeat split; auto; try (cbn [nextw]; lia).
      exists x. repeat split; auto. intros; lia.
    - destruct bound as [b|].
      + destruct (Nat.leb_spec (S x) b).
        * apply IH in H; [|exact W|lia]. destruct H as (A & B & C & D). repeat split; auto; try apply C.
          destruct r as [w|].
          -- destruct D as (j & L & Ew & Ef & Et & Q). exists j. repeat split; auto; try lia.
             intros i Hi. destruct (Nat.eq_dec i x); [subst; auto|]. apply Q; lia.
          -- destruct D as (-> & b' & Eb & Q). split; auto. injection Eb as <-. exists b. split; auto.
             intros i Hi. destruct (Nat.eq_dec i x); [subst; auto|]. apply Q; lia.
        * injection H as <- <-. repeat split; auto; try (apply W). exists b. split; auto.
          intros i Hi. assert (i = x) by lia; subst; auto.
      + apply IH in H; [|exact W|lia]. destruct H as (A & B & C & D). repeat split; auto; try apply C.
        destruct r as [w|].
        * destruct D as (j & L & Ew & Ef & Et & Q). exists j. repeat split; auto; try lia.
          intros i Hi. destruct (Nat.eq_dec i x); [subst; auto|]. apply Q; lia.
        * destruct D as (_ & b & Eb & _). discriminate.
  Qed.
End P.
