From Coq Require Import List Arith Bool Lia Wellfounded Relation_Operators.
From Verif Require Import Base PipeModel PipeSpec FarmModel OFarmModel OFarmSpec PipeProofs FarmProofs.
Import ListNotations.

(** Shares. *)
Lemma div_uniq : forall a b q r, r < b -> a = b * q + r -> a / b = q.
Proof. intros. symmetry. eapply Nat.div_unique; eauto. Qed.
Section Share.
Context {X : Type}.
Lemma share_app : forall n w (l m : list X) i, share n w i (l ++ m) = share n w i l ++ share n w (i + length l) m.
Proof.
  induction l as [|x l IH]; intros m i; cbn [app share length].
  - rewrite Nat.add_0_r. reflexivity.
  - rewrite IH, <- app_assoc. do 3 f_equal. lia.
Qed.
Lemma share_snoc : forall n w (l : list X) x, share n w 0 (l ++ [x]) = share n w 0 l ++ (if length l mod n =? w then [x] else []).
Proof. intros. rewrite share_app. cbn [share]. rewrite app_nil_r. reflexivity. Qed.
Lemma share_length : forall n w (l : list X), 1 <= n -> w < n -> length l mod n = w -> length (share n w 0 l) = length l / n.
Proof.
  intros n w l Hn Hw. assert (G : forall l : list X, length (share n w 0 l) = (length l + (n - 1 - w)) / n).
  { clear l. intros l. induction l as [|x l IH] using rev_ind.
    - cbn. symmetry. apply Nat.div_small. lia.
    - rewrite share_snoc, app_length, IH, app_length. cbn [length].
      pose proof (Nat.div_mod (length l) n ltac:(lia)) as D. pose proof (Nat.mod_upper_bound (length l) n ltac:(lia)) as U.
      destruct (Nat.eqb_spec (length l mod n) w) as [E|E]; cbn [length].
      + rewrite E in D. rewrite (div_uniq (length l + 1 + (n - 1 - w)) n (S (length l / n)) 0) by nia.
        rewrite (div_uniq (length l + (n - 1 - w)) n (length l / n) (n - 1)) by nia. lia.
      + rewrite Nat.add_0_r. destruct (Nat.lt_ge_cases (length l mod n) w).
        * rewrite (div_uniq (length l + (n - 1 - w)) n (length l / n) (length l mod n + (n - 1 - w))) by nia.
          rewrite (div_uniq (length l + 1 + (n - 1 - w)) n (length l / n) (length l mod n + 1 + (n - 1 - w))) by nia. auto.
        * rewrite (div_uniq (length l + (n - 1 - w)) n (S (length l / n)) (length l mod n - 1 - w)) by nia.
          rewrite (div_uniq (length l + 1 + (n - 1 - w)) n (S (length l / n)) (length l mod n - w)) by nia. auto. }
  intros E. rewrite G. pose proof (Nat.div_mod (length l) n ltac:(lia)) as D.
  rewrite (div_uniq (length l + (n - 1 - w)) n (length l / n) (n - 1)) by nia. auto.
Qed.
Lemma nth_error_share : forall n w (l : list X) j, 1 <= n -> w < n -> nth_error (share n w 0 l) j = nth_error l (j * n + w).
Proof.
  intros n w l j Hn Hw. destruct (nth_error l (j * n + w)) as [x|] eqn:E.
  - destruct (nth_error_split _ _ E) as (l1 & l2 & -> & Hl). rewrite share_app. cbn [share].
    assert (M : length l1 mod n = w). { rewrite Hl. rewrite Nat.add_comm, Nat.mod_add by lia. apply Nat.mod_small. auto. }
    pose proof (share_length n w l1 Hn Hw M) as SL. rewrite Hl in SL. rewrite Nat.add_comm, Nat.div_add in SL by lia. rewrite Nat.div_small in SL by lia.
    rewrite nth_error_app2 by lia. rewrite SL. replace (j - (0 + j)) with 0 by lia. cbn [plus]. rewrite M, Nat.eqb_refl. reflexivity.
  - apply nth_error_None in E. apply nth_error_None.
    destruct (Nat.le_gt_cases (length (share n w 0 l)) j) as [H|H]; auto. exfalso.
    (* the padded list has at least as many elements *)
    destruct (nth_error (share n w 0 l) j) as [x|] eqn:E1; [|apply nth_error_None in E1; lia].
    assert (G : forall l : list X, length l <= j * n + w -> length (share n w 0 l) <= j).
    { clear -Hn Hw. intros l. induction l as [|x l IH] using rev_ind; intros L; [cbn; lia|].
      rewrite app_length in L. cbn in L. rewrite share_snoc, app_length.
      destruct (Nat.eqb_spec (length l mod n) w) as [M|M]; cbn [length]; [|rewrite Nat.add_0_r; apply IH; lia].
      rewrite (share_length n w l Hn Hw M). 
      pose proof (Nat.div_mod (length l) n ltac:(lia)) as D. rewrite M in D.
      destruct (Nat.lt_ge_cases (length l / n) j) as [|C]; [lia|]. apply (Nat.mul_le_mono_l _ _ n) in C. lia. }
    specialize (G l E). lia.
Qed.
Lemma share_nth : forall n (l : list X) i, 1 <= n -> nth_error (share n (i mod n) 0 l) (i / n) = nth_error l i.
Proof.
  intros n l i Hn. rewrite nth_error_share; auto.
  - f_equal. rewrite (Nat.mul_comm (i / n) n). symmetry. apply Nat.div_mod. lia.
  - apply Nat.mod_upper_bound. lia.
Qed.
Lemma share_none : forall n w i (l : list X), 1 <= n -> w < n -> (forall j, j < length l -> (i + j) mod n <> w) -> share n w i l = [].
Proof.
  intros n w i l Hn Hw. revert i. induction l as [|x l IH]; intros i H; cbn [share]; auto.
  destruct (Nat.eqb_spec (i mod n) w).
  - elim (H 0); cbn; [lia|]. rewrite Nat.add_0_r. auto.
  - cbn. apply IH. intros j Hj. specialize (H (S j)). replace (S i + j) with (i + S j) by lia. apply H. cbn. lia.
Qed.
End Share.
Lemma share_map : forall X Y (f : X -> Y) n w i l, share n w i (map f l) = map f (share n w i l).
Proof. intros X Y f n w i l. revert i. induction l as [|a l IH]; intros i; cbn [map share]; auto. rewrite map_app, IH. destruct (i mod n =? w); auto. Qed.

Lemma wrap_mod : forall a b n, a < n -> b <= n -> 1 <= n -> (if a + b <? n then a + b else a + b - n) = (a + b) mod n.
Proof.
  intros. destruct (Nat.ltb_spec (a + b) n).
  - symmetry. apply Nat.mod_small. auto.
  - apply Nat.mod_unique with (q := 1); lia.
Qed.

Section Proofs.
Context {A St : Type}.
Notation tok := (tok A). Notation node := (node A St). Notation wk := (wk A St). Notation ost := (ost A St).
Notation conf := (node * St * option nat * option nat)%type.

(** Nodes giving one output per input. *)
Definition kind (t u : tok) : Prop := match t, u with Task _, Task _ => True | End k, End k' => k = k' | _, _ => False end.
Definition okl (l : list tok) : Prop := forall j k, nth_error l j = Some (End k) -> k = EOS /\ nth_error l (S j) = None.

Lemma okl_tail : forall t l, okl (t :: l) -> okl l.
Proof. intros t l H j k E. apply (H (S j) k E). Qed.
Lemma okl_app : forall l m, okl (l ++ m) -> okl l.
Proof.
  intros l m H j k E. destruct (H j k) as (a & b).
  - rewrite nth_error_app1; auto. apply nth_error_Some. congruence.
  - split; auto. apply nth_error_None. apply nth_error_None in b. rewrite app_length in b. lia.
Qed.
Lemma sem_one : forall (n : node) l s, one_one n -> okl l -> Forall2 kind (sem n s l) l.
Proof.
  intros n l. induction l as [|t l IH]; intros s (H1 & H2) O; cbn [sem]; [constructor|]. destruct t as [x|k]; cbn [body].
  - destruct (H1 s x) as (s' & y & E). rewrite E. cbn. constructor; [exact I|]. apply IH; [split; auto|]. eapply okl_tail; eauto.
  - destruct (O 0 k eq_refl) as (-> & E). destruct l; [|discriminate]. rewrite H2. cbn. repeat constructor.
Qed.
Lemma kind_len : forall (l m : list tok), Forall2 kind l m -> length l = length m.
Proof. intros. eapply Forall2_len; eauto. Qed.
Lemma kind_nth : forall (l m : list tok) i t, Forall2 kind l m -> nth_error l i = Some t -> exists u, nth_error m i = Some u /\ kind t u.
Proof. intros l m i t F. revert i. induction F; intros i E; destruct i; cbn in *; try discriminate; eauto. injection E as <-. eauto. Qed.

(** The invariant of one worker. *)
Definition Wo (c : conf) (k : wk) : Prop :=
  let '(n, s0, ci, co) := c in
  nd (wc k) = n /\ cap (wc k) = ci /\ ocap k = co /\
  (forall up, got k ++ outq k ++ fut (wc k) up = sem n s0 (given k ++ up)) /\
  off k = existsb isend (got k) /\
  (exists dn, given k = dn ++ inq (wc k) /\ fin (wc k) = existsb isend dn).

Lemma Wo_put : forall c k t k', Wo c k -> put k t = Some k' -> Wo c k'.
Proof.
  intros [[[n s0] ci] co] k t k' (a & b & c & d & e & (dn & f1 & f2)) P. unfold put in P. destruct (room (wc k)); [|discriminate].
  injection P as <-. cbn. repeat split; auto.
  - intros up. specialize (d (t :: up)). replace ((given k ++ [t]) ++ up) with (given k ++ t :: up) by (rewrite <- app_assoc; reflexivity).
    rewrite <- d. unfold fut. cbn. rewrite <- app_assoc. reflexivity.
  - exists dn. split; auto. rewrite f1, app_assoc. auto.
Qed.
Lemma Wo_pop : forall c k k', one_one (fst (fst (fst c))) -> Wo c k -> wpop k = Some k' -> Wo c k'.
Proof.
  intros [[[n s0] ci] co] k k' (O1 & O2) (a & b & c & d & e & (dn & f1 & f2)) P. cbn in O1, O2. unfold wpop in P. destruct (pop_cell (wc k)) as [c'|] eqn:EC; [|discriminate].
  injection P as <-. pose proof (fun up => pop_cell_fut _ _ up EC) as FU.
  unfold pop_cell in EC. destruct (fin (wc k)) eqn:EF; [discriminate|]. destruct (pend (wc k)); [|discriminate].
  destruct (inq (wc k)) as [|t q] eqn:EQ; [discriminate|]. destruct (body (nd (wc k)) (cst (wc k)) t) as [[s' p] ee] eqn:EB. injection EC as <-.
  cbn. repeat split; auto.
  - intros up. specialize (FU up). cbn in FU. rewrite FU. auto.
  - exists (dn ++ [t]). rewrite <- app_assoc. split; auto. rewrite existsb_app, <- f2. cbn. rewrite orb_false_r.
    destruct t as [x|m]; cbn in EB.
    + rewrite a in EB. destruct (O1 (cst (wc k)) x) as (s1 & y & Ey). rewrite Ey in EB. injection EB as <- <- <-. reflexivity.
    + injection EB as <- <- <-. reflexivity.
Qed.
Lemma Wo_push : forall c k k', Wo c k -> wpush k = Some k' -> Wo c k'.
Proof.
  intros [[[n s0] ci] co] k k' (a & b & c & d & e & f) P. unfold wpush in P. destruct (pend (wc k)) eqn:EC; [discriminate|].
  destruct (oroom k); [|discriminate]. injection P as <-. cbn. repeat split; auto.
  intros up. rewrite <- d. unfold fut. cbn. rewrite EC, <- !app_assoc. reflexivity.
Qed.
Lemma Wo_collect : forall c k k' t, Wo c k -> ocollect k = Some (k', t) -> Wo c k'.
Proof.
  intros [[[n s0] ci] co] k k' t (a & b & c & d & e & f) P. unfold ocollect in P.
  destruct (outq k) as [|t0 q] eqn:EQ; [discriminate|]. injection P as <- ->. cbn. repeat split; auto.
  - intros up. rewrite <- d. rewrite <- !app_assoc. reflexivity.
  - rewrite existsb_app, <- e. cbn. destruct t; cbn; rewrite ?orb_false_r, ?orb_true_r; auto.
Qed.
Lemma pop_hist : forall (k k' : wk), wpop k = Some k' -> given k' = given k /\ got k' = got k.
Proof. intros k k' E. unfold wpop in E. destruct (pop_cell (wc k)); [|discriminate]. injection E as <-. auto. Qed.
Lemma push_hist : forall (k k' : wk), wpush k = Some k' -> given k' = given k /\ got k' = got k.
Proof. intros k k' E. unfold wpush in E. destruct (pend (wc k)); [discriminate|]. destruct (oroom k); [|discriminate]. injection E as <-. auto. Qed.
Lemma put_hist : forall (k k' : wk) t, put k t = Some k' -> given k' = given k ++ [t] /\ got k' = got k.
Proof. intros k k' t E. destruct (off_put _ _ _ E) as (? & ? & ? & ?). auto. Qed.
Lemma collect_hist : forall (k k' : wk) t, ocollect k = Some (k', t) -> given k' = given k /\ got k' = got k ++ [t].
Proof. intros k k' t E. unfold ocollect in E. destruct (outq k); [discriminate|]. injection E as <- ->. auto. Qed.

Section Fixed.
Variables (wn : list conf) (input : list A).
Let n := length wn.
Let K := length input.
Hypothesis Hn : 1 <= n.
Hypothesis Hone : Forall (fun c => one_one (fst (fst (fst c)))) wn.

Definition T : list tok := map Task input ++ repeat (End EOS) n.
Lemma T_len : length T = K + n.
Proof. unfold T. rewrite app_length, map_length, repeat_length. reflexivity. Qed.
Lemma T_task : forall i, i < K -> exists x, nth_error T i = Some (Task x) /\ nth_error input i = Some x.
Proof.
  intros i H. unfold T. rewrite nth_error_app1 by (rewrite map_length; auto). rewrite nth_error_map.
  destruct (nth_error input i) eqn:E; cbn; eauto. apply nth_error_None in E. unfold K in H. lia.
Qed.
Lemma T_end : forall i, K <= i -> i < K + n -> nth_error T i = Some (End EOS).
Proof.
  intros i H1 H2. unfold T. rewrite nth_error_app2 by (rewrite map_length; auto). rewrite map_length.
  rewrite nth_error_repeat; auto. fold K. lia.
Qed.
Lemma T_is_end : forall i k, nth_error T i = Some (End k) -> k = EOS /\ K <= i < K + n.
Proof.
  intros i k E. assert (i < K + n) by (rewrite <- T_len; eapply nth_error_lt; eauto).
  destruct (Nat.lt_ge_cases i K) as [L|L]; [destruct (T_task i L) as (x & Hx & _); congruence|].
  rewrite (T_end i L H) in E. injection E as <-. auto.
Qed.
Lemma T_okl : forall w, w < n -> okl (share n w 0 T).
Proof.
  intros w Hw j k E. rewrite nth_error_share in E by auto. destruct (T_is_end _ _ E) as (-> & H1 & H2). split; auto.
  rewrite nth_error_share by auto. apply nth_error_None. rewrite T_len. lia.
Qed.

Record OInv (gl : list tok) (s : ost) : Prop := mkOI {
  O_w : Forall2 Wo wn (ows s);
  O_in : input = firstn (K - length (osrc s)) input ++ osrc s;
  O_ec : (osrc s <> [] -> ec s = 0) /\ ec s <= n;
  O_vl : vl s = (K - length (osrc s)) mod n;
  O_hist : forall w k, nth_error (ows s) w = Some k ->
     given k = share n w 0 (firstn (K - length (osrc s) + ec s) T) /\ got k = share n w 0 gl;
  O_vg : length gl < K + n -> vg s = length gl mod n;
  O_out : oout s = map Task (tasks gl) ++ (if odone s then [End EOS] else []);
  O_done : odone s = true -> forallb off (ows s) = true }.

Lemma src_len : forall gl s, OInv gl s -> length (osrc s) <= K.
Proof. intros gl s H. pose proof (O_in _ _ H) as E. unfold K. rewrite E at 1. rewrite app_length. lia. Qed.
Lemma ws_len : forall gl s, OInv gl s -> length (ows s) = n.
Proof. intros gl s H. symmetry. eapply Forall2_len, O_w; eauto. Qed.

(** What a worker gave is a prefix of its semantics on its share of the whole stream. *)
Lemma got_prefix : forall gl s w k c, OInv gl s -> nth_error (ows s) w = Some k -> nth_error wn w = Some c ->
  prefix (got k) (sem (fst (fst (fst c))) (snd (fst (fst c))) (share n w 0 T)) /\
  exists r, got k ++ r = sem (fst (fst (fst c))) (snd (fst (fst c))) (given k) /\ r = outq k ++ fut (wc k) [].
Proof.
  intros gl s w k [[[nd0 s0] ci] co] I EK EC. cbn [fst snd].
  destruct (Forall2_nth _ _ _ _ _ _ _ (O_w _ _ I) EK) as (c' & EC' & HW). rewrite EC in EC'. injection EC' as <-.
  destruct HW as (a & b & c & d & e & f). destruct (O_hist _ _ I _ _ EK) as (G1 & G2). split.
  - remember (K - length (osrc s) + ec s) as p.
    assert (ES : share n w 0 T = given k ++ share n w (0 + length (firstn p T)) (skipn p T)).
    { rewrite G1, <- share_app, firstn_skipn. reflexivity. }
    rewrite ES. rewrite <- d. exists (outq k ++ fut (wc k) (share n w (0 + length (firstn p T)) (skipn p T))). reflexivity.
  - exists (outq k ++ fut (wc k) []). split; auto. rewrite d, app_nil_r. auto.
Qed.

Lemma one_at : forall w c, nth_error wn w = Some c -> one_one (fst (fst (fst c))).
Proof. intros w c E. apply (Forall_nth_error _ _ _ _ _ Hone E). Qed.

Lemma worker_at : forall gl s w, OInv gl s -> w < n -> exists k c, nth_error (ows s) w = Some k /\ nth_error wn w = Some c.
Proof.
  intros gl s w I Hw. destruct (nth_error (ows s) w) as [k|] eqn:E; [|apply nth_error_None in E; rewrite (ws_len _ _ I) in E; lia].
  destruct (nth_error wn w) as [c|] eqn:E1; [|apply nth_error_None in E1; unfold n in Hw; lia]. eauto.
Qed.

(** The tokens gathered have the kinds of the tokens sent. *)
Lemma gl_kind : forall gl s i t, OInv gl s -> nth_error gl i = Some t ->
  exists u, nth_error T i = Some u /\ kind t u /\
  exists k c, nth_error (ows s) (i mod n) = Some k /\ nth_error wn (i mod n) = Some c /\
    nth_error (got k) (i / n) = Some t /\ i < K - length (osrc s) + ec s.
Proof.
  intros gl s i t I E. assert (Hw : i mod n < n) by (apply Nat.mod_upper_bound; lia).
  destruct (worker_at _ _ _ I Hw) as (k & c & EK & EC). destruct (O_hist _ _ I _ _ EK) as (G1 & G2).
  assert (Eg : nth_error (got k) (i / n) = Some t) by (rewrite G2, share_nth; auto).
  destruct (got_prefix _ _ _ _ _ I EK EC) as ((r & Er) & (r' & Er' & _)).
  pose proof (sem_one (fst (fst (fst c))) (share n (i mod n) 0 T) (snd (fst (fst c))) (one_at _ _ EC) (T_okl _ Hw)) as F.
  destruct (kind_nth _ _ (i / n) t F) as (u & Eu & Ku).
  { rewrite Er, nth_error_app1; auto. eapply nth_error_lt; eauto. }
  rewrite share_nth in Eu by auto. exists u. split; auto. split; auto. exists k, c. repeat split; auto.
  assert (O : okl (given k)).
  { rewrite G1. apply (okl_app _ (share n (i mod n) (0 + length (firstn (K - length (osrc s) + ec s) T)) (skipn (K - length (osrc s) + ec s) T))).
    rewrite <- share_app, firstn_skipn. apply T_okl. auto. }
  pose proof (sem_one (fst (fst (fst c))) (given k) (snd (fst (fst c))) (one_at _ _ EC) O) as F'.
  destruct (kind_nth _ _ (i / n) t F') as (u' & Eu' & _).
  { rewrite <- Er', nth_error_app1; auto. eapply nth_error_lt; eauto. }
  rewrite G1, share_nth in Eu' by auto. apply nth_error_lt in Eu'. rewrite firstn_length in Eu'. lia.
Qed.
Lemma gl_len : forall gl s, OInv gl s -> length gl <= K - length (osrc s) + ec s.
Proof.
  intros gl s I. destruct (length gl) as [|m] eqn:E; [lia|].
  destruct (nth_error gl m) as [t|] eqn:Et; [|apply nth_error_None in Et; lia].
  destruct (gl_kind _ _ _ _ I Et) as (u & _ & _ & k & c & _ & _ & _ & H). lia.
Qed.

Lemma off_spec : forall gl s w k, OInv gl s -> nth_error (ows s) w = Some k ->
  (off k = true <-> exists i t, nth_error gl i = Some (End t) /\ i mod n = w).
Proof.
  intros gl s w k I EK. destruct (O_hist _ _ I _ _ EK) as (G1 & G2).
  assert (Hw : w < n) by (rewrite <- (ws_len _ _ I); eapply nth_error_lt; eauto).
  destruct (Forall2_nth _ _ _ _ _ _ _ (O_w _ _ I) EK) as ([[[nd0 s0] ci] co] & EC & HW). destruct HW as (_ & _ & _ & _ & -> & _). split.
  - intros H. apply existsb_exists in H as (t & Ht & He). destruct t as [x|t]; [discriminate|]. apply In_nth_error in Ht as (j & Ej).
    rewrite G2, nth_error_share in Ej by auto. exists (j * n + w), t. split; auto. rewrite Nat.add_comm, Nat.mod_add by lia. apply Nat.mod_small. auto.
  - intros (i & t & Ei & Em). apply existsb_exists. exists (End t). split; auto. rewrite G2. subst w. rewrite <- (share_nth n) in Ei by auto. eapply nth_error_In; eauto.
Qed.

Lemma all_off : forall gl s, OInv gl s -> (forallb off (ows s) = true <-> length gl = K + n).
Proof.
  intros gl s I. pose proof (gl_len _ _ I) as GL. pose proof (src_len _ _ I) as SL. destruct (O_ec _ _ I) as (_ & EC). split.
  - intros H. destruct (Nat.eq_dec (length gl) (K + n)) as [|N]; auto. exfalso.
    (* the worker of position K + n - 1 has not given its mark *)
    assert (Hw : (K + n - 1) mod n < n) by (apply Nat.mod_upper_bound; lia).
    destruct (worker_at _ _ _ I Hw) as (k & c & EK & _). rewrite forallb_forall in H. specialize (H k (nth_error_In _ _ EK)).
    apply (off_spec _ _ _ _ I EK) in H as (i & t & Ei & Em). destruct (gl_kind _ _ _ _ I Ei) as (u & Eu & Ku & _).
    destruct u as [|k']; [contradiction|]. destruct (T_is_end _ _ Eu) as (_ & H1 & H2). apply nth_error_lt in Ei.
    assert (i = K + n - 1); [|lia]. apply (mod_inj_window n); auto; lia.
  - intros E. apply forallb_forall. intros k Hk. apply In_nth_error in Hk as (w & EK).
    assert (Hw : w < n) by (rewrite <- (ws_len _ _ I); eapply nth_error_lt; eauto).
    apply (off_spec _ _ _ _ I EK).
    assert (exists i, K <= i < K + n /\ i mod n = w) as (i & Hi & Em).
    { pose proof (Nat.div_mod K n ltac:(lia)) as D. pose proof (Nat.mod_upper_bound K n ltac:(lia)) as U.
      destruct (Nat.le_gt_cases (K mod n) w).
      - exists (K + (w - K mod n)). split; [lia|]. symmetry. apply Nat.mod_unique with (q := K / n); lia.
      - exists (K + (n + w - K mod n)). split; [lia|]. symmetry. apply Nat.mod_unique with (q := S (K / n)); lia. }
    destruct (nth_error gl i) as [t|] eqn:Ei; [|apply nth_error_None in Ei; lia].
    destruct (gl_kind _ _ _ _ I Ei) as (u & Eu & Ku & _). rewrite T_end in Eu by lia. injection Eu as <-. destruct t; [contradiction|]. eauto.
Qed.

(** Sending the next token of [T]. *)
Lemma hist_send : forall c k' gl (l : list wk) w k x, c < K + n -> w = c mod n -> nth_error l w = Some k ->
  (forall w k, nth_error l w = Some k -> given k = share n w 0 (firstn c T) /\ got k = share n w 0 gl) ->
  nth_error T c = Some x -> given k' = given k ++ [x] -> got k' = got k ->
  forall w0 k0, nth_error (lupd l w k') w0 = Some k0 -> given k0 = share n w0 0 (firstn (S c) T) /\ got k0 = share n w0 0 gl.
Proof.
  intros c k' gl l w k x Hc Hw EK H ET Hg Ho w0 k0 E0. rewrite (firstn_snoc_nth _ _ _ _ ET), share_snoc, firstn_length, T_len.
  replace (Nat.min c (K + n)) with c by lia. destruct (Nat.eq_dec w w0) as [e|ne].
  - subst w0. rewrite nth_error_lupd_eq in E0 by (eapply nth_error_lt; eauto). injection E0 as <-. destruct (H _ _ EK) as (h1 & h2).
    rewrite <- Hw, Nat.eqb_refl. split; congruence.
  - rewrite nth_error_lupd_neq in E0 by auto. destruct (H _ _ E0) as (h1 & h2).
    destruct (Nat.eqb_spec (c mod n) w0); [congruence|]. rewrite app_nil_r. auto.
Qed.

Lemma ostep_inv : forall gl s a s', OInv gl s -> ostep s a = Some s' -> exists gl', OInv gl' s'.
Proof.
  intros gl s a s' I E. pose proof (ws_len _ _ I) as WL. pose proof (src_len _ _ I) as SL.
  destruct (O_ec _ _ I) as (EC1 & EC2). pose proof (O_vl _ _ I) as VL. pose proof (O_hist _ _ I) as HH.
  destruct a; cbn [ostep] in E; rewrite ?WL in E; cbv zeta in E.
  - (* OSend *)
    destruct (osrc s) as [|x l] eqn:ES; [discriminate|]. destruct (nth_error (ows s) (vl s)) as [k|] eqn:EK; [|discriminate].
    destruct (put k (Task x)) as [k'|] eqn:EP; [|discriminate]. injection E as <-. destruct (put_hist _ _ _ EP) as (g1 & g2).
    assert (E0 : ec s = 0) by (apply EC1; discriminate). cbn [length] in *. rewrite E0, Nat.add_0_r in HH.
    pose proof (O_in _ _ I) as IN. rewrite ES in IN. cbn [length] in IN.
    assert (Hlt : K - S (length l) < K) by lia.
    assert (Ex : nth_error input (K - S (length l)) = Some x).
    { rewrite IN at 1. rewrite nth_error_app2; rewrite firstn_length; fold K; [|lia]. replace (K - S (length l) - Nat.min (K - S (length l)) K) with 0 by lia. reflexivity. }
    destruct (T_task _ Hlt) as (x' & Tx & Ix). rewrite Ex in Ix. injection Ix as <-.
    exists gl. constructor; cbn [osrc vl ec ows vg oout odone]; try (apply I; fail).
    + apply Forall2_lupd; [apply I|]. intros c k0 E1 E2 HW. rewrite EK in E2. injection E2 as <-. eapply Wo_put; eauto.
    + replace (K - length l) with (S (K - S (length l))) by lia. rewrite (firstn_snoc_nth _ _ _ _ Ex), <- app_assoc. exact IN.
    + split; auto.
    + rewrite VL. replace (K - length l) with (S (K - S (length l))) by lia. replace ((K - S (length l)) mod n + 1) with (S ((K - S (length l)) mod n)) by lia.
      rewrite <- (Nat.add_1_r ((K - S (length l)) mod n)), <- (Nat.add_1_r (K - S (length l))). apply Nat.add_mod_idemp_l. lia.
    + rewrite E0, Nat.add_0_r. replace (K - length l) with (S (K - S (length l))) by lia.
      apply (hist_send (K - S (length l)) k' gl (ows s) (vl s) k (Task x)); auto. lia.
    + intros D. rewrite (forallb_lupd_same _ _ _ _ k); auto. apply (O_done _ _ I D). destruct (off_put _ _ _ EP) as (? & _). auto.
  - (* OSendEos *)
    destruct (osrc s) as [|x l] eqn:ES; [|discriminate]. destruct (Nat.ltb_spec (ec s) n) as [Hec|]; [|discriminate].
    cbn [length] in *. rewrite Nat.sub_0_r in *.
    assert (Hv : vl s < n) by (rewrite VL; apply Nat.mod_upper_bound; lia). rewrite (wrap_mod (vl s) (ec s) n) in E by lia.
    destruct (nth_error (ows s) ((vl s + ec s) mod n)) as [k|] eqn:EK; [|discriminate].
    destruct (put k (End EOS)) as [k'|] eqn:EP; [|discriminate]. injection E as <-. destruct (put_hist _ _ _ EP) as (g1 & g2).
    assert (Em : (vl s + ec s) mod n = (K + ec s) mod n) by (rewrite VL; apply Nat.add_mod_idemp_l; lia).
    exists gl. constructor; cbn [osrc vl ec ows vg oout odone length]; try (apply I; fail).
    + apply Forall2_lupd; [apply I|]. intros c k0 E1 E2 HW. rewrite EK in E2. injection E2 as <-. eapply Wo_put; eauto.
    + pose proof (O_in _ _ I) as IN. rewrite ES in IN. exact IN.
    + split; [congruence|lia].
    + rewrite Nat.sub_0_r. auto.
    + rewrite Nat.sub_0_r. replace (K + S (ec s)) with (S (K + ec s)) by lia.
      apply (hist_send (K + ec s) k' gl (ows s) _ k (End EOS)); auto. lia. apply T_end; lia.
    + intros D. rewrite (forallb_lupd_same _ _ _ _ k); auto. apply (O_done _ _ I D). destruct (off_put _ _ _ EP) as (? & _). auto.
  - (* OPop *)
    destruct (nth_error (ows s) w) as [k|] eqn:EK; [|discriminate]. destruct (wpop k) as [k'|] eqn:EP; [|discriminate]. injection E as <-.
    destruct (pop_hist _ _ EP) as (g1 & g2). destruct (wpop_same _ _ EP) as (o1 & _).
    exists gl. constructor; cbn [osrc vl ec ows vg oout odone]; try (apply I; fail).
    + apply Forall2_lupd; [apply I|]. intros c k0 E1 E2 HW. rewrite EK in E2. injection E2 as <-. eapply Wo_pop; eauto. eapply one_at; eauto.
    + intros w0 k0 E0. rewrite nth_error_lupd in E0. destruct (Nat.eqb_spec w w0); [|eauto]. subst w0.
      rewrite (proj2 (Nat.ltb_lt _ _) (nth_error_lt _ _ _ _ EK)) in E0. injection E0 as <-. rewrite g1, g2. eauto.
    + intros D. rewrite (forallb_lupd_same _ _ _ _ k); auto. apply (O_done _ _ I D).
  - (* OPush *)
    destruct (nth_error (ows s) w) as [k|] eqn:EK; [|discriminate]. destruct (wpush k) as [k'|] eqn:EP; [|discriminate]. injection E as <-.
    destruct (push_hist _ _ EP) as (g1 & g2). destruct (wpush_same _ _ EP) as (o1 & _).
    exists gl. constructor; cbn [osrc vl ec ows vg oout odone]; try (apply I; fail).
    + apply Forall2_lupd; [apply I|]. intros c k0 E1 E2 HW. rewrite EK in E2. injection E2 as <-. eapply Wo_push; eauto.
    + intros w0 k0 E0. rewrite nth_error_lupd in E0. destruct (Nat.eqb_spec w w0); [|eauto]. subst w0.
      rewrite (proj2 (Nat.ltb_lt _ _) (nth_error_lt _ _ _ _ EK)) in E0. injection E0 as <-. rewrite g1, g2. eauto.
    + intros D. rewrite (forallb_lupd_same _ _ _ _ k); auto. apply (O_done _ _ I D).
  - (* OCollect *)
    destruct (forallb off (ows s)) eqn:EO; [discriminate|]. destruct (nth_error (ows s) (vg s)) as [k|] eqn:EK; [|discriminate].
    destruct (ocollect k) as [[k' t]|] eqn:EP; [|discriminate]. destruct (next_alive _ _ _ _ _) as [v'|] eqn:EN; [|discriminate]. injection E as <-.
    destruct (collect_hist _ _ _ EP) as (g1 & g2). pose proof (gl_len _ _ I) as GL.
    assert (Hlt : length gl < K + n).
    { destruct (Nat.eq_dec (length gl) (K + n)) as [e|]; [|lia]. apply (all_off _ _ I) in e. congruence. }
    assert (ND : odone s = false). { destruct (odone s) eqn:D; auto. pose proof (O_done _ _ I D). congruence. }
    pose proof (O_vg _ _ I Hlt) as VG. exists (gl ++ [t]).
    assert (I' : OInv (gl ++ [t]) (mkO (osrc s) (vl s) (ec s) (lupd (ows s) (vg s) k') ((length gl + 1) mod n) (oout s ++ match t with Task _ => [t] | End _ => [] end) (odone s))).
    { constructor; cbn [osrc vl ec ows vg oout odone]; try (apply I; fail).
      + apply Forall2_lupd; [apply I|]. intros c k0 E1 E2 HW. rewrite EK in E2. injection E2 as <-. eapply Wo_collect; eauto.
      + intros w0 k0 E0. rewrite share_snoc. rewrite nth_error_lupd in E0. destruct (Nat.eqb_spec (vg s) w0).
        * subst w0. rewrite (proj2 (Nat.ltb_lt _ _) (nth_error_lt _ _ _ _ EK)) in E0. injection E0 as <-. rewrite g1, g2, <- VG, Nat.eqb_refl.
          destruct (HH _ _ EK) as (h1 & h2). split; congruence.
        * destruct (Nat.eqb_spec (length gl mod n) w0); [congruence|]. rewrite app_nil_r. eauto.
      + intros _. rewrite app_length. reflexivity.
      + rewrite (O_out _ _ I), ND, !app_nil_r, tasks_app, map_app. f_equal. destruct t; auto.
      + congruence. }
    destruct (Nat.eq_dec (length gl + 1) (K + n)) as [e|ne].
    + destruct I'. constructor; auto; cbn [osrc vl ec ows vg oout odone] in *. rewrite app_length. cbn [length]. lia.
    + replace v' with ((length gl + 1) mod n); [exact I'|].
      destruct n as [|n0] eqn:En; [lia|]. cbn [next_alive] in EN. rewrite <- En in *.
      rewrite VG in EN. replace ((length gl mod n + 1) mod n) with ((length gl + 1) mod n) in EN by (symmetry; apply Nat.add_mod_idemp_l; lia).
      assert (HD : dead_of (lupd (ows s) (length gl mod n) k') ((length gl + 1) mod n) = false).
      { unfold dead_of. destruct (nth_error (lupd (ows s) (length gl mod n) k') ((length gl + 1) mod n)) as [k1|] eqn:E1; auto.
        destruct (off k1) eqn:E2; auto. exfalso. rewrite <- VG in E1. apply (off_spec _ _ _ k1 I' E1) in E2 as (i & tt & Ei & Em).
        destruct (gl_kind _ _ _ _ I' Ei) as (u & Eu & Ku & _). destruct u as [|k2]; [contradiction|]. destruct (T_is_end _ _ Eu) as (_ & H1 & H2).
        apply nth_error_lt in Ei. rewrite app_length in Ei. cbn in Ei.
        assert (i = length gl + 1); [|lia]. apply (mod_inj_window n); auto; lia. }
      rewrite HD in EN. cbn in EN. congruence.
  - (* OFinish *)
    destruct (odone s) eqn:ED; [discriminate|]. destruct (forallb off (ows s)) eqn:EF; [|discriminate]. injection E as <-.
    exists gl. constructor; cbn [osrc vl ec ows vg oout odone]; try (apply I; fail); auto.
    rewrite (O_out _ _ I), ED, app_nil_r. reflexivity.
Qed.

Lemma ostart_inv : OInv [] (ostart wn input).
Proof.
  constructor; cbn [ostart ostart_at osrc vl ec ows vg oout odone length]; fold K; rewrite ?Nat.sub_diag.
  - unfold n in *. clear. induction wn as [|[[[nd0 s0] ci] co] l IH]; cbn; constructor; auto. cbn. repeat split; auto. exists []. auto.
  - reflexivity.
  - split; auto. lia.
  - rewrite Nat.mod_0_l; lia.
  - intros w k E. cbn. rewrite nth_error_map in E. destruct (nth_error wn w) as [[[[nd0 s0] ci] co]|]; [|discriminate]. injection E as <-. auto.
  - intros _. rewrite Nat.mod_0_l; lia.
  - reflexivity.
  - discriminate.
Qed.
Lemma exec_OInv : forall acts s, exec ostep (ostart wn input) acts = Some s -> exists gl, OInv gl s.
Proof.
  intros acts s E. refine (exec_inv ostep (fun s => exists gl, OInv gl s) _ _ _ _ (ex_intro _ [] ostart_inv) E).
  intros s1 a s2 (gl & I) H. eapply ostep_inv; eauto.
Qed.

(** The shape of what was gathered. *)
Lemma gl_shape : forall gl s, OInv gl s ->
  (forall i y, nth_error (tasks gl) i = Some y -> nth_error gl i = Some (Task y)) /\ length (tasks gl) = Nat.min (length gl) K.
Proof.
  intros gl s I. assert (H : forall i t, nth_error gl i = Some t -> (isend t = true <-> K <= i)).
  { intros i t E. destruct (gl_kind _ _ _ _ I E) as (u & Eu & Ku & _). destruct (Nat.lt_ge_cases i K) as [L|L].
    - destruct (T_task i L) as (x & Tx & _). rewrite Tx in Eu. injection Eu as <-. destruct t; [|contradiction]. cbn. split; [discriminate|lia].
    - rewrite T_end in Eu; auto. 2: rewrite <- T_len; eapply nth_error_lt; eauto. injection Eu as <-. destruct t; [contradiction|]. cbn. split; auto. }
  clear I s. revert H. generalize K. clear. induction gl as [|t gl IH]; intros K0 H.
  - cbn. split; [intros [|i] y; discriminate|auto].
  - destruct K0 as [|K0].
    + assert (G : forall (g : list tok), (forall i t, nth_error g i = Some t -> isend t = true) -> tasks g = []).
      { clear. induction g as [|[x|k] g IH]; intros H; auto. specialize (H 0 _ eq_refl). discriminate. apply IH. intros i t E. apply (H (S i) t E). }
      rewrite G. 2:{ intros i t0 E. apply (H i t0 E). lia. } cbn. split; [intros [|i] y; discriminate|]. lia.
    + specialize (H 0 t eq_refl) as H0. destruct t as [x|k]; [|cbn in H0; destruct H0 as (H0 & _); specialize (H0 eq_refl); lia].
      destruct (IH K0) as (h1 & h2). { intros i t E. specialize (H (S i) t E). rewrite H. lia. }
      change (tasks (Task x :: gl)) with (x :: tasks gl). split.
      * intros [|i] y E; cbn in *; [congruence|auto].
      * cbn. lia.
Qed.

Lemma tasks_len_done : forall gl s, OInv gl s -> odone s = true -> length (tasks gl) = K.
Proof. intros gl s I D. destruct (gl_shape _ _ I) as (_ & ->). pose proof (O_done _ _ I D) as H. apply (all_off _ _ I) in H. lia. Qed.

Lemma share_T : forall w, w < n -> share n w 0 T = stream (share n w 0 input).
Proof.
  intros w Hw. unfold T, stream. rewrite share_app, share_map. f_equal. cbn [plus]. rewrite map_length. fold K.
  assert (exists i, i < n /\ (K + i) mod n = w) as (i & Hi & Em).
  { pose proof (Nat.div_mod K n ltac:(lia)) as D. pose proof (Nat.mod_upper_bound K n ltac:(lia)) as U.
    destruct (Nat.le_gt_cases (K mod n) w).
    - exists (w - K mod n). split; [lia|]. symmetry. apply Nat.mod_unique with (q := K / n); lia.
    - exists (n + w - K mod n). split; [lia|]. symmetry. apply Nat.mod_unique with (q := S (K / n)); lia. }
  replace (repeat (@End A EOS) n) with (repeat (@End A EOS) i ++ [End EOS] ++ repeat (End EOS) (n - i - 1)).
  - rewrite !share_app. rewrite share_none; auto.
    + rewrite repeat_length. cbn [share app]. rewrite Em, Nat.eqb_refl. cbn. f_equal. apply share_none; auto.
      intros j Hj. rewrite repeat_length in Hj. intros C. assert (K + i = K + i + 1 + j); [|lia]. apply (mod_inj_window n); auto; try lia; congruence.
    + intros j Hj. rewrite repeat_length in Hj. intros C. assert (K + j = K + i); [|lia]. apply (mod_inj_window n); auto; try lia; congruence.
  - assert (G : forall a b, repeat (@End A EOS) a ++ [End EOS] ++ repeat (End EOS) b = repeat (End EOS) (a + S b)).
    { clear. induction a; cbn; intros; auto. f_equal. apply IHa. }
    rewrite G. f_equal. lia.
Qed.

Lemma one_eos : forall nd0 : node, one_one nd0 -> ends_with_eos nd0.
Proof. intros nd0 (H & _) s x. destruct (H s x) as (s' & y & ->). cbn. auto. Qed.

Lemma main_order : forall acts s, exec ostep (ostart wn input) acts = Some s ->
  exists outs, round_robin_result wn input outs /\
    (oout s = map Task outs \/ (oout s = stream outs /\ length outs = length input)).
Proof.
  intros acts s E. destruct (exec_OInv _ _ E) as (gl & I). destruct (gl_shape _ _ I) as (SH & LE). exists (tasks gl). split; [split|].
  - fold K. lia.
  - fold n. intros i y Ei. apply SH in Ei. destruct (gl_kind _ _ _ _ I Ei) as (u & Eu & Ku & k & c & EK & EC & Eg & _).
    destruct c as [[[nd0 s0] ci] co] eqn:Ec. exists nd0, s0, ci, co. split; auto.
    destruct (got_prefix _ _ _ _ _ I EK EC) as ((r & Er) & _). cbn [fst snd] in Er.
    assert (Hw : i mod n < n) by (apply Nat.mod_upper_bound; lia). rewrite share_T in Er by auto.
    rewrite <- (app_nil_r (stream _)), sem_emits in Er by (apply one_eos; apply (one_at _ _ EC)).
    assert (Ex : nth_error (stream (node_fun nd0 s0 (share n (i mod n) 0 input))) (i / n) = Some (Task y)).
    { rewrite Er, nth_error_app1; auto. eapply nth_error_lt; eauto. }
    unfold stream in Ex.
    destruct (Nat.lt_ge_cases (i / n) (length (map (@Task A) (node_fun nd0 s0 (share n (i mod n) 0 input))))) as [L|L].
    + rewrite nth_error_app1 in Ex by auto. rewrite nth_error_map in Ex. destruct (nth_error (node_fun nd0 s0 (share n (i mod n) 0 input)) (i / n)); [|discriminate]. cbn in Ex. congruence.
    + rewrite nth_error_app2 in Ex by auto. destruct (i / n - _) as [|q]; cbn in Ex; [discriminate|]. destruct q; discriminate.
  - pose proof (O_out _ _ I) as O. destruct (odone s) eqn:D.
    + right. split; auto. eapply tasks_len_done; eauto.
    + left. rewrite app_nil_r in O. auto.
Qed.

(** Progress. *)
Hypothesis Hcap : Forall (fun c => capok (snd (fst c)) /\ capok (snd c)) wn.
Lemma main_stuck : forall acts s, exec ostep (ostart wn input) acts = Some s -> (forall a, ostep s a = None) -> odone s = true.
Proof.
  intros acts s E HS. destruct (exec_OInv _ _ E) as (gl & I). destruct (odone s) eqn:D; auto. exfalso.
  pose proof (ws_len _ _ I) as WL. pose proof (src_len _ _ I) as SL. destruct (O_ec _ _ I) as (EC1 & EC2). pose proof (gl_len _ _ I) as GL.
  assert (NO : forallb off (ows s) = false).
  { pose proof (HS OFinish) as H. cbn [ostep] in H. rewrite D in H. destruct (forallb off (ows s)); [discriminate|auto]. }
  assert (Hlt : length gl < K + n).
  { destruct (Nat.eq_dec (length gl) (K + n)) as [e|]; [|lia]. apply (all_off _ _ I) in e. congruence. }
  pose proof (O_vg _ _ I Hlt) as VG. assert (Hw : length gl mod n < n) by (apply Nat.mod_upper_bound; lia).
  destruct (worker_at _ _ _ I Hw) as (k & c & EK & EC). rewrite <- VG in EK, EC.
  assert (HQ : outq k = []).
  { pose proof (HS OCollect) as H. cbn [ostep] in H. rewrite NO, EK in H. unfold ocollect in H. destruct (outq k) as [|t q]; auto. exfalso.
    (* updatenextone terminates *)
    rewrite WL in H. match type of H with context [next_alive n n (vg s) (vg s) ?d] => assert (NA : next_alive n n (vg s) (vg s) d <> None) end; [|destruct (next_alive _ _ _ _ _); [discriminate|auto]].
    clear H. rewrite VG in *. generalize (dead_of (lupd (ows s) (length gl mod n) (mkWk (wc k) (ocap k) q (eosd k) match t with Task _ => off k | End _ => true end (given k) (got k ++ [t])))). intros d.
    remember (length gl mod n) as g. assert (G : forall f v, v < n -> ((g + n - v - 1) mod n) < f -> next_alive f n g v d <> None).
    { clear -Hn Hw. induction f as [|f IH]; intros v Hv Hf; [lia|]. cbn [next_alive]. destruct (d ((v + 1) mod n) && negb ((v + 1) mod n =? g)) eqn:EB; [|discriminate].
      apply andb_true_iff in EB as (_ & EB). apply negb_true_iff in EB. apply Nat.eqb_neq in EB. apply IH; [apply Nat.mod_upper_bound; lia|].
      destruct (Nat.eq_dec (v + 1) n) as [e|ne].
      - rewrite e, Nat.mod_same in * by lia. replace (g + n - v - 1) with g in Hf by lia. rewrite Nat.mod_small in Hf by auto.
        replace (g + n - 0 - 1) with (g - 1 + 1 * n) by lia. rewrite Nat.mod_add by lia. rewrite Nat.mod_small by lia. lia.
      - rewrite (Nat.mod_small (v + 1) n) in * by lia. destruct (Nat.lt_ge_cases g (v + 1)) as [L|L].
        + rewrite Nat.mod_small in * by lia. lia.
        + replace (g + n - v - 1) with (g - v - 1 + 1 * n) in Hf by lia. rewrite Nat.mod_add in Hf by lia. rewrite Nat.mod_small in Hf by lia.
          replace (g + n - (v + 1) - 1) with (g - v - 2 + 1 * n) by lia. rewrite Nat.mod_add by lia. rewrite Nat.mod_small by lia. lia. }
    apply G; auto. apply Nat.mod_upper_bound. lia. }
  destruct (Forall2_nth _ _ _ _ _ _ _ (O_w _ _ I) EK) as (c' & EC' & HW). rewrite EC in EC'. injection EC' as <-.
  pose proof (one_at _ _ EC) as ON. pose proof (Forall_nth_error _ _ _ _ _ Hcap EC) as (C1 & C2).
  destruct (got_prefix _ _ _ _ _ I EK EC) as (_ & (r & Er & Hr)).
  destruct c as [[[nd0 s0] ci] co]. cbn [fst snd] in *. destruct HW as (w1 & w2 & w3 & w4 & w5 & (dn & w6 & w7)).
  assert (HP : pend (wc k) = []).
  { pose proof (HS (OPush (vg s))) as H. cbn [ostep] in H. rewrite EK in H. unfold wpush in H. destruct (pend (wc k)); auto. unfold oroom in H. rewrite HQ in H. cbn [length] in H.
    rewrite w3 in H. destruct co as [m|]; [|discriminate]. cbn in C2. destruct (Nat.ltb_spec 0 m); [discriminate|lia]. }
  destruct (O_hist _ _ I _ _ EK) as (G1 & G2).
  remember (K - length (osrc s) + ec s) as p.
  assert (Hf : fut (wc k) [] = [] /\ (fin (wc k) = false -> inq (wc k) = [])).
  { unfold fut. rewrite HP. destruct (fin (wc k)) eqn:EF; [split; [auto|discriminate]|].
    pose proof (HS (OPop (vg s))) as H. cbn [ostep] in H. rewrite EK in H. unfold wpop, pop_cell in H. rewrite EF, HP in H.
    destruct (inq (wc k)); [auto|]. destruct (body _ _ _) as [[? ?] ?]. discriminate. }
  destruct Hf as (Hf & Hinq). rewrite Hf, HQ in Hr. subst r. rewrite app_nil_r in Er.
  assert (O : okl (given k)).
  { rewrite G1. apply (okl_app _ (share n (vg s) (0 + length (firstn p T)) (skipn p T))). rewrite <- share_app, firstn_skipn. apply T_okl. lia. }
  (* everything given to this worker has been gathered: the emitter is not ahead *)
  pose proof (sem_one nd0 (given k) s0 ON O) as F. apply kind_len in F. rewrite <- Er, G1, G2 in F.
  assert (Hp : p = length gl).
  { destruct (Nat.eq_dec p (length gl)) as [|N]; auto. exfalso. assert (length gl < p) by lia.
    assert (p <= K + n) by lia.
    assert (Eq : firstn p T = firstn (length gl) T ++ skipn (length gl) (firstn p T)).
    { rewrite <- (firstn_skipn (length gl) (firstn p T)) at 1. f_equal. rewrite firstn_firstn. f_equal. lia. }
    assert (S1 : length (share n (vg s) 0 (firstn (length gl) T)) = length (share n (vg s) 0 gl)).
    { rewrite !share_length; auto; try lia; rewrite firstn_length, T_len; replace (Nat.min (length gl) (K + n)) with (length gl) by lia; auto. }
    rewrite Eq, share_app, app_length, S1 in F.
    destruct (skipn (length gl) (firstn p T)) as [|x l] eqn:Esk.
    { apply (f_equal (@length _)) in Esk. rewrite skipn_length, firstn_length, T_len in Esk. cbn in Esk. lia. }
    cbn [share] in F. rewrite app_length in F. cbn [plus] in F. rewrite firstn_length, T_len in F. replace (Nat.min (length gl) (K + n)) with (length gl) in F by lia.
    rewrite <- VG, Nat.eqb_refl in F. cbn [length] in F. lia. }
  (* the next token goes to this worker, which has room *)
  assert (NE : forall t, nth_error T p = Some t -> existsb isend (given k) = false).
  { intros t Et. destruct (existsb isend (given k)) eqn:EE; auto. exfalso. apply existsb_exists in EE as (e & He & Hee). destruct e as [|ke]; [discriminate|].
    apply In_nth_error in He as (j & Ej). pose proof (nth_error_lt _ _ _ _ Ej) as Lj.
    assert (Eall : nth_error (share n (vg s) 0 T) (length (given k)) = Some t).
    { rewrite G1. replace (length (share n (vg s) 0 (firstn p T))) with (p / n).
      - rewrite VG, <- Hp, share_nth; auto.
      - symmetry. rewrite share_length; auto; try lia; rewrite firstn_length, T_len; replace (Nat.min p (K + n)) with p by lia; auto. congruence. }
    assert (Eend : nth_error (share n (vg s) 0 T) j = Some (End ke)).
    { assert (ES : share n (vg s) 0 T = given k ++ share n (vg s) (0 + length (firstn p T)) (skipn p T)) by (rewrite G1, <- share_app, firstn_skipn; reflexivity).
      rewrite ES, nth_error_app1; auto. }
    assert (Hv : vg s < n) by lia. destruct (T_okl _ Hv _ _ Eend) as (_ & Hnone). apply nth_error_None in Hnone. apply nth_error_lt in Eall. lia. }
  assert (PUT : forall t, nth_error T p = Some t -> put k t <> None).
  { intros t Et. assert (fin (wc k) = false).
    { rewrite w7. specialize (NE t Et). rewrite w6, existsb_app in NE. apply orb_false_iff in NE. tauto. }
    unfold put, room. rewrite (Hinq H), w2. cbn [length]. destruct ci as [m|]; [|discriminate]. cbn in C1. destruct (Nat.ltb_spec 0 m); [discriminate|lia]. }
  destruct (osrc s) as [|x l] eqn:ES.
  - cbn [length] in Heqp. pose proof (HS OSendEos) as H. cbn [ostep] in H. rewrite ES, WL in H. assert (Hec : ec s < n) by lia. rewrite (proj2 (Nat.ltb_lt _ _) Hec) in H.
    pose proof (O_vl _ _ I) as VL. rewrite ES in VL. cbn [length] in VL. rewrite Nat.sub_0_r in *.
    assert (Hv : vl s < n) by (rewrite VL; apply Nat.mod_upper_bound; lia). cbv zeta in H. rewrite (wrap_mod (vl s) (ec s) n) in H by lia.
    assert (Em : (vl s + ec s) mod n = vg s) by (rewrite VL, VG, <- Hp, Heqp; apply Nat.add_mod_idemp_l; lia). rewrite Em, EK in H.
    destruct (put k (End EOS)) eqn:EP; [discriminate|]. revert EP. apply PUT. apply T_end; lia.
  - assert (E0 : ec s = 0) by (apply EC1; discriminate). rewrite E0, Nat.add_0_r in Heqp. cbn [length] in *.
    pose proof (O_in _ _ I) as IN. rewrite ES in IN. cbn [length] in IN. rewrite <- Heqp in IN.
    assert (Ex : nth_error input p = Some x).
    { rewrite IN at 1. rewrite nth_error_app2; rewrite firstn_length; fold K; [|lia]. replace (p - Nat.min p K) with 0 by lia. reflexivity. }
    assert (HpK : p < K) by lia.
    destruct (T_task _ HpK) as (x' & Tx & Ix). rewrite Ex in Ix. injection Ix as <-.
    pose proof (HS OSend) as H. cbn [ostep] in H. pose proof (O_vl _ _ I) as VL. rewrite ES in VL. cbn [length] in VL. rewrite <- Heqp in VL.
    assert (Em : vl s = vg s) by congruence. rewrite ES, Em, EK in H.
    destruct (put k (Task x)) eqn:EP; [discriminate|]. revert EP. apply PUT. auto.
Qed.
End Fixed.

Lemma main_map_order : forall f (wn : list conf) (input : list A) acts s, wn <> [] -> Forall (fun c => applies f (fst (fst (fst c)))) wn ->
  exec ostep (ostart wn input) acts = Some s ->
  exists outs, prefix outs (map f input) /\ (oout s = map Task outs \/ oout s = stream (map f input)).
Proof.
  intros f wn input acts s N F E. assert (Hn : 1 <= length wn) by (destruct wn; [congruence|cbn; lia]).
  assert (F1 : Forall (fun c => one_one (fst (fst (fst c)))) wn).
  { eapply Forall_impl; [|exact F]. intros c (a & b). split; auto. intros st x. destruct (a st x) as (s' & ->). eauto. }
  destruct (main_order wn input Hn F1 acts s E) as (outs & (L & R) & O).
  assert (P : forall i y, nth_error outs i = Some y -> nth_error (map f input) i = Some y).
  { intros i y Ei. destruct (R i y Ei) as (nd0 & s0 & ci & co & E1 & E2). pose proof (Forall_nth_error _ _ _ _ _ F E1) as Ha. cbn in Ha.
    rewrite (applies_fun f) in E2 by auto. rewrite nth_error_map in *. rewrite share_nth in E2; auto. }
  assert (EQ : outs = firstn (length outs) (map f input)).
  { clear -P L. revert P L. generalize (map f input) as m. intros m P L. assert (Lm : length outs <= length m).
    { destruct (length outs) as [|q] eqn:Eq; [lia|]. destruct (nth_error outs q) eqn:E; [|apply nth_error_None in E; lia]. apply P in E. apply nth_error_lt in E. lia. }
    clear L. revert m P Lm. induction outs as [|y outs IH]; intros m P Lm; cbn; auto. destruct m as [|z m]; [cbn in Lm; lia|].
    specialize (P 0 y eq_refl) as P0. cbn in P0. injection P0 as ->. f_equal. apply IH; [|cbn in Lm; lia]. intros i y0 E. apply (P (S i) y0 E). }
  exists outs. split.
  - rewrite EQ. apply prefix_firstn.
  - destruct O as [O|(O & Ll)]; auto. right. rewrite O. f_equal. rewrite EQ. apply firstn_all2. rewrite map_length. lia.
Qed.

Lemma main_map_complete : forall f (wn : list conf) (input : list A) acts s, wn <> [] ->
  Forall (fun c => applies f (fst (fst (fst c))) /\ capok (snd (fst c)) /\ capok (snd c)) wn ->
  exec ostep (ostart wn input) acts = Some s -> (forall a, ostep s a = None) -> oout s = stream (map f input).
Proof.
  intros f wn input acts s N F E H. assert (Hn : 1 <= length wn) by (destruct wn; [congruence|cbn; lia]).
  assert (Fa : Forall (fun c => applies f (fst (fst (fst c)))) wn) by (eapply Forall_impl; [|exact F]; intros c (a & b); auto).
  assert (F1 : Forall (fun c => one_one (fst (fst (fst c)))) wn).
  { eapply Forall_impl; [|exact Fa]. intros c (a & b). split; auto. intros st x. destruct (a st x) as (s' & ->). eauto. }
  assert (Fc : Forall (fun c => capok (snd (fst c)) /\ capok (snd c)) wn) by (eapply Forall_impl; [|exact F]; intros c (a & b); auto).
  pose proof (main_stuck wn input Hn F1 Fc acts s E H) as D.
  destruct (main_map_order f wn input acts s N Fa E) as (outs & _ & [O|O]); auto. exfalso.
  destruct (exec_OInv wn input Hn F1 _ _ E) as (gl & I). pose proof (O_out _ _ _ _ I) as O2. rewrite D in O2. rewrite O2 in O.
  apply (f_equal (existsb isend)) in O. rewrite existsb_app, !existsb_end_map in O. discriminate.
Qed.

(** Termination. *)
Definition omeas (s : ost) : nat * (nat * (nat * nat)) :=
  (length (osrc s) + (length (ows s) - ec s),
   (sum (fun k => length (inq (wc k))) (ows s),
    (sum (fun k => length (pend (wc k))) (ows s), sum (fun k => length (outq k)) (ows s) + b2n (odone s)))).
Lemma ostep_meas : forall s a s', ostep s a = Some s' -> lex4 (omeas s') (omeas s).
Proof.
  intros s a s' E. destruct a; cbn [ostep] in E; cbv zeta in E.
  - destruct (osrc s) as [|x l] eqn:ES; [discriminate|]. destruct (nth_error (ows s) (vl s)) as [k|] eqn:EK; [|discriminate].
    destruct (put k (Task x)) as [k'|] eqn:EP; [|discriminate]. injection E as <-. apply left_slex. cbn [osrc ows ec]. rewrite ES, lupd_length. cbn [length]. lia.
  - destruct (osrc s) as [|x l] eqn:ES; [|discriminate]. destruct (Nat.ltb_spec (ec s) (length (ows s))); [|discriminate].
    match type of E with context [nth_error _ ?i] => remember i as j; destruct (nth_error (ows s) j) as [k|]; [|discriminate] end.
    destruct (put k (End EOS)) as [k'|] eqn:EP; [|discriminate]. injection E as <-. apply left_slex. cbn [osrc ows ec]. rewrite ES, lupd_length. cbn [length]. lia.
  - destruct (nth_error (ows s) w) as [k|] eqn:EK; [|discriminate]. destruct (wpop k) as [k'|] eqn:EP; [|discriminate]. injection E as <-.
    unfold omeas. cbn [osrc ows ec odone]. rewrite lupd_length. apply right_slex, left_slex.
    pose proof (sum_lupd (fun k => length (inq (wc k))) _ _ _ k' EK) as Q2. cbn in Q2.
    assert (length (inq (wc k')) < length (inq (wc k))); [|lia].
    unfold wpop in EP. destruct (pop_cell (wc k)) as [c'|] eqn:EC; [|discriminate]. injection EP as <-. cbn.
    unfold pop_cell in EC. destruct (fin (wc k)), (pend (wc k)), (inq (wc k)); try discriminate. destruct (body _ _ _) as [[? ?] ?]. injection EC as <-. cbn. lia.
  - destruct (nth_error (ows s) w) as [k|] eqn:EK; [|discriminate]. destruct (wpush k) as [k'|] eqn:EP; [|discriminate]. injection E as <-.
    unfold omeas. cbn [osrc ows ec odone]. rewrite lupd_length. apply right_slex.
    pose proof (sum_lupd (fun k => length (inq (wc k))) _ _ _ k' EK) as Q2. pose proof (sum_lupd (fun k => length (pend (wc k))) _ _ _ k' EK) as Q3.
    unfold wpush in EP. destruct (pend (wc k)) as [|t p] eqn:EC; [discriminate|]. destruct (oroom k); [|discriminate]. injection EP as <-.
    match goal with |- context [lupd (ows s) w ?v] => remember (lupd (ows s) w v) as l' end. cbn in Q2, Q3. rewrite EC in Q3. cbn in Q3.
    replace (sum (fun k0 => length (inq (wc k0))) l') with (sum (fun k0 => length (inq (wc k0))) (ows s)) by lia. apply right_slex, left_slex. lia.
  - destruct (forallb off (ows s)); [discriminate|]. destruct (nth_error (ows s) (vg s)) as [k|] eqn:EK; [|discriminate].
    destruct (ocollect k) as [[k' t]|] eqn:EP; [|discriminate]. destruct (next_alive _ _ _ _ _) as [v'|] eqn:EN; [|discriminate]. injection E as <-. clear EN.
    unfold ocollect in EP. destruct (outq k) as [|t0 q] eqn:EQ; [discriminate|]. injection EP as <- ->.
    unfold omeas. cbn [osrc ows ec odone]. rewrite lupd_length.
    match goal with |- context [lupd (ows s) (vg s) ?v] => 
      pose proof (sum_lupd (fun k => length (inq (wc k))) _ _ _ v EK) as Q2;
      pose proof (sum_lupd (fun k => length (pend (wc k))) _ _ _ v EK) as Q3; pose proof (sum_lupd (fun k => length (outq k)) _ _ _ v EK) as Q4; remember (lupd (ows s) (vg s) v) as l' end.
    cbn in Q2, Q3, Q4. rewrite EQ in Q4. cbn in Q4.
    replace (sum (fun k0 => length (inq (wc k0))) l') with (sum (fun k0 => length (inq (wc k0))) (ows s)) by lia.
    replace (sum (fun k0 => length (pend (wc k0))) l') with (sum (fun k0 => length (pend (wc k0))) (ows s)) by lia.
    repeat apply right_slex. lia.
  - destruct (odone s) eqn:ED; [discriminate|]. destruct (forallb off (ows s)) eqn:EF; [|discriminate]. injection E as <-.
    unfold omeas. cbn [osrc ows ec odone]. rewrite ED. repeat apply right_slex. cbn. lia.
Qed.
Lemma ono_infinite : forall f : nat -> ost, ~ (forall i, exists a, ostep (f i) a = Some (f (S i))).
Proof.
  intros f H. assert (G : forall m i, omeas (f i) = m -> False).
  { intros m. induction (lex4_wf m) as [m _ IH]. intros i Ei. destruct (H i) as (a & Ea). apply ostep_meas in Ea. rewrite Ei in Ea.
    exact (IH _ Ea (S i) eq_refl). }
  exact (G _ 0 eq_refl).
Qed.
End Proofs.
