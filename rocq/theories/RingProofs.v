(** Proofs about the rings of task descriptors (RingModel.v). *)
From Coq Require Import List Arith Bool Lia Permutation.
From Verif Require Import Base RingModel.
Import ListNotations.

Lemma mod_apart : forall M a b, 1 <= M -> a < b -> b < a + M -> a mod M <> b mod M.
Proof.
  intros M a b HM L1 L2 E. pose proof (Nat.div_mod a M ltac:(lia)) as Da. pose proof (Nat.div_mod b M ltac:(lia)) as Db.
  rewrite E in Da. assert (a / M < b / M \/ b / M <= a / M) as [X|X] by lia.
  - assert (S (a / M) <= b / M) by lia. assert (M * S (a / M) <= M * (b / M)) by (apply Nat.mul_le_mono_l; auto). lia.
  - assert (M * (b / M) <= M * (a / M)) by (apply Nat.mul_le_mono_l; auto). lia.
Qed.

Definition ol (o : option nat) : list nat := match o with Some p => [p] | None => [] end.

Section Mdf.
  Context {D : Type}.
  Variables (M : nat) (cap : option nat).
  Hypothesis HM : 1 <= M.
  Notation mst := (mst D).

  Record minv (s : mst) : Prop := {
    m_nt : nt s = length (subm s);
    m_fl : ol (rcv s) ++ ch s ++ ol (snd_ s) = map (fun k => k mod M) (seq (length (got s)) (nt s - length (got s)));
    m_le : length (got s) <= nt s;
    m_win : nt s <= length (got s) + M;
    m_ring : forall k, length (got s) <= k -> k < nt s -> ring s (k mod M) = nth_error (subm s) k;
    m_got : got s = map Some (firstn (length (got s)) (subm s)) }.

  Lemma minv_init : minv mdf_init.
  Proof. constructor; cbn; auto; lia. Qed.

  Lemma firstn_snoc_nth : forall X (l : list X) k x, nth_error l k = Some x -> firstn (S k) l = firstn k l ++ [x].
  Proof.
    intros X l. induction l as [|y l IH]; intros [|k] x H; cbn in *; try discriminate.
    - injection H as ->. reflexivity.
    - f_equal. apply IH. exact H.
  Qed.

  Lemma minv_step : forall s a s', minv s ->
    match a with MAdd _ => length (subm s) < length (got s) + M | _ => True end ->
    mstep M cap s a = Some s' -> minv s'.
  Proof.
    intros s a s' I C H. destruct I. destruct a as [d| | |]; cbn [mstep] in H.
    - destruct (snd_ s) as [p|] eqn:E; [discriminate|]. injection H as <-. cbn [ol] in m_fl0. rewrite app_nil_r in m_fl0.
      constructor; cbn [ring nt snd_ ch rcv subm got].
      + rewrite app_length, m_nt0. cbn. lia.
      + replace (S (nt s) - length (got s)) with ((nt s - length (got s)) + 1) by lia.
        rewrite seq_app, map_app, app_assoc, m_fl0. cbn [seq map ol]. do 3 f_equal. lia.
      + lia.
      + lia.
      + intros k L1 L2. destruct (Nat.eq_dec k (nt s)) as [->|N].
        * rewrite fupd_eq, nth_error_app2 by lia. rewrite m_nt0, Nat.sub_diag. reflexivity.
        * rewrite fupd_neq by (apply mod_apart; lia). rewrite nth_error_app1 by lia. apply m_ring0; lia.
      + rewrite firstn_app, (proj2 (Nat.sub_0_le _ _)) by lia. cbn [firstn]. rewrite app_nil_r. exact m_got0.
    - destruct (snd_ s) as [p|] eqn:E; [|discriminate]. destruct (room cap (ch s)); [|discriminate]. injection H as <-.
      constructor; cbn [ring nt snd_ ch rcv subm got]; auto. cbn [ol] in *. rewrite app_nil_r. exact m_fl0.
    - destruct (rcv s) as [p|] eqn:E; [discriminate|]. destruct (ch s) as [|p r] eqn:E2; [discriminate|]. injection H as <-.
      constructor; cbn [ring nt snd_ ch rcv subm got]; auto.
    - destruct (rcv s) as [p|] eqn:E; [|discriminate]. injection H as <-. cbn [ol app] in m_fl0.
      assert (L : length (got s) < nt s).
      { destruct (nt s - length (got s)) eqn:Z; [discriminate|lia]. }
      replace (nt s - length (got s)) with (S (nt s - S (length (got s)))) in m_fl0 by lia. cbn [seq map] in m_fl0. injection m_fl0 as E1 E2.
      assert (R : ring s p = nth_error (subm s) (length (got s))) by (rewrite E1; apply m_ring0; lia).
      destruct (nth_error (subm s) (length (got s))) as [d|] eqn:ND; [|apply nth_error_None in ND; lia].
      constructor; cbn [ring nt snd_ ch rcv subm got]; rewrite ?app_length, ?Nat.add_1_r in *; cbn [length]; rewrite ?Nat.add_1_r; auto; try lia.
      + intros k L1 L2. apply m_ring0; lia.
      + rewrite (firstn_snoc_nth _ _ _ d ND), map_app, R. cbn [map]. f_equal. exact m_got0.
  Qed.

  (** At every submission fewer than [M] descriptors are waiting to be read. *)
  Fixpoint few (s : mst) (l : list (mact D)) : Prop :=
    match l with
    | [] => True
    | a :: r =>
        match a with MAdd _ => length (subm s) < length (got s) + M | _ => True end /\
        match mstep M cap s a with None => True | Some s' => few s' r end
    end.

  Lemma mreach : forall l s s', minv s -> few s l -> exec (mstep M cap) s l = Some s' -> minv s'.
  Proof.
    intros l. induction l as [|a r IH]; intros s s' I F H; cbn [exec] in H; [injection H as <-; auto|].
    cbn [few] in F. destruct F as [F1 F2]. destruct (mstep M cap s a) as [s1|] eqn:E; [|discriminate].
    apply (IH s1); auto. eapply minv_step; eauto.
  Qed.

  Lemma mreach_bounded : forall c l s, cap = Some c -> c + 2 <= M -> exec (mstep M cap) mdf_init l = Some s -> minv s /\ length (ch s) <= c.
  Proof.
    intros c l s Ec Hc. apply exec_inv with (I := fun s => minv s /\ length (ch s) <= c).
    - intros s1 a s2 [I B] H. split.
      + eapply minv_step; eauto. destruct a as [d| | |]; auto. destruct I. cbn [mstep] in H.
        destruct (snd_ s1) eqn:E; [discriminate|]. apply (f_equal (@length nat)) in m_fl0.
        rewrite map_length, seq_length, !app_length in m_fl0. cbn [ol length] in m_fl0.
        assert (length (ol (rcv s1)) <= 1) by (destruct (rcv s1); cbn; lia). lia.
      + destruct a as [d| | |]; cbn [mstep] in H.
        * destruct (snd_ s1); [discriminate|]. injection H as <-. exact B.
        * destruct (snd_ s1); [|discriminate]. unfold room in H. rewrite Ec in H.
          destruct (length (ch s1) <? c) eqn:E; [|discriminate]. injection H as <-. apply Nat.ltb_lt in E. cbn [ch]. rewrite app_length. cbn. lia.
        * destruct (rcv s1); [discriminate|]. destruct (ch s1); [discriminate|]. injection H as <-. cbn in *. lia.
        * destruct (rcv s1); [|discriminate]. injection H as <-. exact B.
    - split; [apply minv_init|cbn; lia].
  Qed.

  Lemma minv_prefix : forall s, minv s -> prefix (got s) (map Some (subm s)).
  Proof.
    intros s I. destruct I. rewrite m_got0. exists (map Some (skipn (length (got s)) (subm s))).
    rewrite <- map_app, firstn_skipn. reflexivity.
  Qed.

  Lemma minv_done : forall s, minv s -> snd_ s = None -> ch s = [] -> rcv s = None -> got s = map Some (subm s).
  Proof.
    intros s I E1 E2 E3. destruct I. rewrite E1, E2, E3 in m_fl0. cbn in m_fl0.
    destruct (nt s - length (got s)) eqn:Z; [|discriminate]. rewrite m_got0. f_equal. apply firstn_all2. lia.
  Qed.
End Mdf.

Section MdfOver.
  (** [M]+1 submissions with nothing received: the first descriptor read is the last one submitted. *)
  Variable M : nat.
  Hypothesis HM : 1 <= M.

  Definition adds (k : nat) : list (mact nat) := flat_map (fun d => [MAdd d; MSend]) (seq 0 k).

  Lemma adds_run : forall k, exists s, exec (mstep M None) mdf_init (adds k) = Some s /\
    nt s = k /\ snd_ s = None /\ rcv s = None /\ got s = [] /\ subm s = seq 0 k /\ (1 <= k -> exists r, ch s = 0 :: r) /\
    (k = S M -> ring s 0 = Some M).
  Proof.
    intros k. induction k as [|k IH]; [exists mdf_init; cbn; repeat split; auto; lia|].
    destruct IH as (s & E & N & S1 & S2 & G & SB & C & _).
    exists (mkM (fupd (ring s) (nt s mod M) (Some k)) (S (nt s)) None (ch s ++ [nt s mod M]) (rcv s) (subm s ++ [k]) (got s)).
    split.
    - unfold adds. rewrite seq_S. rewrite flat_map_app. cbn [flat_map app Nat.add]. apply exec_app. exists s. split; [exact E|].
      cbn. rewrite S1. cbn. reflexivity.
    - cbn [nt snd_ ch rcv subm got ring]. rewrite N, SB. repeat split; auto.
      + symmetry. apply seq_S.
      + intros _. destruct k as [|k].
        * rewrite Nat.mod_0_l by lia. destruct (ch s) as [|p r] eqn:EC; [exists []; reflexivity|].
          exfalso. cbn in E. injection E as <-. discriminate.
        * destruct C as (r & C); [lia|]. exists (r ++ [S k mod M]). rewrite C. reflexivity.
      + intros K. injection K as ->. rewrite Nat.mod_same by lia. apply fupd_eq.
  Qed.
End MdfOver.

Section Taskf.
  Context {D : Type}.
  Variables (M : nat) (cap : option nat).
  Hypothesis HM : 1 <= M.
  Notation tst := (tst D).

  Definition md (k : nat) := k mod M.

  (** [kc], [kw], [kb], [ks]: submission numbers of the pointers in flight; [kr], [kd]: of the tasks run / deleted. *)
  Record tinv (s : tst) (b : nat) (ks : option nat) (kc kw kb kr kd : list nat) : Prop := {
    t_nt : tnt s = length (tsubm s);
    t_s : tsnd s = option_map md ks;
    t_c : tch s = map md kc;
    t_w : work s = map md kw;
    t_b : back s = map md kb;
    t_r : ran s = map (nth_error (tsubm s)) kr;
    t_d : dele s = map (nth_error (tsubm s)) kd;
    t_all : Permutation (kr ++ kw ++ kc ++ ol ks) (seq 0 (tnt s));
    t_del : Permutation (kd ++ kb) kr;
    t_bM : b <= M;
    t_win : forall k, In k (kb ++ kw ++ kc ++ ol ks) -> tnt s <= k + b;
    t_ring : forall k, In k (kb ++ kw ++ kc ++ ol ks) -> tring s (md k) = nth_error (tsubm s) k }.

  Definition TInv s b := exists ks kc kw kb kr kd, tinv s b ks kc kw kb kr kd.

  Lemma TInv_init : TInv taskf_init 0.
  Proof.
    exists None, [], [], [], [], []. constructor; cbn; auto; try lia; try (intros; contradiction).
  Qed.

  Definition at_rest (s : tst) : bool :=
    match tsnd s, tch s, work s, back s with None, [], [], [] => true | _, _, _, _ => false end.

  (** At most [M] tasks are submitted between two moments when no task is pending. *)
  Fixpoint batched (s : tst) (b : nat) (l : list (tact D)) : Prop :=
    match l with
    | [] => True
    | a :: r =>
        match a with TAdd _ => b < M | _ => True end /\
        match tstep M cap s a with
        | None => True
        | Some s' => batched s' (if at_rest s' then 0 else match a with TAdd _ => S b | _ => b end) r
        end
    end.

  Lemma take_map : forall i kl p r, take i (map md kl) = Some (p, r) ->
    exists k kr', Permutation kl (k :: kr') /\ p = md k /\ r = map md kr'.
  Proof.
    intros i kl p r H. unfold take in H. rewrite firstn_map, skipn_map in H.
    destruct (nth_error (map md kl) i) as [q|] eqn:E; [|discriminate].
    assert (Hp : q = p) by congruence. assert (Hr : map md (firstn i kl) ++ map md (skipn (S i) kl) = r) by congruence. subst p r. clear H.
    rewrite nth_error_map in E. destruct (nth_error kl i) as [k|] eqn:N; [|discriminate]. injection E as <-.
    exists k, (firstn i kl ++ skipn (S i) kl). split; [|split; auto].
    - apply nth_error_split in N. destruct N as (l1 & l2 & -> & <-).
      rewrite firstn_app, firstn_all, Nat.sub_diag. cbn [firstn]. rewrite app_nil_r.
      replace (skipn (S (length l1)) (l1 ++ k :: l2)) with l2; [symmetry; apply Permutation_middle|].
      rewrite skipn_app, skipn_all2 by lia. replace (S (length l1) - length l1) with 1 by lia. reflexivity.
    - rewrite map_app. reflexivity.
  Qed.

  Lemma TInv_step : forall s b a s', TInv s b ->
    match a with TAdd _ => b < M | _ => True end ->
    tstep M cap s a = Some s' -> TInv s' (match a with TAdd _ => S b | _ => b end).
  Proof.
    intros s b a s' (ks & kc & kw & kb & kr & kd & I) C H. destruct I. destruct a as [d| | |i|i]; cbn [tstep] in H.
    - rewrite t_s0 in H. destruct ks as [k|]; [discriminate|]. cbn [option_map] in H. injection H as <-. cbn [ol] in *. rewrite app_nil_r in *.
      assert (LT : forall k, In k (kb ++ kw ++ kc) -> k < tnt s).
      { intros k Hk. assert (X : In k (kr ++ kw ++ kc)).
        { rewrite !in_app_iff in *. destruct Hk as [Hk|Hk]; [left|tauto]. rewrite <- t_del0. apply in_app_iff. auto. }
        rewrite t_all0 in X. apply in_seq in X. lia. }
      assert (LR : forall k, In k kr -> k < length (tsubm s)).
      { intros k Hk. assert (X : In k (kr ++ kw ++ kc)) by (apply in_app_iff; auto). rewrite t_all0 in X. apply in_seq in X. lia. }
      exists (Some (tnt s)), kc, kw, kb, kr, kd. constructor; cbn [tring tnt tsnd tch work back tsubm ran dele]; auto.
      + rewrite app_length. cbn. lia.
      + rewrite t_r0. apply map_ext_in. intros k Hk. symmetry. apply nth_error_app1. auto.
      + rewrite t_d0. apply map_ext_in. intros k Hk. symmetry. apply nth_error_app1. apply LR. rewrite <- t_del0. apply in_app_iff. auto.
      + rewrite seq_S. cbn [Nat.add ol]. rewrite !app_assoc. apply Permutation_app_tail. rewrite <- !app_assoc. exact t_all0.
      + intros k. rewrite !app_assoc, in_app_iff, <- !app_assoc. cbn [ol In]. intros [Hk|[<-|[]]]; [|lia].
        specialize (t_win0 k Hk). lia.
      + intros k. rewrite !app_assoc, in_app_iff, <- !app_assoc. cbn [ol In]. intros [Hk|[<-|[]]].
        * specialize (t_win0 k Hk). specialize (LT k Hk). unfold md. rewrite fupd_neq by (apply mod_apart; lia).
          rewrite nth_error_app1 by lia. apply t_ring0; auto.
        * unfold md. rewrite fupd_eq, nth_error_app2 by lia. rewrite t_nt0, Nat.sub_diag. reflexivity.
    - rewrite t_s0 in H. destruct ks as [k|]; [|discriminate]. cbn [option_map] in H. destruct (room cap (tch s)); [|discriminate].
      injection H as <-. cbn [ol] in *.
      exists None, (kc ++ [k]), kw, kb, kr, kd. constructor; cbn [tring tnt tsnd tch work back tsubm ran dele ol]; rewrite ?app_nil_r; auto.
      rewrite map_app, t_c0. reflexivity.
    - rewrite t_c0 in H. destruct kc as [|k kc]; [discriminate|]. cbn [map] in H. injection H as <-.
      assert (P : forall z, Permutation ((kw ++ [k]) ++ kc ++ z) (kw ++ (k :: kc) ++ z)) by (intros z; rewrite <- app_assoc; reflexivity).
      exists ks, kc, (kw ++ [k]), kb, kr, kd. constructor; cbn [tring tnt tsnd tch work back tsubm ran dele]; auto.
      + rewrite map_app, t_w0. reflexivity.
      + rewrite P. exact t_all0.
      + intros j. rewrite P. apply t_win0.
      + intros j. rewrite P. apply t_ring0.
    - destruct (take i (work s)) as [[p r]|] eqn:E; [|discriminate]. injection H as <-. rewrite t_w0 in E.
      apply take_map in E. destruct E as (k & kw' & P & -> & ->).
      assert (PR : forall z, Permutation ((kb ++ [k]) ++ kw' ++ z) (kb ++ kw ++ z)).
      { intros z. rewrite P, <- app_assoc. reflexivity. }
      exists ks, kc, kw', (kb ++ [k]), (kr ++ [k]), kd. constructor; cbn [tring tnt tsnd tch work back tsubm ran dele]; auto.
      + rewrite map_app, t_b0. reflexivity.
      + rewrite map_app, t_r0. cbn [map]. do 2 f_equal. apply t_ring0. rewrite !in_app_iff. right. left. rewrite P. cbn. auto.
      + rewrite <- t_all0, P, <- app_assoc. reflexivity.
      + rewrite app_assoc. apply Permutation_app_tail. exact t_del0.
      + intros j. rewrite PR. apply t_win0.
      + intros j. rewrite PR. apply t_ring0.
    - destruct (take i (back s)) as [[p r]|] eqn:E; [|discriminate]. injection H as <-. rewrite t_b0 in E.
      apply take_map in E. destruct E as (k & kb' & P & -> & ->).
      assert (SUB : forall j z, In j (kb' ++ z) -> In j (kb ++ z)).
      { intros j z. rewrite !in_app_iff, P. cbn. tauto. }
      exists ks, kc, kw, kb', kr, (kd ++ [k]). constructor; cbn [tring tnt tsnd tch work back tsubm ran dele]; auto.
      + rewrite map_app, t_d0. cbn [map]. do 2 f_equal. apply t_ring0. rewrite in_app_iff, P. cbn. auto.
      + rewrite <- t_del0, P, <- app_assoc. reflexivity.
  Qed.

  Lemma TInv_rest : forall s b, TInv s b -> at_rest s = true -> TInv s 0.
  Proof.
    intros s b (ks & kc & kw & kb & kr & kd & I) R. destruct I. unfold at_rest in R.
    rewrite t_s0, t_c0, t_w0, t_b0 in R. destruct ks, kc, kw, kb; try discriminate.
    exists None, [], [], [], kr, kd. constructor; auto; try lia; cbn; intros; contradiction.
  Qed.

  Lemma treach : forall l s b s', TInv s b -> batched s b l -> exec (tstep M cap) s l = Some s' -> exists b', TInv s' b'.
  Proof.
    intros l. induction l as [|a r IH]; intros s b s' I F H; cbn [exec] in H; [injection H as <-; eauto|].
    cbn [batched] in F. destruct F as [F1 F2]. destruct (tstep M cap s a) as [s1|] eqn:E; [|discriminate].
    pose proof (TInv_step s b a s1 I F1 E) as I1. destruct (at_rest s1) eqn:R.
    - apply (IH s1 0); auto. eapply TInv_rest; eauto.
    - apply (IH s1 _ s' I1 F2 H).
  Qed.

  Lemma map_nth_seq : forall (l : list D), map (nth_error l) (seq 0 (length l)) = map Some l.
  Proof.
    intros l. induction l as [|x l IH]; cbn; auto. f_equal. rewrite <- seq_shift, map_map. cbn. exact IH.
  Qed.

  Lemma TInv_spec : forall s b, TInv s b ->
    (exists w, Permutation (ran s ++ w) (map Some (tsubm s))) /\ (exists w, Permutation (dele s ++ w) (ran s)).
  Proof.
    intros s b (ks & kc & kw & kb & kr & kd & I). destruct I. split.
    - exists (map (nth_error (tsubm s)) (kw ++ kc ++ ol ks)). rewrite t_r0, <- map_app, t_all0, t_nt0, map_nth_seq. reflexivity.
    - exists (map (nth_error (tsubm s)) kb). rewrite t_d0, t_r0, <- map_app, t_del0. reflexivity.
  Qed.

  Lemma TInv_done : forall s b, TInv s b -> at_rest s = true ->
    Permutation (ran s) (map Some (tsubm s)) /\ Permutation (dele s) (map Some (tsubm s)).
  Proof.
    intros s b (ks & kc & kw & kb & kr & kd & I) R. destruct I. unfold at_rest in R.
    rewrite t_s0, t_c0, t_w0, t_b0 in R. destruct ks, kc, kw, kb; try discriminate. cbn [ol app] in *. rewrite app_nil_r in *.
    assert (X : Permutation (ran s) (map Some (tsubm s))) by (rewrite t_r0, t_all0, t_nt0, map_nth_seq; reflexivity).
    split; auto. rewrite <- X, t_d0, t_r0, t_del0. reflexivity.
  Qed.
End Taskf.

Section TaskfOver.
  (** Task 0 is slow; tasks 1 .. [M]-1 are submitted and retired one at a time; the next one takes the slot of task 0. *)
  Variables (M : nat) (cap : option nat).
  Hypothesis HM : 2 <= M.
  Hypothesis HC : cap <> Some 0.

  Definition turns (k : nat) : list (tact nat) :=
    [TAdd 0; TSend; TRecv] ++ flat_map (fun d => [TAdd d; TSend; TRecv; TWork 1; TBack 0]) (seq 1 k).

  Lemma room_nil : room cap [] = true.
  Proof. unfold room. destruct cap as [[|c]|]; auto; congruence. Qed.

  Lemma turns_run : forall k, k < M -> exists s, exec (tstep M cap) taskf_init (turns k) = Some s /\
    tnt s = S k /\ tsnd s = None /\ tch s = [] /\ work s = [0] /\ back s = [] /\
    tsubm s = seq 0 (S k) /\ ran s = map Some (seq 1 k) /\ length (dele s) = k.
  Proof.
    intros k. induction k as [|k IH]; intros L.
    - eexists. split; [cbn; rewrite room_nil; reflexivity|]. cbn [tnt tsnd tch work back tsubm ran dele].
      rewrite Nat.mod_0_l by lia. repeat split; reflexivity.
    - destruct IH as (s & E & N & S1 & C & W & B & SB & R & DL); [lia|].
      eexists. split.
      + unfold turns. rewrite seq_S, flat_map_app, app_assoc. apply exec_app. exists s. split; [exact E|].
        cbn [flat_map app exec tstep]. rewrite S1. cbn [tsnd tch work back exec tstep tring tnt tsubm ran dele].
        rewrite C, room_nil. cbn [tsnd tch work back exec tstep tring tnt tsubm ran dele app]. rewrite W, B.
        cbn [app take nth_error firstn skipn tsnd tch work back exec tstep tring tnt tsubm ran dele]. reflexivity.
      + cbn [tsnd tch work back tring tnt tsubm ran dele]. rewrite N, SB, R. repeat split.
        * change (1 + k) with (S k). symmetry. rewrite seq_S. reflexivity.
        * rewrite (Nat.mod_small (S k) M) by lia. rewrite fupd_eq. change (1 + k) with (S k). rewrite seq_S, map_app. reflexivity.
        * rewrite app_length. cbn. lia.
  Qed.

  Definition lapping : list (tact nat) :=
    turns (M - 1) ++ [TAdd M; TSend; TRecv; TWork 0; TWork 0].

  Lemma lapping_run : exists s, exec (tstep M cap) taskf_init lapping = Some s /\
    tsubm s = seq 0 (S M) /\ ran s = map Some (seq 1 (M - 1)) ++ [Some M; Some M].
  Proof.
    destruct (turns_run (M - 1)) as (s & E & N & S1 & C & W & B & SB & R & DL); [lia|].
    replace (S (M - 1)) with M in * by lia.
    eexists. split.
    - unfold lapping. apply exec_app. exists s. split; [exact E|].
      cbn [exec tstep]. rewrite S1. cbn [tsnd tch work back exec tstep tring tnt tsubm ran dele].
      rewrite C, room_nil. cbn [tsnd tch work back exec tstep tring tnt tsubm ran dele app]. rewrite W, B.
      cbn [app take nth_error firstn skipn tsnd tch work back exec tstep tring tnt tsubm ran dele]. reflexivity.
    - cbn [tsnd tch work back tring tnt tsubm ran dele]. rewrite N, SB, R, Nat.mod_same by lia. rewrite fupd_eq. split.
      + symmetry. apply seq_S.
      + rewrite <- app_assoc. reflexivity.
  Qed.
End TaskfOver.
