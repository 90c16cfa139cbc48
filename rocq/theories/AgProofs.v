(** Proofs about all_gather when every channel carries the same number of values. *)
From Coq Require Import List Arith Bool Lia.
From Verif Require Import Base AgModel AgSpec.
Import ListNotations.

Lemma chid0 : forall c, chid 0 c = c.
Proof. intros. unfold chid. rewrite Nat.sub_0_r. destruct (c <? 0); auto. Qed.

Section P.
  Context {X : Type}.
  Variable var : variant.
  Variable n m : nat.
  Variable xs : nat -> list X.

  Notation step := (@step X var n 0).
  Notation fullc c := (full (xs c)).

  Definition tagged (a : act X) : option (act X) :=
    match a with Take _ false => None | _ => Some a end.
  (** The transition function restricted to users that always gather. *)
  Definition gstep (s : st X) (a : act X) : option (st X) :=
    match tagged a with None => None | Some _ => step s a end.

  Lemma gexec : forall l s t, Forall gathers l -> exec step s l = Some t -> exec gstep s l = Some t.
  Proof.
    induction l as [| a l IH]; intros s t F E; cbn [exec] in *; auto.
    inversion F; subst. unfold gstep. destruct (tagged a) eqn:T.
    - destruct (step s a); [| discriminate]. apply IH; auto.
    - destruct a as [c mm | c g |]; simpl in *; try discriminate. subst. discriminate.
  Qed.

  Definition pre (s : st X) : Prop := forall c, c < n -> prefix (sent s c) (fullc c).

  Definition nrow (s : st X) := length (rows s).
  Definition ended (s : st X) (c : nat) : bool := length (got s c) =? S m.

  Definition pc_ok (s : st X) : Prop :=
    let r := nrow s in
    match at_ s with
    | Idle => r <= m /\ (forall c, c < n -> length (got s c) = r \/ (r = m /\ length (got s c) = S m))
    | First i l =>
        r < m /\ over s = false /\ cur s < n /\ i <= n /\ NoDup l /\ (forall c, In c l -> c < i /\ c <> cur s) /\
        (forall c, c < n -> (c = cur s \/ (c < i /\ ~ In c l)) ->
            length (got s c) = S r /\ arr s c = option_map Val (nth_error (xs c) r)) /\
        (forall c, c < n -> ~ (c = cur s \/ (c < i /\ ~ In c l)) -> length (got s c) = r)
    | Retry l =>
        r < m /\ over s = false /\ NoDup l /\ (forall c, In c l -> c < n) /\
        (forall c, c < n -> ~ In c l ->
            length (got s c) = S r /\ arr s c = option_map Val (nth_error (xs c) r)) /\
        (forall c, c < n -> In c l -> length (got s c) = r)
    end.

  Definition inv (s : st X) : Prop :=
    (forall c, sent s c = got s c ++ ch s c) /\
    (pre s ->
      rows s = map (fun k => (row_of n xs k, true)) (seq 0 (nrow s)) /\
      (forall c, c < n -> off s c = true -> length (got s c) = S m) /\
      cnt s = length (filter (ended s) (seq 0 n)) /\
      over s = (n <=? cnt s) /\
      pc_ok s).

  Hypothesis Hn : 0 < n.
  Hypothesis Hlen : forall c, c < n -> length (xs c) = m.

  Lemma full_len : forall c, c < n -> length (fullc c) = S m.
  Proof using Hlen Hn. intros. unfold full. rewrite app_length, map_length, Hlen by auto. simpl. lia. Qed.

  Lemma head : forall (s : st X) c x r, (forall c, sent s c = got s c ++ ch s c) -> pre s -> c < n -> ch s c = x :: r ->
    nth_error (fullc c) (length (got s c)) = Some x.
  Proof using Hlen Hn.
    intros s c x r A P L E. destruct (P c L) as (q & Q). rewrite Q, A, E, <- app_assoc.
    rewrite nth_error_app2 by lia. rewrite Nat.sub_diag. reflexivity.
  Qed.

  Lemma full_val : forall c k, c < n -> k < m -> nth_error (fullc c) k = option_map Val (nth_error (xs c) k).
  Proof using Hlen Hn.
    intros. unfold full. rewrite nth_error_app1 by (rewrite map_length, Hlen; auto).
    rewrite nth_error_map. reflexivity.
  Qed.
  Lemma full_eos : forall c, c < n -> nth_error (fullc c) m = Some Eos.
  Proof using Hlen Hn.
    intros. unfold full. rewrite nth_error_app2 by (rewrite map_length, Hlen; auto).
    rewrite map_length, Hlen, Nat.sub_diag; auto.
  Qed.

  Lemma filter_ext_len : forall (f g : nat -> bool) l, (forall c, In c l -> f c = g c) ->
    length (filter f l) = length (filter g l).
  Proof using Hlen Hn.
    induction l as [| a l IH]; intros F; simpl; auto. rewrite <- (F a (or_introl eq_refl)).
    destruct (f a); simpl; rewrite IH; auto; intros; apply F; right; auto.
  Qed.

  Lemma filter_add : forall (f g : nat -> bool) c k a, a <= c -> c < a + k ->
    f c = false -> g c = true -> (forall d, d <> c -> f d = g d) ->
    length (filter g (seq a k)) = S (length (filter f (seq a k))).
  Proof using Hlen Hn.
    intros f g c k. induction k as [| k IH]; intros a L1 L2 F G E; [lia |]. simpl.
    destruct (Nat.eq_dec a c) as [-> | N].
    - rewrite F, G. simpl. f_equal. symmetry. apply filter_ext_len. intros d Hd. apply in_seq in Hd. apply E. lia.
    - rewrite <- (E a N). destruct (f a); simpl; rewrite (IH (S a)); auto; lia.
  Qed.

  Lemma pre_back : forall (s : st X) c mm, c < n ->
    (forall d, d < n -> prefix (fupd (sent s) c (sent s c ++ [mm]) d) (fullc d)) -> pre s.
  Proof using Hlen Hn.
    intros s c mm L P d Ld. specialize (P d Ld). destruct (Nat.eq_dec d c) as [-> | N].
    - rewrite fupd_eq in P. destruct P as (q & Q). exists ([mm] ++ q). rewrite Q, <- app_assoc. auto.
    - rewrite fupd_neq in P by auto. auto.
  Qed.

  (** Reading channel c. *)
  Lemma sent_read : forall (s : st X) c x r, (forall c, sent s c = got s c ++ ch s c) -> ch s c = x :: r ->
    forall d, sent s d = fupd (got s) c (got s c ++ [x]) d ++ fupd (ch s) c r d.
  Proof using Hlen Hn.
    intros s c x r A E d. destruct (Nat.eq_dec d c) as [-> | N].
    - rewrite !fupd_eq, A, E, <- app_assoc. auto.
    - rewrite !fupd_neq by auto. apply A.
  Qed.
  Lemma got_len : forall (s : st X) c x d, length (fupd (got s) c (got s c ++ [x]) d) =
    if Nat.eq_dec d c then S (length (got s c)) else length (got s d).
  Proof using Hlen Hn.
    intros. destruct (Nat.eq_dec d c) as [-> | N].
    - rewrite fupd_eq, app_length. simpl. lia.
    - rewrite fupd_neq; auto.
  Qed.

  Lemma cnt_same : forall (s : st X) c x, S (length (got s c)) <> S m -> length (got s c) <> S m ->
    length (filter (ended s) (seq 0 n)) =
    length (filter (fun d => length (fupd (got s) c (got s c ++ [x]) d) =? S m) (seq 0 n)).
  Proof using Hlen Hn.
    intros. apply filter_ext_len. intros d _. unfold ended. rewrite got_len.
    destruct (Nat.eq_dec d c) as [-> | N]; auto.
    destruct (Nat.eqb_spec (length (got s c)) (S m)), (Nat.eqb_spec (S (length (got s c))) (S m)); auto; lia.
  Qed.

  Ltac prj := cbn [ch off cnt arr cur at_ over sent got rows log] in *.

  Lemma marks_nil : forall (s : st X), (forall i, i < n -> arr s i <> Some Eos) -> marks var n s = [].
  Proof using Hlen Hn.
    intros s F. unfold marks. assert (R : range var n s <= n).
    { unfold range, alive. destruct var; auto.
      assert (B : forall (f : nat -> bool) l, length (filter f l) <= length l).
      { induction l; simpl; auto. destruct (f a); simpl; lia. }
      specialize (B (fun i => negb (off s i)) (seq 0 n)). rewrite seq_length in B. auto. }
    assert (G : forall l, (forall i, In i l -> i < n) ->
       filter (fun i => match arr s i with Some Eos => true | _ => false end) l = []).
    { induction l as [| a l IH]; intros H; simpl; auto.
      specialize (F a (H a (or_introl eq_refl))). destruct (arr s a) as [[x |] |]; try congruence;
      apply IH; intros; apply H; right; auto. }
    apply G. intros i Hi. apply in_seq in Hi. lia.
  Qed.

  Lemma inv_step : forall (s : st X) (a : act X) (t : st X), inv s -> gstep s a = Some t -> inv t.
  Proof using Hlen Hn.
    intros s a t (A & B) E. unfold gstep in E. destruct a as [c mm | c g |].
    - (* Send *)
      simpl tagged in E. unfold AgModel.step in E.
      destruct (Nat.ltb_spec c n) as [L | L]; simpl in E; [| discriminate].
      destruct (negb (existsb is_eos (sent s c))); simpl in E; [| discriminate].
      injection E as <-. split; prj.
      + intros d. destruct (Nat.eq_dec d c) as [-> | N].
        * rewrite !fupd_eq, A, app_assoc. auto.
        * rewrite !fupd_neq by auto. apply A.
      + intros P. unfold pre in P; prj. apply (pre_back _ _ _ L) in P. specialize (B P). exact B.
    - (* Take *)
      simpl tagged in E. destruct g; [| discriminate]. unfold AgModel.step in E.
      destruct (at_ s) eqn:PC; try discriminate.
      destruct (over s) eqn:OV; simpl in E; try discriminate.
      destruct (off s c) eqn:OF; simpl in E; try discriminate.
      destruct (Nat.ltb_spec c n) as [L | L]; simpl in E; try discriminate.
      destruct (ch s c) as [| x r] eqn:C; try discriminate.
      destruct x as [x |].
      + injection E as <-. split; prj. { apply (sent_read s c (Val x) r); auto. }
        intros P. unfold pre in P; prj. fold (pre s) in P. specialize (B P).
        destruct B as (B1 & B2 & B3 & B4 & B5). unfold pc_ok in B5. rewrite PC in B5. destruct B5 as (R & G).
        pose proof (head s c _ _ A P L C) as HD.
        assert (Q : length (got s c) = nrow s /\ nrow s < m).
        { destruct (G c L) as [Q | (Q & Q')].
          - split; auto. destruct (Nat.eq_dec (nrow s) m); [| lia]. rewrite Q, e, full_eos in HD by auto. discriminate.
          - rewrite Q' in HD. assert (nth_error (fullc c) (S m) <> None) by congruence.
            apply nth_error_Some in H. rewrite full_len in H by auto. lia. }
        destruct Q as (Q & Q'). rewrite Q, full_val in HD by auto.
        assert (NE : forall d, d < n -> length (got s d) = nrow s).
        { intros d Ld. destruct (G d Ld) as [? | (? & ?)]; auto. lia. }
        unfold nrow in *. split; [auto |]. split; [| split; [| split]]; prj.
        * intros d Ld O. rewrite got_len. destruct (Nat.eq_dec d c) as [-> | N]; [congruence | auto].
        * unfold ended; prj. rewrite B3. apply cnt_same; lia.
        * rewrite <- B4. auto.
        * unfold pc_ok, nrow; prj. rewrite chid0.
          repeat (apply conj); auto; try lia.
          -- constructor.
          -- intros d [].
          -- intros d Ld [-> | (? & ?)]; [| lia]. rewrite got_len, fupd_eq.
             destruct (Nat.eq_dec c c); [split; [lia | auto] | congruence].
          -- intros d Ld N. rewrite got_len. destruct (Nat.eq_dec d c); [tauto | auto].
      + injection E as <-. split; prj. { apply (sent_read s c Eos r); auto. }
        intros P. unfold pre in P; prj. fold (pre s) in P. specialize (B P).
        destruct B as (B1 & B2 & B3 & B4 & B5). unfold pc_ok in B5. rewrite PC in B5. destruct B5 as (R & G).
        pose proof (head s c _ _ A P L C) as HD.
        assert (Q : length (got s c) = m /\ nrow s = m).
        { destruct (G c L) as [Q | (Q & Q')].
          - destruct (Nat.eq_dec (nrow s) m); [lia |]. rewrite Q, full_val in HD by (auto; lia).
            destruct (nth_error (xs c) (nrow s)); discriminate.
          - rewrite Q' in HD. assert (nth_error (fullc c) (S m) <> None) by congruence.
            apply nth_error_Some in H. rewrite full_len in H by auto. lia. }
        destruct Q as (Q & Q').
        unfold nrow in *. split; [auto |]. split; [| split; [| split]]; prj.
        * intros d Ld O. rewrite got_len. destruct (Nat.eq_dec d c) as [-> | N]; [lia |].
          apply B2; auto. destruct var; auto. rewrite fupd_neq in O by auto. auto.
        * unfold ended; prj. rewrite B3. symmetry. apply (filter_add _ _ c); try lia.
          -- unfold ended. rewrite Q. apply Nat.eqb_neq. lia.
          -- rewrite got_len. destruct (Nat.eq_dec c c); [| congruence]. rewrite Q. apply Nat.eqb_refl.
          -- intros d N. rewrite got_len. destruct (Nat.eq_dec d c); [congruence | auto].
        * reflexivity.
        * unfold pc_ok, nrow; prj. split; auto. intros d Ld. rewrite got_len.
          destruct (Nat.eq_dec d c) as [-> | N]; [right; lia | auto].
    - (* Turn *)
      simpl tagged in E. unfold AgModel.step in E.
      destruct (at_ s) as [| i l | l] eqn:PC; try discriminate.
      + destruct (Nat.leb_spec n i) as [Li | Li].
        { injection E as <-. split; prj; [auto |]. intros P. specialize (B P).
          destruct B as (B1 & B2 & B3 & B4 & B5). split; [auto |]. split; [auto |]. split; [auto |]. split; [auto |].
          unfold pc_ok in *. rewrite PC in B5. prj. unfold nrow in *; prj.
          destruct B5 as (R & O & Lc & Hi & ND & Hl & G1 & G2).
          repeat (apply conj); auto.
          - intros c Hc. apply Hl in Hc. lia.
          - intros c Lc' N. apply G1; auto. right. split; auto. lia.
          - intros c Lc' N. apply G2; auto. pose proof (Hl c N). intros [? | (? & ?)]; [tauto | auto]. }
        destruct ((i =? cur s) || off s i) eqn:SK.
        { injection E as <-. split; prj; [auto |]. intros P. specialize (B P).
          destruct B as (B1 & B2 & B3 & B4 & B5). split; [auto |]. split; [auto |]. split; [auto |]. split; [auto |].
          unfold pc_ok in *. rewrite PC in B5. prj. unfold nrow in *; prj.
          destruct B5 as (R & O & Lc & Hi & ND & Hl & G1 & G2).
          assert (IC : i = cur s).
          { apply orb_prop in SK. destruct SK as [SK | SK]; [apply Nat.eqb_eq; auto |].
            apply B2 in SK; auto. destruct (Nat.eq_dec i (cur s)); auto.
            rewrite (G2 i Li) in SK; [lia |]. intros [? | (? & ?)]; [auto | lia]. }
          repeat (apply conj); auto.
          - intros c Hc. apply Hl in Hc. lia.
          - intros c Lc' N. apply G1; auto. destruct N as [? | (N1 & N2)]; auto.
            destruct (Nat.eq_dec c i); [left; lia | right; split; auto; lia].
          - intros c Lc' N. apply G2; auto. intros [? | (? & ?)]; apply N; [auto | right; split; auto; lia]. }
        apply orb_false_elim in SK. destruct SK as (SK1 & SK2). apply Nat.eqb_neq in SK1.
        destruct (ch s i) as [| x r] eqn:C.
        { injection E as <-. split; prj; [auto |]. intros P. specialize (B P).
          destruct B as (B1 & B2 & B3 & B4 & B5). split; [auto |]. split; [auto |]. split; [auto |]. split; [auto |].
          unfold pc_ok in *. rewrite PC in B5. prj. unfold nrow in *; prj.
          destruct B5 as (R & O & Lc & Hi & ND & Hl & G1 & G2).
          repeat (apply conj); auto.
          - constructor; auto. intros Hc. apply Hl in Hc. lia.
          - intros c [<- | Hc]; [split; auto |]. apply Hl in Hc. lia.
          - intros c Lc' N. apply G1; auto. destruct N as [? | (N1 & N2)]; auto.
            right. simpl in N2. split; [| tauto]. destruct (Nat.eq_dec c i); [exfalso; apply N2; auto | lia].
          - intros c Lc' N. apply G2; auto. intros [? | (? & N2)]; apply N; [auto | right; split; [lia |]].
            simpl. intros [? | ?]; [lia | auto]. }
        injection E as <-. unfold read. split; prj. { apply (sent_read s i x r); auto. }
        intros P. unfold pre in P; prj. fold (pre s) in P. specialize (B P).
        destruct B as (B1 & B2 & B3 & B4 & B5).
        unfold pc_ok in *. rewrite PC in B5. prj. unfold nrow in *; prj.
        destruct B5 as (R & O & Lc & Hi & ND & Hl & G1 & G2).
        pose proof (head s i _ _ A P Li C) as HD.
        assert (Q : length (got s i) = length (rows s)). { apply G2; auto. intros [? | (? & ?)]; [auto | lia]. }
        rewrite Q, full_val in HD by auto.
        split; [auto |]. split; [| split; [| split]]; auto.
        * intros d Ld OF. rewrite got_len. destruct (Nat.eq_dec d i) as [-> | N]; [congruence | auto].
        * unfold ended; prj. rewrite B3. apply cnt_same; lia.
        * repeat (apply conj); auto.
          -- intros c Hc. apply Hl in Hc. lia.
          -- intros c Lc' N. rewrite got_len. destruct (Nat.eq_dec c i) as [-> | Nc].
             ++ rewrite fupd_eq. split; [lia | auto].
             ++ rewrite fupd_neq by auto. apply G1; auto. destruct N as [? | (? & ?)]; auto. right; split; auto; lia.
          -- intros c Lc' N. rewrite got_len. destruct (Nat.eq_dec c i) as [-> | Nc].
             ++ exfalso. apply N. right. split; auto. intros Hc. apply Hl in Hc. lia.
             ++ apply G2; auto. intros [? | (? & ?)]; apply N; [auto | right; split; auto; lia].
      + destruct l as [| c l].
        { injection E as <-. unfold finish. split; prj; [auto |]. intros P. unfold pre in P; prj. fold (pre s) in P.
          specialize (B P). destruct B as (B1 & B2 & B3 & B4 & B5).
          unfold pc_ok in *. rewrite PC in B5. prj. unfold nrow in *; prj.
          destruct B5 as (R & O & ND & Hl & G1 & G2).
          assert (MN : marks var n s = []).
          { apply marks_nil. intros i Li. destruct (G1 i Li) as (_ & ->); [auto |].
            destruct (nth_error (xs i) (length (rows s))); discriminate. }
          rewrite MN. simpl (length []). rewrite Nat.add_0_r. rewrite app_length. simpl (length [_]).
          assert (CN : match var with Gt => cnt s | Lb => cnt s end = cnt s) by (destruct var; auto).
          rewrite CN. rewrite O in B4.
          assert (C0 : cnt s = 0).
          { rewrite B3. rewrite (filter_ext_len _ (fun _ => false)).
            - clear. induction (seq 0 n); simpl; auto.
            - intros c Hc. apply in_seq in Hc. unfold ended. destruct (G1 c) as (-> & _); [lia | auto |].
              apply Nat.eqb_neq. lia. }
          split; [| split; [| split; [| split]]].
          - rewrite Nat.add_1_r, seq_S, map_app. simpl. rewrite B1 at 1. f_equal. f_equal. f_equal.
            unfold clean, row_of. rewrite MN. apply map_ext_in. intros c Hc. apply in_seq in Hc. simpl.
            apply G1; auto. lia.
          - intros c Lc Oc. apply B2; auto. destruct var; auto. simpl in Oc. rewrite orb_false_r in Oc. auto.
          - unfold ended in *; prj. auto.
          - rewrite C0. destruct var; auto. symmetry. apply Nat.leb_gt. auto.
          - split; [lia |]. intros c Lc. left. destruct (G1 c Lc) as (-> & _); auto. lia. }
        destruct (ch s c) as [| x r] eqn:C; try discriminate.
        injection E as <-. unfold read. split; prj. { apply (sent_read s c x r); auto. }
        intros P. unfold pre in P; prj. fold (pre s) in P. specialize (B P).
        destruct B as (B1 & B2 & B3 & B4 & B5).
        unfold pc_ok in *. rewrite PC in B5. prj. unfold nrow in *; prj.
        destruct B5 as (R & O & ND & Hl & G1 & G2).
        assert (Lc : c < n) by (apply Hl; left; auto).
        pose proof (head s c _ _ A P Lc C) as HD.
        assert (Q : length (got s c) = length (rows s)). { apply G2; auto. left; auto. }
        rewrite Q, full_val in HD by auto. inversion ND; subst.
        split; [auto |]. split; [| split; [| split]]; auto.
        * intros d Ld OF. rewrite got_len. destruct (Nat.eq_dec d c) as [-> | N]; [| auto].
          apply B2 in OF; auto. lia.
        * unfold ended; prj. rewrite B3. apply cnt_same; lia.
        * repeat (apply conj); auto.
          -- intros d Hd. apply Hl. right; auto.
          -- intros d Ld N. rewrite got_len. destruct (Nat.eq_dec d c) as [-> | Nc].
             ++ rewrite fupd_eq. split; [lia | auto].
             ++ rewrite fupd_neq by auto. apply G1; auto. intros [? | ?]; [congruence | auto].
          -- intros d Ld N. rewrite got_len. destruct (Nat.eq_dec d c) as [-> | Nc]; [contradiction |].
             apply G2; auto. right; auto.
  Qed.

  Lemma inv_init : inv init_st.
  Proof using Hlen Hn.
    split; prj; [intros; reflexivity |]. intros _. unfold pc_ok, nrow; simpl.
    split; [reflexivity |]. split; [discriminate |]. split.
    - rewrite (filter_ext_len _ (fun _ => false)); [| intros; reflexivity]. clear. induction (seq 0 n); simpl; auto.
    - split; [symmetry; apply Nat.leb_gt; auto |]. split; [lia | auto].
  Qed.

  Lemma inv_exec : forall l (t : st X), Forall gathers l -> exec step init_st l = Some t -> inv t.
  Proof using Hlen Hn.
    intros l t F E. apply gexec in E; auto. revert E. apply (exec_inv gstep inv); [apply inv_step | apply inv_init].
  Qed.

  Lemma filter_all_seq : forall (f : nat -> bool) l, length l <= length (filter f l) -> forall c, In c l -> f c = true.
  Proof using Hlen Hn.
    assert (B : forall (f : nat -> bool) l, length (filter f l) <= length l).
    { induction l; simpl; auto. destruct (f a); simpl; lia. }
    induction l as [| a l IH]; intros L c []; simpl in L; specialize (B f l).
    - subst. destruct (f c); auto. lia.
    - apply IH; auto. destruct (f a); simpl in L; lia.
  Qed.

  Lemma rows_ok : forall l (t : st X), Forall gathers l -> exec step init_st l = Some t -> pre t ->
    rows t = map (fun k => (row_of n xs k, true)) (seq 0 (nrow t)) /\ nrow t <= m /\
    (over t = true -> nrow t = m /\ forall c, c < n -> length (got t c) = S m).
  Proof using Hlen Hn.
    intros l t F E P. destruct (inv_exec l t F E) as (A & B). destruct (B P) as (B1 & B2 & B3 & B4 & B5).
    split; auto. unfold pc_ok in B5. split.
    - destruct (at_ t); lia.
    - intros O. assert (Z : forall c, c < n -> length (got t c) = S m).
      { intros c Lc. apply Nat.eqb_eq. apply (filter_all_seq (ended t) (seq 0 n)).
        - rewrite seq_length, <- B3. rewrite O in B4. symmetry in B4. apply Nat.leb_le in B4. auto.
        - apply in_seq. lia. }
      split; [| exact Z]. destruct (at_ t).
      + destruct B5 as (R & G). destruct (G 0 Hn) as [Q | (Q & _)]; auto. rewrite (Z 0 Hn) in Q. lia.
      + destruct B5 as (_ & B5 & _). congruence.
      + destruct B5 as (_ & B5 & _). congruence.
  Qed.

  Definition done_sending (s : st X) : Prop := forall c, c < n -> sent s c = fullc c.

  Lemma prefix_refl : forall A (l : list A), prefix l l.
  Proof using Hlen Hn. intros. exists []. rewrite app_nil_r. auto. Qed.

  Lemma progress : forall (t : st X), inv t -> done_sending t -> over t = false ->
    exists a t', own a /\ gathers a /\ step t a = Some t'.
  Proof using Hlen Hn.
    intros t (A & B) D O.
    assert (P : pre t) by (intros c Lc; rewrite (D c Lc); apply prefix_refl).
    destruct (B P) as (B1 & B2 & B3 & B4 & B5).
    assert (NE : forall c, c < n -> length (got t c) < S m -> exists x r, ch t c = x :: r).
    { intros c Lc L. pose proof (A c) as Q. rewrite (D c Lc) in Q.
      assert (W : length (fullc c) = length (got t c) + length (ch t c)) by (rewrite Q, app_length; auto).
      rewrite full_len in W by auto. destruct (ch t c); simpl in W; [lia | eauto]. }
    unfold pc_ok in B5. destruct (at_ t) as [| i l | l] eqn:PC.
    - destruct B5 as (R & G).
      assert (EX : exists c, c < n /\ ended t c = false).
      { rewrite O in B4. symmetry in B4. apply Nat.leb_gt in B4. rewrite B3 in B4.
        assert (K : forall l, length (filter (ended t) l) < length l -> exists c, In c l /\ ended t c = false).
        { induction l as [| a l IH]; simpl; intros W; [lia |]. destruct (ended t a) eqn:Ea; simpl in W.
          - destruct IH as (c & ? & ?); [lia | eauto].
          - eauto. }
        destruct (K (seq 0 n)) as (c & Hc & Ec); [rewrite seq_length; auto |].
        apply in_seq in Hc. exists c. split; [lia | auto]. }
      destruct EX as (c & Lc & Ec). unfold ended in Ec. apply Nat.eqb_neq in Ec.
      destruct (NE c Lc) as (x & r & C). { destruct (G c Lc) as [? | (? & ?)]; lia. }
      assert (OF : off t c = false). { destruct (off t c) eqn:Q; auto. apply B2 in Q; auto. lia. }
      exists (Take c true). unfold AgModel.step. rewrite PC, O, OF, C. rewrite (proj2 (Nat.ltb_lt c n) Lc). simpl.
      destruct x; eexists; repeat split; auto.
    - exists Turn. unfold AgModel.step. rewrite PC. destruct (n <=? i); [eexists; repeat split; auto |].
      destruct ((i =? cur t) || off t i); [eexists; repeat split; auto |].
      destruct (ch t i); eexists; repeat split; auto.
    - exists Turn. unfold AgModel.step. rewrite PC. destruct l as [| c l]; [eexists; repeat split; auto |].
      destruct B5 as (R & _ & _ & Hl & _ & G2). assert (Lc : c < n) by (apply Hl; left; auto).
      destruct (NE c Lc) as (x & r & C). { rewrite (G2 c Lc); [lia | left; auto]. }
      rewrite C. eexists; repeat split; auto.
  Qed.
End P.

(** Termination: own steps use up the messages. *)
Section T.
  Context {X : Type}.
  Variable var : variant.
  Variable n fb : nat.
  Notation step := (@step X var n fb).

  Definition total (s : st X) : nat := fold_right (fun c a => length (ch s c) + a) 0 (seq 0 n).
  Definition pcm (s : st X) : nat :=
    match at_ s with Idle => 0 | First i l => 2 * (n - i) + length l + 2 | Retry l => length l + 1 end.
  Definition meas (s : st X) : nat := total s * (2 * n + 3) + pcm s.

  Lemma sum_read : forall (f : nat -> list (msg X)) c x r, f c = x :: r -> forall k a,
    let S1 := fold_right (fun d z => length (f d) + z) 0 (seq a k) in
    let S2 := fold_right (fun d z => length (fupd f c r d) + z) 0 (seq a k) in
    S2 <= S1 /\ (a <= c -> c < a + k -> S1 = S (S2)).
  Proof.
    intros f c x r E. induction k as [| k IH]; intros a; simpl.
    - split; [lia | lia].
    - destruct (IH (S a)) as (I1 & I2). simpl in *. destruct (Nat.eq_dec a c) as [-> | N].
      + rewrite fupd_eq, E. simpl. split; [lia |]. intros _ _. f_equal. f_equal.
        clear. assert (H : forall l, (forall d, In d l -> d <> c) ->
          fold_right (fun d z => length (f d) + z) 0 l = fold_right (fun d z => length (fupd f c r d) + z) 0 l).
        { induction l as [| b l IH]; intros Q; simpl; auto. rewrite fupd_neq by (apply Q; left; auto).
          rewrite IH; auto. intros d Hd. apply Q. right; auto. }
        apply H. intros d Hd. apply in_seq in Hd. lia.
      + rewrite fupd_neq by auto. split; [lia |]. intros. rewrite I2 by lia. lia.
  Qed.

  (** Retry lists only name channels. *)
  Definition pl (s : st X) : Prop :=
    match at_ s with Idle => True | First i l => Forall (fun c => c < n) l | Retry l => Forall (fun c => c < n) l end.

  Lemma pl_step : forall (s : st X) a t, pl s -> step s a = Some t -> pl t.
  Proof.
    intros s a t P E. unfold pl in *. destruct a as [c mm | c g |]; unfold AgModel.step in E.
    - destruct ((c <? n) && _); [| discriminate]. injection E as <-. exact P.
    - destruct (at_ s); try discriminate. destruct (over s || off s c || negb (c <? n)); try discriminate.
      destruct (ch s c) as [| [x |] r]; try discriminate; [destruct g |]; injection E as <-; simpl; auto.
    - destruct (at_ s) as [| i l | [| c l]]; try discriminate.
      + destruct (Nat.leb_spec n i); [injection E as <-; exact P |].
        destruct ((i =? cur s) || off s i); [injection E as <-; exact P |].
        destruct (ch s i); injection E as <-; simpl; auto.
      + injection E as <-. simpl. auto.
      + destruct (ch s c); [discriminate |]. injection E as <-. simpl. inversion P; auto.
  Qed.

  Lemma meas_own : forall (s : st X) a t, pl s -> own a -> step s a = Some t -> meas t < meas s.
  Proof.
    intros s a t P O E. unfold meas, total, pcm, pl in *. destruct a as [c mm | c g |]; unfold AgModel.step in E.
    - destruct O.
    - destruct (at_ s); try discriminate.
      destruct (over s || off s c) eqn:Q; simpl in E; try discriminate.
      destruct (Nat.ltb_spec c n) as [L | L]; simpl in E; try discriminate.
      destruct (ch s c) as [| x r] eqn:C; try discriminate.
      destruct (sum_read (ch s) c _ _ C n 0) as (_ & S2). specialize (S2 ltac:(lia) ltac:(lia)). simpl in S2.
      destruct x as [x |]; [destruct g |]; injection E as <-; cbn [ch at_ length]; rewrite S2; nia.
    - destruct (at_ s) as [| i l | [| c l]]; try discriminate.
      + destruct (Nat.leb_spec n i); [injection E as <-; cbn [ch at_]; lia |].
        destruct ((i =? cur s) || off s i); [injection E as <-; cbn [ch at_]; lia |].
        destruct (ch s i) as [| x r] eqn:C; injection E as <-; unfold read; cbn [ch at_ length]; [lia |].
        destruct (sum_read (ch s) i _ _ C n 0) as (S1 & _). simpl in S1. nia.
      + injection E as <-. cbn [ch at_ length finish]. lia.
      + destruct (ch s c) as [| x r] eqn:C; [discriminate |]. injection E as <-. unfold read; cbn [ch at_ length].
        destruct (sum_read (ch s) c _ _ C n 0) as (S1 & _). simpl in S1. nia.
  Qed.

  Lemma own_bound : forall l (s t : st X), pl s -> Forall own l -> exec step s l = Some t ->
    length l + meas t <= meas s.
  Proof.
    induction l as [| a l IH]; intros s t P F E; cbn [exec] in E.
    - injection E as <-. simpl. lia.
    - destruct (step s a) as [s1 |] eqn:E1; [| discriminate]. inversion F; subst.
      apply (IH s1 t) in E; auto; [| eapply pl_step; eauto].
      apply meas_own in E1; auto. simpl. lia.
  Qed.

  Lemma pl_exec : forall l (t : st X), exec step init_st l = Some t -> pl t.
  Proof. intros l t. apply (exec_inv step pl); [apply pl_step | exact Logic.I]. Qed.
End T.
