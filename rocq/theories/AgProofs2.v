(** Proofs about all_gather for any streams: nothing is lost, and what the result says. *)
From Coq Require Import List Arith Bool Lia.
From Verif Require Import Base AgModel AgSpec AgProofs.
Import ListNotations.

Section P.
  Context {X : Type}.
  Variable var : variant.
  Variable n : nat.
  Notation step := (@step X var n 0).

  Definition mid (s : st X) : Prop :=
    match at_ s with
    | Idle => True
    | First i l =>
        i <= n /\ NoDup l /\ (forall c, In c l -> c < i /\ c <> cur s /\ arr s c = None) /\
        (forall c, i <= c -> c <> cur s -> arr s c = None) /\
        (arr s (cur s) <> None) /\
        (forall c, c < i -> ~ In c l -> arr s c <> None \/ off s c = true)
    | Retry l =>
        NoDup l /\ (forall c, In c l -> c < n /\ arr s c = None) /\
        (forall c, c < n -> ~ In c l -> arr s c <> None \/ off s c = true)
    end.
  Definition pend (s : st X) (c : nat) : list X := match at_ s with Idle => [] | _ => slot (arr s c) end.
  Definition row_ok (s : st X) (rb : row X * bool) : Prop :=
    length (fst rb) = n /\
    (snd rb = true -> forall c, c < n -> nth c (fst rb) None = None -> In Eos (got s c)) /\
    (snd rb = false -> exists c, c < n /\ nth c (fst rb) None = None /\ In Eos (got s c)) /\
    (var = Gt -> ~ In (Some Eos) (fst rb)).

  Definition inv (s : st X) : Prop :=
    (forall c, c < n -> vals (got s c) = column c (log s) ++ pend s c) /\
    (forall c, off s c = true -> In Eos (got s c)) /\
    (at_ s <> Idle -> forall c, arr s c = Some Eos -> In Eos (got s c)) /\
    (forall rb, In rb (rows s) -> row_ok s rb) /\ mid s.

  Ltac prj := cbn [ch off cnt arr cur at_ over sent got rows log] in *.

  Ltac sp5 := split; [| split; [| split; [| split]]].

  Lemma vals_snoc : forall l (x : msg X), vals (l ++ [x]) = vals l ++ slot (Some x).
  Proof. intros. unfold vals. rewrite flat_map_app. simpl. rewrite app_nil_r. destruct x; auto. Qed.
  Lemma column_snoc : forall c l (r : row X), column c (l ++ [r]) = column c l ++ slot (nth c r None).
  Proof. intros. unfold column. rewrite flat_map_app. simpl. rewrite app_nil_r. auto. Qed.
  Lemma nth_row : forall (f : nat -> option (msg X)) c, c < n -> nth c (map f (seq 0 n)) None = f c.
  Proof.
    intros. rewrite nth_indep with (d' := f 0) by (rewrite map_length, seq_length; auto).
    rewrite map_nth, seq_nth; auto.
  Qed.

  Lemma in_got : forall (s : st X) c x d, In Eos (got s d) -> In Eos (fupd (got s) c (got s c ++ [x]) d).
  Proof.
    intros. destruct (Nat.eq_dec d c) as [-> | N]; [rewrite fupd_eq; apply in_or_app; auto | rewrite fupd_neq; auto].
  Qed.
  Lemma row_mono : forall s t rb, (forall c, In Eos (got s c) -> In Eos (got t c)) -> row_ok s rb -> row_ok t rb.
  Proof.
    intros s t rb H (A & B & C & D). repeat split; auto. intros Q. destruct (C Q) as (c & ? & ? & ?). eauto.
  Qed.

  Lemma inb_in : forall i l, inb i l = true <-> In i l.
  Proof.
    intros. unfold inb. rewrite existsb_exists. split.
    - intros (x & H & E). apply Nat.eqb_eq in E. subst. auto.
    - intros. exists i. split; auto. apply Nat.eqb_refl.
  Qed.
  Lemma range_le : forall s : st X, range var n s <= n.
  Proof.
    intros s. unfold range, alive. destruct var; auto.
    assert (B : forall (f : nat -> bool) l, length (filter f l) <= length l).
    { induction l; simpl; auto. destruct (f a); simpl; lia. }
    specialize (B (fun i => negb (off s i)) (seq 0 n)). rewrite seq_length in B. auto.
  Qed.
  Lemma marks_in : forall (s : st X) i, In i (marks var n s) -> i < n /\ arr s i = Some Eos.
  Proof.
    intros s i H. unfold marks in H. apply filter_In in H. destruct H as (H & E). apply in_seq in H.
    pose proof (range_le s). split; [lia |]. destruct (arr s i) as [[x |] |]; try discriminate; auto.
  Qed.

  Lemma inv_step : forall (s : st X) a t, inv s -> step s a = Some t -> inv t.
  Proof.
    intros s a t (A & B & C & D & M) E. destruct a as [c mm | c g |]; unfold AgModel.step in E.
    - destruct ((c <? n) && _); [| discriminate]. injection E as <-. sp5; prj; auto.
    - destruct (at_ s) eqn:PC; try discriminate.
      destruct (over s || off s c) eqn:Q; simpl in E; try discriminate.
      destruct (Nat.ltb_spec c n) as [L | L]; simpl in E; try discriminate.
      destruct (ch s c) as [| x r] eqn:CH; try discriminate.
      assert (A' : forall d, d < n -> vals (got s d) = column d (log s)).
      { intros d Ld. rewrite A by auto. unfold pend. rewrite PC, app_nil_r. auto. }
      destruct x as [x |]; [destruct g |]; injection E as <-.
      + sp5; prj.
        * intros d Ld. unfold pend; prj. rewrite chid0. destruct (Nat.eq_dec d c) as [-> | N].
          -- rewrite !fupd_eq, vals_snoc, A' by auto. auto.
          -- rewrite !fupd_neq by auto. rewrite A' by auto. simpl. rewrite app_nil_r. auto.
        * intros d O. apply in_got. auto.
        * intros _ d. rewrite chid0. destruct (Nat.eq_dec d c) as [-> | N];
            [rewrite fupd_eq | rewrite fupd_neq by auto]; discriminate.
        * intros rb H. eapply row_mono; [| apply D; auto]. prj. intros; apply in_got; auto.
        * unfold mid; prj. rewrite chid0. repeat (apply conj); try lia.
          -- constructor.
          -- intros d [].
          -- intros d _ N. rewrite fupd_neq by auto. auto.
          -- rewrite fupd_eq. discriminate.
          
      + sp5; prj; auto.
        * intros d Ld. unfold pend; prj. rewrite column_snoc, chid0, app_nil_r, nth_row by auto.
          destruct (Nat.eq_dec d c) as [-> | N].
          -- rewrite !fupd_eq, vals_snoc, A' by auto. auto.
          -- rewrite !fupd_neq by auto. rewrite A' by auto. simpl. rewrite app_nil_r. auto.
        * intros d O. apply in_got. auto.
        * congruence.
        * intros rb H. eapply row_mono; [| apply D; auto]. prj. intros; apply in_got; auto.
        * exact Logic.I.
      + sp5; prj; auto.
        * intros d Ld. unfold pend; prj. rewrite app_nil_r.
          destruct (Nat.eq_dec d c) as [-> | N].
          -- rewrite !fupd_eq, vals_snoc, A' by auto. simpl. rewrite app_nil_r. auto.
          -- rewrite !fupd_neq by auto. rewrite A' by auto. auto.
        * intros d O. destruct (Nat.eq_dec d c) as [-> | N].
          -- rewrite fupd_eq. apply in_or_app. right. left. auto.
          -- apply in_got. apply B. destruct var; auto. rewrite fupd_neq in O; auto.
        * congruence.
        * intros rb H. eapply row_mono; [| apply D; auto]. prj. intros; apply in_got; auto.
        * exact Logic.I.
    - destruct (at_ s) as [| i l | l] eqn:PC; try discriminate.
      + unfold mid in M. rewrite PC in M. destruct M as (M1 & M2 & M3 & M4 & M5 & M6).
        specialize (C ltac:(discriminate)).
        assert (A' : forall d, d < n -> vals (got s d) = column d (log s) ++ slot (arr s d)).
        { intros d Ld. rewrite A by auto. unfold pend. rewrite PC. auto. }
        destruct (Nat.leb_spec n i) as [Li | Li].
        { injection E as <-. sp5; prj; auto. unfold mid; prj.
          assert (i = n) by lia. subst i. repeat (apply conj); auto.
          intros c Hc. split; apply M3; auto. }
        destruct ((i =? cur s) || off s i) eqn:SK.
        { injection E as <-. sp5; prj; auto. unfold mid; prj. repeat (apply conj); auto.
          - intros c Hc. split; [| split]; try apply M3; auto. pose proof (M3 c Hc). lia.
          - intros c Lc N. apply M4; auto. lia.
          - intros c Lc N. destruct (Nat.eq_dec c i) as [-> | Nc]; [| apply M6; auto; lia].
            apply orb_prop in SK. destruct SK as [SK | SK]; auto. apply Nat.eqb_eq in SK. subst i. auto. }
        apply orb_false_elim in SK. destruct SK as (SK1 & SK2). apply Nat.eqb_neq in SK1.
        destruct (ch s i) as [| x r] eqn:CH.
        { injection E as <-. sp5; prj; auto. unfold mid; prj. repeat (apply conj); auto.
          - constructor; auto. intros Hc. apply M3 in Hc. lia.
          - intros c [<- | Hc]; [split; [| split]; auto |].
            split; [| split]; try apply M3; auto. pose proof (M3 c Hc). lia.
          - intros c Lc N. apply M4; auto. lia.
          - intros c Lc N. simpl in N. apply M6; [| tauto]. destruct (Nat.eq_dec c i); [subst; tauto | lia]. }
        injection E as <-. unfold read. sp5; prj.
        * intros d Ld. unfold pend; prj. destruct (Nat.eq_dec d i) as [-> | N].
          -- rewrite !fupd_eq, vals_snoc, A' by auto. rewrite (M4 i) by auto. simpl. rewrite app_nil_r. auto.
          -- rewrite !fupd_neq by auto. auto.
        * intros d O. apply in_got. auto.
        * intros _ d Ed. destruct (Nat.eq_dec d i) as [-> | N].
          -- rewrite fupd_eq in *. injection Ed as ->. apply in_or_app. right. left. auto.
          -- rewrite fupd_neq in * by auto. auto.
        * intros rb H. eapply row_mono; [| apply D; auto]. prj. intros; apply in_got; auto.
        * unfold mid; prj. repeat (apply conj); auto.
          -- intros c Hc. pose proof (M3 c Hc) as (? & ? & ?). rewrite fupd_neq by lia. split; [lia | auto].
          -- intros c Lc N. rewrite fupd_neq by lia. apply M4; auto. lia.
          -- rewrite fupd_neq by auto. auto.
          -- intros c Lc N. destruct (Nat.eq_dec c i) as [-> | Nc].
             ++ rewrite fupd_eq. left. discriminate.
             ++ rewrite fupd_neq by auto. apply M6; auto. lia.
      + unfold mid in M. rewrite PC in M. destruct M as (M2 & M3 & M6).
        specialize (C ltac:(discriminate)).
        assert (A' : forall d, d < n -> vals (got s d) = column d (log s) ++ slot (arr s d)).
        { intros d Ld. rewrite A by auto. unfold pend. rewrite PC. auto. }
        destruct l as [| c l].
        { injection E as <-. unfold finish. sp5; prj.
          - intros d Ld. unfold pend; prj. rewrite app_nil_r, column_snoc, A' by auto. unfold clean.
            rewrite nth_row by auto. destruct (inb d (marks var n s)) eqn:I; auto.
            apply inb_in, marks_in in I. destruct I as (_ & ->). auto.
          - intros d O. destruct var eqn:V; auto. apply orb_prop in O. destruct O as [O | O]; auto.
            apply inb_in in O. rewrite <- V in O. apply marks_in in O. apply C. apply O.
          - congruence.
          - intros rb H. apply in_app_or in H. destruct H as [H | [<- | []]].
            { eapply row_mono; [| apply D; auto]. auto. }
            split; [| split; [| split]]; cbn [fst snd got].
            + unfold clean. rewrite map_length, seq_length. auto.
            + intros Em d Ld. unfold clean. rewrite nth_row by auto.
              destruct (inb d (marks var n s)) eqn:I.
              * apply inb_in in I. destruct (marks var n s); [destruct I | discriminate].
              * intros Z. destruct (M6 d Ld) as [W | W]; prj; [intros [] | congruence | apply B; auto].
            + intros Em. destruct (marks var n s) as [| d q] eqn:MK; [discriminate |].
              assert (I : In d (marks var n s)) by (rewrite MK; left; auto).
              pose proof (marks_in _ _ I) as (Ld & Ad). exists d. split; auto. split; auto.
              unfold clean. rewrite nth_row by auto. apply inb_in in I. rewrite I. auto.
            + intros V I. unfold clean in I. apply in_map_iff in I. destruct I as (d & Ed & Hd).
              destruct (inb d (marks var n s)) eqn:I; [discriminate |].
              assert (J : In d (marks var n s)).
              { unfold marks. apply filter_In. unfold range. rewrite V. split; auto. rewrite Ed. auto. }
              apply inb_in in J. congruence.
          - exact Logic.I. }
        destruct (ch s c) as [| x r] eqn:CH; try discriminate.
        injection E as <-. unfold read. destruct (M3 c (or_introl eq_refl)) as (Lc & Nc). inversion M2; subst.
        sp5; prj.
        * intros d Ld. unfold pend; prj. destruct (Nat.eq_dec d c) as [-> | N].
          -- rewrite !fupd_eq, vals_snoc, A' by auto. rewrite Nc. simpl. rewrite app_nil_r. auto.
          -- rewrite !fupd_neq by auto. auto.
        * intros d O. apply in_got. auto.
        * intros _ d Ed. destruct (Nat.eq_dec d c) as [-> | N].
          -- rewrite fupd_eq in *. injection Ed as ->. apply in_or_app. right. left. auto.
          -- rewrite fupd_neq in * by auto. auto.
        * intros rb H. eapply row_mono; [| apply D; auto]. prj. intros; apply in_got; auto.
        * unfold mid; prj. repeat (apply conj); auto.
          -- intros d Hd. destruct (M3 d (or_intror Hd)). rewrite fupd_neq by congruence. auto.
          -- intros d Ld N. destruct (Nat.eq_dec d c) as [-> | N'].
             ++ rewrite fupd_eq. left. discriminate.
             ++ rewrite fupd_neq by auto. apply M6; auto. intros [? | ?]; [congruence | auto].
  Qed.

  Lemma inv_exec : forall l (t : st X), exec step init_st l = Some t -> inv t.
  Proof.
    intros l t. apply (exec_inv step inv); [apply inv_step |].
    split; [| split; [| split; [| split]]]; simpl; auto; try discriminate.
    - intros rb [].
    - exact Logic.I.
  Qed.

  Definition inv0 (s : st X) : Prop := forall c, sent s c = got s c ++ ch s c.
  Lemma inv0_step : forall (s : st X) a t, inv0 s -> step s a = Some t -> inv0 t.
  Proof.
    intros s a t A E. destruct a as [c mm | c g |]; unfold AgModel.step in E.
    - destruct ((c <? n) && _); [| discriminate]. injection E as <-. intros d; prj.
      destruct (Nat.eq_dec d c) as [-> | N].
      * rewrite !fupd_eq, A, app_assoc. auto.
      * rewrite !fupd_neq by auto. apply A.
    - destruct (at_ s); try discriminate. destruct (over s || off s c || negb (c <? n)); try discriminate.
      destruct (ch s c) as [| x r] eqn:C; try discriminate.
      assert (R : forall d, sent s d = fupd (got s) c (got s c ++ [x]) d ++ fupd (ch s) c r d).
      { intros d. destruct (Nat.eq_dec d c) as [-> | N].
        - rewrite !fupd_eq, A, C, <- app_assoc. auto.
        - rewrite !fupd_neq by auto. apply A. }
      destruct x; [destruct g |]; injection E as <-; exact R.
    - assert (R : forall c x r, ch s c = x :: r -> forall d, sent s d = fupd (got s) c (got s c ++ [x]) d ++ fupd (ch s) c r d).
      { intros c x r C d. destruct (Nat.eq_dec d c) as [-> | N].
        - rewrite !fupd_eq, A, C, <- app_assoc. auto.
        - rewrite !fupd_neq by auto. apply A. }
      destruct (at_ s) as [| i l | [| c l]]; try discriminate.
      + destruct (n <=? i); [injection E as <-; exact A |].
        destruct ((i =? cur s) || off s i); [injection E as <-; exact A |].
        destruct (ch s i) as [| x r] eqn:C; injection E as <-; [exact A | exact (R _ _ _ C)].
      + injection E as <-. exact A.
      + destruct (ch s c) as [| x r] eqn:C; [discriminate |]. injection E as <-. exact (R _ _ _ C).
  Qed.
  Lemma inv0_exec : forall l (t : st X), exec step init_st l = Some t -> inv0 t.
  Proof. intros l t. apply (exec_inv step inv0); [apply inv0_step | intros c; reflexivity]. Qed.
End P.
