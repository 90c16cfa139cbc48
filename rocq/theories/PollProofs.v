From Coq Require Import List Arith Bool Lia FinFun.
From Verif Require Import Base PollModel PollSpec.
Import ListNotations.

Lemma src_eqb_spec : forall a b, reflect (a = b) (src_eqb a b).
Proof.
  intros a b. destruct a, b; simpl; try (constructor; congruence);
    destruct (Nat.eqb_spec i i0) + destruct (Nat.eqb_spec j j0); constructor; congruence.
Qed.
Lemma src_eqb_refl : forall a, src_eqb a a = true.
Proof. intro a. destruct (src_eqb_spec a a); congruence. Qed.

Lemma upd_eq : forall {T} (f : src -> T) c x, upd f c x c = x.
Proof. intros. unfold upd. rewrite src_eqb_refl. reflexivity. Qed.
Lemma upd_neq : forall {T} (f : src -> T) c x d, d <> c -> upd f c x d = f d.
Proof. intros. unfold upd. destruct (src_eqb_spec d c); congruence. Qed.

Section P.
  Context {X : Type}.
  Variable F : cfg.
  Notation st := (st X).
  Notation step := (step F).
  Notation exec := (exec step).

  Lemma vals_app : forall (a b : list (msg X)), vals (a ++ b) = vals a ++ vals b.
  Proof. induction a as [|[x| |] a IH]; intro b; simpl; rewrite ?IH; reflexivity. Qed.
  Lemma given_app : forall c (a b : list (event X)), given c (a ++ b) = given c a ++ given c b.
  Proof.
    induction a as [|[d r x| |d] a IH]; intro b; simpl; rewrite ?IH; try reflexivity.
    destruct (src_eqb d c); reflexivity.
  Qed.

  Lemma remove_nth_length : forall {T} (l : list T) k, k < length l -> length (remove_nth k l) = length l - 1.
  Proof.
    induction l as [|a l IH]; intros [|k] H; simpl in *; try lia. rewrite IH by lia. destruct l; simpl in *; lia.
  Qed.
  Lemma remove_nth_in : forall {T} (l : list T) k x, In x (remove_nth k l) -> In x l.
  Proof.
    induction l as [|a l IH]; intros [|k] x H; simpl in *; auto.
    destruct H as [->|H]; [left; reflexivity|right; eauto].
  Qed.
  Lemma remove_nth_other : forall {T} (l : list T) k c x,
    nth_error l k = Some c -> In x l -> x <> c -> In x (remove_nth k l).
  Proof.
    induction l as [|a l IH]; intros [|k] c x E H N; simpl in *; try discriminate.
    - injection E as E. destruct H; congruence.
    - destruct H as [->|H]; [left; reflexivity|right; eauto].
  Qed.
  Lemma remove_nth_nodup : forall {T} (l : list T) k, NoDup l -> NoDup (remove_nth k l).
  Proof.
    induction l as [|a l IH]; intros [|k] H; simpl; auto.
    - inversion H; assumption.
    - inversion H; subst. constructor; [|apply IH; assumption]. intro I. apply remove_nth_in in I. contradiction.
  Qed.
  Lemma nodup_remove_nth_in : forall {T} (l : list T) k c, NoDup l -> nth_error l k = Some c -> ~ In c (remove_nth k l).
  Proof.
    induction l as [|a l IH]; intros [|k] c H E; simpl in *; try discriminate.
    - injection E as <-. inversion H; assumption.
    - inversion H; subst. intros [->|I].
      + apply H2. eapply nth_error_In; eauto.
      + eapply IH; eauto.
  Qed.

  (** Number of channels of the list whose mark has not been read. *)
  Definition isopen (g : src -> list (msg X)) (c : src) : bool := negb (existsb is_eos (g c)).
  Definition opens (g : src -> list (msg X)) : nat := length (filter (isopen g) (sources F)).

  Lemma nodup_map_inj : forall {A B} (f : A -> B) l, (forall x y, f x = f y -> x = y) -> NoDup l -> NoDup (map f l).
  Proof. intros A B f l I N. apply Injective_map_NoDup; auto. Qed.
  Lemma nodup_app' : forall {T} (a b : list T), NoDup a -> NoDup b -> (forall x, In x a -> In x b -> False) -> NoDup (a ++ b).
  Proof.
    induction a as [|x a IH]; intros b Na Nb D; simpl; auto. inversion Na; subst. constructor.
    - rewrite in_app_iff. intros [I|I]; [contradiction|]. eapply D; [left; reflexivity|exact I].
    - apply IH; auto. intros y I J. eapply D; [right; exact I|exact J].
  Qed.
  Lemma avail0_nodup : NoDup (avail0 F).
  Proof.
    unfold avail0. apply nodup_app'; [|apply nodup_app'|];
      try (apply nodup_map_inj; [intros; congruence|apply seq_NoDup]).
    - intros x I J. apply in_map_iff in I, J. destruct I as (i & <- & _), J as (j & E & _). discriminate.
    - intros x I J. apply in_map_iff in I. rewrite in_app_iff, !in_map_iff in J.
      destruct I as (i & <- & _). destruct J as [(j & E & _)|(j & E & _)]; discriminate.
  Qed.
  Lemma avail0_inq : ~ In Inq (avail0 F).
  Proof.
    unfold avail0. rewrite !in_app_iff, !in_map_iff. intros [(j & E & _)|[(j & E & _)|(j & E & _)]]; discriminate.
  Qed.
  Lemma sources_nodup : NoDup (sources F).
  Proof.
    unfold sources. apply nodup_app'; [apply avail0_nodup| |].
    - destruct (inq F); repeat constructor; simpl; tauto.
    - intros x I J. destruct (inq F); simpl in J; [|contradiction]. destruct J as [<-|[]]. apply avail0_inq; assumption.
  Qed.
  Lemma existsb_src : forall c l, existsb (src_eqb c) l = true <-> In c l.
  Proof.
    intros c l. rewrite existsb_exists. split.
    - intros (x & I & E). destruct (src_eqb_spec c x); congruence.
    - intro I. exists c. split; [assumption|apply src_eqb_refl].
  Qed.

  Lemma opens_same : forall g c m, is_eos m = false -> opens (upd g c (g c ++ [m])) = opens g.
  Proof.
    intros g c m E. unfold opens. f_equal. apply filter_ext. intro d. unfold isopen, upd.
    destruct (src_eqb_spec d c); subst; auto. rewrite existsb_app. simpl. rewrite E, !orb_false_r. reflexivity.
  Qed.
  Lemma filter_one : forall (f f' : src -> bool) c l, NoDup l -> In c l -> f c = true -> f' c = false ->
    (forall d, d <> c -> f' d = f d) -> S (length (filter f' l)) = length (filter f l).
  Proof.
    intros f f' c l N I E E' O. induction l as [|a l IH]; [contradiction|].
    inversion N; subst. simpl. destruct I as [->|I].
    - rewrite E, E'. simpl. f_equal. f_equal. apply filter_ext_in. intros d J. apply O. intros ->. contradiction.
    - assert (a <> c) by (intros ->; contradiction). rewrite (O a) by assumption.
      destruct (f a); simpl; rewrite IH; auto.
  Qed.
  Lemma opens_eos : forall g c m, is_eos m = true -> In c (sources F) -> isopen g c = true ->
    S (opens (upd g c (g c ++ [m]))) = opens g.
  Proof.
    intros g c m E I O. unfold opens. apply (filter_one _ _ c); auto using sources_nodup.
    - unfold isopen. rewrite upd_eq, existsb_app. simpl. rewrite E, orb_true_r. reflexivity.
    - intros d N. unfold isopen. rewrite upd_neq by assumption. reflexivity.
  Qed.

  Record inv (s : st) : Prop := mkInv {
    i_fifo : forall c, sent s c = got s c ++ ch s c;
    i_last : forall c a m b, sent s c = a ++ m :: b -> is_eos m = true -> b = [];
    i_src : forall c, sent s c <> [] -> In c (sources F);
    i_given : forall c, given c (log s) = vals (got s c);
    i_nodup : NoDup (avail s);
    i_incl : incl (avail s) (avail0 F);
    i_gone : forall c, In c (avail0 F) -> ~ In c (avail s) -> In Eos (got s c);
    i_pos : pos s < length (avail s);
    i_left : left s = opens (got s);
    i_go : over s = false -> 0 < left s }.

  Lemma filter_all : forall {T} (f : T -> bool) l, (forall x, f x = true) -> filter f l = l.
  Proof. intros T f l H. induction l as [|a l IH]; simpl; [|rewrite H, IH]; reflexivity. Qed.

  Lemma inv_init : avail0 F <> [] -> inv (init_st F).
  Proof.
    intro N. assert (L : 0 < length (avail0 F)) by (destruct (avail0 F); simpl; [congruence|lia]).
    constructor; simpl; auto using avail0_nodup.
    - intros c a m b E. destruct a; discriminate.
    - congruence.
    - intros c I; exact I.
    - unfold opens. rewrite filter_all by reflexivity. unfold nw0, sources. rewrite app_length.
      destruct (inq F); reflexivity.
    - intros _. unfold nw0. lia.
  Qed.

  Lemma not_open_has : forall (l : list (msg X)), existsb is_eos l = true -> exists a m b, l = a ++ m :: b /\ is_eos m = true.
  Proof.
    intros l H. apply existsb_exists in H. destruct H as (m & I & E). apply in_split in I.
    destruct I as (a & b & ->). eauto.
  Qed.

  Lemma erases_facts : forall i (m : msg X), erases F i m = true -> m = Eos /\ 0 < i.
  Proof.
    intros i [x| |] H; simpl in H; try discriminate. split; [reflexivity|].
    repeat (apply andb_prop in H as [H ?]). destruct (Nat.ltb_spec 0 i); [assumption|discriminate].
  Qed.

  Lemma deliver_inv : forall s c io m r k u, inv s -> over s = false -> ch s c = m :: r -> k < length (avail s) ->
    In c (sources F) -> (forall i, io = Some i -> i = k /\ nth_error (avail s) i = Some c) -> inv (deliver F s c io m r k u).
  Proof.
    intros s c io m r k u [A B C D E G H I J K] O Ec Lk Ic Io.
    assert (Oc : isopen (got s) c = true).
    { unfold isopen. destruct (existsb is_eos (got s c)) eqn:Eo; [|reflexivity].
      apply not_open_has in Eo. destruct Eo as (a & m' & b & Eq & Em).
      specialize (A c). rewrite Eq, Ec in A. rewrite <- app_assoc in A. simpl in A.
      apply B in A; [|assumption]. destruct b; discriminate. }
    assert (A' : forall d, sent s d = upd (got s) c (got s c ++ [m]) d ++ upd (ch s) c r d).
    { intro d. unfold upd. destruct (src_eqb_spec d c) as [->|]; [|apply A].
      rewrite <- app_assoc. simpl. rewrite <- Ec. apply A. }
    assert (V : forall d, vals (upd (got s) c (got s c ++ [m]) d) =
                vals (got s d) ++ match m with Val x => if src_eqb c d then [x] else [] | _ => [] end).
    { intro d. unfold upd. destruct (src_eqb_spec d c) as [->|N].
      - rewrite vals_app. destruct m; simpl; rewrite ?src_eqb_refl; reflexivity.
      - destruct (src_eqb_spec c d); [congruence|]. destruct m; rewrite ?app_nil_r; reflexivity. }
    assert (G' : forall d, In Eos (got s d) -> In Eos (upd (got s) c (got s c ++ [m]) d)).
    { intros d Id. unfold upd. destruct (src_eqb_spec d c) as [->|]; [|assumption].
      apply in_app_iff. left. assumption. }
    assert (Cst : forall (er : bool), (er = true -> exists i, io = Some i /\ erases F i m = true) ->
      let av := if er then match io with Some i => remove_nth i (avail s) | None => avail s end else avail s in
      NoDup av /\ incl av (avail0 F) /\
      (forall d, In d (avail0 F) -> ~ In d av -> In Eos (upd (got s) c (got s c ++ [m]) d)) /\
      (if er then 0 else k) < length av).
    { intros er He. destruct er; simpl.
      - destruct (He eq_refl) as (i & -> & Ee). destruct (Io i eq_refl) as [-> En].
        destruct (erases_facts _ _ Ee) as [-> Lp]. repeat split.
        + apply remove_nth_nodup. assumption.
        + intros d Id. apply G. eapply remove_nth_in; eauto.
        + intros d Id Nd. destruct (src_eqb_spec d c) as [->|N].
          * rewrite upd_eq. apply in_app_iff. right. left. reflexivity.
          * apply G'. apply H; [assumption|]. intro Ia. apply Nd. eapply remove_nth_other; eauto.
        + rewrite remove_nth_length by assumption. lia.
      - repeat split; auto. }
    unfold deliver. destruct m as [x| |].
    - constructor; simpl; auto.
      + intro d. rewrite given_app, D, V. simpl. destruct (src_eqb c d); reflexivity.
      + rewrite opens_same by reflexivity. assumption.
    - destruct (Cst (match io with Some i => erases F i (@Eos X) | None => false end)) as (S1 & S2 & S3 & S4).
      { destruct io as [i|]; [|discriminate]. intro Ee. exists i. auto. }
      assert (Eo := opens_eos (got s) c Eos eq_refl Ic Oc).
      constructor; simpl; auto.
      + intro d. rewrite given_app, D, V. reflexivity.
      + simpl in Eo. lia.
      + intro Z. apply Nat.eqb_neq in Z. lia.
    - destruct (Cst (match io with Some i => erases F i (@EosNF X) | None => false end)) as (S1 & S2 & S3 & S4).
      { destruct io as [i|]; [|discriminate]. intro Ee. exists i. auto. }
      assert (Eo := opens_eos (got s) c EosNF eq_refl Ic Oc).
      constructor; simpl; auto.
      + intro d. rewrite given_app, D, V. reflexivity.
      + simpl in Eo. lia.
      + intro Z. apply Nat.eqb_neq in Z. lia.
  Qed.

  Lemma avail0_sources : incl (avail0 F) (sources F).
  Proof. intros c I. unfold sources. apply in_app_iff. left. assumption. Qed.

  Lemma set_poll_inv : forall s k n, inv s -> k < length (avail s) -> inv (set_poll s k n).
  Proof. intros s k n [A B C D E G H I J K] L. constructor; simpl; auto. Qed.

  Lemma step_inv : forall s a t, inv s -> step s a = Some t -> inv t.
  Proof.
    intros s [c m|u] t Iv H; unfold PollModel.step in H; cbv zeta in H.
    - destruct (existsb (src_eqb c) (sources F)) eqn:Es; simpl in H; [|discriminate].
      destruct (existsb is_eos (sent s c)) eqn:Eo; simpl in H; [discriminate|]. injection H as <-.
      apply existsb_src in Es.
      destruct Iv as [A B C D E G H I J K]. constructor; simpl; auto.
      + intro d. unfold upd. destruct (src_eqb_spec d c) as [->|]; [|apply A]. rewrite A, app_assoc. reflexivity.
      + intros d a m' b. unfold upd. destruct (src_eqb_spec d c) as [->|]; [|apply B].
        intros Eq Em. destruct b as [|y b] using rev_ind; [reflexivity|]. exfalso.
        change (a ++ m' :: b ++ [y]) with (a ++ (m' :: b) ++ [y]) in Eq. rewrite app_assoc in Eq.
        apply app_inj_tail in Eq. destruct Eq as [Eq _]. rewrite Eq, existsb_app in Eo. simpl in Eo.
        rewrite Em, orb_true_r in Eo. discriminate.
      + intros d. unfold upd. destruct (src_eqb_spec d c) as [->|]; [intros _; assumption|apply C].
    - destruct (over s) eqn:Ov; [discriminate|].
      set (k := if S (pos s) =? length (avail s) then 0 else S (pos s)) in *.
      destruct (nth_error (avail s) k) as [c|] eqn:En; [|discriminate].
      assert (Lk : k < length (avail s)) by (apply nth_error_Some; congruence).
      assert (Ic : In c (sources F)).
      { apply avail0_sources. apply (i_incl _ Iv). eapply nth_error_In; eauto. }
      destruct (negb (active s) && is_input F k). { injection H as <-. apply set_poll_inv; assumption. }
      destruct (ch s c) as [|m r] eqn:Ec.
      + destruct (S (cnt s) =? length (avail s)); [|injection H as <-; apply set_poll_inv; assumption].
        destruct (negb (active s)).
        { injection H as <-. destruct Iv as [A B C D E G H I J K]. constructor; simpl; auto.
          intro d. rewrite given_app, D. simpl. rewrite app_nil_r. reflexivity. }
        destruct (inq F) eqn:Eq; [|injection H as <-; apply set_poll_inv; assumption].
        destruct (ch s Inq) as [|m r] eqn:Eb; injection H as <-; [apply set_poll_inv; assumption|].
        apply deliver_inv; auto; [|intros; discriminate].
        unfold sources. rewrite Eq. apply in_app_iff. right. left. reflexivity.
      + injection H as <-. apply deliver_inv; auto. intros i [= <-]. auto.
  Qed.

  Lemma exec_inv' : forall l s t, inv s -> exec s l = Some t -> inv t.
  Proof.
    induction l as [|a l IH]; intros s t I H; simpl in H.
    - injection H as <-. assumption.
    - destruct (step s a) as [m|] eqn:E; [|discriminate]. eapply IH; [eapply step_inv; eauto|exact H].
  Qed.

  (** A turn of the loop is always defined. *)
  Lemma poll_defined : forall s u, inv s -> over s = false -> exists t, step s (Poll u) = Some t.
  Proof.
    intros s u I O. unfold PollModel.step; cbv zeta. rewrite O.
    set (k := if S (pos s) =? length (avail s) then 0 else S (pos s)).
    assert (Lk : k < length (avail s)).
    { unfold k. assert (P := i_pos _ I). destruct (Nat.eqb_spec (S (pos s)) (length (avail s))); lia. }
    destruct (nth_error (avail s) k) as [c|] eqn:En; [|apply nth_error_None in En; lia].
    destruct (negb (active s) && is_input F k); eauto.
    destruct (ch s c); eauto. destruct (S (cnt s) =? length (avail s)); eauto.
    destruct (negb (active s)); eauto. destruct (inq F); eauto. destruct (ch s Inq); eauto.
  Qed.

  (** The loop ends by itself exactly when all marks have been read. *)
  Lemma over_left : forall (l : list (act X)) (s t : st), (over s = true -> left s = 0) -> Forall goes_on l -> exec s l = Some t ->
    over t = true -> left t = 0.
  Proof.
    induction l as [|a l IH]; intros s t Z G H; simpl in H.
    - injection H as <-. assumption.
    - inversion G as [|? ? Ga Gl]; subst. destruct (step s a) as [m|] eqn:E; [|discriminate].
      eapply IH; [|exact Gl|exact H].
      destruct a as [c x|u]; unfold PollModel.step in E; cbv zeta in E.
      + destruct (_ && _); [|discriminate]. injection E as <-. assumption.
      + simpl in Ga. destruct (over s) eqn:Ov; [discriminate|].
        assert (Dl : forall c io m r k, over (deliver F s c io m r k u) = true -> left (deliver F s c io m r k u) = 0).
        { intros c io [x| |] r k; simpl; [congruence| |]; apply Nat.eqb_eq. }
        assert (Sp : forall k n, over (set_poll s k n) = true -> left (set_poll s k n) = 0).
        { intros k n. simpl. congruence. }
        destruct (nth_error _ _); [|discriminate].
        destruct (_ && _) in E; [injection E as <-; auto|].
        destruct (ch s _); [|injection E as <-; auto].
        destruct (S (cnt s) =? _); [|injection E as <-; auto].
        destruct (negb (active s)); [injection E as <-; simpl; congruence|].
        destruct (inq F); [|injection E as <-; auto].
        destruct (ch s Inq); injection E as <-; auto.
  Qed.

  Lemma left_all : forall s, inv s -> left s = 0 -> forall c, In c (sources F) -> existsb is_eos (got s c) = true.
  Proof.
    intros s I Z c Ic. rewrite (i_left _ I) in Z. unfold opens in Z. apply length_zero_iff_nil in Z.
    destruct (existsb is_eos (got s c)) eqn:E; [reflexivity|]. exfalso.
    assert (X0 : In c (filter (isopen (got s)) (sources F))) by (apply filter_In; unfold isopen; rewrite E; auto).
    rewrite Z in X0. contradiction.
  Qed.
  Lemma all_left : forall s, inv s -> (forall c, In c (sources F) -> existsb is_eos (got s c) = true) -> left s = 0.
  Proof.
    intros s I H. rewrite (i_left _ I). unfold opens.
    destruct (filter (isopen (got s)) (sources F)) as [|c l] eqn:E; [reflexivity|]. exfalso.
    assert (X0 : In c (filter (isopen (got s)) (sources F))) by (rewrite E; left; reflexivity).
    apply filter_In in X0. destruct X0 as [A B]. unfold isopen in B. rewrite (H c A) in B. discriminate.
  Qed.
  Lemma ended_empty : forall s c, inv s -> existsb is_eos (got s c) = true -> ch s c = [].
  Proof.
    intros s c I H. apply not_open_has in H. destruct H as (a & m & b & E & M).
    assert (Q := i_fifo _ I c). rewrite E in Q. rewrite <- app_assoc in Q. simpl in Q.
    assert (Z := i_last _ I _ _ _ _ Q M). destruct b; [exact Z|discriminate].
  Qed.
End P.
