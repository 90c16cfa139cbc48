From Coq Require Import List Arith Bool Lia.
From Verif Require Import ChnModel ChnSpec.
Import ListNotations.
Local Arguments times : simpl never.

Lemma times_app : forall x a b, times x (a ++ b) = times x a + times x b.
Proof. intros. apply count_occ_app. Qed.
Lemma times_cons : forall x y l, times x (y :: l) = (if x =? y then 1 else 0) + times x l.
Proof. intros. unfold times. simpl. destruct (Nat.eq_dec y x), (Nat.eqb_spec x y); subst; try congruence; lia. Qed.
Lemma times_out : forall x l, ~ In x l -> times x l = 0.
Proof. intros. apply count_occ_not_In. auto. Qed.
Lemma times_le : forall x l, NoDup l -> times x l <= 1.
Proof. intros x l D. rewrite (NoDup_count_occ Nat.eq_dec) in D. apply D. Qed.
Lemma times_erase : forall x y l, times x (erase y l) = if x =? y then pred (times x l) else times x l.
Proof.
  induction l as [|z l IH]; simpl.
  - unfold times; simpl. destruct (x =? y); reflexivity.
  - rewrite times_cons. destruct (Nat.eqb_spec z y) as [->|N].
    + destruct (x =? y); simpl; lia.
    + rewrite times_cons, IH. destruct (Nat.eqb_spec x y), (Nat.eqb_spec x z); subst; try congruence; lia.
Qed.
Lemma times_push : forall x cl n l, times x (push_if cl n l) = times x l + if (x =? n) && cl then 1 else 0.
Proof. intros x [] n l; simpl; [|rewrite andb_false_r; lia]. rewrite times_app, times_cons, andb_true_r. unfold times at 2; simpl. lia. Qed.

(** The lists of nodes to delete. *)
Lemma sup_change : forall old n cl rm l, NoDup l -> ~ In n l -> old <> n -> forall x,
  times x (push_if cl n (erase_if rm old l)) =
    (if x =? n then if cl then 1 else 0 else if x =? old then if rm then 0 else times old l else times x l).
Proof.
  intros old n cl rm l D N E x. rewrite times_push.
  assert (L : times x l <= 1) by (apply times_le; auto).
  destruct (Nat.eqb_spec x n) as [->|Nn].
  - assert (Z : times n l = 0) by (apply times_out; auto).
    unfold erase_if. destruct rm; [rewrite times_erase|]; rewrite ?Z; destruct (n =? old), cl; reflexivity.
  - simpl. rewrite Nat.add_0_r. unfold erase_if. destruct (Nat.eqb_spec x old) as [->|No].
    + destruct rm; auto. rewrite times_erase, Nat.eqb_refl. lia.
    + destruct rm; auto. rewrite times_erase. destruct (Nat.eqb_spec x old); [congruence|auto].
Qed.
Lemma sup_change' : forall old n cl rm l, NoDup l -> ~ In n l -> old <> n -> forall x,
  times x (erase_if rm old (push_if cl n l)) =
    (if x =? n then if cl then 1 else 0 else if x =? old then if rm then 0 else times old l else times x l).
Proof.
  intros old n cl rm l D N E x. rewrite <- (sup_change old n cl rm l D N E x).
  unfold erase_if. destruct rm; auto. rewrite times_erase, !times_push, times_erase.
  destruct (Nat.eqb_spec x old), (Nat.eqb_spec x n); subst; try congruence; simpl; lia.
Qed.

Lemma index_none : forall x l, index x l = None <-> ~ In x l.
Proof.
  induction l as [|y l IH]; simpl; [tauto|]. destruct (Nat.eqb_spec y x) as [->|N].
  - split; [discriminate|tauto].
  - destruct (index x l); simpl; [split; [discriminate|]|]; intuition congruence.
Qed.
Lemma index_some : forall x l i, index x l = Some i -> In x l.
Proof. intros x l i E. destruct (in_dec Nat.eq_dec x l) as [|N]; auto. apply index_none in N. congruence. Qed.
Lemma set_put : forall x n l i, index x l = Some i -> set_at i n l = put x n l.
Proof.
  induction l as [|y l IH]; simpl; intros i E; [discriminate|]. destruct (y =? x).
  - injection E as <-. reflexivity.
  - destruct (index x l) as [j|]; [|discriminate]. injection E as <-. simpl. rewrite IH; auto.
Qed.
Lemma ins_put : forall x n l i, index x l = Some i -> remove_at i (insert_at (S i) n l) = put x n l.
Proof.
  induction l as [|y l IH]; simpl; intros i E; [discriminate|]. destruct (y =? x).
  - injection E as <-. reflexivity.
  - destruct (index x l) as [j|]; [|discriminate]. injection E as <-. rewrite <- (IH j); auto.
Qed.
Lemma put_l : forall x n a b, In x a -> put x n (a ++ b) = put x n a ++ b.
Proof.
  induction a as [|y a IH]; simpl; intros b I; [tauto|]. destruct (Nat.eqb_spec y x); auto. simpl. rewrite IH; auto. tauto.
Qed.
Lemma put_r : forall x n a b, ~ In x a -> put x n (a ++ b) = a ++ put x n b.
Proof.
  induction a as [|y a IH]; simpl; intros b I; auto. destruct (Nat.eqb_spec y x); [tauto|]. rewrite IH; auto.
Qed.
Lemma nd_l : forall (a b : list nat) x, NoDup (a ++ b) -> In x a -> ~ In x b.
Proof.
  induction a as [|y a IH]; simpl; intros b x D I; [tauto|]. inversion D as [|? ? N D']; subst. destruct I as [->|I]; [|eauto].
  intros C. apply N. apply in_or_app. auto.
Qed.
Lemma nd_r : forall (a b : list nat), NoDup (a ++ b) -> NoDup b.
Proof. induction a; simpl; intros b D; auto. inversion D; auto. Qed.

Lemma absent : forall kd b old n cl rm, ~ In old (parts b) -> change kd b old n cl rm = mkRes false b [].
Proof.
  intros kd [p|a|f|c] old n cl rm N; simpl in *.
  - unfold pipe_change. apply index_none in N. rewrite N. reflexivity.
  - rewrite in_app_iff in N. unfold a2a_change. assert (A : index old (w1 a) = None) by (apply index_none; tauto).
    assert (B : index old (w2 a) = None) by (apply index_none; tauto). rewrite A, B. reflexivity.
  - rewrite !in_app_iff in N. unfold farm_change.
    assert (A : is (em f) old = false) by (destruct (em f); simpl in *; auto; apply Nat.eqb_neq; tauto).
    assert (B : is (co f) old = false) by (destruct (co f); simpl in *; auto; apply Nat.eqb_neq; tauto).
    assert (C : index old (wk f) = None) by (apply index_none; tauto). rewrite A, B, C. reflexivity.
  - unfold comb_change. destruct (Nat.eqb_spec (c0 c) old); [tauto|]. destruct (Nat.eqb_spec (c1 c) old); [tauto|]. reflexivity.
Qed.

Lemma present : forall kd b old n cl rm, sane b n -> In old (parts b) -> regular kd b old n rm ->
  replaced b old n cl rm (change kd b old n cl rm).
Proof.
  intros kd b old n cl rm (Dp & Dd & Np & Nd) I R.
  assert (E : old <> n) by congruence.
  destruct b as [p|a|f|c]; simpl in *.
  - (* pipeline *)
    rewrite R in *. simpl in *. unfold pipe_change. destruct (index old (nodes p)) as [i|] eqn:X; [|apply index_none in X; tauto].
    split; [reflexivity|split; simpl].
    + apply ins_put; auto.
    + intros x. rewrite R. simpl. apply sup_change'; auto.
  - (* all-to-all *)
    unfold a2a_change. destruct (index old (w1 a)) as [i|] eqn:X.
    + split; [reflexivity|split; simpl; [|intros x; apply sup_change; auto]]. rewrite (set_put old n (w1 a) i X), put_l; auto. eapply index_some; eauto.
    + apply index_none in X. destruct (index old (w2 a)) as [i|] eqn:Y.
      * split; [reflexivity|split; simpl; [|intros x; apply sup_change; auto]]. rewrite (set_put old n (w2 a) i Y), put_r; auto.
      * apply index_none in Y. apply in_app_or in I. tauto.
  - (* farm *)
    destruct R as (Rw & Re & Rc & Rs). unfold farm_change.
    assert (Nf : ~ In n (fsup f)) by (intros C; apply Nd; rewrite !in_app_iff; auto).
    assert (Df : NoDup (fsup f)) by (do 3 apply nd_r in Dd; exact Dd).
    destruct (is (em f) old) eqn:Ie; [|destruct (is (co f) old) eqn:Ic].
    + (* emitter *)
      destruct (em f) as [e|] eqn:Em; [|discriminate]. simpl in Ie. apply Nat.eqb_eq in Ie. subst e. destruct (Re eq_refl) as (Kn & Ro).
      assert (Sq : match kd n with Par => false | _ => true end = true) by (destruct (kd n); congruence). rewrite Sq.
      assert (No : ~ In old (opt (co f) ++ wk f)) by (apply (nd_l [old]); simpl; auto).
      rewrite in_app_iff in No.
      split; [reflexivity|split; simpl; rewrite ?Em]; [simpl; rewrite Nat.eqb_refl; reflexivity|].
      intros x. rewrite !times_app.
      assert (Zo : times old (fsup f) = 0) by (apply times_out; tauto).
      assert (Zn : forall (y : bool) l, (y = true -> ~ In n l) -> times n (if y then l else []) = 0) by (intros [] l H; [apply times_out; auto|reflexivity]).
      assert (Zo' : forall (y : bool) l, ~ In old l -> times old (if y then l else []) = 0) by (intros [] l H; [apply times_out; auto|reflexivity]).
      assert (Tn : forall (y : bool) z, times z (if y then [n] else []) = if (z =? n) && y then 1 else 0).
      { intros [] z; [rewrite times_cons, andb_true_r; unfold times; simpl; lia|rewrite andb_false_r; reflexivity]. }
      assert (To : forall (y : bool) z, times z (if y then [old] else []) = if (z =? old) && y then 1 else 0).
      { intros [] z; [rewrite times_cons, andb_true_r; unfold times; simpl; lia|rewrite andb_false_r; reflexivity]. }
      rewrite Tn, !To. rewrite !in_app_iff in Nd.
      destruct (Nat.eqb_spec x n) as [->|Xn]; [|destruct (Nat.eqb_spec x old) as [->|Xo]]; simpl.
      * apply Nat.eqb_neq in E. rewrite Nat.eqb_sym in E. rewrite E. simpl.
        rewrite (times_out n (fsup f)), !Zn; [destruct cl; reflexivity| | |]; auto; intros Y C; rewrite Y in Nd; tauto.
      * rewrite Nat.eqb_refl. simpl. rewrite Zo, !Zo' by tauto. destruct Ro as [Y|Y]; rewrite Y; [destruct rm; reflexivity|]. destruct (ecl f); reflexivity.
      * reflexivity.
    + (* collector *)
      destruct (co f) as [e|] eqn:Co; [|discriminate]. simpl in Ic. apply Nat.eqb_eq in Ic. subst e. destruct (Rc eq_refl) as (Kn & Ro).
      assert (Sq : match kd n with Par => false | _ => true end = true) by (destruct (kd n); congruence). rewrite Sq.
      assert (No : ~ In old (wk f)) by (apply nd_r in Dp; apply (nd_l [old]); simpl; auto).
      assert (Ne : ~ In old (opt (em f))) by (destruct (em f); simpl in *; [apply Nat.eqb_neq in Ie; tauto|tauto]).
      split; [reflexivity|split; simpl; rewrite ?Co]; [rewrite put_r by auto; simpl; rewrite Nat.eqb_refl; reflexivity|].
      intros x. rewrite !times_app.
      assert (Zo : times old (fsup f) = 0) by (apply times_out; tauto).
      assert (Zn : forall (y : bool) l, (y = true -> ~ In n l) -> times n (if y then l else []) = 0) by (intros [] l H; [apply times_out; auto|reflexivity]).
      assert (Zo' : forall (y : bool) l, ~ In old l -> times old (if y then l else []) = 0) by (intros [] l H; [apply times_out; auto|reflexivity]).
      assert (Tn : forall (y : bool) z, times z (if y then [n] else []) = if (z =? n) && y then 1 else 0).
      { intros [] z; [rewrite times_cons, andb_true_r; unfold times; simpl; lia|rewrite andb_false_r; reflexivity]. }
      assert (To : forall (y : bool) z, times z (if y then [old] else []) = if (z =? old) && y then 1 else 0).
      { intros [] z; [rewrite times_cons, andb_true_r; unfold times; simpl; lia|rewrite andb_false_r; reflexivity]. }
      rewrite Tn, !To. rewrite !in_app_iff in Nd.
      destruct (Nat.eqb_spec x n) as [->|Xn]; [|destruct (Nat.eqb_spec x old) as [->|Xo]]; simpl.
      * apply Nat.eqb_neq in E. rewrite Nat.eqb_sym in E. rewrite E. simpl.
        rewrite (times_out n (fsup f)), !Zn; [destruct cl; reflexivity| | |]; auto; intros Y C; rewrite Y in Nd; tauto.
      * rewrite Nat.eqb_refl. simpl. rewrite Zo, !Zo' by tauto. destruct Ro as [Y|Y]; rewrite Y; [destruct rm; reflexivity|]. destruct (ccl f); reflexivity.
      * lia.
    + (* worker *)
      assert (Ne : ~ In old (opt (em f))) by (destruct (em f); simpl in *; [apply Nat.eqb_neq in Ie; tauto|tauto]).
      assert (Nc : ~ In old (opt (co f))) by (destruct (co f); simpl in *; [apply Nat.eqb_neq in Ic; tauto|tauto]).
      assert (Iw : In old (wk f)) by (rewrite !in_app_iff in I; tauto).
      specialize (Rw Iw). destruct (index old (wk f)) as [i|] eqn:X; [|apply index_none in X; tauto].
      split; [reflexivity|split; simpl].
      * rewrite (set_put old n (wk f) i X), !put_r; auto.
      * intros x. rewrite Rw in *. simpl in *. rewrite andb_true_r, !times_app, sup_change by auto.
        rewrite !in_app_iff in Nd.
        assert (Zn : forall (y : bool) l, (y = true -> ~ In n l) -> times n (if y then l else []) = 0) by (intros [] l H; [apply times_out; auto|reflexivity]).
        assert (Zo' : forall (y : bool) l, ~ In old l -> times old (if y then l else []) = 0) by (intros [] l H; [apply times_out; auto|reflexivity]).
        destruct (Nat.eqb_spec x n) as [->|Xn]; [|destruct (Nat.eqb_spec x old) as [->|Xo]].
        -- rewrite !Zn; [reflexivity| |]; intros Y C; rewrite Y in Nd; tauto.
        -- rewrite !Zo' by auto. destruct rm; reflexivity.
        -- reflexivity.
  - (* composition *)
    unfold comb_change. assert (K : match kd old with Comp => true | _ => false end = false) by (destruct (kd old); congruence). rewrite K.
    destruct (Nat.eqb_spec (c0 c) old) as [Z|Z]; [|destruct (Nat.eqb_spec (c1 c) old) as [Y|Y]; [|tauto]].
    + split; [reflexivity|split; simpl; [|intros x; apply sup_change; auto]]. rewrite Z, Nat.eqb_refl. reflexivity.
    + split; [reflexivity|split; simpl; [|intros x; apply sup_change; auto]]. apply Nat.eqb_neq in Z. rewrite Z, Y, Nat.eqb_refl. reflexivity.
Qed.

(** The flags that delete everything. *)
Lemma times_filter : forall f x l, times x (filter f l) = if f x then times x l else 0.
Proof.
  induction l as [|y l IH]; simpl; [destruct (f x); reflexivity|].
  destruct (f y) eqn:Y; rewrite !times_cons, ?IH; destruct (Nat.eqb_spec x y) as [->|]; rewrite ?Y; auto.
Qed.
Lemma times_rev : forall x l, times x (rev l) = times x l.
Proof. induction l as [|y l IH]; simpl; auto. rewrite times_app, !times_cons, IH. unfold times at 2; simpl. lia. Qed.
Lemma times_put : forall x old n l, In old l -> times x (put old n l) + (if x =? old then 1 else 0) = times x l + (if x =? n then 1 else 0).
Proof.
  induction l as [|y l IH]; simpl; intros I; [tauto|]. destruct (Nat.eqb_spec y old) as [->|N].
  - rewrite !times_cons. lia.
  - rewrite !times_cons. assert (I' : In old l) by tauto. specialize (IH I'). lia.
Qed.
Lemma times_in : forall x l, NoDup l -> In x l -> times x l = 1.
Proof. intros x l D I. pose proof (times_le x l D). apply (count_occ_In Nat.eq_dec) in I. unfold times in *. lia. Qed.
Lemma mem_spec : forall x l, mem x l = true <-> In x l.
Proof.
  intros x l. unfold mem. rewrite existsb_exists. split.
  - intros (y & I & E). apply Nat.eqb_eq in E. subst. auto.
  - intros I. exists x. split; auto. apply Nat.eqb_refl.
Qed.
Lemma mem_out : forall x l, ~ In x l -> mem x l = false.
Proof. intros x l N. destruct (mem x l) eqn:E; auto. apply mem_spec in E. tauto. Qed.

Lemma pipe_cleanup : forall kd p old n cl rm, sane (BPipe p) n -> ncl p = true -> In old (nodes p) -> ~ In old (psup p) -> ~ In old (dont p) -> ~ In n (dont p) ->
  times old (destroy (BPipe p)) = 1
  /\ let r := change kd (BPipe p) old n cl rm in
     ok r = true /\ times old (now r ++ destroy (after r)) = 0 /\ times n (now r ++ destroy (after r)) = 1.
Proof.
  intros kd p old n cl rm (Dp & Dd & Np & Nd) C I Ns No Nn. simpl in Dp, Np.
  assert (E : old <> n) by congruence. split.
  - simpl. rewrite C, times_app, times_filter, times_rev, (mem_out old (psup p)), (mem_out old (dont p)), (times_in old (nodes p)), (times_out old (psup p)) by auto. reflexivity.
  - simpl. unfold pipe_change. destruct (index old (nodes p)) as [i|] eqn:X; [|apply index_none in X; tauto].
    simpl. rewrite (ins_put old n (nodes p) i X), C. split; [reflexivity|].
    assert (Nsn : ~ In n (psup p)).
    { intros Q. apply Nd. simpl. rewrite in_app_iff. auto. }
    assert (Ds : NoDup (psup p)) by (simpl in Dd; apply nd_r in Dd; auto).
    pose proof (times_put old old n (nodes p) I) as P1. pose proof (times_put n old n (nodes p) I) as P2.
    rewrite (times_in old (nodes p)) in P1 by auto. rewrite (times_out n (nodes p)) in P2 by auto.
    rewrite Nat.eqb_refl in P1, P2. destruct (Nat.eqb_spec old n); [tauto|]. destruct (Nat.eqb_spec n old); [congruence|].
    pose proof (sup_change' old n cl rm (psup p) Ds Nsn E) as S.
    split.
    + rewrite times_app, times_filter, times_rev, S. destruct (Nat.eqb_spec old n); [tauto|]. rewrite Nat.eqb_refl, (times_out old (psup p)) by auto.
      destruct (negb _ && negb _), rm; lia.
    + rewrite times_app, times_filter, times_rev, S, Nat.eqb_refl. rewrite (mem_out n (dont p)) by auto.
      specialize (S n). rewrite Nat.eqb_refl in S. destruct cl.
      * assert (M : mem n (erase_if rm old (push_if true n (psup p))) = true).
        { apply mem_spec. apply (count_occ_In Nat.eq_dec). unfold times in S. lia. }
        rewrite M. reflexivity.
      * assert (M : mem n (erase_if rm old (push_if false n (psup p))) = false).
        { apply mem_out. apply (count_occ_not_In Nat.eq_dec). exact S. }
        rewrite M. simpl. lia.
Qed.

Lemma farm_cleanup : forall kd f old n cl rm, sane (BFarm f) n -> wcl f = true -> In old (wk f) ->
  let r := change kd (BFarm f) old n cl rm in
  ok r = true /\ times old (now r ++ destroy (after r)) = 1 /\ times n (now r ++ destroy (after r)) = 1.
Proof.
  intros kd f old n cl rm (Dp & Dd & Np & Nd) C I. simpl in Dp, Np, Dd, Nd. rewrite C in Dd, Nd.
  assert (E : old <> n) by (intros ->; apply Np; rewrite !in_app_iff; auto).
  assert (Ne : ~ In old (opt (em f))) by (intros Q; apply (nd_l _ _ _ Dp Q); rewrite in_app_iff; auto).
  assert (Dp' := nd_r _ _ Dp).
  assert (Nc : ~ In old (opt (co f))) by (intros Q; apply (nd_l _ _ _ Dp' Q); auto).
  assert (Ie : is (em f) old = false) by (destruct (em f); simpl in *; auto; apply Nat.eqb_neq; tauto).
  assert (Ic : is (co f) old = false) by (destruct (co f); simpl in *; auto; apply Nat.eqb_neq; tauto).
  simpl. unfold farm_change. rewrite Ie, Ic. destruct (index old (wk f)) as [i|] eqn:X; [|apply index_none in X; tauto].
  simpl. rewrite C, andb_false_r, (set_put old n (wk f) i X). simpl. split; [reflexivity|].
  assert (Nf : ~ In old (fsup f)) by (do 2 apply nd_r in Dd; apply (nd_l _ _ _ Dd); auto).
  assert (Dw : NoDup (wk f)) by (do 2 apply nd_r in Dp; exact Dp || (apply nd_r in Dp'; exact Dp')).
  assert (Nfn : ~ In n (fsup f)) by (intros Q; apply Nd; rewrite !in_app_iff; auto).
  rewrite !in_app_iff in Np.
  assert (Nen : ~ In n (opt (em f))) by tauto. assert (Ncn : ~ In n (opt (co f))) by tauto.
  assert (Ze : forall (y : bool) l, ~ In old l -> times old (if y then l else []) = 0) by (intros [] l H; [apply times_out; auto|reflexivity]).
  assert (Zn : forall (y : bool) l, ~ In n l -> times n (if y then l else []) = 0) by (intros [] l H; [apply times_out; auto|reflexivity]).
  pose proof (times_put old old n (wk f) I) as P1. pose proof (times_put n old n (wk f) I) as P2.
  rewrite (times_in old (wk f)) in P1 by auto. rewrite (times_out n (wk f)) in P2 by tauto.
  rewrite Nat.eqb_refl in P1, P2. destruct (Nat.eqb_spec old n); [tauto|]. destruct (Nat.eqb_spec n old); [congruence|].
  assert (Fo : times old (erase_if rm old (fsup f)) = 0).
  { unfold erase_if. destruct rm; [rewrite times_erase, Nat.eqb_refl|]; rewrite (times_out old (fsup f)); auto. }
  assert (Fn : times n (erase_if rm old (fsup f)) = 0).
  { unfold erase_if. destruct rm; [rewrite times_erase; destruct (Nat.eqb_spec n old); [congruence|]|]; apply times_out; exact Nfn. }
  split; rewrite !times_app, times_cons.
  - rewrite !Ze, Fo, Nat.eqb_refl by auto. simpl. unfold times at 2; simpl. lia.
  - rewrite !Zn, Fn by auto. destruct (Nat.eqb_spec n old); [congruence|]. simpl. unfold times at 2; simpl. lia.
Qed.

Lemma once : forall b old n cl rm r, sane b n -> In old (parts b) -> replaced b old n cl rm r ->
  NoDup (parts (after r)) /\ NoDup (now r ++ destroy (after r)).
Proof.
  intros b old n cl rm r (Dp & Dd & Np & Nd) I (O & P & T). split; apply (NoDup_count_occ Nat.eq_dec); intros x.
  - rewrite P. pose proof (times_put x old n (parts b) I) as Q. pose proof (times_le x (parts b) Dp) as L.
    unfold times in *. destruct (Nat.eqb_spec x n) as [Z|]; [pose proof (times_out n (parts b) Np) as Z2; unfold times in Z2; rewrite <- Z in Z2|]; lia.
  - change (times x (now r ++ destroy (after r)) <= 1). rewrite T. pose proof (times_le x (destroy b) Dd) as L. pose proof (times_le old (destroy b) Dd).
    destruct (x =? n); [destruct cl; lia|]. destruct (x =? old); [destruct rm; lia|lia].
Qed.
