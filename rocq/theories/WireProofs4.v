(** The channels inside a stage. *)
From Coq Require Import List Arith Bool Lia.
From Verif Require Import WireModel WireSpec WireProofs WireProofs2.
Import ListNotations.

Lemma in_wk : forall i n j, In (i, Wk j) (wk i n) <-> j < n.
Proof.
  intros i n j. unfold wk. rewrite in_map_iff. split.
  - intros (k & E & H). injection E as <-. apply in_seq in H. lia.
  - intros H. exists j. split; [auto|]. apply in_seq. lia.
Qed.
Lemma in_wk_inv : forall i n x, In x (wk i n) -> exists j, x = (i, Wk j) /\ j < n.
Proof. intros i n x H. apply in_map_iff in H. destruct H as (j & <- & H). apply in_seq in H. exists j. split; [auto|lia]. Qed.

Section Farm.
  Variables (i n : nat) (kw : kind) (c : coll).

  (** Worker loop, with a collector. *)
  Lemma farm_coll : c <> NoColl -> forall base m a h, nb h = base + 2 * a ->
    (forall j, a <= j < a + m -> nin h (i, Wk j) = None /\ inN h (i, Wk j) = [] /\ nout h (i, Wk j) = None /\ outN h (i, Wk j) = []) ->
    exists h', iter (prep_worker i n kw c) (seq a m) h = Some h' /\ nb h' = base + 2 * (a + m) /\
      outN h' (i, Em) = outN h (i, Em) ++ map (fun j => Nref (i, Wk j)) (seq a m) /\ nout h' (i, Em) = nout h (i, Em) /\
      inN h' (i, Co) = inN h (i, Co) ++ map (fun j => if mo kw then Bref (base + 2 * j + 1) else Nref (i, Wk j)) (seq a m) /\
      nin h' (i, Co) = nin h (i, Co) /\
      (forall j, a <= j < a + m -> nin h' (i, Wk j) = Some (base + 2 * j) /\ inN h' (i, Wk j) = (if mi kw then [Bref (base + 2 * j)] else []) /\
         nout h' (i, Wk j) = (if mo kw then None else Some (base + 2 * j + 1)) /\
         outN h' (i, Wk j) = (if mo kw then [Bref (base + 2 * j + 1)] else [])) /\
      (forall x, x <> (i, Em) -> (forall j, a <= j < a + m -> x <> (i, Wk j)) -> nout h' x = nout h x /\ outN h' x = outN h x) /\
      (forall x, x <> (i, Co) -> (forall j, a <= j < a + m -> x <> (i, Wk j)) -> nin h' x = nin h x /\ inN h' x = inN h x).
  Proof using Type.
    intros HC base m. induction m as [|m IH]; intros a h B F.
    - exists h. simpl. rewrite !app_nil_r. repeat split; auto; try lia.
    - destruct (F a) as (F1 & F2 & F3 & F4); [lia|].
      assert (S : exists h1, prep_worker i n kw c a h = Some h1 /\ nb h1 = base + 2 * S a /\
        outN h1 (i, Em) = outN h (i, Em) ++ [Nref (i, Wk a)] /\ nout h1 (i, Em) = nout h (i, Em) /\
        inN h1 (i, Co) = inN h (i, Co) ++ [if mo kw then Bref (base + 2 * a + 1) else Nref (i, Wk a)] /\ nin h1 (i, Co) = nin h (i, Co) /\
        (nin h1 (i, Wk a) = Some (base + 2 * a) /\ inN h1 (i, Wk a) = (if mi kw then [Bref (base + 2 * a)] else []) /\
         nout h1 (i, Wk a) = (if mo kw then None else Some (base + 2 * a + 1)) /\
         outN h1 (i, Wk a) = (if mo kw then [Bref (base + 2 * a + 1)] else [])) /\
        (forall x, x <> (i, Em) -> x <> (i, Wk a) -> nout h1 x = nout h x /\ outN h1 x = outN h x) /\
        (forall x, x <> (i, Co) -> x <> (i, Wk a) -> nin h1 x = nin h x /\ inN h1 x = inN h x)).
      { unfold prep_worker, create_in. rewrite F1. cbv zeta. cbn [bind].
        assert (W1 : (i, Em) <> (i, Wk a)) by discriminate. assert (W2 : (i, Co) <> (i, Wk a)) by discriminate.
        assert (W3 : (i, Wk a) <> (i, Em)) by discriminate. assert (W4 : (i, Wk a) <> (i, Co)) by discriminate.
        destruct c as [| |k]; [congruence| |]; destruct (mi kw), (mo kw); unfold new_edge, create_out, add_in, add_out, set_nin, set_nout, alloc;
          cbn [nb nin nout inN outN bind]; rewrite F3; cbn [nb nin nout inN outN bind];
          (eexists; split; [reflexivity|]; cbn [nb nin nout inN outN];
           repeat match goal with
                  | |- context [upd ?f ?x ?v ?x] => rewrite (upd_eq _ f x v)
                  | |- context [upd ?f ?x ?v ?y] => rewrite (upd_neq _ f x v y) by (auto; congruence)
                  end;
           rewrite ?F2, ?F3, ?F4, ?B; simpl app;
           repeat match goal with |- _ /\ _ => split end; auto; try lia;
           try (do 2 f_equal; lia); try (do 3 f_equal; lia); try (f_equal; lia);
           intros x X1 X2; rewrite !upd_neq by congruence; auto). }
      destruct S as (h1 & E1 & B1 & S1 & S2 & S3 & S4 & (S5 & S6 & S7 & S8) & S9 & S10).
      destruct (IH (Datatypes.S a) h1 B1) as (h' & E & B' & T1 & T2 & T3 & T4 & T5 & T6 & T7).
      { intros j Hj. destruct (F j) as (G1 & G2 & G3 & G4); [lia|]. assert (a <> j) by lia.
        destruct (S9 (i, Wk j)) as [Q1 Q2]; [discriminate|congruence|]. destruct (S10 (i, Wk j)) as [Q3 Q4]; [discriminate|congruence|].
        rewrite Q1, Q2, Q3, Q4. auto. }
      exists h'. cbn [seq iter]. rewrite E1. split; [auto|]. split; [rewrite B'; lia|].
      split; [rewrite T1, S1, <- app_assoc; auto|]. split; [congruence|].
      split; [rewrite T3, S3, <- app_assoc; auto|]. split; [congruence|]. split; [|split].
      + intros j Hj. destruct (Nat.eq_dec j a) as [->|J]; [|apply T5; lia].
        destruct (T6 (i, Wk a)) as [Q1 Q2]; [discriminate|intros j' J' QQ; injection QQ as ->; lia|].
        destruct (T7 (i, Wk a)) as [Q3 Q4]; [discriminate|intros j' J' QQ; injection QQ as ->; lia|].
        rewrite Q1, Q2, Q3, Q4. auto.
      + intros x X1 X2. destruct (T6 x X1) as [-> ->]; [intros j Hj; apply X2; lia|]. apply S9; auto. apply X2. lia.
      + intros x X1 X2. destruct (T7 x X1) as [-> ->]; [intros j Hj; apply X2; lia|]. apply S10; auto. apply X2. lia.
  Qed.

  (** Worker loop, no collector, nothing to connect. *)
  Lemma farm_nocoll_loop : c = NoColl -> forall base m a h, nb h = base + a -> outN h (i, Obj) = [] ->
    (forall j, a <= j < a + m -> nin h (i, Wk j) = None /\ inN h (i, Wk j) = []) ->
    exists h', iter (prep_worker i n kw c) (seq a m) h = Some h' /\ nb h' = base + (a + m) /\
      outN h' (i, Em) = outN h (i, Em) ++ map (fun j => Nref (i, Wk j)) (seq a m) /\ nout h' = nout h /\
      (forall j, a <= j < a + m -> nin h' (i, Wk j) = Some (base + j) /\ inN h' (i, Wk j) = (if mi kw then [Bref (base + j)] else [])) /\
      (forall x, x <> (i, Em) -> outN h' x = outN h x) /\
      (forall x, (forall j, a <= j < a + m -> x <> (i, Wk j)) -> nin h' x = nin h x /\ inN h' x = inN h x).
  Proof using Type.
    intros HC base m. induction m as [|m IH]; intros a h B OO F.
    - exists h. simpl. rewrite !app_nil_r. repeat split; auto; try lia.
    - destruct (F a) as (F1 & F2); [lia|].
      assert (S : exists h1, prep_worker i n kw c a h = Some h1 /\ nb h1 = base + S a /\
        outN h1 (i, Em) = outN h (i, Em) ++ [Nref (i, Wk a)] /\ nout h1 = nout h /\
        (nin h1 (i, Wk a) = Some (base + a) /\ inN h1 (i, Wk a) = (if mi kw then [Bref (base + a)] else [])) /\
        (forall x, x <> (i, Em) -> outN h1 x = outN h x) /\
        (forall x, x <> (i, Wk a) -> nin h1 x = nin h x /\ inN h1 x = inN h x)).
      { unfold prep_worker, create_in. rewrite F1, HC. cbv zeta. cbn [bind].
        destruct (mi kw); unfold add_in, add_out, set_nin, alloc; cbn [nb nin nout inN outN];
          (eexists; split;
           [rewrite (upd_neq _ _ (i, Em) _ (i, Obj)) by discriminate; rewrite OO; destruct (nout h (i, Wk a)); reflexivity|]);
          cbn [nb nin nout inN outN]; rewrite !upd_eq, ?F2, ?B; simpl app;
          repeat match goal with |- _ /\ _ => split end; auto; try lia;
          intros x X; rewrite !upd_neq by congruence; auto. }
      destruct S as (h1 & E1 & B1 & S1 & S2 & (S5 & S6) & S9 & S10).
      destruct (IH (Datatypes.S a) h1 B1) as (h' & E & B' & T1 & T2 & T5 & T6 & T7).
      { rewrite S9; [auto|discriminate]. }
      { intros j Hj. destruct (F j) as (G1 & G2); [lia|]. assert (a <> j) by lia.
        destruct (S10 (i, Wk j)) as [Q3 Q4]; [congruence|]. rewrite Q3, Q4. auto. }
      exists h'. cbn [seq iter]. rewrite E1. split; [auto|]. split; [rewrite B'; lia|].
      split; [rewrite T1, S1, <- app_assoc; auto|]. split; [congruence|]. split; [|split].
      + intros j Hj. destruct (Nat.eq_dec j a) as [->|J]; [|apply T5; lia].
        destruct (T7 (i, Wk a)) as [Q3 Q4]; [intros j' J' QQ; injection QQ as ->; lia|].
        rewrite Q3, Q4. auto.
      + intros x X1. rewrite T6, S9; auto.
      + intros x X2. destruct (T7 x) as [-> ->]; [intros j Hj; apply X2; lia|]. apply S10; auto. apply X2. lia.
  Qed.
End Farm.

Definition width (c : coll) : nat := match c with NoColl => 1 | _ => 2 end.

(** Channels inside stage i. *)
Definition emit_ok (h : heap) (i n : nat) (kw : kind) (w base : nat) : Prop :=
  bundle [(i, Em)] (wk i n) [] true (mi kw) (fun x y => base + w * pos y) (fun _ => wk i n) (fun _ => [(i, Em)]) h.
Definition coll_ok (h : heap) (i n : nat) (kw : kind) (base : nat) : Prop :=
  bundle (wk i n) [(i, Co)] [] (mo kw) true (fun x y => base + 2 * pos x + 1) (fun _ => [(i, Co)]) (fun _ => wk i n) h.
Definition a2a_ok (h : heap) (i n1 n2 base : nat) : Prop :=
  bundle (lw i n1) (rw i n2) [] true true (fun x y => base + pos y * n1 + pos x) (fun _ => rw i n2) (fun _ => lw i n1) h.
Definition IN (h : heap) (i : nat) (s : stage) (base : nat) : Prop :=
  match s with
  | SNode _ => True
  | SFarm n kw c _ => emit_ok h i n kw (width c) base /\ match c with NoColl => True | _ => coll_ok h i n kw base end
  | SA2A n1 _ n2 _ => a2a_ok h i n1 n2 base
  end.
Definition icnt (s : stage) : nat :=
  match s with SNode _ => 0 | SFarm n _ c _ => width c * n | SA2A n1 _ n2 _ => n1 * n2 end.

(** The cells of stage i that are not used by its links with the previous and the next stage. *)
Definition innerO (i : nat) (s : stage) : list id :=
  match s with
  | SNode _ => []
  | SFarm n _ c _ => (i, Em) :: match c with NoColl => [] | _ => wk i n end
  | SA2A n1 _ _ _ => lw i n1
  end.
Definition innerI (i : nat) (s : stage) : list id :=
  match s with
  | SNode _ => []
  | SFarm n _ c _ => wk i n ++ match c with NoColl => [] | _ => [(i, Co)] end
  | SA2A _ _ n2 _ => rw i n2
  end.

Lemma in_lw_inv : forall i n x, In x (lw i n) -> exists j, x = (i, Lw j) /\ j < n.
Proof. intros i n x H. apply in_map_iff in H. destruct H as (j & <- & H). apply in_seq in H. exists j. split; [auto|lia]. Qed.
Lemma in_rw_inv : forall i n x, In x (rw i n) -> exists j, x = (i, Rw j) /\ j < n.
Proof. intros i n x H. apply in_map_iff in H. destruct H as (j & <- & H). apply in_seq in H. exists j. split; [auto|lia]. Qed.
Lemma length_wk : forall i n, length (wk i n) = n. Proof. intros. unfold wk. rewrite map_length, seq_length. auto. Qed.
Lemma length_rw : forall i n, length (rw i n) = n. Proof. intros. unfold rw. rewrite map_length, seq_length. auto. Qed.
Lemma length_lw : forall i n, length (lw i n) = n. Proof. intros. unfold lw. rewrite map_length, seq_length. auto. Qed.

(** prepare of stage i, when the stage is not waiting for a deferred connection: it succeeds. *)
Lemma prep_plain : forall i s h, stage_ok s = true -> outN h (i, Obj) = [] ->
  (forall x, In x (innerO i s) -> nout h x = None /\ outN h x = []) ->
  (forall x, In x (innerI i s) -> nin h x = None /\ inN h x = []) ->
  exists h', prep i s h = Some h' /\ IN h' i s (nb h) /\ nb h' = nb h + icnt s /\ keepO (innerO i s) h h' /\ keepI (innerI i s) h h'.
Proof.
  intros i [k|n kw c o|n1 k1 n2 k2] h SO OO FO FI.
  - exists h. simpl. repeat split; auto.
  - simpl in SO. apply andb_prop in SO. destruct SO as [N OK]. apply Nat.ltb_lt in N. apply negb_true_iff in OK.
    unfold prep. rewrite OK. replace (n =? 0) with false by (symmetry; apply Nat.eqb_neq; lia). simpl orb. cbv iota.
    assert (EME : forall h' w, outN h' (i, Em) = map (fun j => Nref (i, Wk j)) (seq 0 n) ->
        (forall j, j < n -> nin h' (i, Wk j) = Some (nb h + w * j) /\ inN h' (i, Wk j) = if mi kw then [Bref (nb h + w * j)] else []) ->
        (mi kw = true -> forall j, j < n -> nout h' (i, Em) = nout h' (i, Em)) ->
        emit_ok h' i n kw w (nb h)).
    { intros h' w EO EW _. split.
      - intros x [<-|[]]. unfold writes. rewrite EO. split.
        + unfold wk. rewrite !map_map. apply map_ext_in. intros j Hj. apply in_seq in Hj. simpl. destruct (EW j) as [-> _]; [lia|]. auto.
        + intros z Hz. apply in_map_iff in Hz. destruct Hz as (j & E & Hj). injection E as <-. apply in_seq in Hj. apply in_wk. lia.
      - intros y Hy. apply in_wk_inv in Hy. destruct Hy as (j & -> & Hj). destruct (EW j Hj) as [E1 E2]. unfold reads. rewrite E1, E2. split.
        + destruct (mi kw); simpl; auto.
        + intros z Hz. destruct (mi kw); simpl in Hz; [destruct Hz as [Hz|[]]; discriminate|contradiction]. }
    destruct (FO (i, Em)) as [FE1 FE2]; [left; auto|].
    assert (CASE : c = NoColl \/ c <> NoColl) by (destruct c; [left; auto|right; discriminate|right; discriminate]).
    destruct CASE as [HC|HC].
    + assert (GI : forall j, 0 <= j < 0 + n -> nin h (i, Wk j) = None /\ inN h (i, Wk j) = []).
      { intros j Hj. apply FI. simpl. apply in_or_app. left. apply in_wk. lia. }
      destruct (farm_nocoll_loop i n kw c HC (nb h) n 0 h) as (h' & E & B & T1 & T2 & T5 & T6 & T7); auto.
      exists h'. split; [auto|]. subst c. simpl innerO. simpl innerI. simpl icnt. split; [|split; [|split]].
      * split; [|exact Logic.I]. simpl width. apply EME; auto.
        -- rewrite T1, FE2. auto.
        -- intros j Hj. destruct (T5 j) as [-> ->]; [lia|]. replace (1 * j) with j by lia. auto.
      * lia.
      * intros x Hx. rewrite T2. split; [auto|]. apply T6. intros ->. apply Hx. left; auto.
      * intros x Hx. apply T7. intros j Hj ->. apply Hx. apply in_or_app. left. apply in_wk. lia.
    + assert (IO : innerO i (SFarm n kw c o) = (i, Em) :: wk i n) by (destruct c; [congruence|auto|auto]).
      assert (II : innerI i (SFarm n kw c o) = wk i n ++ [(i, Co)]) by (destruct c; [congruence|auto|auto]).
      assert (WD : width c = 2) by (destruct c; [congruence|auto|auto]).
      rewrite IO in *. rewrite II in *.
      assert (GI : forall j, 0 <= j < 0 + n -> nin h (i, Wk j) = None /\ inN h (i, Wk j) = [] /\ nout h (i, Wk j) = None /\ outN h (i, Wk j) = []).
      { intros j Hj. destruct (FI (i, Wk j)); [apply in_or_app; left; apply in_wk; lia|]. destruct (FO (i, Wk j)); [right; apply in_wk; lia|]. auto. }
      destruct (FI (i, Co)) as [FC1 FC2]; [apply in_or_app; right; left; auto|].
      destruct (farm_coll i n kw c HC (nb h) n 0 h) as (h' & E & B & T1 & T2 & T3 & T4 & T5 & T6 & T7); auto.
      exists h'. split; [auto|]. split; [|split; [|split]].
      * split.
        -- rewrite WD. apply EME; auto.
           ++ rewrite T1, FE2. auto.
           ++ intros j Hj. destruct (T5 j) as (-> & -> & _); [lia|]. auto.
        -- assert (CK : coll_ok h' i n kw (nb h)); [|destruct c; auto]. split.
           ++ intros x Hx. apply in_wk_inv in Hx. destruct Hx as (j & -> & Hj). destruct (T5 j) as (_ & _ & Q3 & Q4); [lia|]. unfold writes.
              rewrite Q3, Q4. split.
              ** destruct (mo kw); simpl; auto.
              ** intros z Hz. destruct (mo kw); simpl in Hz; [destruct Hz as [Hz|[]]; discriminate|contradiction].
           ++ intros y [<-|[]]. unfold reads. rewrite T3, FC2. simpl app. split.
              ** unfold wk. rewrite !map_map. apply map_ext_in. intros j Hj. apply in_seq in Hj. destruct (T5 j) as (_ & _ & Q3 & Q4); [lia|].
                 simpl pos. destruct (mo kw); simpl refout; [auto|]. rewrite Q3. auto.
              ** intros z Hz. apply in_map_iff in Hz. destruct Hz as (j & E' & Hj). apply in_seq in Hj.
                 destruct (mo kw); [discriminate|]. injection E' as <-. rewrite app_nil_r. apply in_wk. lia.
      * simpl. rewrite WD, B. lia.
      * intros x Hx. apply T6; [intros ->; apply Hx; left; auto|]. intros j Hj ->. apply Hx. right. apply in_wk. lia.
      * intros x Hx. apply T7; [intros ->; apply Hx; apply in_or_app; right; left; auto|]. intros j Hj ->. apply Hx. apply in_or_app. left. apply in_wk. lia.
  - simpl in SO. apply andb_prop in SO. destruct SO as [SO OK2]. apply andb_prop in SO. destruct SO as [SO OK1]. apply andb_prop in SO.
    destruct SO as [N1 N2]. apply Nat.ltb_lt in N1, N2. unfold prep.
    replace (n1 =? 0) with false by (symmetry; apply Nat.eqb_neq; lia). replace (n2 =? 0) with false by (symmetry; apply Nat.eqb_neq; lia).
    replace (mi k1 && negb (mo k1)) with false by (destruct (mi k1), (mo k1); auto).
    replace (mo k2 && negb (mi k2)) with false by (destruct (mi k2), (mo k2); auto). simpl orb. cbv iota.
    destruct (cross_form (lw i n1) (rw i n2) h (posd_nodup _ (posd_lw i n1)) (posd_nodup _ (posd_rw i n2)))
      as (h' & E & B & M1 & M2 & K & P & Q & R).
    exists h'. rewrite E. cbn [bind]. rewrite (K (i, Obj)), OO by (intros H; apply in_lw_inv in H; destruct H as (j & H & _); discriminate).
    split; [auto|]. split; [|split; [|split]].
    + eapply cross_bundle; eauto using posd_lw, posd_rw.
      * intros x Hx. apply (FO x Hx).
      * intros x Hx. apply (FI x Hx).
      * intros x y Hx Hy. rewrite length_lw. auto.
    + rewrite B, length_lw, length_rw. simpl. lia.
    + intros x Hx. rewrite M2, K; auto.
    + intros x Hx. rewrite M1, Q; auto.
Qed.
