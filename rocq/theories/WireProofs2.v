(** One iteration of the pipeline's loop: the channels between two adjacent stages. *)
From Coq Require Import List Arith Bool Lia.
From Verif Require Import WireModel WireSpec WireProofs.
Import ListNotations.

Definition np (p : stage) : nat := length (exit 0 p).
Definition nc (c : stage) : nat := length (entry 0 c).
Lemma length_exit : forall i p, length (exit i p) = np p.
Proof. intros i [k|n kw [| |k] o|n1 k1 n2 k2]; unfold np; simpl; auto; unfold wk, rw; rewrite !map_length; auto. Qed.
Lemma length_entry : forall i c, length (entry i c) = nc c.
Proof. intros i [k|n kw c o|n1 k1 n2 k2]; unfold nc; simpl; auto; unfold lw; rewrite !map_length; auto. Qed.

Definition blab (p c : stage) (base : nat) (x y : id) : nat :=
  if full p c then base + pos y * np p + pos x else base + pos x.
Definition bcnt (p c : stage) : nat := if full p c then nc c * np p else np p.
Definition aft (i : nat) (p c : stage) (x : id) : list id :=
  if full p c then entry (S i) c else firstn 1 (skipn (pos x) (entry (S i) c)).
Definition bef (i : nat) (p c : stage) (y : id) : list id :=
  if full p c then exit i p else firstn 1 (skipn (pos y) (exit i p)).

Definition BF (h : heap) (i : nat) (p c : stage) (base : nat) : Prop :=
  bundle (exit i p) (entry (S i) c) [(i, Obj)] (exit_mo p) (entry_mi c) (blab p c base) (aft i p c) (bef i p c) h.

Definition deferred (p c : stage) : bool :=
  match c with SNode k => negb (mi k) && negb (single p) | _ => false end.
Definition BP (h : heap) (i : nat) (p c : stage) (base : nat) : Prop :=
  if deferred p c
  then np p = 1 /\ outN h (i, Obj) = [Nref (S i, Self)] /\ nin h (S i, Self) = Some base /\ inN h (S i, Self) = [] /\
       (forall x, In x (exit i p) -> nout h x = None /\ outN h x = [])
  else BF h i p c base /\ outN h (i, Obj) = [].

Definition link_pre (p c : stage) : bool :=
  match c with
  | SNode k => mi k || single p || (np p =? 1)
  | SFarm _ _ _ _ => true
  | SA2A _ k1 _ _ => if single p then exit_mo p || (nc c =? 1) else (exit_mo p && mi k1) || (np p =? nc c)
  end.
Lemma link_ok_pre : forall p c, link_ok p c = link_pre p c && negb (deferred p c && is_a2a p && exit_mo p).
Proof.
  intros p c. unfold link_ok, link_pre, np, nc, deferred. destruct c as [k|n kw cc o|n1 k1 n2 k2]; [|auto|simpl; rewrite andb_true_r; auto].
  destruct (mi k), (single p), (is_a2a p), (exit_mo p); simpl; rewrite ?andb_true_r, ?orb_true_r, ?andb_false_r; auto.
Qed.

Inductive pview (i : nat) (p : stage) : Prop :=
| PSS x : exit i p = [x] -> pos x = 0 -> x <> (i, Obj) -> exit_mo p = false -> single p = true -> p_ss p = true ->
    (forall b h, stage_set_output_buffer i p b h = Some (set_nout x b h)) ->
    (forall h, nout h x = None -> nout h (i, Obj) = None -> exists h' z, stage_create_output i p h = Some h' /\ nb h' = S (nb h) /\
       nin h' = nin h /\ inN h' = inN h /\ outN h' = outN h /\ nout h' x = Some (nb h) /\
       stage_ref i p = Nref z /\ (z = x \/ z = (i, Obj)) /\ nout h' z = Some (nb h) /\
       (forall w, w <> x -> w <> (i, Obj) -> nout h' w = nout h w)) -> pview i p
| PSM x : exit i p = [x] -> pos x = 0 -> x <> (i, Obj) -> exit_mo p = true -> single p = true -> p_ss p = false -> p_sm p = true ->
    (forall r h, stage_set_output i p r h = Some (add_out x r h)) -> pview i p
| PM : 1 <= np p -> single p = false -> p_ss p = false -> p_sm p = false -> p_ms p = negb (exit_mo p) -> out_nodes i p = exit i p ->
    out_mo p = exit_mo p -> ~ In (i, Obj) (exit i p) -> (forall h, stage_create_output i p h = iter create_out (exit i p) h) ->
    (forall r h, outN h (i, Obj) = [] -> stage_set_output i p [r] h = Some (add_out (i, Obj) [r] h)) -> pview i p.

Lemma not_obj_wk : forall i n, ~ In (i, Obj) (wk i n).
Proof. intros i n H. apply in_map_iff in H. destruct H as (j & E & _). discriminate. Qed.
Lemma not_obj_rw : forall i n, ~ In (i, Obj) (rw i n).
Proof. intros i n H. apply in_map_iff in H. destruct H as (j & E & _). discriminate. Qed.

Lemma view : forall i p, populated p = true -> ordered_coll p -> pview i p.
Proof.
  intros i [k|n kw c o|n1 k1 n2 k2] PP OC.
  - destruct (mo k) eqn:M.
    + apply PSM with (i, Self); auto; unfold p_ss, p_sm, multi_out; simpl; try rewrite M; auto. congruence.
    + eapply PSS with (i, Self); auto; unfold p_ss, multi_out; simpl; try rewrite M; auto; [congruence|].
      intros h H1 H2. unfold create_out. rewrite H1. eexists _, (i, Self).
      split; [reflexivity|]. simpl. rewrite upd_eq. repeat split; auto. intros w W _. apply upd_neq; auto.
  - assert (CO : (i, Co) <> (i, Obj)) by discriminate.
    destruct c as [| |k].
    + destruct o; [contradiction|]. simpl in PP. apply Nat.ltb_lt in PP. apply PM; auto; try reflexivity.
      * unfold np. simpl. unfold wk. rewrite map_length, seq_length. auto.
      * apply not_obj_wk.
      * intros r h H. unfold stage_set_output. rewrite H. simpl. destruct (Nat.ltb_spec n 1); [lia|auto].
    + eapply PSS with (i, Co); auto. intros h H1 H2. unfold stage_create_output. simpl. rewrite orb_true_r. unfold create_out. rewrite H2.
      eexists _, (i, Obj). split; [reflexivity|]. cbn [nb nin inN outN nout set_nout alloc]. rewrite upd_eq.
      repeat split; auto.
      * rewrite upd_eq. auto.
      * rewrite upd_neq by discriminate. rewrite upd_eq. auto.
      * intros w W1 W2. rewrite !upd_neq; auto.
    + destruct (mo k) eqn:M.
      * apply PSM with (i, Co); auto; unfold p_ss, p_sm, multi_out, stage_set_output; simpl; try rewrite M; auto. rewrite !orb_true_r. auto.
      * eapply PSS with (i, Co); auto; unfold p_ss, multi_out; simpl; try rewrite M; auto.
        intros h H1 H2. rewrite orb_true_r. unfold create_out. rewrite H2.
        eexists _, (i, Obj). split; [reflexivity|]. cbn [nb nin inN outN nout set_nout alloc]. rewrite upd_eq.
        repeat split; auto.
        -- rewrite upd_eq. auto.
        -- rewrite upd_neq by discriminate. rewrite upd_eq. auto.
        -- intros w W1 W2. rewrite !upd_neq; auto.
  - apply PM; auto; try reflexivity; [|apply not_obj_rw]. simpl in PP. apply andb_prop in PP. destruct PP as [_ PP]. apply Nat.ltb_lt in PP.
    unfold np. simpl. unfold rw. rewrite map_length, seq_length. auto.
Qed.

Lemma full_one_p : forall p c, np p = 1 -> full p c = true.
Proof. intros p c H. unfold full. unfold np in H. rewrite H. auto. Qed.
Lemma full_one_c : forall p c, nc c = 1 -> full p c = true.
Proof. intros p c H. unfold full. unfold nc in H. rewrite H, orb_true_r. auto. Qed.

(** A cross is a bundle. *)
Lemma cross_bundle : forall xs ys zs f sx py h h', posd xs -> posd ys ->
  (forall x, In x xs -> outN h x = []) -> (forall y, In y ys -> inN h y = []) -> cross xs ys h = Some h' ->
  (forall x y, In x xs -> In y ys -> f x y = nb h + pos y * length xs + pos x) ->
  (forall x, In x xs -> sx x = ys) -> (forall y, In y ys -> py y = xs) ->
  bundle xs ys zs true true f sx py h'.
Proof.
  intros xs ys zs f sx py h h' PX PY FX FY E HF SX SY.
  destruct (cross_form xs ys h (posd_nodup _ PX) (posd_nodup _ PY)) as (h2 & E2 & _ & _ & _ & _ & O & _ & I).
  assert (h2 = h') by congruence. subst h2. split.
  - intros x Hx. destruct (posd_in xs x PX Hx) as [NX LX]. pose proof (O _ _ NX) as EO. rewrite (FX x Hx) in EO. simpl in EO.
    rewrite EO, (SX x Hx). split.
    + unfold writes. rewrite EO, map_map. simpl. rewrite <- (map_pos _ (fun j => Some (nb h + j * length xs + pos x))) by auto.
      apply map_ext_in. intros y Hy. rewrite (HF x y Hx Hy). auto.
    + intros z Hz. apply in_map_iff in Hz. destruct Hz as (j & A & _). discriminate.
  - intros y Hy. destruct (posd_in ys y PY Hy) as [NY LY]. pose proof (I _ _ NY) as EI. rewrite (FY y Hy) in EI. simpl in EI.
    rewrite EI, (SY y Hy). split.
    + unfold reads. rewrite EI, map_map. simpl.
      transitivity (map (fun x => Some (nb h + pos y * length xs + pos x)) xs).
      * rewrite (map_pos _ (fun j => Some (nb h + pos y * length xs + j))) by auto.
        assert (G : forall n a, map (fun x => Some x) (seq a n) = map (fun j => Some (a + j)) (seq 0 n)).
        { intros n a. replace a with (a + 0) at 1 by lia. generalize 0. induction n as [|n IH]; intros m; simpl; auto.
          f_equal. replace (S (a + m)) with (a + S m) by lia. apply IH. }
        apply G.
      * apply map_ext_in. intros x Hx. rewrite (HF x y Hx Hy). auto.
    + intros z Hz. apply in_map_iff in Hz. destruct Hz as (j & A & _). discriminate.
Qed.

Lemma firstn_nth : forall (l : list id) k y, nth_error l k = Some y -> firstn 1 (skipn k l) = [y].
Proof. induction l as [|a l IH]; intros [|k] y H; simpl in *; try discriminate; [injection H as ->; auto|]. apply IH. auto. Qed.

Lemma combine_in : forall (xs ys : list id), posd xs -> posd ys -> length xs = length ys ->
  forall x, In x xs -> exists y, In (x, y) (combine xs ys) /\ pos y = pos x /\ nth_error ys (pos x) = Some y /\ nth_error xs (pos y) = Some x.
Proof.
  intros xs ys PX PY L x Hx. destruct (posd_in xs x PX Hx) as [NX LX]. destruct (nth_error ys (pos x)) as [y|] eqn:NY.
  - exists y. rewrite (PY _ _ NY). repeat split; auto. eapply nth_error_In with (n := pos x). rewrite combine_nth_error by auto. rewrite NX, NY. auto.
  - apply nth_error_None in NY. lia.
Qed.
Lemma map_fst_combine : forall A B (l : list A) (m : list B), length l = length m -> map fst (combine l m) = l.
Proof. induction l as [|a l IH]; intros [|b m] H; simpl in *; try discriminate; auto. f_equal. auto. Qed.
Lemma map_snd_combine : forall A B (l : list A) (m : list B), length l = length m -> map snd (combine l m) = m.
Proof. induction l as [|a l IH]; intros [|b m] H; simpl in *; try discriminate; auto. f_equal. auto. Qed.

Definition keepO (xs : list id) (h h' : heap) : Prop := forall x, ~ In x xs -> nout h' x = nout h x /\ outN h' x = outN h x.
Definition keepI (ys : list id) (h h' : heap) : Prop := forall y, ~ In y ys -> nin h' y = nin h y /\ inN h' y = inN h y.

Definition done (i : nat) (p c : stage) (h h' : heap) : Prop :=
  BP h' i p c (nb h) /\ nb h' = nb h + bcnt p c /\ keepO (exit i p ++ [(i, Obj)]) h h' /\ keepI (entry (S i) c) h h'.

(** Point-to-point connections. *)
Lemma p2p_labels : forall i p c base x y, np p = nc c -> (full p c = true -> np p = 1) -> In x (exit i p) -> In y (entry (S i) c) -> pos y = pos x ->
  aft i p c x = [y] /\ bef i p c y = [x] /\ blab p c base x y = base + pos x.
Proof.
  intros i p c base x y L F Hx Hy E. destruct (posd_in _ _ (posd_exit i p) Hx) as [NX LX]. destruct (posd_in _ _ (posd_entry (S i) c) Hy) as [NY LY].
  unfold aft, bef, blab. destruct (full p c).
  - specialize (F eq_refl). rewrite length_exit in LX. rewrite length_entry in LY.
    assert (pos x = 0) by lia. assert (pos y = 0) by lia. rewrite H in NX. rewrite H0 in NY.
    pose proof (length_exit i p) as EL. pose proof (length_entry (S i) c) as EC. rewrite F in EL. rewrite <- L, F in EC.
    destruct (exit i p) as [|a [|b r]]; simpl in *; try discriminate. destruct (entry (S i) c) as [|a' [|b' r']]; simpl in *; try discriminate.
    injection NX as <-. injection NY as <-. rewrite H0, H. simpl. repeat split; lia.
  - rewrite <- E at 1. rewrite (firstn_nth _ _ _ NY). rewrite E, (firstn_nth _ _ _ NX). auto.
Qed.
