(** Divide and conquer: every execution is bounded. *)
From Coq Require Import List Arith Bool Lia Permutation.
From Verif Require Import Base DCModel DCSpec DCProofs DCProofs2 DCProofs3 DCProofs4 DCProofs5 DCProofs6 DCProofs7 DCProofs8.
Import ListNotations.

(** *** Sums *)
Lemma sum_app : forall a b, list_sum (a ++ b) = list_sum a + list_sum b.
Proof. induction a; simpl; intros; [auto | rewrite IHa; lia]. Qed.
Lemma sum_lupd : forall A (f : A -> nat) l i x y, nth_error l i = Some x ->
  list_sum (map f (lupd l i y)) + f x = list_sum (map f l) + f y.
Proof.
  intros A f l i x y H. destruct (lupd_split _ _ _ _ y H) as (l1 & l2 & E1 & E2).
  rewrite E2, E1, !map_app, !sum_app. simpl. lia.
Qed.
Lemma sum_one : forall A (f g : A -> nat) l t, NoDup l -> In t l -> (forall x, In x l -> x <> t -> f x = g x) ->
  list_sum (map f l) + g t = list_sum (map g l) + f t.
Proof.
  intros A f g l t N I H. apply in_split in I as (l1 & l2 & ->).
  rewrite !map_app, !sum_app. simpl. apply NoDup_remove_2 in N. rewrite in_app_iff in N.
  rewrite (map_ext_in f g l1), (map_ext_in f g l2); [lia | |].
  - intros x X. apply H; [apply in_app_iff; right; right; auto | intros ->; tauto].
  - intros x X. apply H; [apply in_app_iff; left; auto | intros ->; tauto].
Qed.
Lemma sum_ge : forall (f : nat -> nat) l L, NoDup L -> (forall x, In x L -> In x l /\ 0 < f x) ->
  length L <= list_sum (map f l).
Proof.
  intros f l. induction l as [|y l IH]; intros L N H.
  - destruct L as [|x L]; [auto|]. destruct (H x (or_introl eq_refl)) as [[] _].
  - simpl. destruct (in_dec Nat.eq_dec y L) as [I|I].
    + apply in_split in I as (l1 & l2 & ->). destruct (H y) as [_ P]; [apply in_app_iff; right; left; auto|].
      assert (length (l1 ++ l2) <= list_sum (map f l)).
      { apply IH; [eapply NoDup_remove_1; eauto|]. intros x X. apply NoDup_remove_2 in N.
        destruct (H x) as [[<-|Q] R]; auto; [apply in_app_iff in X; apply in_app_iff; simpl; tauto | tauto]. }
      rewrite app_length in *. simpl. lia.
    + assert (length L <= list_sum (map f l)); [|lia]. apply IH; auto. intros x X.
      destruct (H x X) as [[<-|Q] R]; tauto.
Qed.

Section Term.
Context {Op Res : Type}.
Variable cond : Op -> bool.
Variable divide : Op -> list Op.
Variable seqf : Op -> Res.
Variable combine : list Res -> Res.
Variable dflt : Res.
Variable junk : nat -> nat -> nat.
Variable op0 : Op.
Variable N : nat.
Notation Inv := (Inv cond divide seqf combine op0).
Notation st := (@st Op Res).
Notation step := (step cond divide seqf combine dflt junk).
Notation start := (start cond divide seqf dflt).
Notation solve := (solve cond divide seqf combine).
Notation solves := (solves cond divide seqf combine).
Notation GI := (GI cond divide seqf combine op0).

(** The steps that a call of the function on [op] gives rise to, at most. *)
Fixpoint cost (n : nat) (op : Op) : nat :=
  match n with
  | 0 => 0
  | S m => if cond op then 1 else 8 + list_sum (map (fun o => 6 + cost m o) (divide op))
  end.

Lemma cost_S : forall m op, cost (S m) op = if cond op then 1 else 8 + list_sum (map (fun o => 6 + cost m o) (divide op)).
Proof. reflexivity. Qed.

Lemma solve_all : forall m op v o, solve (S m) op = Some v -> cond op = false -> In o (divide op) ->
  exists w, solve m o = Some w.
Proof.
  intros m op v o E C I. destruct (solve_sub _ _ _ _ _ _ _ E C) as (_ & H).
  destruct (H o I) as (k & w & L & S). exists w. eapply solve_mono; eauto. lia.
Qed.

Lemma cost_stable : forall n op v, solve n op = Some v -> forall m, n <= m -> cost m op = cost n op.
Proof.
  induction n as [|n IH]; intros op v E m H; [discriminate|].
  destruct m as [|m]; [lia|]. rewrite !cost_S. destruct (cond op) eqn:C; auto.
  f_equal. f_equal. apply map_ext_in. intros o I. f_equal.
  destruct (solve_all _ _ _ _ E C I) as (w & S). eapply IH; eauto. lia.
Qed.

Definition W (fr : list (nat * list Op)) (k : kind) : nat :=
  match k with
  | KDac b i => match frame fr b with
                | Some ops => match nth_error ops i with Some o => cost N o | None => 0 end
                | None => 0
                end
  | KComb _ _ _ => 1
  end.
Definition evw fr (e : ev) : nat :=
  match e with Snd k => 6 + W fr k | Cal b i => W fr (KDac b i) | Cmb _ _ _ => 1 | Don _ => 2 end.
Definition ww fr (w : worker) : nat :=
  list_sum (map (evw fr) (prog w)) + list_sum (map (fun e => pred (evw fr e)) (outq w)).
Definition endb (s : st) (t : nat) : bool := existsb (Nat.eqb t) (flat_map (fun w => dons (stream w)) (ws s)).
Definition phi1 fr (s : st) (t : nat) : nat :=
  match tk s t with Some v => if endb s t then 0 else 4 + W fr (kd v) | None => 0 end.
Definition M fr (s : st) : nat :=
  list_sum (map (fun k => 5 + W fr k) (todo s)) + list_sum (map (ww fr) (ws s)) +
  list_sum (map (phi1 fr s) (seq 0 (nid s))).
Definition Q (s : st) : nat := length (flat_map inq (ws s)).

Definition FI (s : st) : Prop := forall a o, slot_op op0 (frames s) a o -> exists v, solve N o = Some v.

Lemma endb_iff : forall s t, endb s t = true <-> ~ fresh (SSof s) t.
Proof.
  intros s t. unfold endb, fresh. rewrite existsb_exists. split.
  - intros (x & I & E) H. apply Nat.eqb_eq in E. subst x. apply in_flat_map in I as (w & Iw & I).
    apply In_nth_error in Iw as (i & Hi). apply (H (S i)). simpl. rewrite Hi. auto.
  - intros H. destruct (in_dec Nat.eq_dec t (flat_map (fun w => dons (stream w)) (ws s))) as [I|I].
    + exists t. rewrite Nat.eqb_refl. auto.
    + exfalso. apply H. intros [|i] J; simpl in J; [rewrite snd_dons in J; destruct J|].
      destruct (nth_error (ws s) i) as [w|] eqn:E; [|destruct J]. apply I. apply in_flat_map. exists w.
      split; auto. eapply nth_error_In; eauto.
Qed.
Lemma endb_false : forall s t, endb s t = false <-> fresh (SSof s) t.
Proof.
  intros s t. destruct (endb s t) eqn:E.
  - split; [discriminate|]. intros F. apply endb_iff in E. tauto.
  - split; auto. intros _ j J. assert (endb s t = true) as X; [|congruence]. apply endb_iff. intros F. exact (F j J).
Qed.
Lemma endb_eq : forall s s' t, (fresh (SSof s) t <-> fresh (SSof s') t) -> endb s t = endb s' t.
Proof.
  intros s s' t H. destruct (endb s' t) eqn:E.
  - apply endb_iff. apply endb_iff in E. tauto.
  - apply endb_false. apply endb_false in E. tauto.
Qed.

Lemma M_frames : forall s fr fr', (forall k, tok (SSof s) (tk s) k -> W fr' k = W fr k) -> M fr' s = M fr s.
Proof.
  intros s fr fr' H. unfold M. f_equal; [f_equal|]; f_equal; apply map_ext_in.
  - intros k I. f_equal. apply H. left. exists 0, (Snd k). split; auto. simpl. apply in_map. auto.
  - intros w I. apply In_nth_error in I as (i & Hi).
    assert (G : forall e, In e (stream w) -> evw fr' e = evw fr e).
    { intros e Ie. assert (T : forall k, evk e = Some k -> W fr' k = W fr k).
      { intros k K. apply H. left. exists (S i), e. simpl. rewrite Hi. auto. }
      destruct e as [k|b q|b n r|t]; cbn [evw]; auto. }
    unfold ww, stream in *. f_equal; f_equal; apply map_ext_in; intros e Ie; rewrite G; auto; apply in_app_iff; auto.
  - intros t _. unfold phi1. destruct (tk s t) as [v|] eqn:Ht; auto. destruct (endb s t) eqn:E; auto. f_equal.
    apply H. right. exists t, v. apply endb_false in E. auto.
Qed.

(** *** The kinds of the tasks *)
Definition kds (tk : nat -> option task) (x : nat) : option kind := option_map kd (tk x).
Lemma kds_tupd : forall tk i f x, (forall t, kd (f t) = kd t) -> kds (tupd tk i f) x = kds tk x.
Proof.
  intros tk i f x H. unfold kds, tupd, fupd. destruct (Nat.eqb_spec x i) as [->|]; auto. destruct (tk i); simpl; rewrite ?H; auto.
Qed.

Lemma insert_kds : forall k (s : st) x, kds (tk (insert junk k s)) x = if x =? nid s then Some k else kds (tk s) x.
Proof.
  intros k s x. unfold insert.
  assert (Ki : forall l tk, kds (fold_left (fun tk d => p_in (nid s) d tk (addr s)) l tk) x = kds tk x).
  { induction l as [|d l IH]; simpl; intros tk; auto. rewrite IH. unfold p_in. destruct (find_task _ _); auto.
    rewrite !kds_tupd; auto. }
  assert (Ks : forall t l tk del, kds (fst (scan (nid s) t l tk del)) x = kds tk x).
  { intros t. induction l as [|d l IH]; simpl; intros tk del; auto.
    destruct (tk t); auto. destruct (find_task tk (ids t0 d)); auto.
    destruct ((ids t0 d =? nid s) || _); auto. rewrite IH, !kds_tupd; auto. }
  assert (Kc : forall t del tk, kds (compact t del tk) x = kds tk x).
  { intros t. unfold compact. induction del as [|d del IH]; simpl; intros tk; auto. rewrite IH, kds_tupd; auto. }
  specialize (Ki (ins k) (fupd (tk s) (nid s) (Some (mkT k NotReady 0 (junk (nid s)) 0)))).
  revert Ki.
  generalize (fold_left (fun tk0 d => p_in (nid s) d tk0 (addr s)) (ins k)
     (fupd (tk s) (nid s) (Some (mkT k NotReady 0 (junk (nid s)) 0)))) as tk1. intros tk1 H1.
  destruct (p_out (nid s) (kout k) tk1 (addr s)) as [tk2 ad] eqn:E.
  assert (H2 : kds tk2 x = kds tk1 x).
  { unfold p_out in E. injection E as <- _. destruct (find_task tk1 (addr s (kout k))) as [t|]; auto.
    destruct (unum t =? 0); [rewrite !kds_tupd; auto|]. specialize (Ks (addr s (kout k)) (seq 0 (unum t)) tk1 []).
    destruct (scan _ _ _ _ _) as [tk' del]. rewrite Kc. exact Ks. }
  cbv zeta. simpl. assert (H3 : forall b : bool, kds (if b then tupd tk2 (nid s) (fun a => mkT (kd a) Ready (rem a) (ids a) (unum a)) else tk2) x = kds tk2 x).
  { intros [|]; auto. rewrite kds_tupd; auto. }
  rewrite H3, H2, H1. unfold kds, fupd. destruct (x =? nid s); auto.
Qed.

Lemma handle_facts : forall (s : st) t v, find_task (tk s) t = Some v ->
  frames (handle s t) = frames s /\ nid (handle s t) = nid s /\ todo (handle s t) = todo s /\
  tk (handle s t) t = None /\ forall x, x <> t -> kds (tk (handle s t)) x = kds (tk s) x.
Proof.
  intros s t v Hv. unfold handle. rewrite Hv.
  assert (U : forall (s : st) c, frames (unblock s c) = frames s /\ nid (unblock s c) = nid s /\ todo (unblock s c) = todo s /\
    forall x, kds (tk (unblock s c)) x = kds (tk s) x).
  { intros s1 c. unfold unblock. destruct (find_task (tk s1) c) as [u|] eqn:F; [|auto]. destruct (rem u); [auto|].
    simpl. repeat (split; [reflexivity|]). intros x. unfold kds, fupd. destruct (Nat.eqb_spec x c) as [->|]; auto.
    unfold find_task in F. destruct (c =? 0); [discriminate|]. rewrite F. auto. }
  assert (G : forall l (s1 : st), let s' := fold_left (fun s i => unblock s (match tk s t with Some v => ids v i | None => 0 end)) l s1 in
    frames s' = frames s1 /\ nid s' = nid s1 /\ todo s' = todo s1 /\ forall x, kds (tk s') x = kds (tk s1) x).
  { induction l as [|i l IH]; intros s1; simpl; [auto|].
    destruct (IH (unblock s1 (match tk s1 t with Some v => ids v i | None => 0 end))) as (A & B & C & D).
    destruct (U s1 (match tk s1 t with Some v => ids v i | None => 0 end)) as (A' & B' & C' & D').
    rewrite A, B, C, A', B', C'. repeat (split; [reflexivity|]). intros x. rewrite D, D'. auto. }
  destruct (G (seq 0 (unum v)) s) as (A & B & C & D). simpl. rewrite A, B, C. repeat (split; [reflexivity|]).
  split; [apply fupd_eq|]. intros x Nx. unfold kds. rewrite fupd_neq by auto. apply D.
Qed.

(** *** The measure of one step *)
Lemma kds_phi : forall fr s s' x, kds (tk s') x = kds (tk s) x -> endb s' x = endb s x -> phi1 fr s' x = phi1 fr s x.
Proof.
  intros fr s s' x K E. unfold phi1. rewrite E. unfold kds in K. destruct (tk s' x), (tk s x); simpl in K; try discriminate; auto.
  injection K as ->. auto.
Qed.

Lemma M_insert : forall fr s k, (forall t, ~ fresh (SSof s) t -> t < nid s) ->
  M fr (insert junk k s) = M fr s + 4 + W fr k.
Proof.
  intros fr s k Hd. destruct (insert_frame junk k s) as (F1 & F2 & _).
  assert (F3 : nid (insert junk k s) = S (nid s)).
  { unfold insert. destruct (p_out _ _ _ _). reflexivity. }
  assert (Hs : forall j', SSof (insert junk k s) j' = SSof s j').
  { intros [|i]; unfold SSof; rewrite ?F1, ?F2; auto. }
  assert (He : forall x, endb (insert junk k s) x = endb s x).
  { intros x. apply endb_eq. unfold fresh. split; intros H j J; apply (H j); rewrite Hs in *; auto. }
  unfold M. rewrite F1, F2, F3, seq_S, map_app, sum_app. simpl.
  assert (P : phi1 fr (insert junk k s) (nid s) = 4 + W fr k).
  { unfold phi1. pose proof (insert_kds k s (nid s)) as K. rewrite Nat.eqb_refl in K. unfold kds in K.
    destruct (tk (insert junk k s) (nid s)) as [v|]; [|discriminate]. injection K as K. rewrite K, He.
    destruct (endb s (nid s)) eqn:E; auto. apply endb_iff, Hd in E. lia. }
  rewrite P. rewrite (map_ext_in (phi1 fr (insert junk k s)) (phi1 fr s)); [lia|].
  intros x Ix. apply in_seq in Ix. apply kds_phi; auto. rewrite insert_kds.
  destruct (Nat.eqb_spec x (nid s)); [lia | auto].
Qed.

Lemma M_ws : forall fr s s' wi w w', nth_error (ws s) wi = Some w -> ws s' = lupd (ws s) wi w' ->
  todo s' = todo s -> nid s' = nid s -> tk s' = tk s -> dons (stream w') = dons (stream w) ->
  M fr s' + ww fr w = M fr s + ww fr w'.
Proof.
  intros fr s s' wi w w' Hw Ew Et En Ek Ed.
  destruct (SS_upd s s' wi w w' Hw Ew Et) as (A & B & C).
  assert (D : forall j, dons (SSof s' j) = dons (SSof s j)).
  { intros j. destruct (Nat.eq_dec j (S wi)) as [->|X]; [rewrite A, B; auto | rewrite C; auto]. }
  unfold M. rewrite Et, En, Ew. pose proof (sum_lupd _ (ww fr) _ _ _ w' Hw).
  rewrite (map_ext_in (phi1 fr s') (phi1 fr s)); [lia|].
  intros x _. apply kds_phi; [unfold kds; rewrite Ek; auto|]. apply endb_eq. unfold fresh.
  split; intros H1 j J; apply (H1 j); rewrite D in *; auto.
Qed.

Lemma Q_ws : forall (s s' : st) wi w w', nth_error (ws s) wi = Some w -> ws s' = lupd (ws s) wi w' ->
  Q s' + length (inq w) = Q s + length (inq w').
Proof.
  intros s s' wi w w' Hw Ew. unfold Q. rewrite Ew. destruct (lupd_split _ _ _ _ w' Hw) as (l1 & l2 & E1 & E2).
  rewrite E2, E1, !flat_map_app, !app_length. simpl. rewrite !app_length. lia.
Qed.

Lemma evw_expand : forall fr b' x r, cond x = false -> divide x <> [] -> (exists v, solve N x = Some v) ->
  list_sum (map (evw ((b', divide x) :: fr)) (expand b' (length (divide x)) r)) + 7 <= cost N x.
Proof.
  intros fr b' x r C D (v & S). destruct N as [|m] eqn:EN; [discriminate|].
  rewrite cost_S, C. unfold expand. rewrite map_app, sum_app.
  assert (Wd : forall i o, nth_error (divide x) i = Some o ->
     W ((b', divide x) :: fr) (KDac b' i) = cost m o).
  { intros i o Hi. unfold W. simpl. rewrite Nat.eqb_refl, Hi. rewrite EN.
    destruct (solve_all _ _ _ _ S C (nth_error_In _ _ Hi)) as (w & Sw). eapply cost_stable; eauto. }
  destruct (exists_last D) as (l & z & Dx). rewrite Dx in *. clear Dx D.
  rewrite app_length. simpl length. replace (length l + 1 - 1) with (length l) by lia.
  cbn [map]. rewrite map_app, sum_app. cbn [map list_sum fold_right].
  assert (E1 : evw ((b', l ++ [z]) :: fr) (Cal b' (length l)) = cost m z).
  { cbn [evw]. apply Wd. rewrite nth_error_app2 by lia. rewrite Nat.sub_diag. auto. }
  assert (E2 : list_sum (map (evw ((b', l ++ [z]) :: fr)) (map (fun j => Snd (KDac b' j)) (seq 0 (length l)))) =
     list_sum (map (fun o => 6 + cost m o) l)).
  { f_equal. rewrite map_map.
    assert (G : forall i o, nth_error l i = Some o -> evw ((b', l ++ [z]) :: fr) (Snd (KDac b' i)) = 6 + cost m o).
    { intros i o Hi. cbn [evw]. f_equal. apply Wd. rewrite nth_error_app1; auto. apply nth_error_Some. congruence. }
    revert G. clear. generalize (evw ((b', l ++ [z]) :: fr)) as f. intros f.
    assert (X : forall l s, (forall i o, nth_error l i = Some o -> f (Snd (KDac b' (s + i))) = 6 + cost m o) ->
      map (fun j => f (Snd (KDac b' j))) (seq s (length l)) = map (fun o => 6 + cost m o) l).
    { induction l0 as [|y l0 IH]; intros s G; simpl; auto. f_equal.
      - specialize (G 0 y eq_refl). rewrite Nat.add_0_r in G. exact G.
      - apply IH. intros i o Hi. specialize (G (S i) o Hi). now replace (S s + i) with (s + S i) by lia. }
    intros G. apply X. exact G. }
  unfold list_sum in *. rewrite E1, E2. cbn [evw W]. lia.
Qed.

Lemma measure_step : forall s a s', GI s -> FI s -> step s a = Some s' ->
  M (frames s') s' + Q s + 1 <= M (frames s) s + Q s'.
Proof.
  intros s a s' G F E. assert (G0 := G). destruct G0 as (I & Hb & Hf & Hm).
  assert (Ez : tk s 0 = None).
  { destruct (tk s 0) as [u|] eqn:X; auto. apply (i_nid _ _ _ _ _ _ _ _ _ _ _ _ _ _ I) in X. lia. }
  assert (Hlt : forall t, ~ fresh (SSof s) t -> t < nid s).
  { intros t H. apply endb_iff in H. unfold endb in H. apply existsb_exists in H as (x & Ix & Ex).
    apply Nat.eqb_eq in Ex. subst x. apply in_flat_map in Ix as (w & Iw & Ix). apply In_nth_error in Iw as (i & Hi).
    destruct (i_dt _ _ _ _ _ _ _ _ _ _ _ _ _ _ I (S i) t) as (v & Hv & _).
    - simpl. rewrite Hi. auto.
    - apply (i_nid _ _ _ _ _ _ _ _ _ _ _ _ _ _ I) in Hv. lia. }
  destruct a as [|wi t|wi|wi b|wi]; cbn [DCModel.step] in E.
  - destruct (todo s) as [|k r] eqn:Et; [discriminate|]. injection E as <-.
    destruct (insert_frame junk k (set_todo s r)) as (_ & F2 & _ & F4 & _). rewrite F4. simpl frames.
    rewrite M_insert.
    + unfold Q. rewrite F2. simpl ws. 
      assert (M (frames s) s = 5 + W (frames s) k + M (frames s) (set_todo s r)) as X; [|lia].
      unfold M. rewrite Et. cbn [map list_sum fold_right set_todo todo ws nid]. 
      rewrite (map_ext_in (phi1 (frames s) s) (phi1 (frames s) (set_todo s r))); [unfold list_sum; lia|].
      intros x _. apply kds_phi; auto.
    + intros t H. apply Hlt. intros X. apply H. intros [|j] J; [simpl in J; rewrite snd_dons in J; destruct J | exact (X (S j) J)].
  - destruct (nth_error (ws s) wi) as [w|] eqn:Hw; [|discriminate].
    destruct (existsb (Nat.eqb t) (rq s)) eqn:Ex; [|discriminate]. injection E as <-.
    set (s1 := set_ws (set_rq s (remove Nat.eq_dec t (rq s))) (lupd (ws s) wi (mkW (inq w ++ [t]) (prog w) (outq w)))).
    pose proof (M_ws (frames s) s s1 wi w _ Hw eq_refl eq_refl eq_refl eq_refl eq_refl) as X1.
    pose proof (Q_ws s s1 wi w _ Hw eq_refl) as X2. change (frames s1) with (frames s).
    cbn [inq] in X2. rewrite app_length in X2. simpl in X2.
    change (ww (frames s) {| inq := inq w ++ [t]; prog := prog w; outq := outq w |}) with (ww (frames s) w) in X1. lia.
  - destruct (nth_error (ws s) wi) as [[[|t q] [|e p] o]|] eqn:Hw; try discriminate.
    assert (It : In t (rqlof s)) by (eapply in_flat_inq; [exact Hw | left; auto]).
    assert (Hv := It). apply (i_rqt _ _ _ _ _ _ _ _ _ _ _ _ _ _ I) in Hv as (v & Hv & _ & Fv).
    rewrite find_tk, Hv in E by auto. injection E as <-.
    change (match kd v with KDac b i => Cal b i | KComb b n r => Cmb b n r end) with (first_ev (kd v)).
    set (s1 := set_ws s (lupd (ws s) wi (mkW q [first_ev (kd v); Don t] o))). change (frames s1) with (frames s).
    destruct (SS_upd s s1 wi _ _ Hw eq_refl eq_refl) as (A & B & C).
    pose proof (Q_ws s s1 wi _ _ Hw eq_refl) as X2. cbn [inq length] in X2.
    assert (Lt : t < nid s) by (apply (i_nid _ _ _ _ _ _ _ _ _ _ _ _ _ _ I) in Hv; lia).
    assert (Fe : forall x, x <> t -> endb s1 x = endb s x).
    { intros x Nx. apply endb_eq. unfold fresh. split; intros H j J; apply (H j); destruct (Nat.eq_dec j (S wi)) as [->|Nj]; try (rewrite C by auto; exact J); try (rewrite C in J by auto; exact J).
      - rewrite B. rewrite A in J. unfold stream in *. simpl in *. rewrite app_nil_r in J. rewrite dons_app. apply in_app_iff. auto.
      - rewrite A. rewrite B in J. unfold stream in *. simpl in *. rewrite app_nil_r. rewrite dons_app in J. apply in_app_iff in J as [J|J]; auto.
        exfalso. destruct (kd v); simpl in J; destruct J; congruence. }
    assert (Ft : endb s1 t = true).
    { apply endb_iff. intros H. apply (H (S wi)). rewrite B. unfold stream. simpl. rewrite dons_app. apply in_app_iff. right.
      destruct (kd v); simpl; auto. }
    pose proof (sum_one _ (phi1 (frames s) s1) (phi1 (frames s) s) (seq 0 (nid s)) t (seq_NoDup _ _)) as X3.
    assert (X4 : phi1 (frames s) s1 t = 0).
    { unfold phi1. rewrite Ft. destruct (tk s1 t); auto. }
    assert (X5 : phi1 (frames s) s t = 4 + W (frames s) (kd v)).
    { unfold phi1. rewrite Hv. apply endb_false in Fv. rewrite Fv. auto. }
    specialize (X3 ltac:(apply in_seq; lia)).
    specialize (X3 ltac:(intros x _ Nx; apply kds_phi; auto)).
    pose proof (sum_lupd _ (ww (frames s)) _ _ _ (mkW q [first_ev (kd v); Don t] o) Hw) as X6.
    unfold ww at 2 4 in X6. cbn [prog outq map] in X6.
    assert (X7 : evw (frames s) (first_ev (kd v)) = W (frames s) (kd v)) by (destruct (kd v); reflexivity).
    cbn [list_sum fold_right] in X6. rewrite X7 in X6. cbn [evw] in X6.
    unfold M. change (todo s1) with (todo s). change (nid s1) with (nid s).
    change (ws s1) with (lupd (ws s) wi (mkW q [first_ev (kd v); Don t] o)). lia.
  - destruct (nth_error (ws s) wi) as [w|] eqn:Hw; [|discriminate]. unfold work in E.
    destruct (prog w) as [|e p] eqn:Ep; [discriminate|].
    assert (In_e : In e (SSof s (S wi))).
    { simpl. rewrite Hw. unfold stream. rewrite Ep. apply in_app_iff. right. left. auto. }
    assert (Mv : forall s1 : st, (ws s1 = lupd (ws s) wi (mkW (inq w) p (outq w ++ [e]))) -> todo s1 = todo s -> nid s1 = nid s -> tk s1 = tk s ->
      0 < evw (frames s) e -> M (frames s) s1 + Q s + 1 <= M (frames s) s + Q s1).
    { intros s1 E1 E2 E3 E4 P. pose proof (Q_ws s s1 wi w _ Hw E1) as X2. cbn [inq] in X2.
      assert (Ed : dons (stream (mkW (inq w) p (outq w ++ [e]))) = dons (stream w)).
      { unfold stream. simpl. rewrite Ep, <- app_assoc. auto. }
      pose proof (M_ws (frames s) s s1 wi w _ Hw E1 E2 E3 E4 Ed) as X1.
      unfold ww in X1. rewrite Ep in X1. cbn [prog outq map] in X1. rewrite map_app, sum_app in X1.
      cbn [map list_sum fold_right] in X1. unfold list_sum in X1. lia. }
    destruct e as [k|b0 i|b0 n r|t].
    + injection E as <-. apply Mv; auto. simpl. lia.
    + destruct (i_tok _ _ _ _ _ _ _ _ _ _ _ _ _ _ I (KDac b0 i)) as (ops & Fo & Li); [left; exists (S wi), (Cal b0 i); auto|].
      rewrite Fo in E. destruct (nth_error ops i) as [x|] eqn:Nx; [|apply nth_error_None in Nx; lia].
      assert (So : slot_op op0 (frames s) (b0 + i) x) by (right; exists b0, ops, i; auto).
      destruct (F _ _ So) as (vx & Sx).
      assert (Wx : evw (frames s) (Cal b0 i) = cost N x) by (cbn [evw W]; rewrite Fo, Nx; auto).
      destruct (cond x) eqn:Cx.
      * injection E as <-.
        set (s1 := mkS (tk s) (addr s) (nid s) (numb s) (comp s) (rq s) (todo s) (lupd (ws s) wi (mkW (inq w) p (outq w)))
           (fupd (mem s) (b0 + i) (seqf x)) (frames s) (fin s) (bad s)).
        pose proof (Q_ws s s1 wi w _ Hw eq_refl) as X2. cbn [inq] in X2. change (frames s1) with (frames s).
        assert (Ed : dons (stream (mkW (inq w) p (outq w))) = dons (stream w)).
        { unfold stream. simpl. rewrite Ep, !dons_app. auto. }
        pose proof (M_ws (frames s) s s1 wi w _ Hw eq_refl eq_refl eq_refl eq_refl Ed) as X1.
        unfold ww in X1. rewrite Ep in X1. cbn [prog outq map list_sum fold_right] in X1. rewrite Wx in X1.
        assert (cost N x = 1) by (destruct N; [discriminate | rewrite cost_S, Cx; auto]).
        unfold list_sum in X1. lia.
      * assert (Dx : divide x <> []) by (eapply (solve_sub _ _ _ _ _ _ _ Sx Cx)).
        destruct (length (divide x) =? 0) eqn:Z.
        { apply Nat.eqb_eq in Z. destruct (divide x); [congruence | discriminate]. }
        apply Nat.eqb_neq in Z. destruct (base_free (frames s) b (length (divide x))) eqn:Bf; [|discriminate].
        injection E as <-.
        set (s1 := mkS (tk s) (addr s) (nid s) (numb s) (comp s) (rq s) (todo s)
           (lupd (ws s) wi (mkW (inq w) (expand b (length (divide x)) (b0 + i) ++ p) (outq w)))
           (fill dflt (mem s) b (length (divide x))) ((b, divide x) :: frames s) (fin s) (bad s)).
        set (fr' := (b, divide x) :: frames s). change (frames s1) with fr'.
        unfold base_free in Bf. apply andb_true_iff in Bf as [Bf1 Bf]. rewrite forallb_forall in Bf.
        assert (Wst : forall k, tok (SSof s) (tk s) k -> W fr' k = W (frames s) k).
        { intros k T. pose proof (i_tok _ _ _ _ _ _ _ _ _ _ _ _ _ _ I k T) as K. destruct k as [c q|]; auto.
          destruct K as (ops' & Fc & Lq). cbn [W]. unfold fr'. cbn [frame]. destruct (Nat.eqb_spec b c) as [->|]; auto.
          exfalso. apply frame_In, Bf in Fc. simpl in Fc. apply orb_true_iff in Fc as [Y|Y]; apply Nat.leb_le in Y; lia. }
        pose proof (M_frames s (frames s) fr' Wst) as X0.
        pose proof (Q_ws s s1 wi w _ Hw eq_refl) as X2. cbn [inq] in X2.
        assert (Ed : dons (stream (mkW (inq w) (expand b (length (divide x)) (b0 + i) ++ p) (outq w))) = dons (stream w)).
        { unfold stream. cbn [outq prog]. rewrite Ep, !dons_app, expand_dons. auto. }
        pose proof (M_ws fr' s s1 wi w _ Hw eq_refl eq_refl eq_refl eq_refl Ed) as X1.
        pose proof (evw_expand (frames s) b x (b0 + i) Cx Dx (ex_intro _ _ Sx)) as X3. fold fr' in X3.
        assert (Wx' : evw fr' (Cal b0 i) = cost N x).
        { cbn [evw]. rewrite Wst; [|left; exists (S wi), (Cal b0 i); auto]. exact Wx. }
        unfold ww in X1. rewrite Ep in X1. cbn [prog outq] in X1. rewrite map_app, sum_app in X1.
        cbn [map] in X1. rewrite Wx' in X1. change (list_sum (cost N x :: map (evw fr') p)) with (cost N x + list_sum (map (evw fr') p)) in X1.
        lia.
    + destruct (i_tok _ _ _ _ _ _ _ _ _ _ _ _ _ _ I (KComb b0 n r)) as (x & Fo & En & So & Cx & _); [left; exists (S wi), (Cmb b0 n r); auto|].
      rewrite Fo, (slot_live_ok _ _ _ _ So) in E. injection E as <-.
      set (s1 := mkS (tk s) (addr s) (nid s) (numb s) (comp s) (rq s) (todo s) (lupd (ws s) wi (mkW (inq w) p (outq w)))
         (fupd (mem s) r (combine (map (mem s) (seq b0 n)))) (drop_frame (frames s) b0) (fin s) (bad s)).
      set (fr' := drop_frame (frames s) b0). change (frames s1) with fr'.
      assert (Wst : forall k, tok (SSof s) (tk s) k -> W fr' k = W (frames s) k).
      { intros k T. pose proof (i_tok _ _ _ _ _ _ _ _ _ _ _ _ _ _ I k T) as K. destruct k as [c q|]; auto.
        destruct K as (ops' & Fc & Lq). cbn [W]. unfold fr'. rewrite frame_drop. destruct (Nat.eqb_spec c b0) as [->|]; auto.
        exfalso. rewrite Fo in Fc. injection Fc as <-.
        destruct (i_cmb _ _ _ _ _ _ _ _ _ _ _ _ _ _ I (S wi) b0 n r (b0 + q) In_e) as [Hh _]; [lia|].
        apply Hh. change (b0 + q) with (kout (KDac b0 q)). apply tok_held. auto. }
      pose proof (M_frames s (frames s) fr' Wst) as X0.
      pose proof (Q_ws s s1 wi w _ Hw eq_refl) as X2. cbn [inq] in X2.
      assert (Ed : dons (stream (mkW (inq w) p (outq w))) = dons (stream w)).
      { unfold stream. simpl. rewrite Ep, !dons_app. auto. }
      pose proof (M_ws fr' s s1 wi w _ Hw eq_refl eq_refl eq_refl eq_refl Ed) as X1.
      unfold ww in X1. rewrite Ep in X1. cbn [prog outq map list_sum fold_right evw] in X1.
      unfold list_sum in X1. lia.
    + injection E as <-. apply Mv; auto. simpl. lia.
  - destruct (fin s) eqn:Ff; [discriminate|]. destruct (todo s) as [|] eqn:Et; [|discriminate].
    destruct (nth_error (ws s) wi) as [[q p [|m o]]|] eqn:Hw; try discriminate.
    set (s1 := set_ws s (lupd (ws s) wi (mkW q p o))) in *.
    destruct (SS_upd s s1 wi _ _ Hw eq_refl eq_refl) as (A & B & C).
    pose proof (Q_ws s s1 wi _ _ Hw eq_refl) as X2. cbn [inq] in X2.
    assert (Es : SSof s (S wi) = m :: SSof s1 (S wi)) by (rewrite A, B; reflexivity).
    assert (Hmw : Forall ismsg (m :: o)).
    { rewrite Forall_forall in Hm. apply (Hm _ (nth_error_In _ _ Hw)). }
    pose proof (sum_lupd _ (ww (frames s)) _ _ _ (mkW q p o) Hw) as X6.
    unfold ww at 2 4 in X6. cbn [prog outq map list_sum fold_right] in X6.
    destruct m as [k|b i|b n r|t].
    + injection E as <-.
      destruct (insert_frame junk k s1) as (_ & F2 & _ & F4 & _). rewrite F4. change (frames s1) with (frames s).
      assert (Ed : dons (stream (mkW q p o)) = dons (stream (mkW q p (Snd k :: o)))) by reflexivity.
      pose proof (M_ws (frames s) s s1 wi _ _ Hw eq_refl eq_refl eq_refl eq_refl Ed) as X1.
      rewrite M_insert.
      * unfold Q in *. rewrite F2.
        unfold ww in X1. cbn [prog outq map list_sum fold_right evw] in X1. unfold list_sum in *. lia.
      * intros t H. apply Hlt. intros X. apply H. intros j J. apply (X j).
        destruct (Nat.eq_dec j (S wi)) as [->|Nj]; [rewrite Es; exact J | rewrite <- C; auto].
    + inversion Hmw as [|? ? X]. destruct X.
    + inversion Hmw as [|? ? X]. destruct X.
    + injection E as <-.
      assert (Id : In t (dons (SSof s (S wi)))) by (rewrite Es; left; auto).
      destruct (i_dt _ _ _ _ _ _ _ _ _ _ _ _ _ _ I (S wi) t Id) as (v & Hv & _).
      destruct (handle_facts s1 t v) as (H1 & H2 & H3 & H4 & H5).
      { simpl. rewrite find_tk; auto. }
      rewrite H1. change (frames s1) with (frames s).
      assert (Hs : forall j', SSof (handle s1 t) j' = SSof s1 j').
      { intros [|j]; unfold SSof; rewrite ?H3, ?handle_ws; auto. }
      assert (Ph : forall x, phi1 (frames s) (handle s1 t) x = phi1 (frames s) s x).
      { intros x. destruct (Nat.eq_dec x t) as [->|Nx].
        - unfold phi1. rewrite H4, Hv. assert (endb s t = true) as ->; auto. apply endb_iff. intros X. exact (X _ Id).
        - apply kds_phi; [rewrite H5; auto|]. apply endb_eq. unfold fresh.
          assert (Hd : forall j, In x (dons (SSof (handle s1 t) j)) <-> In x (dons (SSof s j))).
          { intros j. rewrite Hs. destruct (Nat.eq_dec j (S wi)) as [->|Nj]; [|rewrite C by auto; tauto].
            rewrite Es, dons_cons, in_app_iff. simpl. intuition congruence. }
          split; intros H j J; apply (H j), Hd, J. }
      unfold M. rewrite H2, H3, handle_ws. unfold Q in *. rewrite handle_ws.
      change (todo s1) with (todo s). change (nid s1) with (nid s).
      rewrite (map_ext (phi1 (frames s) (handle s1 t)) (phi1 (frames s) s) Ph).
      change (ws s1) with (lupd (ws s) wi (mkW q p o)) in *.
      cbn [evw] in X6. unfold list_sum in *. lia.
Qed.

Lemma fi_step : forall s a s', GI s -> FI s -> step s a = Some s' -> FI s'.
Proof.
  intros s a s' (I & _ & _ & Hm) F E. assert (Same : frames s' = frames s -> FI s') by (intros X; unfold FI; rewrite X; exact F).
  assert (Ez : tk s 0 = None).
  { destruct (tk s 0) as [u|] eqn:X; auto. apply (i_nid _ _ _ _ _ _ _ _ _ _ _ _ _ _ I) in X. lia. }
  destruct a as [|wi t|wi|wi b|wi]; cbn [DCModel.step] in E.
  - apply Same. destruct (todo s) as [|k r]; [discriminate|]. injection E as <-.
    destruct (insert_frame junk k (set_todo s r)) as (_ & _ & _ & F4 & _). rewrite F4. auto.
  - apply Same. destruct (nth_error _ _); [|discriminate]. destruct (existsb _ _); [|discriminate]. injection E as <-. auto.
  - apply Same. destruct (nth_error (ws s) wi) as [[[|t q] [|e p] o]|]; try discriminate.
    destruct (find_task _ _); injection E as <-; auto.
  - destruct (nth_error (ws s) wi) as [w|]; [|discriminate]. unfold work in E.
    destruct (prog w) as [|e p]; [discriminate|]. destruct e as [k|b0 i|b0 n r|t].
    + apply Same. injection E as <-. auto.
    + destruct (frame (frames s) b0) as [ops|] eqn:Fo; [|apply Same; injection E as <-; auto].
      destruct (nth_error ops i) as [x|] eqn:Nx; [|apply Same; injection E as <-; auto].
      destruct (cond x) eqn:Cx; [apply Same; injection E as <-; auto|].
      destruct (_ =? 0); [apply Same; injection E as <-; auto|].
      destruct (base_free _ _ _); [|discriminate]. injection E as <-. intros a o S. simpl in S.
      destruct (F (b0 + i) x) as (v & Sv); [right; exists b0, ops, i; auto|].
      destruct S as [S|(c & l & q & Fc & Nq & ->)]; [apply (F a o); left; auto|].
      cbn [frame] in Fc. destruct (Nat.eqb_spec b c) as [->|].
      * injection Fc as <-. apply nth_error_In in Nq.
        destruct (solve_sub _ _ _ _ _ _ _ Sv Cx) as (_ & Sub). destruct (Sub o Nq) as (m & z & Lm & Sm).
        exists z. eapply solve_mono; eauto. lia.
      * apply (F (c + q) o). right. exists c, l, q. auto.
    + destruct (frame (frames s) b0); [|apply Same; injection E as <-; auto].
      destruct (slot_live _ _); [|apply Same; injection E as <-; auto].
      injection E as <-. intros a o S. simpl in S. apply (F a o).
      destruct S as [S|(c & l0 & q & Fc & Nq & ->)]; [left; auto|]. rewrite frame_drop in Fc.
      destruct (c =? b0); [discriminate|]. right. exists c, l0, q. auto.
    + apply Same. injection E as <-. auto.
  - apply Same. destruct (fin s); [discriminate|]. destruct (todo s); [|discriminate].
    destruct (nth_error (ws s) wi) as [[q p [|m o]]|] eqn:Hw; try discriminate. destruct m as [k|b i|b n r|t]; injection E as <-.
    + match goal with |- frames (insert junk k ?x) = _ => destruct (insert_frame junk k x) as (_ & _ & _ & F4 & _) end. rewrite F4. auto.
    + auto.
    + auto.
    + destruct (i_dt _ _ _ _ _ _ _ _ _ _ _ _ _ _ I (S wi) t) as (v & Hv & _).
      { simpl. rewrite Hw. left. auto. }
      match goal with |- frames (handle ?x t) = _ => destruct (handle_facts x t v) as (H1 & _) end; [|exact H1].
      simpl. rewrite find_tk; auto.
Qed.

Lemma Q_le_M : forall s, GI s -> Q s <= M (frames s) s.
Proof.
  intros s (I & _). unfold Q, M.
  assert (length (flat_map inq (ws s)) <= list_sum (map (phi1 (frames s) s) (seq 0 (nid s)))); [|lia].
  apply sum_ge.
  - pose proof (i_rq _ _ _ _ _ _ _ _ _ _ _ _ _ _ I) as ND. unfold rqlof in ND.
    induction (rq s) as [|z l IH]; auto. apply IH. simpl in ND. inversion ND; auto.
  - intros x X. assert (In x (rqlof s)) as Y by (apply in_app_iff; auto).
    apply (i_rqt _ _ _ _ _ _ _ _ _ _ _ _ _ _ I) in Y as (v & Hv & _ & Fv).
    split; [apply in_seq; apply (i_nid _ _ _ _ _ _ _ _ _ _ _ _ _ _ I) in Hv; lia|].
    unfold phi1. apply endb_false in Fv. rewrite Hv, Fv. lia.
Qed.

Lemma run_bound : forall l s s', GI s -> FI s -> exec step s l = Some s' ->
  GI s' /\ FI s' /\ length l + M (frames s') s' + Q s <= M (frames s) s + Q s'.
Proof.
  induction l as [|a l IH]; intros s s' G F E; simpl in E.
  - injection E as <-. split; [auto | split; [auto | simpl; lia]].
  - destruct (step s a) as [s1|] eqn:E1; [|discriminate].
    assert (G1 : GI s1) by (eapply gi_step; eauto). assert (F1 : FI s1) by (exact (fi_step s a s1 G F E1)).
    destruct (IH s1 s' G1 F1 E) as (A & B & C). split; auto. split; auto.
    pose proof (measure_step s a s1 G F E1). simpl. lia.
Qed.

Lemma fi_start : forall nw b v, solve N op0 = Some v -> FI (start nw op0 b).
Proof.
  intros nw b v S a o H. unfold DCModel.start in H. destruct (cond op0) eqn:C; simpl in H.
  - destruct H as [[_ ->]|(c & l & q & X & _)]; [eauto | discriminate].
  - destruct H as [[_ ->]|(c & l & q & X & Y & _)]; [eauto|]. cbn [frame] in X. destruct (b =? c); [|discriminate].
    injection X as <-. apply nth_error_In in Y. destruct (solve_sub _ _ _ _ _ _ _ S C) as (_ & Sub).
    destruct (Sub o Y) as (m & z & Lm & Sm). exists z. eapply solve_mono; eauto. lia.
Qed.
End Term.
