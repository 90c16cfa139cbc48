(** Closed forms of the loops that create channels. *)
From Coq Require Import List Arith Bool Lia.
From Verif Require Import WireModel WireSpec.
Import ListNotations.

Lemma role_eqb_iff : forall a b, role_eqb a b = true <-> a = b.
Proof.
  intros [| |i| |i|i|] [| |j| |j|j|]; simpl; try (split; [discriminate|congruence]); try (split; auto; fail);
    rewrite Nat.eqb_eq; (split; [intros ->; auto|intros H; injection H; auto]).
Qed.
Lemma id_eqb_iff : forall a b, id_eqb a b = true <-> a = b.
Proof.
  intros [i a] [j b]. unfold id_eqb. simpl. rewrite andb_true_iff, Nat.eqb_eq, role_eqb_iff.
  split; [intros [-> ->]; auto|intros H; injection H; auto].
Qed.
Lemma id_dec : forall a b : id, a = b \/ a <> b.
Proof. intros a b. destruct (id_eqb a b) eqn:E; [left; apply id_eqb_iff; auto|right; intros ->]. assert (id_eqb b b = true) by (apply id_eqb_iff; auto). congruence. Qed.
Lemma upd_eq : forall T (f : id -> T) x v, upd f x v x = v.
Proof. intros. unfold upd. assert (id_eqb x x = true) as -> by (apply id_eqb_iff; auto). auto. Qed.
Lemma upd_neq : forall T (f : id -> T) x v y, x <> y -> upd f x v y = f y.
Proof. intros. unfold upd. destruct (id_eqb x y) eqn:E; auto. apply id_eqb_iff in E. congruence. Qed.

(** Lists in which every thread is at its position. *)
Definition posd (l : list id) : Prop := forall k x, nth_error l k = Some x -> pos x = k.
Lemma posd_nodup : forall l, posd l -> NoDup l.
Proof.
  intros l H. apply NoDup_nth_error. intros i j Hi E. destruct (nth_error l i) as [x|] eqn:A.
  - rewrite <- (H _ _ A). symmetry in E. rewrite <- (H _ _ E). auto.
  - apply nth_error_None in A. lia.
Qed.
Lemma map_pos : forall T (F : nat -> T) l, posd l -> map (fun x => F (pos x)) l = map F (seq 0 (length l)).
Proof.
  intros T F l H.
  assert (G : forall m k, (forall j x, nth_error m j = Some x -> pos x = k + j) -> map (fun x => F (pos x)) m = map F (seq k (length m))).
  { induction m as [|a m IH]; intros k HK; [auto|]. simpl. f_equal.
    - rewrite (HK 0 a); [f_equal; lia|auto].
    - apply IH. intros j x E. rewrite (HK (S j) x); [lia|auto]. }
  apply G. intros j x E. simpl. auto.
Qed.
Lemma seq_nth_error : forall n k m, nth_error (seq m n) k = if k <? n then Some (m + k) else None.
Proof.
  induction n as [|n IH]; intros [|k] m; simpl; auto.
  rewrite IH. change (S k <? S n) with (k <? n). destruct (k <? n); auto. f_equal. lia.
Qed.
Lemma posd_map : forall g n, (forall j, pos (g j) = j) -> posd (map g (seq 0 n)).
Proof.
  intros g n H k x E. rewrite nth_error_map, seq_nth_error in E. destruct (k <? n); [|discriminate]. injection E as <-. apply H.
Qed.
Lemma posd_wk : forall i n, posd (wk i n). Proof. intros. apply posd_map. auto. Qed.
Lemma posd_lw : forall i n, posd (lw i n). Proof. intros. apply posd_map. auto. Qed.
Lemma posd_rw : forall i n, posd (rw i n). Proof. intros. apply posd_map. auto. Qed.
Lemma posd_one : forall x, pos x = 0 -> posd [x].
Proof. intros x H [|k] y E; [injection E as <-; auto|destruct k; discriminate]. Qed.
Lemma posd_exit : forall i s, posd (exit i s).
Proof. intros i [k|n kw [| |k] o|n1 k1 n2 k2]; simpl; try (apply posd_one; reflexivity); [apply posd_wk|apply posd_rw]. Qed.
Lemma posd_entry : forall i s, posd (entry i s).
Proof. intros i [k|n kw c o|n1 k1 n2 k2]; simpl; try (apply posd_one; reflexivity). apply posd_lw. Qed.

Lemma in_nth : forall (l : list id) x, In x l -> exists k, nth_error l k = Some x.
Proof. intros. apply In_nth_error. auto. Qed.
Lemma posd_in : forall l x, posd l -> In x l -> nth_error l (pos x) = Some x /\ pos x < length l.
Proof.
  intros l x P I. destruct (in_nth l x I) as (k & E). rewrite (P k x E). split; [auto|]. apply nth_error_Some. congruence.
Qed.

(** ** Loops *)
Lemma iter_app : forall A (f : A -> heap -> option heap) l m h, iter f (l ++ m) h = bind (iter f l h) (iter f m).
Proof. induction l as [|a l IH]; intros; simpl; auto. destruct (f a h); simpl; auto. Qed.
Lemma iter_ext : forall A (f g : A -> heap -> option heap) l h, (forall a h, In a l -> f a h = g a h) -> iter f l h = iter g l h.
Proof.
  induction l as [|a l IH]; intros h H; simpl; auto. rewrite (H a h (or_introl eq_refl)). destruct (g a h); auto.
  apply IH. intros; apply H; right; auto.
Qed.

Lemma create_in_iter : forall m ys h, NoDup ys -> (forall y, In y ys -> nin h y = None) ->
  exists h', iter (create_in m) ys h = Some h' /\ nb h' = nb h + length ys /\ nout h' = nout h /\ outN h' = outN h /\
    (forall y, ~ In y ys -> nin h' y = nin h y /\ inN h' y = inN h y) /\
    (forall k y, nth_error ys k = Some y -> nin h' y = Some (nb h + k) /\ inN h' y = inN h y ++ if m then [Bref (nb h + k)] else []).
Proof.
  induction ys as [|a ys IH]; intros h ND F.
  - exists h. simpl. repeat split; auto; try lia; destruct k; discriminate.
  - inversion ND as [|a' ys' NI ND' E]; subst. cbn [iter]. unfold create_in at 1. rewrite (F a (or_introl eq_refl)). cbv zeta.
    set (h1 := if m then add_in a [Bref (nb h)] (set_nin a (Some (nb h)) (alloc h)) else set_nin a (Some (nb h)) (alloc h)).
    assert (B1 : nb h1 = S (nb h)) by (unfold h1; destruct m; reflexivity).
    assert (O1 : nout h1 = nout h) by (unfold h1; destruct m; reflexivity).
    assert (O2 : outN h1 = outN h) by (unfold h1; destruct m; reflexivity).
    assert (I1 : nin h1 = upd (nin h) a (Some (nb h))) by (unfold h1; destruct m; reflexivity).
    assert (I2 : forall y, y <> a -> inN h1 y = inN h y).
    { intros y Hy. unfold h1; destruct m; simpl; auto. apply upd_neq; auto. }
    assert (I3 : inN h1 a = inN h a ++ if m then [Bref (nb h)] else []).
    { unfold h1; destruct m; simpl; [apply upd_eq|rewrite app_nil_r; auto]. }
    destruct (IH h1 ND') as (h' & E & B & N1 & N2 & K & P).
    { intros y Hy. rewrite I1, upd_neq; [apply F; right; auto|intros ->; auto]. }
    exists h'. split; [auto|]. split; [rewrite B, B1; simpl; lia|]. split; [congruence|]. split; [congruence|]. split.
    + intros y Hy. destruct (K y) as [K1 K2]; [intros A; apply Hy; right; auto|].
      assert (y <> a) by (intros ->; apply Hy; left; auto). rewrite K1, K2, I1, upd_neq, I2; auto.
    + intros [|k] y Ey; cbn in Ey.
      * injection Ey as <-. destruct (K a NI) as [K1 K2]. rewrite K1, K2, I1, upd_eq, I3, Nat.add_0_r. auto.
      * destruct (P k y Ey) as [P1 P2]. assert (y <> a) by (intros ->; apply NI; eapply nth_error_In; eauto).
        rewrite P1, P2, B1, I2 by auto. replace (nb h + S k) with (S (nb h) + k) by lia. auto.
Qed.

Lemma create_out_iter : forall xs h, NoDup xs -> (forall x, In x xs -> nout h x = None) ->
  exists h', iter create_out xs h = Some h' /\ nb h' = nb h + length xs /\ nin h' = nin h /\ inN h' = inN h /\ outN h' = outN h /\
    (forall x, ~ In x xs -> nout h' x = nout h x) /\ (forall k x, nth_error xs k = Some x -> nout h' x = Some (nb h + k)).
Proof.
  induction xs as [|a xs IH]; intros h ND F.
  - exists h. simpl. repeat split; auto; try lia; destruct k; discriminate.
  - inversion ND as [|a' xs' NI ND' E]; subst. cbn [iter]. unfold create_out at 1. rewrite (F a (or_introl eq_refl)).
    destruct (IH (set_nout a (Some (nb h)) (alloc h)) ND') as (h' & E & B & N1 & N2 & N3 & K & P).
    { intros y Hy. simpl. rewrite upd_neq; [apply F; right; auto|intros ->; auto]. }
    exists h'. split; [auto|]. split; [rewrite B; simpl; lia|]. split; [etransitivity; [eassumption|first [reflexivity|eassumption]]|]. split; [etransitivity; [eassumption|first [reflexivity|eassumption]]|]. split; [etransitivity; [eassumption|first [reflexivity|eassumption]]|]. split.
    + intros y Hy. rewrite (K y) by (intros A; apply Hy; right; auto). simpl. apply upd_neq. intros ->; apply Hy; left; auto.
    + intros [|k] y Ey; cbn in Ey.
      * injection Ey as <-. rewrite (K a NI). simpl. rewrite upd_eq, Nat.add_0_r. auto.
      * rewrite (P k y Ey). simpl. f_equal. lia.
Qed.

Lemma edges_inner : forall y xs h, NoDup xs -> exists h', iter (new_edge y) xs h = Some h' /\ nb h' = nb h + length xs /\
  nin h' = nin h /\ nout h' = nout h /\
  (forall x, ~ In x xs -> outN h' x = outN h x) /\ (forall k x, nth_error xs k = Some x -> outN h' x = outN h x ++ [Bref (nb h + k)]) /\
  (forall z, z <> y -> inN h' z = inN h z) /\ inN h' y = inN h y ++ map Bref (seq (nb h) (length xs)).
Proof.
  induction xs as [|a xs IH]; intros h ND.
  - exists h. simpl. rewrite app_nil_r. repeat split; auto; try lia. destruct k; discriminate.
  - inversion ND as [|a' xs' NI ND' E]; subst. cbn [iter]. unfold new_edge at 1. cbv zeta.
    set (h1 := add_in y [Bref (nb h)] (add_out a [Bref (nb h)] (alloc h))).
    destruct (IH h1 ND') as (h' & E & B & N1 & N2 & K & P & Q & R). exists h'. split; [auto|].
    split; [rewrite B; simpl; lia|]. split; [rewrite N1; auto|]. split; [rewrite N2; auto|]. split; [|split; [|split]].
    + intros x Hx. rewrite K by (intros A; apply Hx; right; auto). simpl. apply upd_neq. intros ->; apply Hx; left; auto.
    + intros [|k] x Ex; cbn in Ex.
      * injection Ex as <-. rewrite (K a NI). simpl. rewrite upd_eq, Nat.add_0_r. auto.
      * rewrite (P k x Ex). simpl. assert (a <> x) by (intros ->; apply NI; eapply nth_error_In; eauto).
        rewrite upd_neq by auto. do 3 f_equal. lia.
    + intros z Hz. rewrite (Q z Hz). simpl. apply upd_neq; auto.
    + rewrite R. simpl. rewrite upd_eq, <- app_assoc. auto.
Qed.

Lemma cross_form : forall xs ys h, NoDup xs -> NoDup ys -> exists h', cross xs ys h = Some h' /\ nb h' = nb h + length ys * length xs /\
  nin h' = nin h /\ nout h' = nout h /\
  (forall x, ~ In x xs -> outN h' x = outN h x) /\
  (forall k x, nth_error xs k = Some x -> outN h' x = outN h x ++ map (fun j => Bref (nb h + j * length xs + k)) (seq 0 (length ys))) /\
  (forall z, ~ In z ys -> inN h' z = inN h z) /\
  (forall j y, nth_error ys j = Some y -> inN h' y = inN h y ++ map Bref (seq (nb h + j * length xs) (length xs))).
Proof.
  unfold cross. intros xs ys. induction ys as [|a ys IH]; intros h NX NY.
  - exists h. simpl. repeat split; auto; try lia; intros; [rewrite app_nil_r; auto|destruct j; discriminate].
  - inversion NY as [|a' ys' NI NY' E]; subst. cbn [iter].
    destruct (edges_inner a xs h NX) as (h1 & E1 & B1 & M1 & M2 & K1 & P1 & Q1 & R1). rewrite E1.
    destruct (IH h1 NX NY') as (h' & E & B & N1 & N2 & K & P & Q & R). exists h'. split; [auto|].
    split; [rewrite B, B1; simpl; lia|]. split; [etransitivity; [eassumption|first [reflexivity|eassumption]]|]. split; [etransitivity; [eassumption|first [reflexivity|eassumption]]|]. split; [|split; [|split]].
    + intros x Hx. rewrite K, K1; auto.
    + intros k x Ex. rewrite (P k x Ex), (P1 k x Ex), <- app_assoc. f_equal. cbn [length seq map app]. f_equal; [f_equal; lia|].
      rewrite <- seq_shift, map_map. apply map_ext. intros j. f_equal. rewrite B1. lia.
    + intros z Hz. rewrite Q, Q1; auto; intros A; apply Hz; [left; auto|right; auto].
    + intros [|j] y Ey; cbn in Ey.
      * injection Ey as <-. rewrite (Q a NI), R1. do 3 f_equal. lia.
      * rewrite (R j y Ey), Q1 by (intros ->; apply NI; eapply nth_error_In; eauto). do 3 f_equal. rewrite B1. simpl. lia.
Qed.

Lemma combine_nth_error : forall A B (l : list A) (m : list B) k, length l = length m ->
  nth_error (combine l m) k = match nth_error l k, nth_error m k with Some a, Some b => Some (a, b) | _, _ => None end.
Proof. induction l as [|a l IH]; intros [|b m] [|k] H; simpl in *; try discriminate; auto. Qed.

(** Loops over pairs of distinct producers and distinct consumers. *)
Lemma join_iter : forall m xys h, NoDup (map fst xys) ->
  exists h', iter (join m) xys h = Some h' /\ nb h' = nb h /\ nin h' = nin h /\ inN h' = inN h /\
    (forall x, ~ In x (map fst xys) -> nout h' x = nout h x /\ outN h' x = outN h x) /\
    (forall x y, In (x, y) xys -> if m then nout h' x = nout h x /\ outN h' x = outN h x ++ [Nref y] else nout h' x = nin h y /\ outN h' x = outN h x).
Proof.
  induction xys as [|[a b] l IH]; intros h ND.
  - exists h. simpl. repeat split; auto; contradiction.
  - cbn [map fst] in ND. inversion ND as [|a' l' NI ND' E]; subst. cbn [iter]. unfold join at 1. cbn [fst snd].
    set (h1 := if m then add_out a [Nref b] h else set_nout a (nin h b) h).
    assert (B1 : nb h1 = nb h) by (unfold h1; destruct m; reflexivity).
    assert (I1 : nin h1 = nin h) by (unfold h1; destruct m; reflexivity).
    assert (I2 : inN h1 = inN h) by (unfold h1; destruct m; reflexivity).
    assert (O1 : forall x, x <> a -> nout h1 x = nout h x /\ outN h1 x = outN h x).
    { intros x Hx. unfold h1; destruct m; simpl; rewrite upd_neq by auto; auto. }
    destruct (IH h1 ND') as (h' & E & B & N1 & N2 & K & P). exists h'. split; [auto|].
    split; [etransitivity; [eassumption|first [reflexivity|eassumption]]|]. split; [etransitivity; [eassumption|first [reflexivity|eassumption]]|]. split; [etransitivity; [eassumption|first [reflexivity|eassumption]]|]. split.
    + intros x Hx. cbn [map fst] in Hx. destruct (K x) as [K1 K2]; [intros A; apply Hx; right; auto|].
      rewrite K1, K2. apply O1. intros ->; apply Hx; left; auto.
    + intros x y [Exy|Hxy].
      * injection Exy as <- <-. destruct (K a NI) as [K1 K2]. rewrite K1, K2. unfold h1. destruct m; simpl; rewrite upd_eq; auto.
      * assert (x <> a) by (intros ->; apply NI; apply in_map_iff; exists (a, y); auto).
        specialize (P x y Hxy). destruct (O1 x H) as [Q1 Q2]. rewrite Q1, Q2, I1 in P. auto.
Qed.
Lemma link_iter : forall xys h, NoDup (map snd xys) ->
  exists h', iter (fun xy h => Some (add_in (snd xy) [Nref (fst xy)] h)) xys h = Some h' /\ nb h' = nb h /\ nin h' = nin h /\
    nout h' = nout h /\ outN h' = outN h /\ (forall y, ~ In y (map snd xys) -> inN h' y = inN h y) /\
    (forall x y, In (x, y) xys -> inN h' y = inN h y ++ [Nref x]).
Proof.
  induction xys as [|[a b] l IH]; intros h ND.
  - exists h. simpl. repeat split; auto; contradiction.
  - cbn [map snd] in ND. inversion ND as [|a' l' NI ND' E]; subst. cbn [iter fst snd].
    destruct (IH (add_in b [Nref a] h) ND') as (h' & E & B & N1 & N2 & N3 & K & P). exists h'. split; [auto|].
    split; [etransitivity; [eassumption|first [reflexivity|eassumption]]|]. split; [etransitivity; [eassumption|first [reflexivity|eassumption]]|]. split; [etransitivity; [eassumption|first [reflexivity|eassumption]]|]. split; [etransitivity; [eassumption|first [reflexivity|eassumption]]|]. split.
    + intros y Hy. cbn [map snd] in Hy. rewrite K by (intros A; apply Hy; right; auto). simpl. apply upd_neq. intros ->; apply Hy; left; auto.
    + intros x y [Exy|Hxy].
      * injection Exy as <- <-. rewrite (K b NI). simpl. apply upd_eq.
      * rewrite (P x y Hxy). simpl. rewrite upd_neq; auto. intros ->. apply NI. apply in_map_iff. exists (x, y); auto.
Qed.
Lemma setout_iter : forall (xrs : list (id * ref)) h, NoDup (map fst xrs) ->
  exists h', iter (fun xr h => Some (set_nout (fst xr) (refin h (snd xr)) h)) xrs h = Some h' /\ nb h' = nb h /\ nin h' = nin h /\
    inN h' = inN h /\ outN h' = outN h /\ (forall x, ~ In x (map fst xrs) -> nout h' x = nout h x) /\
    (forall x r, In (x, r) xrs -> nout h' x = refin h r).
Proof.
  induction xrs as [|[a b] l IH]; intros h ND.
  - exists h. simpl. repeat split; auto; contradiction.
  - cbn [map fst] in ND. inversion ND as [|a' l' NI ND' E]; subst. cbn [iter fst snd].
    destruct (IH (set_nout a (refin h b) h) ND') as (h' & E & B & N1 & N2 & N3 & K & P). exists h'. split; [auto|].
    split; [etransitivity; [eassumption|first [reflexivity|eassumption]]|]. split; [etransitivity; [eassumption|first [reflexivity|eassumption]]|]. split; [etransitivity; [eassumption|first [reflexivity|eassumption]]|]. split; [etransitivity; [eassumption|first [reflexivity|eassumption]]|]. split.
    + intros y Hy. cbn [map fst] in Hy. rewrite K by (intros A; apply Hy; right; auto). simpl. apply upd_neq. intros ->; apply Hy; left; auto.
    + intros x y [Exy|Hxy].
      * injection Exy as <- <-. rewrite (K a NI). simpl. apply upd_eq.
      * rewrite (P x y Hxy). destruct y; reflexivity.
Qed.

(** ** Bundles: the channels from a group of threads to a group of threads *)
Section Bundle.
  Variables (xs ys zs : list id) (mx my : bool) (f : id -> id -> nat) (sx py : id -> list id).
  Definition bundle (h : heap) : Prop :=
    (forall x, In x xs -> writes mx h x = map (fun y => Some (f x y)) (sx x) /\ (forall z, In (Nref z) (outN h x) -> In z ys)) /\
    (forall y, In y ys -> reads my h y = map (fun x => Some (f x y)) (py y) /\ (forall z, In (Nref z) (inN h y) -> In z (xs ++ zs))).
  Lemma bundle_frame : forall h h', (forall x, In x (xs ++ zs) -> nout h' x = nout h x /\ outN h' x = outN h x) ->
    (forall y, In y ys -> nin h' y = nin h y /\ inN h' y = inN h y) -> bundle h -> bundle h'.
  Proof.
    intros h h' KO KI (BX & BY). split.
    - intros x Hx. destruct (BX x Hx) as [W C]. destruct (KO x (in_or_app _ _ _ (or_introl Hx))) as [E1 E2]. rewrite E2. split; [|auto].
      rewrite <- W. unfold writes. rewrite E1, E2. destruct mx; auto. apply map_ext_in. intros [z|b] Hr; auto.
      simpl. apply KI. auto.
    - intros y Hy. destruct (BY y Hy) as [W C]. destruct (KI y Hy) as [E1 E2]. rewrite E2. split; [|auto].
      rewrite <- W. unfold reads. rewrite E1, E2. destruct my; auto. apply map_ext_in. intros [z|b] Hr; auto.
      simpl. apply KO. auto.
  Qed.
End Bundle.
