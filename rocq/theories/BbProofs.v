From Coq Require Import List Arith Bool Lia.
From Verif Require Import BbModel BbSpec.
Import ListNotations.

Lemma ids_parts : forall b, ids b = id b :: flat_map ids (parts b).
Proof.
  destruct b as [i|i st|i l r|i o e c w|i l r]; simpl; auto.
  - rewrite flat_map_app. reflexivity.
  - rewrite !flat_map_app. destruct e, c; simpl; rewrite ?app_nil_r; reflexivity.
  - rewrite app_nil_r. reflexivity.
Qed.
Lemma len_in : forall l x, In x l -> length (ids x) <= length (flat_map ids l).
Proof.
  induction l as [|y l IH]; simpl; intros x I; [tauto|]. rewrite app_length. destruct I as [->|I]; [lia|]. apply IH in I. lia.
Qed.
Lemma part_smaller : forall s x, In x (parts s) -> length (ids x) < length (ids s).
Proof. intros s x I. rewrite (ids_parts s). simpl. apply len_in in I. lia. Qed.
Lemma bb_induct : forall P : bb -> Prop, (forall s, (forall x, In x (parts s) -> P x) -> P s) -> forall s, P s.
Proof.
  intros P H. assert (X : forall k s, length (ids s) < k -> P s).
  { induction k as [|k IH]; intros s L; [lia|]. apply H. intros x I. apply IH. apply part_smaller in I. lia. }
  intros s. apply (X (S (length (ids s)))). lia.
Qed.
Lemma within_trans : forall a b, within a b -> forall c, within b c -> within a c.
Proof. induction 1; intros c W; auto. eapply w_part; eauto. Qed.
Lemma part_within : forall s x, In x (parts s) -> within s x.
Proof. intros s x I. eapply w_part; [eauto|constructor]. Qed.
Lemma id_in : forall b, In (id b) (ids b).
Proof. intros b. rewrite ids_parts. left. reflexivity. Qed.
Lemma within_ids : forall s b, within s b -> incl (ids b) (ids s).
Proof.
  induction 1 as [b|s x b I W IH]; [apply incl_refl|]. intros n N. rewrite (ids_parts s). right. apply in_flat_map. exists x. split; auto.
Qed.
Lemma ids_within : forall n s, In n (ids s) -> exists x, within s x /\ id x = n.
Proof.
  intros n. apply (bb_induct (fun s => In n (ids s) -> exists x, within s x /\ id x = n)). intros s IH I. rewrite ids_parts in I. destruct I as [E|I].
  - exists s. split; [constructor|exact E].
  - apply in_flat_map in I. destruct I as (y & Y & N). destruct (IH y Y N) as (x & W & E). exists x. split; auto. eapply w_part; eauto.
Qed.
Lemma distinct_part : forall s x, distinct s -> In x (parts s) -> distinct x.
Proof.
  unfold distinct. intros s x D I. rewrite ids_parts in D. inversion D as [|? ? _ D']; subst.
  clear D. induction (parts s) as [|y l IH]; simpl in *; [tauto|].
  assert (A : NoDup (ids y) /\ NoDup (flat_map ids l)).
  { clear - D'. induction (ids y) as [|a r IH]; simpl in *; [split; [constructor|auto]|]. inversion D' as [|? ? N D'']; subst.
    destruct (IH D'') as (A & B). split; auto. constructor; auto. intros C. apply N. apply in_or_app; auto. }
  destruct I as [->|I]; tauto.
Qed.
Lemma distinct_within : forall s b, within s b -> distinct s -> distinct b.
Proof. induction 1; auto. intros D. apply IHwithin. eapply distinct_part; eauto. Qed.
Lemma nodup_app_out : forall (A : Type) (a b : list A) n, NoDup (a ++ b) -> In n a -> In n b -> False.
Proof.
  induction a as [|x a IH]; simpl; intros b n D I J; [tauto|]. inversion D as [|? ? N D']; subst. destruct I as [->|I].
  - apply N. apply in_or_app. auto. - eapply IH; eauto.
Qed.
Lemma nodup_app_r : forall (A : Type) (a b : list A), NoDup (a ++ b) -> NoDup b.
Proof. induction a; simpl; intros b D; auto. inversion D; auto. Qed.
Lemma only_one : forall n l y z, NoDup (flat_map ids l) -> In y l -> In z l -> In n (ids y) -> In n (ids z) -> z = y.
Proof.
  induction l as [|x l IH]; simpl; intros y z D Y Z Ny Nz; [tauto|].
  destruct Y as [->|Y], Z as [->|Z]; auto.
  - exfalso. eapply nodup_app_out; eauto. apply in_flat_map; eauto.
  - exfalso. eapply nodup_app_out; eauto. apply in_flat_map; eauto.
  - apply IH; auto. eapply nodup_app_r; eauto.
Qed.

(** ** The loop *)
Lemma loop_null : forall f self n next l, (forall x, In x l -> f x = Null) -> loop f self n l next = next.
Proof. induction l as [|x l IH]; simpl; intros H; auto. rewrite (H x) by auto. simpl. apply IH. auto. Qed.
Lemma loop_or : forall f self n next y p l, (forall z, In z l -> z = y \/ f z = Null) -> f y = Found p ->
  loop f self n l next = Found (if p =? n then self else p) \/ (~ In y l /\ loop f self n l next = next).
Proof.
  induction l as [|x l IH]; simpl; intros H E; auto. destruct (H x ltac:(auto)) as [->|X].
  - rewrite E. left. reflexivity.
  - rewrite X. simpl. destruct IH as [I|(N & I)]; auto. right. split; auto. intros [->|J]; [congruence|auto].
Qed.
Lemma loop_found : forall f self n next l p, loop f self n l next = Found p ->
  (exists x q, In x l /\ f x = Found q /\ p = if q =? n then self else q) \/ next = Found p.
Proof.
  induction l as [|x l IH]; simpl; intros p E; auto. destruct (f x) as [|q|] eqn:F; simpl in E.
  - destruct (IH p E) as [(y & q & Y & Fy & Q)|N]; auto. left. exists y, q. auto.
  - injection E as <-. left. exists x, q. auto.
  - discriminate.
Qed.

(** ** Soundness, with no hypothesis *)
Lemma sound : forall n s p, getBB n s = Found p -> exists b x, within s b /\ id b = p /\ within b x /\ id x = n.
Proof.
  intros n. apply (bb_induct (fun s => forall p, getBB n s = Found p -> exists b x, within s b /\ id b = p /\ within b x /\ id x = n)).
  intros s IH p E.
  assert (Up : forall x q, In x (parts s) -> getBB n x = Found q -> exists b y, within s b /\ id b = (if q =? n then id s else q) /\ within b y /\ id y = n).
  { intros x q I F. destruct (IH x I q F) as (b & y & W & B & W' & Y). destruct (Nat.eqb_spec q n).
    - exists s, y. split; [constructor|split; [auto|split; [|auto]]]. eapply within_trans; [apply part_within; eauto|]. eapply within_trans; eauto.
    - exists b, y. split; auto. eapply w_part; eauto. }
  assert (Dn : forall x q, In x (parts s) -> getBB n x = Found q -> exists b y, within s b /\ id b = (if q =? n then id x else q) /\ within b y /\ id y = n).
  { intros x q I F. destruct (IH x I q F) as (b & y & W & B & W' & Y). destruct (Nat.eqb_spec q n).
    - exists x, y. split; [apply part_within; auto|split; [auto|split; [|auto]]]. eapply within_trans; eauto.
    - exists b, y. split; auto. eapply w_part; eauto. }
  assert (It : forall x, In x (parts s) -> id x = n -> exists b y, within s b /\ id b = id s /\ within b y /\ id y = n).
  { intros x I X. exists s, x. split; [constructor|split; [auto|split; [apply part_within; auto|auto]]]. }
  assert (L : forall l, incl l (parts s) -> forall next, loop (getBB n) (id s) n l next = Found p -> next = Found p \/
     exists b x, within s b /\ id b = p /\ within b x /\ id x = n).
  { intros l Li next F. apply loop_found in F. destruct F as [(x & q & I & F & ->)|F]; auto. right. apply (Up x); auto. }
  destruct (Nat.eq_dec (id s) n) as [Is|Is].
  { assert (X : getBB n s = Found n) by (destruct s; simpl in *; subst; rewrite Nat.eqb_refl; reflexivity).
    rewrite X in E. injection E as <-. exists s, s. repeat split; auto; constructor. }
  apply Nat.eqb_neq in Is.
  destruct s as [i|i st|i l r|i o e c w|i l r]; simpl in E, Is, L; rewrite Is in E.
  - discriminate.
  - destruct (L st (incl_refl _) _ E); [discriminate|auto].
  - destruct (L l (incl_appl _ (incl_refl _)) _ E) as [E'|]; auto. destruct (L r (incl_appr _ (incl_refl _)) _ E'); [discriminate|auto].
  - destruct o; [discriminate|]. destruct (is e n) eqn:Ie.
    { injection E as <-. destruct e as [x|]; [|discriminate]. apply Nat.eqb_eq in Ie. apply (It x); simpl; auto. }
    destruct (is c n) eqn:Ic.
    { injection E as <-. destruct c as [x|]; [|discriminate]. apply Nat.eqb_eq in Ic. apply (It x); auto. simpl. apply in_or_app. right. simpl. auto. }
    destruct (L w ltac:(apply incl_appr, incl_appr, incl_refl) _ E); [discriminate|auto].
  - assert (Rt : forall q, (if isComp r then orelse (id r) n (getBB n r) Null else if id r =? n then Found i else Null) = Found q ->
      exists b x, within (Comb i l r) b /\ id b = q /\ within b x /\ id x = n).
    { intros q F. destruct (isComp r).
      - destruct (getBB n r) as [|q'|] eqn:G; simpl in F; try discriminate. injection F as <-. apply Dn; simpl; auto.
      - destruct (Nat.eqb_spec (id r) n); [|discriminate]. injection F as <-. apply (It r); simpl; auto. }
    destruct (isComp l).
    + destruct (getBB n l) as [|q'|] eqn:G; simpl in E; try discriminate; [apply Rt; exact E|]. injection E as <-. apply Dn; simpl; auto.
    + destruct (Nat.eqb_spec (id l) n); [|apply Rt; exact E]. injection E as <-. apply (It l); simpl; auto.
Qed.

(** ** Completeness *)
Lemma here : forall n s, id s = n -> getBB n s = Found n.
Proof. intros n s <-. destruct s; simpl; rewrite Nat.eqb_refl; reflexivity. Qed.

Lemma simple_part : forall s x, simple_farms s -> In x (parts s) -> simple_farms x.
Proof. intros s x H I i o e c w W. eapply H. eapply w_part; eauto. Qed.
Lemma simple_here : forall i o e c w, simple_farms (Farm i o e c w) -> o = false.
Proof. intros. eapply H. constructor. Qed.

Lemma absent : forall n s, simple_farms s -> ~ In n (ids s) -> getBB n s = Null.
Proof.
  intros n. apply (bb_induct (fun s => simple_farms s -> ~ In n (ids s) -> getBB n s = Null)). intros s IH Sf N.
  assert (P : forall x, In x (parts s) -> getBB n x = Null /\ id x =? n = false).
  { intros x I. assert (M : ~ In n (ids x)).
    { intros C. apply N. rewrite ids_parts. right. apply in_flat_map. eauto. }
    split; [apply IH; auto; eapply simple_part; eauto|]. apply Nat.eqb_neq. intros <-. apply M, id_in. }
  assert (Is : id s =? n = false) by (apply Nat.eqb_neq; intros <-; apply N, id_in).
  destruct s as [i|i st|i l r|i o e c w|i l r]; simpl in *; rewrite Is.
  - reflexivity.
  - apply loop_null. intros x I. apply P; auto.
  - rewrite !loop_null; auto; intros x I; apply P, in_or_app; auto.
  - apply simple_here in Sf. subst o.
    assert (A : is e n = false) by (destruct e as [x|]; auto; simpl; apply P; simpl; auto).
    assert (B : is c n = false) by (destruct c as [x|]; auto; simpl; apply P; apply in_or_app; right; simpl; auto).
    rewrite A, B. apply loop_null. intros x I. apply P. apply in_or_app. right. apply in_or_app. auto.
  - destruct (P l) as (A & B); auto. destruct (P r) as (C & D); auto. rewrite A, B, C, D. destruct (isComp l), (isComp r); reflexivity.
Qed.

(** From a part to the whole. *)
Lemma up : forall n s y p, id s <> n -> legal s -> simple_farms s -> not_nested n s ->
  In y (parts s) -> getBB n y = Found p -> (p = n -> id y = n) ->
  (forall z, In z (parts s) -> z = y \/ (getBB n z = Null /\ id z <> n)) ->
  getBB n s = Found (if p =? n then id s else p).
Proof.
  intros n s y p Is Lg Sf Nn Iy Fy Hp Oth. apply Nat.eqb_neq in Is.
  assert (Lo : forall l, incl l (parts s) -> forall z, In z l -> z = y \/ getBB n z = Null).
  { intros l Li z Z. destruct (Oth z (Li z Z)) as [|(A & _)]; auto. }
  assert (Nd : forall z, z = y -> seqn z -> isComp z = false -> id z = n /\ p = n).
  { intros z -> Sq Cp. destruct y; simpl in Sq, Cp; try tauto; try discriminate. simpl in Fy. destruct (Nat.eqb_spec i n); [|discriminate].
    injection Fy as <-. auto. }
  destruct s as [i|i st|i l r|i o e c w|i l r]; simpl in *; rewrite Is.
  - tauto.
  - destruct (loop_or (getBB n) i n Null y p st (Lo st (incl_refl _)) Fy) as [E|(E & _)]; [exact E|tauto].
  - apply in_app_or in Iy.
    destruct (loop_or (getBB n) i n (loop (getBB n) i n r Null) y p l (Lo l (incl_appl _ (incl_refl _))) Fy) as [E|(Nl & E)]; [exact E|].
    rewrite E. destruct (loop_or (getBB n) i n Null y p r (Lo r (incl_appr _ (incl_refl _))) Fy) as [E'|(Nr & _)]; [exact E'|tauto].
  - pose proof (Sf _ _ _ _ _ (w_here _)) as (-> & Cp).
    assert (Dec : forall o, (forall x, In x (opt o) -> In x (opt e ++ opt c)) -> (is o n = true /\ p = n) \/ (is o n = false /\ ~ In y (opt o))).
    { intros [z|] Iz; simpl; auto. specialize (Iz z ltac:(simpl; auto)).
      assert (Iz' : In z (opt e ++ opt c ++ w)) by (rewrite app_assoc; apply in_or_app; auto).
      destruct (Oth z Iz') as [E|(A & B)].
      - left. destruct (Nd z E (Lg z Iz) (Cp z Iz)) as (A & B). rewrite A, Nat.eqb_refl. auto.
      - right. split; [apply Nat.eqb_neq; auto|]. intros [->|[]]. congruence. }
    destruct (Dec e) as [(A & ->)|(A & Ne)]; [intros; apply in_or_app; auto|rewrite A, Nat.eqb_refl; reflexivity|]. rewrite A.
    destruct (Dec c) as [(B & ->)|(B & Nc)]; [intros; apply in_or_app; auto|rewrite B, Nat.eqb_refl; reflexivity|]. rewrite B.
    apply in_app_or in Iy. destruct Iy as [Iy|Iy]; [tauto|]. apply in_app_or in Iy. destruct Iy as [Iy|Iy]; [tauto|].
    destruct (loop_or (getBB n) i n Null y p w (Lo w ltac:(apply incl_appr, incl_appr, incl_refl)) Fy) as [E|(Nw & _)]; [exact E|tauto].
  - destruct Lg as (Ll & Lr).
    assert (Pn : forall z, z = y -> (z = l \/ z = r) -> isComp z = true -> p <> n).
    { intros z -> D Cz Ep. specialize (Nn i l r y (w_here _) D (Hp Ep)). congruence. }
    destruct (Oth l ltac:(auto)) as [E|(A & B)].
    + destruct (isComp l) eqn:Cl.
      * rewrite E, Fy. simpl. specialize (Pn l E ltac:(auto) Cl). apply Nat.eqb_neq in Pn. rewrite Pn. reflexivity.
      * destruct (Nd l E Ll Cl) as (Il & ->). rewrite Il, !Nat.eqb_refl. reflexivity.
    + apply Nat.eqb_neq in B. rewrite A, B. simpl.
      assert (E : r = y) by (destruct Iy as [->|[->|[]]]; congruence).
      destruct (isComp r) eqn:Cr.
      * specialize (Pn r E ltac:(auto) Cr). apply Nat.eqb_neq in Pn. rewrite E, Fy, Pn. simpl. rewrite Pn. destruct (isComp l); reflexivity.
      * destruct (Nd r E Lr Cr) as (Ir & ->). rewrite Ir, !Nat.eqb_refl. destruct (isComp l); reflexivity.
Qed.

Lemma present : forall n s b x, within s b -> In x (parts b) -> id x = n ->
  distinct s -> well_built s -> simple_farms s -> not_nested n s -> getBB n s = Found (id b).
Proof.
  intros n s b x W Ix Hx.
  assert (G : forall s y p, distinct s -> well_built s -> simple_farms s -> not_nested n s -> In y (parts s) -> In n (ids y) ->
    getBB n y = Found p -> (p = n -> id y = n) -> getBB n s = Found (if p =? n then id s else p)).
  { clear - Hx. intros s y p D Wb Sf Nn Iy Ny Fy Hp. unfold distinct in D. rewrite ids_parts in D. inversion D as [|? ? Nd D']; subst.
    apply up with y; auto.
    - intros E. apply Nd. rewrite E. apply in_flat_map. eauto.
    - apply Wb. constructor.
    - intros z Iz. destruct (in_dec Nat.eq_dec (id x) (ids z)) as [Nz|Nz].
      + left. eapply only_one; eauto.
      + right. split; [apply absent; auto; eapply simple_part; eauto|]. intros E. apply Nz. rewrite <- E. apply id_in. }
  induction W as [b|s y b I W IH]; intros D Wb Sf Nn.
  - rewrite (G b x n); auto; [rewrite Nat.eqb_refl; reflexivity|rewrite <- Hx; apply id_in|apply here; auto].
  - assert (Nb : id b <> n).
    { pose proof (distinct_within _ _ W (distinct_part _ _ D I)) as Db. unfold distinct in Db. rewrite ids_parts in Db. inversion Db as [|? ? Nd _]; subst.
      intros E. apply Nd. rewrite E. apply in_flat_map. exists x. split; auto. apply id_in. }
    assert (F : getBB n y = Found (id b)).
    { apply IH; auto.
      - eapply distinct_part; eauto.
      - intros c C. apply Wb. eapply w_part; eauto.
      - eapply simple_part; eauto.
      - intros i l r z C. apply (Nn i l r z). eapply w_part; eauto. }
    rewrite (G s y (id b)); auto.
    + apply Nat.eqb_neq in Nb. rewrite Nb. reflexivity.
    + eapply within_ids; [exact W|]. rewrite ids_parts. right. apply in_flat_map. exists x. split; auto. rewrite <- Hx. apply id_in.
    + tauto.
Qed.
