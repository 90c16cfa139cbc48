(** Invariants of the graph search. *)
From Coq Require Import List Arith ZArith Bool Lia.
From Verif Require Import Base GsModel GsSpec.
Import ListNotations.
Local Open Scope nat_scope.

Definition sumn (n : nat) (f : nat -> nat) : nat := list_sum (map f (seq 0 n)).

Lemma sumn_S : forall n f, sumn (S n) f = sumn n f + f n.
Proof.
  intros; unfold sumn. rewrite seq_S, map_app. simpl.
  induction (map f (seq 0 n)); simpl; lia.
Qed.

Lemma sumn_ext : forall n f g, (forall v, v < n -> g v = f v) -> sumn n g = sumn n f.
Proof.
  induction n; intros f g H; [reflexivity|]. rewrite !sumn_S, (IHn f g), H; auto.
Qed.

Lemma sumn_upd : forall n f g w, w < n -> (forall v, v <> w -> g v = f v) ->
  sumn n g + f w = sumn n f + g w.
Proof.
  induction n; intros f g w L H; [lia|]. rewrite !sumn_S.
  destruct (Nat.eq_dec w n) as [->|N].
  - rewrite (sumn_ext n f g) by (intros; apply H; lia). lia.
  - rewrite (H n) by auto. pose proof (IHn f g w ltac:(lia) H). lia.
Qed.

Lemma sumn_pos : forall n f, 0 < sumn n f -> exists w, w < n /\ 0 < f w.
Proof.
  induction n; intros f H; [inversion H|]. rewrite sumn_S in H.
  destruct (Nat.eq_dec (f n) 0).
  - destruct (IHn f) as (w & ? & ?); [lia|]. exists w; split; lia.
  - exists n; lia.
Qed.

Lemma sumn_zero : forall n f, (forall v, v < n -> f v = 0) -> sumn n f = 0.
Proof. induction n; intros f H; [reflexivity|]. rewrite sumn_S, IHn, H; auto. Qed.

Lemma sumn_zero_inv : forall n f, sumn n f = 0 -> forall v, v < n -> f v = 0.
Proof.
  induction n; intros f H v L; [lia|]. rewrite sumn_S in H.
  destruct (Nat.eq_dec v n) as [->|]; [lia|]. apply IHn; lia.
Qed.

Notation occ x l := (count_occ Nat.eq_dec l x).

Definition items (l : list msg) : list nat :=
  flat_map (fun m => match m with Item n => [n] | Eos => [] end) l.
Definition pcn (p : wpc) : list nat := match p with WHave t | WHit t => [t] | _ => [] end.
Definition hitn (p : wpc) : list nat := match p with WHit t => [t] | _ => [] end.
Definition curn (e : epc) : list nat := match e with ESend t _ _ => [t] | _ => [] end.

Lemma items_app : forall a b, items (a ++ b) = items a ++ items b.
Proof. intros; unfold items; apply flat_map_app. Qed.

Lemma occ_flat : forall n (f : nat -> list nat) x, occ x (flat_map f (seq 0 n)) = sumn n (fun w => occ x (f w)).
Proof.
  intros n f x. unfold sumn. induction (seq 0 n) as [|w l IH]; simpl; [reflexivity|].
  rewrite count_occ_app, IH; reflexivity.
Qed.

Lemma occ_cons1 : forall x a l, occ x (a :: l) = occ x [a] + occ x l.
Proof. intros; rewrite (count_occ_app Nat.eq_dec [a] l x : occ x (a :: l) = _). reflexivity. Qed.

Section Inv.
  Variable out : nat -> list nat.
  Variable ident : nat -> nat.
  Variable hit : nat -> bool.
  Variables (bits : nat) (all : bool) (nw : nat) (st : option nat).
  Hypothesis Hnw : 0 < nw.
  Hypothesis Hid : forall a, st = Some a -> good_ids out ident bits a.

  Notation step := (gstep out ident hit bits all nw st).

  Definition rch (n : nat) : Prop := exists a, st = Some a /\ reach out a n.

  Lemma rch_next : forall n m, rch n -> In m (out n) -> rch m.
  Proof. intros n m (a & E & R) I; exists a; split; auto. econstructor 2; eauto. Qed.
  Lemma rch_bits : forall n, rch n -> ident n < bits.
  Proof using Hnw Hid. intros n (a & E & R). exact (proj1 (Hid a E) n R). Qed.
  Lemma rch_inj : forall n m, rch n -> rch m -> ident n = ident m -> n = m.
  Proof using Hnw Hid.
    intros n m (a & E & R) (b & E' & R'). rewrite E in E'; injection E' as <-.
    exact (proj2 (Hid a E) n m R R').
  Qed.

  (** What holds in both modes. *)
  Record core (s : gst) : Prop := mkCore {
    c_reach : forall n, In n (hsent s) -> rch n;
    c_in : forall w n, In (Item n) (inq s w) -> In n (hsent s);
    c_fb : forall w n, In (Item n) (fbq s w) -> In n (hsent s);
    c_pc : forall w n, In n (pcn (wrk s w)) -> In n (hsent s);
    c_hit : forall w t, wrk s w = WHit t -> hit t = true /\ In t (fnd s w);
    c_fnd : forall w n, In n (fnd s w) -> In n (hsent s) /\ hit n = true;
    c_exp : forall n, In n (hexp s) -> In n (hsent s);
    c_closed : forall t m, In t (hexp s) -> In m (out t) -> In m (hsent s);
    c_mask : forall i, mask s i = true <-> exists n, In n (hsent s) /\ ident n = i;
    c_boot : emt s = EBoot -> hsent s = [] /\ hexp s = [];
    c_start : emt s <> EBoot -> forall a, st = Some a -> In a (hsent s);
    c_first : forall r, emt s = EFirst r ->
      exists a d, st = Some a /\ out a = d ++ r /\ hsent s = a :: d /\ hexp s = [];
    c_send : forall t r k, emt s = ESend t r k ->
      In t (hsent s) /\ exists d, out t = d ++ r /\ forall m, In m d -> In m (hsent s);
    c_abort : emt s = EAbort -> all = false /\ flag s = true;
    c_flag : flag s = true -> exists w, w < nw /\ fnd s w <> [];
    c_found : forall w, fnd s w <> [] -> flag s = true \/ exists t, wrk s w = WHit t;
    c_end : forall w, nw <= w -> fnd s w = [] /\ wrk s w = WIdle }.

  Lemma core_init : core (g_init nw).
  Proof using Hnw Hid.
    constructor; simpl; intros; try discriminate; try contradiction; auto.
    split; [discriminate|intros (? & [] & _)].
  Qed.

  Ltac inv_step H :=
    repeat match type of H with
    | match ?x with _ => _ end = Some _ => destruct x eqn:?; try discriminate
    | (if ?x then _ else _) = Some _ => destruct x eqn:?; try discriminate
    end; injection H as <-.

  Ltac cs := cbn [emt mask cnt left inq fbq wrk fnd flag hsent hexp send finish expanded set_emt to_emitter] in *.
  Ltac fu v w := destruct (Nat.eq_dec v w) as [?Ev|?Nv];
    [subst v; rewrite ?fupd_eq in * | rewrite ?fupd_neq in * by assumption].

  (** Sending node n, reachable, to a worker. *)
  Lemma core_send : forall s n w e, core s -> w < nw -> rch n ->
    (forall r, e = EFirst r ->
      exists a d, st = Some a /\ out a = d ++ r /\ hsent s ++ [n] = a :: d /\ hexp s = []) ->
    (forall t r k, e = ESend t r k ->
      In t (hsent s) /\ exists d, out t = d ++ r /\ forall m, In m d -> In m (hsent s ++ [n])) ->
    e <> EBoot -> e <> EAbort -> (forall a, st = Some a -> In a (hsent s ++ [n])) ->
    core (send ident s n w e).
  Proof using Hnw Hid.
    intros s n w e C L R F D B A T.
    assert (M : forall x, In x (hsent s) -> In x (hsent s ++ [n])) by (intros; apply in_or_app; auto).
    constructor; cs; try tauto.
    - intros x [I|[<-|[]]]%in_app_or; [apply (c_reach s C); auto|auto].
    - intros v x I. fu v w; [|eapply M, (c_in s C); eauto].
      apply in_app_or in I as [I|[I|[]]]; [eapply M, (c_in s C); eauto|injection I as <-].
      apply in_or_app; simpl; auto.
    - intros; eapply M, (c_fb s C); eauto.
    - intros; eapply M, (c_pc s C); eauto.
    - intros v t Ht; apply (c_hit s C v t Ht).
    - intros v x I; split; [apply M|]; apply (c_fnd s C v x I).
    - intros; apply M, (c_exp s C); auto.
    - intros t m I J; apply M; eapply (c_closed s C); eauto.
    - intros i. split.
      + intros H. fu i (ident n); [exists n; split; auto; apply in_or_app; simpl; auto|].
        apply (c_mask s C) in H as (x & ? & ?). exists x; auto.
      + intros (x & I & <-). destruct (Nat.eq_dec (ident x) (ident n)) as [->|N]; [apply fupd_eq|rewrite fupd_neq by auto].
        apply in_app_or in I as [I|[<-|[]]]; [|congruence]. apply (c_mask s C); eauto.
    - intros; eapply D in H as (? & d & ? & ?). split; [auto|exists d; auto].
    - exact (c_flag s C).
    - exact (c_found s C).
    - exact (c_end s C).
  Qed.

  Lemma core_finish : forall s, core s -> (emt s <> EBoot \/ st = None) -> core (finish nw s).
  Proof using Hnw Hid.
    intros s C B. constructor; cs; try (intros; discriminate).
    - exact (c_reach s C).
    - intros w n I. apply (c_in s C w n). destruct (w <? nw); auto.
      apply in_app_or in I as [I|[I|[]]]; [auto|discriminate].
    - exact (c_fb s C).
    - exact (c_pc s C).
    - exact (c_hit s C).
    - exact (c_fnd s C).
    - exact (c_exp s C).
    - exact (c_closed s C).
    - exact (c_mask s C).
    - intros _ a E. destruct B as [B|B]; [apply (c_start s C B a E)|congruence].
    - exact (c_flag s C).
    - exact (c_found s C).
    - exact (c_end s C).
  Qed.

  (** The emitter leaves a node it has fully looked at. *)
  Lemma core_expanded : forall s t k e, core s -> emt s = ESend t [] k ->
    (e = EIdle) -> core (set_emt (expanded s t) e).
  Proof using Hnw Hid.
    intros s t k e C E ->. destruct (c_send s C t [] k E) as (It & d & Ed & Id).
    rewrite app_nil_r in Ed. subst d.
    constructor; cs; try (intros; discriminate).
    - exact (c_reach s C).
    - exact (c_in s C).
    - exact (c_fb s C).
    - exact (c_pc s C).
    - exact (c_hit s C).
    - exact (c_fnd s C).
    - intros n [I|[<-|[]]]%in_app_or; [apply (c_exp s C); auto|auto].
    - intros t' m [I|[<-|[]]]%in_app_or J; [eapply (c_closed s C); eauto|auto].
    - exact (c_mask s C).
    - intros _; apply (c_start s C); congruence.
    - exact (c_flag s C).
    - exact (c_found s C).
    - exact (c_end s C).
  Qed.

  Lemma core_emit : forall s w s', core s -> step s (Emit w) = Some s' -> core s'.
  Proof using Hnw Hid.
    intros s w s' C H. unfold gstep in H.
    destruct (emt s) as [|[|n r]| |t [|n r] k| | |] eqn:E; try discriminate.
    - injection H as <-. destruct (c_first s C [] E) as (a & d & Es & Eo & Eh & Ee).
      constructor; cs; try (intros; discriminate); try apply C.
      intros _; apply (c_start s C); congruence.
    - destruct (c_first s C _ E) as (a & d & Es & Eo & Eh & Ee).
      assert (R : rch n).
      { exists a; split; auto. econstructor 2; [constructor|rewrite Eo; apply in_or_app; simpl; auto]. }
      destruct (w <? nw) eqn:L; [|discriminate]. apply Nat.ltb_lt in L.
      rewrite (proj2 (Nat.ltb_lt _ _) (rch_bits n R)) in H. injection H as <-.
      apply core_send; auto; try discriminate.
      + intros r' [= <-]. exists a, (d ++ [n]). rewrite <- app_assoc. rewrite Eh. auto.
      + intros b Eb. rewrite Eh. rewrite Es in Eb; injection Eb as ->. simpl; auto.
    - destruct (c_send s C t [] k E) as (It & _).
      pose proof (core_expanded s t k EIdle C E eq_refl) as C'.
      destruct (cnt s =? 0)%Z; [|destruct (negb all && flag s)]; injection H as <-.
      + change (finish nw (expanded s t)) with (finish nw (set_emt (expanded s t) EIdle)).
        apply core_finish; auto. left; discriminate.
      + change (finish nw (expanded s t)) with (finish nw (set_emt (expanded s t) EIdle)).
        apply core_finish; auto. left; discriminate.
      + auto.
    - destruct (c_send s C t (n :: r) k E) as (It & d & Ed & Id).
      assert (R : rch n).
      { eapply rch_next; [apply (c_reach s C t It)|rewrite Ed; apply in_or_app; simpl; auto]. }
      destruct (w <? nw) eqn:L; [|discriminate]. apply Nat.ltb_lt in L.
      destruct (negb all && (S k =? 256) && flag s).
      { injection H as <-. apply core_finish; auto. left; congruence. }
      rewrite (proj2 (Nat.ltb_lt _ _) (rch_bits n R)) in H.
      destruct (mask s (ident n)) eqn:M; injection H as <-.
      + assert (In n (hsent s)) as In_.
        { apply (c_mask s C) in M as (x & Ix & Ex).
          rewrite (rch_inj n x R (c_reach s C x Ix)); auto. }
        constructor; cs; try (intros; discriminate); try apply C.
        * intros _; apply (c_start s C); congruence.
        * intros t' r' k' [= <- <- _]. split; auto. exists (d ++ [n]). rewrite <- app_assoc. split; auto.
          intros m [I|[<-|[]]]%in_app_or; auto.
      + apply core_send; auto; try discriminate.
        * intros t' r' k' [= <- <- _]. split; auto. exists (d ++ [n]). rewrite <- app_assoc. split; auto.
          intros m [I|[<-|[]]]%in_app_or; apply in_or_app; simpl; auto.
        * intros a Ea. apply in_or_app; left. apply (c_start s C); congruence.
  Qed.

  Lemma core_back : forall s w s', core s -> step s (Back w) = Some s' -> core s'.
  Proof using Hnw Hid.
    intros s w s' C H. unfold gstep in H.
    destruct (emt s) eqn:E; try discriminate. destruct (fbq s w) as [|m q] eqn:F; try discriminate.
    destruct (w <? nw) eqn:L; [|discriminate]. apply Nat.ltb_lt in L. cbv zeta in H.
    assert (FB : forall v x, In (Item x) (fupd (fbq s) w q v) -> In x (hsent s)).
    { intros v x I. apply (c_fb s C v). fu v w; auto. rewrite F; simpl; auto. }
    assert (K : forall e c l, e = EIdle \/ e = EEnd \/ (exists t, e = ESend t (out t) 0 /\ In t (hsent s)) ->
      core (mkG e (mask s) c l (inq s) (fupd (fbq s) w q) (wrk s) (fnd s) (flag s) (hsent s) (hexp s))).
    { intros e c l De.
      constructor; cs; try apply C; auto.
      - destruct De as [->|[->|(t & -> & _)]]; discriminate.
      - intros _; apply (c_start s C); congruence.
      - intros r ->. destruct De as [De|[De|(t & De & _)]]; discriminate.
      - intros t r k ->. destruct De as [De|[De|(t' & De & I)]]; try discriminate.
        injection De as -> -> _. split; auto. exists []; split; auto. intros m' [].
      - intros ->. destruct De as [De|[De|(t & De & _)]]; discriminate. }
    destruct m as [t|].
    - assert (In t (hsent s)) by (apply (c_fb s C w); rewrite F; simpl; auto).
      destruct (negb all && flag s); injection H as <-.
      + apply core_finish; [apply K; auto|left; discriminate].
      + apply K; eauto.
    - injection H as <-. apply K. destruct (left s =? 1); auto.
  Qed.

  Lemma core_take : forall s w s', core s -> step s (Take w) = Some s' -> core s'.
  Proof using Hnw Hid.
    intros s w s' C H. unfold gstep in H.
    destruct (wrk s w) eqn:E; try discriminate. destruct (inq s w) as [|m q] eqn:F; try discriminate.
    destruct (w <? nw) eqn:L; [|discriminate]. apply Nat.ltb_lt in L. cbv zeta in H.
    assert (FB : forall v x, In (Item x) (fupd (inq s) w q v) -> In x (hsent s)).
    { intros v x I. apply (c_in s C v). fu v w; auto. rewrite F; simpl; auto. }
    destruct m as [t|]; injection H as <-.
    - assert (In t (hsent s)) by (apply (c_in s C w); rewrite F; simpl; auto).
      constructor; cs; try apply C; auto.
      + intros v x I. fu v w; [|apply (c_pc s C v); auto]. simpl in I; intuition congruence.
      + intros v t' I. fu v w; [discriminate|apply (c_hit s C); auto].
      + intros v J. destruct (c_found s C v J) as [?|(t' & ?)]; auto. fu v w; [congruence|eauto].
      + intros v G. rewrite fupd_neq by lia. apply C; auto.
    - constructor; cs; try apply C; auto.
      + intros v x I. fu v w; [|apply (c_fb s C v); auto].
        apply in_app_or in I as [I|[I|[]]]; [apply (c_fb s C w); auto|discriminate].
      + intros v x I. fu v w; [|apply (c_pc s C v); auto]. simpl in I; contradiction.
      + intros v t' I. fu v w; [discriminate|apply (c_hit s C); auto].
      + intros v J. destruct (c_found s C v J) as [?|(t' & ?)]; auto. fu v w; [congruence|eauto].
      + intros v G. rewrite fupd_neq by lia. apply C; auto.
  Qed.

  Lemma core_to_emitter : forall s w m p f, core s -> w < nw -> wrk s w <> WIdle ->
    (forall n, m = Item n -> In n (hsent s)) -> pcn p = [] ->
    (f = flag s /\ (forall t, wrk s w <> WHit t) \/ f = true /\ fnd s w <> []) ->
    core (to_emitter s w m p f).
  Proof using Hnw Hid.
    intros s w m p f C L N M P F.
    constructor; cs; try apply C.
    - intros v x I. fu v w; [|apply (c_fb s C v); auto].
      apply in_app_or in I as [I|[I|[]]]; [apply (c_fb s C w); auto|auto].
    - intros v x I. fu v w; [|apply (c_pc s C v); auto]. rewrite P in I; contradiction.
    - intros v t' I. fu v w; [subst p; discriminate|apply (c_hit s C); auto].
    - intros Ea. destruct (c_abort s C Ea). split; auto. intuition congruence.
    - intros Ef. destruct F as [[F _]|[_ F]]; [apply (c_flag s C); congruence|exists w; auto].
    - intros v J. destruct (c_found s C v J) as [?|(t' & ?)]; [left; intuition congruence|].
      fu v w; [|eauto]. left. destruct F as [[_ F]|[F _]]; auto. destruct (F t'); auto.
    - intros v G. rewrite fupd_neq by lia. apply C; auto.
  Qed.

  Lemma core_lt : forall s w, core s -> wrk s w <> WIdle -> w < nw.
  Proof using Hnw Hid.
    intros s w C N. destruct (le_lt_dec nw w) as [G|G]; auto. destruct (c_end s C w G); congruence.
  Qed.

  Lemma core_test : forall s w s', core s -> step s (Test w) = Some s' -> core s'.
  Proof using Hnw Hid.
    intros s w s' C H. unfold gstep in H.
    destruct (wrk s w) as [|t| |] eqn:E; try discriminate.
    pose proof (core_lt s w C ltac:(congruence)) as L.
    assert (I : In t (hsent s)) by (apply (c_pc s C w); rewrite E; simpl; auto).
    destruct (negb all && flag s).
    { injection H as <-. apply core_to_emitter; auto; try congruence. left; split; congruence. }
    destruct (hit t) eqn:Eh; injection H as <-.
    - constructor; cs; try apply C.
      + intros v x J. fu v w; [|apply (c_pc s C v); auto]. simpl in J; intuition congruence.
      + intros v t' J. fu v w; [|apply (c_hit s C); auto]. injection J as <-. split; auto.
        apply in_or_app; simpl; auto.
      + intros v x J. fu v w; [|apply (c_fnd s C v); auto].
        apply in_app_or in J as [J|[<-|[]]]; [apply (c_fnd s C w); auto|auto].
      + intros Ef. destruct (c_flag s C Ef) as (v & ? & ?). exists v; split; auto.
        fu v w; auto. destruct (fnd s w); discriminate.
      + intros v J. fu v w; [eauto|apply (c_found s C); auto].
      + intros v G. rewrite !fupd_neq by lia. apply C; auto.
    - apply core_to_emitter; auto; try congruence. left; split; congruence.
  Qed.

  Lemma core_mark : forall s w s', core s -> step s (Mark w) = Some s' -> core s'.
  Proof using Hnw Hid.
    intros s w s' C H. unfold gstep in H.
    destruct (wrk s w) as [| |t|] eqn:E; try discriminate.
    pose proof (core_lt s w C ltac:(congruence)) as L.
    assert (I : In t (hsent s)) by (apply (c_pc s C w); rewrite E; simpl; auto).
    destruct (c_hit s C w t E) as (_ & If).
    assert (fnd s w <> []) by (intros Z; rewrite Z in If; contradiction).
    destruct all; injection H as <-; apply core_to_emitter; auto; congruence.
  Qed.

  Lemma core_start : forall s w s', core s -> step s (Start w) = Some s' -> core s'.
  Proof using Hnw Hid.
    intros s w s' C H. unfold gstep in H.
    destruct (emt s) eqn:E; try discriminate.
    assert (D : (exists a, st = Some a) \/ st = None) by (clear; destruct st; eauto).
    destruct D as [(a & Es)|Es]; rewrite Es in H.
    - destruct (w <? nw) eqn:L; [|discriminate]. apply Nat.ltb_lt in L.
      assert (R : rch a) by (exists a; split; auto; constructor).
      rewrite (proj2 (Nat.ltb_lt _ _) (rch_bits a R)) in H. injection H as <-.
      destruct (c_boot s C E) as (Eh & Ee).
      apply core_send; auto; try discriminate.
      + intros r [= <-]. exists a, []. rewrite Eh. auto.
      + intros b Eb. rewrite Es in Eb; injection Eb as <-. apply in_or_app; simpl; auto.
    - injection H as <-. apply core_finish; auto.
  Qed.
  (** Once the search is not disturbed by a hit: every result, or nothing found yet. *)
  Definition ok (s : gst) : Prop := all = true \/ flag s = false.

  Definition nt (s : gst) (x w : nat) : nat :=
    occ x (items (inq s w)) + occ x (pcn (wrk s w)) + occ x (items (fbq s w)).
  Definition nl (s : gst) (w : nat) : nat :=
    length (items (inq s w)) + length (pcn (wrk s w)) + length (items (fbq s w)).
  Definition tt_ (s : gst) (x w : nat) : nat := occ x (hitn (wrk s w)) + occ x (items (fbq s w)).

  Definition live (e : epc) : Prop :=
    match e with EBoot | EFirst _ | EIdle | ESend _ _ _ => True | _ => False end.
  Definition drained (s : gst) (w : nat) (b : bool) : Prop :=
    if b then wrk s w = WDone /\ inq s w = [] /\ fbq s w = []
    else wrk s w = WIdle /\ inq s w = [Eos] /\ fbq s w = [] \/
         wrk s w = WDone /\ inq s w = [] /\ fbq s w = [Eos].

  Record comp (s : gst) : Prop := mkComp {
    p_sent : forall x, occ x (hsent s) = sumn nw (nt s x) + occ x (curn (emt s)) + occ x (hexp s);
    p_cnt : cnt s = Z.of_nat (sumn nw (nl s));
    p_live : live (emt s) -> forall w, w < nw ->
      ~ In Eos (inq s w) /\ ~ In Eos (fbq s w) /\ wrk s w <> WDone;
    p_idle : emt s = EIdle -> cnt s <> 0%Z;
    p_abs : forall i, emt s = EAbsorb i -> i < nw /\ forall w, w < nw -> drained s w (w <? i);
    p_end : emt s = EEnd -> forall w, w < nw -> drained s w true;
    p_abort : emt s <> EAbort;
    p_res : forall x, sumn nw (fun w => occ x (fnd s w)) =
      if hit x then sumn nw (tt_ s x) + occ x (curn (emt s)) + occ x (hexp s) else 0 }.

  Lemma comp_init : comp (g_init nw).
  Proof using Hnw Hid.
    constructor; simpl; try discriminate.
    - intros; rewrite sumn_zero; auto.
    - rewrite sumn_zero; auto.
    - intros _ w _; repeat split; auto; discriminate.
    - intros x; rewrite !sumn_zero; auto. destruct (hit x); auto.
  Qed.

  Lemma comp_worker : forall s s' w, w < nw -> comp s ->
    emt s' = emt s -> cnt s' = cnt s -> hsent s' = hsent s -> hexp s' = hexp s ->
    (forall v, v <> w -> inq s' v = inq s v /\ fbq s' v = fbq s v /\ wrk s' v = wrk s v /\ fnd s' v = fnd s v) ->
    (forall x, nt s' x w = nt s x w) -> nl s' w = nl s w ->
    (live (emt s) -> ~ In Eos (inq s' w) /\ ~ In Eos (fbq s' w) /\ wrk s' w <> WDone) ->
    (forall x, hit x = true -> occ x (fnd s' w) + tt_ s x w = occ x (fnd s w) + tt_ s' x w) ->
    (forall x, hit x = false -> occ x (fnd s' w) = occ x (fnd s w)) ->
    (forall b, drained s w b -> drained s' w b) ->
    comp s'.
  Proof using Hnw Hid.
    intros s s' w L C E1 E2 E3 E4 F H1 H2 H3 H4 H5 H6.
    assert (D : forall v b, drained s v b -> drained s' v b).
    { intros v b D. destruct (Nat.eq_dec v w) as [->|N]; auto.
      destruct (F v N) as (A1 & A2 & A3 & _). unfold drained in *. rewrite A1, A2, A3; auto. }
    constructor.
    - intros x. rewrite E1, E3, E4, (p_sent s C x). f_equal. f_equal. symmetry. apply sumn_ext.
      intros v _. destruct (Nat.eq_dec v w) as [->|N]; auto.
      destruct (F v N) as (A1 & A2 & A3 & _). unfold nt. rewrite A1, A2, A3; auto.
    - rewrite E2, (p_cnt s C). f_equal. symmetry. apply sumn_ext.
      intros v _. destruct (Nat.eq_dec v w) as [->|N]; auto.
      destruct (F v N) as (A1 & A2 & A3 & _). unfold nl. rewrite A1, A2, A3; auto.
    - rewrite E1. intros Hl v Lv. destruct (Nat.eq_dec v w) as [->|N]; auto.
      destruct (F v N) as (A1 & A2 & A3 & _). rewrite A1, A2, A3. apply (p_live s C); auto.
    - rewrite E1, E2. apply (p_idle s C).
    - rewrite E1. intros i Ei. destruct (p_abs s C i Ei). split; auto.
    - rewrite E1. intros Ee v Lv. apply D, (p_end s C); auto.
    - rewrite E1. apply (p_abort s C).
    - intros x. rewrite E1, E4.
      pose proof (p_res s C x) as R.
      pose proof (sumn_upd nw (fun w => occ x (fnd s w)) (fun w => occ x (fnd s' w)) w L) as U.
      cbv beta in U. specialize (U ltac:(intros v N; destruct (F v N) as (_ & _ & _ & ->); auto)).
      destruct (hit x) eqn:Eh.
      + pose proof (sumn_upd nw (tt_ s x) (tt_ s' x) w L) as U2.
        specialize (U2 ltac:(intros v N; destruct (F v N) as (_ & A2 & A3 & _); unfold tt_; rewrite A2, A3; auto)).
        specialize (H4 x Eh). lia.
      + specialize (H5 x Eh). lia.
  Qed.

  Lemma items1 : forall n, items [Item n] = [n]. Proof. reflexivity. Qed.
  Lemma items2 : items [Eos] = []. Proof. reflexivity. Qed.
  Lemma itemsc : forall n l, items (Item n :: l) = n :: items l. Proof. reflexivity. Qed.
  Lemma itemse : forall l, items (Eos :: l) = items l. Proof. reflexivity. Qed.

  Lemma live_dec : forall e, live e \/ ~ live e.
  Proof. destruct e; simpl; auto. Qed.

  (** A worker with something in hand works for an emitter that did not end. *)
  Lemma busy_live : forall s w, comp s -> w < nw -> (forall b, ~ drained s w b) -> live (emt s).
  Proof using Hnw Hid.
    intros s w C L D. destruct (emt s) eqn:E; simpl; auto.
    - destruct (p_abs s C i E) as (_ & A). elim (D _ (A w L)).
    - elim (D _ (p_end s C E w L)).
    - elim (p_abort s C E).
  Qed.

  Lemma comp_take : forall s w s', core s -> comp s -> step s (Take w) = Some s' -> comp s'.
  Proof using Hnw Hid.
    intros s w s' K C H. unfold gstep in H.
    destruct (wrk s w) eqn:E; try discriminate. destruct (inq s w) as [|m q] eqn:F; try discriminate.
    destruct (w <? nw) eqn:L; [|discriminate]. apply Nat.ltb_lt in L. cbv zeta in H.
    assert (LV : live (emt s) -> ~ In Eos (m :: q) /\ ~ In Eos (fbq s w)).
    { intros Lv. rewrite <- F. split; apply (p_live s C Lv w L). }
    destruct m as [t|]; injection H as <-;
      apply (comp_worker s _ w L C); cs; auto;
      try (intros v N; rewrite ?fupd_neq by auto; auto; fail).
    - intros x. unfold nt; cs. rewrite !fupd_eq, E, F, itemsc. cbn [pcn].
      rewrite (occ_cons1 x t (items q)). cbn [count_occ]. lia.
    - unfold nl; cs. rewrite !fupd_eq, E, F, itemsc. cbn [pcn length]. lia.
    - intros Lv. rewrite !fupd_eq. destruct (LV Lv) as (A & B). simpl in A. intuition discriminate.
    - intros x _. unfold tt_; cs. rewrite fupd_eq, E. reflexivity.
    - intros b D. exfalso. unfold drained in D. rewrite E, F in D.
      destruct b; intuition discriminate.
    - intros x. unfold nt; cs. rewrite !fupd_eq, E, F, itemse, items_app, count_occ_app. simpl. lia.
    - unfold nl; cs. rewrite !fupd_eq, E, F, itemse, items_app, app_length. simpl. lia.
    - intros Lv. destruct (LV Lv) as (A & _). elim A; simpl; auto.
    - intros x _. unfold tt_; cs. rewrite !fupd_eq, E, items_app, count_occ_app. simpl. lia.
    - intros b D. unfold drained in *. cs. rewrite E, F in D. rewrite !fupd_eq.
      destruct b; [intuition discriminate|].
      destruct D as [(_ & D & Fb)|(D & _)]; [|discriminate]. injection D as ->. rewrite Fb. auto.
  Qed.

  Lemma not_drained : forall s w, wrk s w <> WIdle -> wrk s w <> WDone -> forall b, ~ drained s w b.
  Proof using. intros s w A B b D. unfold drained in D. destruct b; [destruct D as (D & _)|destruct D as [(D & _)|(D & _)]]; auto. Qed.

  Lemma comp_test : forall s w s', core s -> ok s -> comp s -> step s (Test w) = Some s' -> comp s'.
  Proof using Hnw Hid.
    intros s w s' K O C H. unfold gstep in H.
    destruct (wrk s w) as [|t| |] eqn:E; try discriminate.
    pose proof (core_lt s w K ltac:(congruence)) as L.
    assert (G : negb all && flag s = false) by (destruct O as [->| ->]; auto using andb_false_r).
    rewrite G in H.
    assert (ND : forall b, ~ drained s w b) by (apply not_drained; congruence).
    pose proof (p_live s C (busy_live s w C L ND) w L) as (NI & NF & _).
    destruct (hit t) eqn:Eh; injection H as <-;
      apply (comp_worker s _ w L C); cs; auto;
      try (intros v N; rewrite ?fupd_neq by auto; auto; fail);
      try (intros b D; elim (ND b D); fail).
    - intros x. unfold nt; cs. rewrite !fupd_eq, E. reflexivity.
    - unfold nl; cs. rewrite !fupd_eq, E. reflexivity.
    - intros _. rewrite !fupd_eq. repeat split; auto; discriminate.
    - intros x _. unfold tt_; cs. rewrite !fupd_eq, E, count_occ_app. cbn [hitn count_occ]. lia.
    - intros x Hx. rewrite !fupd_eq, count_occ_app. cbn [count_occ].
      destruct (Nat.eq_dec t x); [congruence|lia].
    - intros x. unfold nt; cs. rewrite !fupd_eq, E, items_app, count_occ_app, items1. cbn [pcn count_occ]. lia.
    - unfold nl; cs. rewrite !fupd_eq, E, items_app, app_length. simpl. lia.
    - intros _. rewrite !fupd_eq. repeat split; auto; [|discriminate].
      intros I. apply in_app_or in I as [I|[I|[]]]; [auto|discriminate].
    - intros x Hx. unfold tt_; cs. rewrite !fupd_eq, E, items_app, count_occ_app, items1. cbn [hitn count_occ].
      destruct (Nat.eq_dec t x); [congruence|lia].
  Qed.

  Lemma comp_mark : forall s w s', core s -> comp s -> step s (Mark w) = Some s' -> ok s' -> comp s'.
  Proof using Hnw Hid.
    intros s w s' K C H O. unfold gstep in H.
    destruct (wrk s w) as [| |t|] eqn:E; try discriminate.
    pose proof (core_lt s w K ltac:(congruence)) as L.
    assert (ND : forall b, ~ drained s w b) by (apply not_drained; congruence).
    pose proof (p_live s C (busy_live s w C L ND) w L) as (NI & NF & _).
    unfold ok in O. destruct all; injection H as <-; [|destruct O; cs; discriminate].
    apply (comp_worker s _ w L C); cs; auto;
      try (intros v N; rewrite ?fupd_neq by auto; auto; fail);
      try (intros b D; elim (ND b D); fail).
    - intros x. unfold nt; cs. rewrite !fupd_eq, E, items_app, count_occ_app, items1. cbn [pcn count_occ]. lia.
    - unfold nl; cs. rewrite !fupd_eq, E, items_app, app_length. simpl. lia.
    - intros _. rewrite !fupd_eq. repeat split; auto; [|discriminate].
      intros I. apply in_app_or in I as [I|[I|[]]]; [auto|discriminate].
    - intros x Hx. unfold tt_; cs. rewrite !fupd_eq, E, items_app, count_occ_app, items1. cbn [hitn count_occ]. lia.
  Qed.
  Lemma sumn_le : forall n f g, (forall v, v < n -> f v <= g v) -> sumn n f <= sumn n g.
  Proof.
    induction n; intros f g H; [auto|]. rewrite !sumn_S. pose proof (IHn f g ltac:(auto)).
    pose proof (H n ltac:(auto)). lia.
  Qed.

  Lemma nt_le : forall s x w, nt s x w <= nl s w.
  Proof.
    intros; unfold nt, nl.
    pose proof (count_occ_bound Nat.eq_dec x (items (inq s w))).
    pose proof (count_occ_bound Nat.eq_dec x (pcn (wrk s w))).
    pose proof (count_occ_bound Nat.eq_dec x (items (fbq s w))). lia.
  Qed.

  Lemma comp_send : forall s n w e, comp s -> w < nw -> live (emt s) -> live e ->
    curn e = curn (emt s) -> e <> EIdle -> comp (send ident s n w e).
  Proof using Hnw Hid.
    intros s n w e C L Lv Le Ec Ei.
    assert (F : forall v, v <> w -> inq (send ident s n w e) v = inq s v) by (intros; cs; apply fupd_neq; auto).
    assert (W : inq (send ident s n w e) w = inq s w ++ [Item n]) by (cs; apply fupd_eq).
    constructor.
    - intros x. pose proof (p_sent s C x) as P.
      pose proof (sumn_upd nw (nt s x) (nt (send ident s n w e) x) w L) as U.
      specialize (U ltac:(intros v N; unfold nt; rewrite (F v N); reflexivity)).
      assert (nt (send ident s n w e) x w = nt s x w + occ x [n]) as Q.
      { unfold nt. rewrite W, items_app, count_occ_app, items1. cs. lia. }
      change (hsent (send ident s n w e)) with (hsent s ++ [n]). change (emt (send ident s n w e)) with e.
      change (hexp (send ident s n w e)) with (hexp s).
      rewrite count_occ_app, Ec. lia.
    - pose proof (sumn_upd nw (nl s) (nl (send ident s n w e)) w L) as U.
      specialize (U ltac:(intros v N; unfold nl; rewrite (F v N); reflexivity)).
      assert (nl (send ident s n w e) w = nl s w + 1) as Q.
      { unfold nl. rewrite W, items_app, app_length, items1. cs. simpl. lia. }
      pose proof (p_cnt s C). change (cnt (send ident s n w e)) with (cnt s + 1)%Z. lia.
    - intros _ v Lv'. destruct (p_live s C Lv v Lv') as (A & B & D).
      cs. repeat split; auto. fu v w; auto. intros I. apply in_app_or in I as [I|[I|[]]]; [auto|discriminate].
    - intros E; cs; congruence.
    - intros i E; cs. subst e; contradiction.
    - intros E; cs. subst e; contradiction.
    - cs. intros E; subst e; contradiction.
    - intros x. change (emt (send ident s n w e)) with e. rewrite Ec. exact (p_res s C x).
  Qed.

  Lemma comp_finish : forall s s1, comp s -> live (emt s) -> sumn nw (nl s) = 0 ->
    cnt s1 = cnt s -> inq s1 = inq s -> fbq s1 = fbq s -> wrk s1 = wrk s -> fnd s1 = fnd s -> hsent s1 = hsent s ->
    (forall x, occ x (curn (emt s)) + occ x (hexp s) = occ x (hexp s1)) ->
    comp (finish nw s1).
  Proof using Hnw Hid.
    intros s s1 C Lv Z E1 E2 E3 E4 E5 E6 E7.
    assert (I : forall v, items (inq (finish nw s1) v) = items (inq s v)).
    { intros v. cs. rewrite E2. destruct (v <? nw); auto. rewrite items_app, items2, app_nil_r; auto. }
    assert (Ie : emt (finish nw s1) = EAbsorb 0) by reflexivity.
    assert (Ic : cnt (finish nw s1) = cnt s) by (cs; auto).
    assert (If : fbq (finish nw s1) = fbq s) by (cs; auto).
    assert (Iw : wrk (finish nw s1) = wrk s) by (cs; auto).
    assert (In_ : fnd (finish nw s1) = fnd s) by (cs; auto).
    assert (Is : hsent (finish nw s1) = hsent s) by (cs; auto).
    assert (Ih : hexp (finish nw s1) = hexp s1) by (cs; auto).
    assert (Iq : forall w, w < nw -> inq (finish nw s1) w = inq s w ++ [Eos]).
    { intros w L. cs. rewrite E2, (proj2 (Nat.ltb_lt _ _) L). auto. }
    revert I Ie Ic If Iw In_ Is Ih Iq. generalize (finish nw s1). intros f I Ie Ic If Iw In_ Is Ih Iq.
    constructor; rewrite ?Ie; try discriminate.
    - intros x. pose proof (p_sent s C x) as P. rewrite Is, Ih. cbn [curn count_occ].
      rewrite (sumn_ext nw (nt s x) (nt f x)); [specialize (E7 x); lia|].
      intros v _. unfold nt. rewrite I, If, Iw. reflexivity.
    - pose proof (p_cnt s C). rewrite Ic. rewrite (sumn_ext nw (nl s) (nl f)); [lia|].
      intros v _. unfold nl. rewrite I, If, Iw. reflexivity.
    - intros [].
    - intros i Ei. injection Ei as <-. split; [auto|]. intros w L.
      pose proof (sumn_zero_inv nw _ Z w L) as Zw. unfold nl in Zw.
      destruct (p_live s C Lv w L) as (A & B & D).
      left. rewrite Iq, If, Iw by auto.
      assert (NE : forall l, ~ In Eos l -> length (items l) = 0 -> l = []).
      { clear. intros [|[n|] l] A B; auto; [discriminate|]. elim A; simpl; auto. }
      rewrite (NE _ A), (NE _ B) by lia.
      destruct (wrk s w); simpl in Zw; repeat split; auto; try lia; congruence.
    - intros x. pose proof (p_res s C x) as P. rewrite In_, Ih, P. destruct (hit x); auto.
      rewrite (sumn_ext nw (tt_ s x) (tt_ f x)); [cbn [curn count_occ]; specialize (E7 x); lia|].
      intros v _. unfold tt_. rewrite If, Iw. reflexivity.
  Qed.

  Lemma comp_start : forall s w s', core s -> comp s -> step s (Start w) = Some s' -> comp s'.
  Proof using Hnw Hid.
    intros s w s' K C H. unfold gstep in H.
    destruct (emt s) eqn:E; try discriminate.
    assert (D : (exists a, st = Some a) \/ st = None) by (clear; destruct st; eauto).
    destruct D as [(a & Es)|Es]; rewrite Es in H.
    - destruct (w <? nw) eqn:L; [|discriminate]. apply Nat.ltb_lt in L.
      assert (R : rch a) by (exists a; split; auto; constructor).
      rewrite (proj2 (Nat.ltb_lt _ _) (rch_bits a R)) in H. injection H as <-.
      apply comp_send; rewrite ?E; simpl; auto; discriminate.
    - injection H as <-. destruct (c_boot s K E) as (Eh & Ee).
      apply (comp_finish s s); auto; [rewrite E; simpl; auto| |intros x; rewrite E; reflexivity].
      destruct (Nat.eq_dec (sumn nw (nl s)) 0) as [|N]; auto.
      destruct (sumn_pos nw (nl s)) as (v & Lv & Pv); [lia|].
      assert (exists x, 0 < nt s x v) as (x & Px).
      { revert Pv. unfold nl, nt. destruct (items (inq s v)) as [|x l].
        - destruct (pcn (wrk s v)) as [|x l].
          + destruct (items (fbq s v)) as [|x l]; simpl; [lia|intros _; exists x; destruct (Nat.eq_dec x x); [lia|congruence]].
          + intros _; exists x; simpl; destruct (Nat.eq_dec x x); [lia|congruence].
        - intros _; exists x; simpl; destruct (Nat.eq_dec x x); [lia|congruence]. }
      pose proof (p_sent s C x) as P. rewrite Eh, Ee, E in P. simpl in P.
      pose proof (sumn_zero_inv nw (nt s x) ltac:(lia) v Lv). lia.
  Qed.

  Lemma comp_emit : forall s w s', core s -> ok s -> comp s -> step s (Emit w) = Some s' -> comp s'.
  Proof using Hnw Hid.
    intros s w s' K O C H. unfold gstep in H.
    assert (G : negb all && flag s = false) by (destruct O as [->| ->]; auto using andb_false_r).
    destruct (emt s) as [|[|n r]| |t [|n r] k| | |] eqn:E; try discriminate.
    - injection H as <-. destruct (c_first s K [] E) as (a & d & Es & Eo & Eh & Ee).
      assert (N : cnt s <> 0%Z).
      { pose proof (p_sent s C a) as P. rewrite Eh, Ee, E in P. cbn [curn] in P.
        rewrite occ_cons1 in P. simpl in P. destruct (Nat.eq_dec a a); [|congruence].
        pose proof (sumn_le nw (nt s a) (nl s) ltac:(intros; apply nt_le)).
        rewrite (p_cnt s C). lia. }
      constructor; cs; try discriminate; auto; try apply C.
      + intros x. pose proof (p_sent s C x) as P. rewrite E in P. exact P.
      + intros _. apply (p_live s C). rewrite E; simpl; auto.
      + intros x. pose proof (p_res s C x) as P. rewrite E in P. exact P.
    - destruct (c_first s K _ E) as (a & d & Es & Eo & Eh & Ee).
      assert (R : rch n).
      { exists a; split; auto. econstructor 2; [constructor|rewrite Eo; apply in_or_app; simpl; auto]. }
      destruct (w <? nw) eqn:L; [|discriminate]. apply Nat.ltb_lt in L.
      rewrite (proj2 (Nat.ltb_lt _ _) (rch_bits n R)) in H. injection H as <-.
      apply comp_send; rewrite ?E; simpl; auto; discriminate.
    - rewrite G in H. destruct (Z.eqb_spec (cnt s) 0) as [Z|Z]; injection H as <-.
      + apply (comp_finish s); auto; [rewrite E; simpl; auto| |].
        * pose proof (p_cnt s C). lia.
        * intros x. rewrite E. cs. rewrite count_occ_app. cbn [curn]. lia.
      + constructor; cs; try discriminate; auto; try apply C.
        * intros x. pose proof (p_sent s C x) as P. rewrite E in P. rewrite count_occ_app. cbn [curn] in *.
          cbn [count_occ] in P |- *. unfold nt in *; cs. lia.
        * intros _. apply (p_live s C). rewrite E; simpl; auto.
        * intros x. pose proof (p_res s C x) as P. rewrite E in P. rewrite P. destruct (hit x); auto.
          rewrite count_occ_app. cbn [curn count_occ]. unfold tt_; cs. lia.
    - destruct (c_send s K t (n :: r) k E) as (It & d & Ed & Id).
      assert (R : rch n).
      { eapply rch_next; [apply (c_reach s K t It)|rewrite Ed; apply in_or_app; simpl; auto]. }
      destruct (w <? nw) eqn:L; [|discriminate]. apply Nat.ltb_lt in L.
      replace (negb all && (S k =? 256) && flag s) with false in H
        by (destruct O as [->| ->]; rewrite ?andb_false_r; auto).
      rewrite (proj2 (Nat.ltb_lt _ _) (rch_bits n R)) in H.
      destruct (mask s (ident n)) eqn:M; injection H as <-.
      + constructor; cs; try discriminate; auto; try apply C.
        * intros x. pose proof (p_sent s C x) as P. rewrite E in P. exact P.
        * intros _. apply (p_live s C). rewrite E; simpl; auto.
        * intros x. pose proof (p_res s C x) as P. rewrite E in P. exact P.
      + apply comp_send; rewrite ?E; simpl; auto; discriminate.
  Qed.

  Lemma comp_back : forall s w s', core s -> ok s -> comp s -> step s (Back w) = Some s' -> comp s'.
  Proof using Hnw Hid.
    intros s w s' K O C H. unfold gstep in H.
    assert (G : negb all && flag s = false) by (destruct O as [->| ->]; auto using andb_false_r).
    destruct (emt s) eqn:E; try discriminate. destruct (fbq s w) as [|m q] eqn:F; try discriminate.
    destruct (w <? nw) eqn:L; [|discriminate]. apply Nat.ltb_lt in L. cbv zeta in H.
    assert (Lv : live (emt s)) by (rewrite E; simpl; auto).
    destruct m as [t|]; [|destruct (p_live s C Lv w L) as (_ & A & _); elim A; rewrite F; simpl; auto].
    rewrite G in H. injection H as <-. set (s1 := mkG _ _ _ _ _ _ _ _ _ _ _).
    assert (N1 : forall v, v <> w -> fbq s1 v = fbq s v) by (intros; unfold s1; cs; apply fupd_neq; auto).
    assert (W1 : fbq s1 w = q) by (unfold s1; cs; apply fupd_eq).
    constructor; try (unfold s1; cs; discriminate).
    - intros x. pose proof (p_sent s C x) as P. rewrite E in P.
      pose proof (sumn_upd nw (nt s x) (nt s1 x) w L) as U.
      specialize (U ltac:(intros v N; unfold nt; rewrite (N1 v N); reflexivity)).
      assert (nt s x w = nt s1 x w + occ x [t]) as Q.
      { unfold nt. rewrite W1, F, itemsc, (occ_cons1 x t). unfold s1; cs. lia. }
      change (hsent s1) with (hsent s). change (curn (emt s1)) with [t]. change (hexp s1) with (hexp s).
      cbn [curn] in P. change (occ x []) with 0 in P. lia.
    - pose proof (p_cnt s C). pose proof (sumn_upd nw (nl s) (nl s1) w L) as U.
      specialize (U ltac:(intros v N; unfold nl; rewrite (N1 v N); reflexivity)).
      assert (nl s w = nl s1 w + 1) as Q.
      { unfold nl. rewrite W1, F, itemsc. unfold s1; cs. simpl. lia. }
      change (cnt s1) with (cnt s - 1)%Z. lia.
    - intros _ v Lv'. destruct (p_live s C Lv v Lv') as (A & B & D).
      repeat split; auto. destruct (Nat.eq_dec v w) as [->|N].
      + rewrite W1. rewrite F in B. simpl in B; auto.
      + rewrite N1; auto.
    - intros x. pose proof (p_res s C x) as P. rewrite E in P. change (fnd s1) with (fnd s). rewrite P.
      destruct (hit x); auto.
      pose proof (sumn_upd nw (tt_ s x) (tt_ s1 x) w L) as U.
      specialize (U ltac:(intros v N; unfold tt_; rewrite (N1 v N); reflexivity)).
      assert (tt_ s x w = tt_ s1 x w + occ x [t]) as Q.
      { unfold tt_. rewrite W1, F, itemsc, (occ_cons1 x t). unfold s1; cs. lia. }
      change (curn (emt s1)) with [t]. change (hexp s1) with (hexp s). cbn [curn].
      change (occ x []) with 0. lia.
  Qed.

  Lemma comp_absorb : forall s s', core s -> comp s -> step s Absorb = Some s' -> comp s'.
  Proof using Hnw Hid.
    intros s s' K C H. unfold gstep in H.
    destruct (emt s) eqn:E; try discriminate. destruct (p_abs s C i E) as (L & D).
    pose proof (D i L) as Di. rewrite Nat.ltb_irrefl in Di.
    destruct Di as [(_ & _ & F)|(Wd & Fi & F)]; rewrite F in H; [discriminate|]. cbv zeta in H.
    remember (S i =? nw) as bb eqn:Eb. injection H as <-.
    assert (T : forall v, items (fupd (fbq s) i [] v) = items (fbq s v)).
    { intros v. destruct (Nat.eq_dec v i) as [->|]; [rewrite fupd_eq, F; auto|rewrite fupd_neq; auto]. }
    assert (A : forall v b, v <> i -> drained s v b -> forall e, drained
      (mkG e (mask s) (cnt s) (left s) (inq s) (fupd (fbq s) i []) (wrk s) (fnd s) (flag s) (hsent s) (hexp s)) v b).
    { intros v b N Dv e. unfold drained in *. cs. rewrite fupd_neq by auto. auto. }
    assert (B : forall e, drained
      (mkG e (mask s) (cnt s) (left s) (inq s) (fupd (fbq s) i []) (wrk s) (fnd s) (flag s) (hsent s) (hexp s)) i true).
    { intros e. unfold drained in *. cs. rewrite fupd_eq. auto. }
    assert (Cu : curn (if bb then EEnd else EAbsorb (S i)) = []) by (destruct bb; reflexivity).
    constructor.
    - intros x. pose proof (p_sent s C x) as P. rewrite E in P. cs. rewrite Cu, P. f_equal. f_equal.
      symmetry. apply sumn_ext. intros v _. unfold nt; cs. rewrite T. auto.
    - cs. rewrite (p_cnt s C). f_equal. symmetry. apply sumn_ext. intros v _. unfold nl; cs. rewrite T. auto.
    - cs. destruct bb; intros [].
    - cs. destruct bb; discriminate.
    - intros j Ej. cs. destruct bb; [discriminate|]. injection Ej as <-. symmetry in Eb. apply Nat.eqb_neq in Eb.
      split; [lia|]. intros w Lw. destruct (Nat.eq_dec w i) as [->|Nw].
      + rewrite (proj2 (Nat.ltb_lt i (S i))) by lia. apply B.
      + apply A; auto. pose proof (D w Lw) as Dw.
        replace (w <? S i) with (w <? i); auto.
        destruct (Nat.ltb_spec w i), (Nat.ltb_spec w (S i)); auto; lia.
    - intros Ej w Lw. cs. destruct bb; [|discriminate]. symmetry in Eb. apply Nat.eqb_eq in Eb.
      destruct (Nat.eq_dec w i) as [->|Nw]; [apply B|].
      apply A; auto. pose proof (D w Lw) as Dw. rewrite (proj2 (Nat.ltb_lt w i)) in Dw by lia. auto.
    - cs. destruct bb; discriminate.
    - intros x. pose proof (p_res s C x) as P. rewrite E in P. cs. rewrite Cu, P. destruct (hit x); auto.
      f_equal. f_equal.
      symmetry. apply sumn_ext. intros v _. unfold tt_; cs. rewrite T. auto.
  Qed.

  Lemma ok_mono : forall s a s', step s a = Some s' -> ok s' -> ok s.
  Proof using Hnw Hid.
    intros s a s' H [O|O]; [left; auto|]. right.
    destruct a; unfold gstep in H; cbv zeta in H; inv_step H; cs; auto; discriminate.
  Qed.

  Lemma core_absorb : forall s s', core s -> (ok s -> comp s) -> step s Absorb = Some s' -> core s'.
  Proof using Hnw Hid.
    intros s s' C P H. pose proof H as H0. unfold gstep in H.
    destruct (emt s) eqn:E; try discriminate. destruct (fbq s i) as [|m q] eqn:F; [discriminate|].
    cbv zeta in H.
    assert (FB : forall v x, In (Item x) (fupd (fbq s) i q v) -> In x (hsent s)).
    { intros v x I. apply (c_fb s C v). fu v i; auto. rewrite F; simpl; auto. }
    remember (S i =? nw) as bb eqn:Eb.
    destruct m as [t|]; injection H as <-; constructor; cs; auto; try apply C;
      try (intros; discriminate); try (destruct bb; discriminate);
      try (intros _; apply (c_start s C); congruence).
    - intros _. destruct (Bool.bool_dec all true) as [A|A]; [|destruct (Bool.bool_dec (flag s) false) as [B|B]].
      + elim (p_abort _ (comp_absorb s _ C (P (or_introl A)) H0)). reflexivity.
      + elim (p_abort _ (comp_absorb s _ C (P (or_intror B)) H0)). reflexivity.
      + split; [destruct all; congruence|destruct (flag s); congruence].
  Qed.

  Definition inv (s : gst) : Prop := core s /\ (ok s -> comp s).

  Lemma inv_step_ : forall s a s', inv s -> step s a = Some s' -> inv s'.
  Proof using Hnw Hid.
    intros s a s' (C & P) H. split.
    - destruct a.
      + eapply core_start; eauto.
      + eapply core_emit; eauto.
      + eapply core_back; eauto.
      + eapply core_absorb; eauto.
      + eapply core_take; eauto.
      + eapply core_test; eauto.
      + eapply core_mark; eauto.
    - intros O'. pose proof (ok_mono s a s' H O') as O. specialize (P O). destruct a.
      + eapply comp_start; eauto.
      + eapply comp_emit; eauto.
      + eapply comp_back; eauto.
      + eapply comp_absorb; eauto.
      + eapply comp_take; eauto.
      + eapply comp_test; eauto.
      + eapply comp_mark; eauto.
  Qed.

  Lemma inv_exec : forall l s, exec step (g_init nw) l = Some s -> inv s.
  Proof using Hnw Hid.
    intros l s H. eapply (exec_inv step inv inv_step_); [|exact H].
    split; [apply core_init|intros _; apply comp_init].
  Qed.

  (** ** Consequences *)
  Lemma results_in : forall s x, In x (results nw s) <-> exists w, w < nw /\ In x (fnd s w).
  Proof using Hnw Hid.
    intros; unfold results. rewrite in_flat_map. split; intros (w & A & B); exists w; rewrite in_seq in *; split; auto; lia.
  Qed.

  Lemma sound : forall s x, inv s -> In x (results nw s) -> rch x /\ hit x = true.
  Proof using Hnw Hid.
    intros s x (C & _) I. apply results_in in I as (w & _ & I).
    destruct (c_fnd s C w x I). split; auto. apply (c_reach s C); auto.
  Qed.

  Lemma end_sent : forall s, inv s -> ok s -> emt s = EEnd -> forall x, occ x (hsent s) = occ x (hexp s).
  Proof using Hnw Hid.
    intros s (C & P) O E x. specialize (P O). pose proof (p_sent s P x) as S0. rewrite E in S0.
    rewrite sumn_zero in S0; [simpl in S0; lia|].
    intros v L. destruct (p_end s P E v L) as (A1 & A2 & A3). unfold nt. rewrite A1, A2, A3. reflexivity.
  Qed.

  Lemma end_closed : forall s, inv s -> ok s -> emt s = EEnd -> forall x, rch x -> In x (hsent s).
  Proof using Hnw Hid.
    intros s I O E x (a & Ea & R). pose proof (end_sent s I O E) as S0. destruct I as (C & P).
    induction R as [|n m R IH M].
    - apply (c_start s C); [congruence|auto].
    - eapply (c_closed s C n m); auto.
      rewrite (count_occ_In Nat.eq_dec) in *. rewrite <- S0. auto.
  Qed.

  Lemma end_occ : forall s, inv s -> ok s -> emt s = EEnd -> forall x,
    occ x (results nw s) = if hit x then occ x (hsent s) else 0.
  Proof using Hnw Hid.
    intros s I O E x. pose proof (end_sent s I O E x) as S0. destruct I as (C & P). specialize (P O).
    unfold results. rewrite occ_flat. rewrite (p_res s P x), E. destruct (hit x); auto.
    rewrite sumn_zero; [simpl; lia|].
    intros v L. destruct (p_end s P E v L) as (A1 & A2 & A3). unfold tt_. rewrite A1, A3. reflexivity.
  Qed.

  Lemma complete : forall s, inv s -> ok s -> emt s = EEnd -> forall x,
    In x (results nw s) <-> rch x /\ hit x = true.
  Proof using Hnw Hid.
    intros s I O E x. split; [apply sound; auto|]. intros (R & Hx).
    rewrite (count_occ_In Nat.eq_dec), (end_occ s I O E x), Hx.
    apply (count_occ_In Nat.eq_dec). apply end_closed; auto.
  Qed.

  Lemma flag_results : forall s, inv s -> (forall w, w < nw -> wrk s w = WDone) ->
    flag s = true <-> results nw s <> [].
  Proof using Hnw Hid.
    intros s (C & _) D. split.
    - intros F. destruct (c_flag s C F) as (w & L & N). destruct (fnd s w) as [|x l] eqn:Ef; [congruence|].
      intros Z. assert (I : In x (results nw s)) by (apply results_in; exists w; rewrite Ef; simpl; auto).
      rewrite Z in I; contradiction.
    - intros N. destruct (results nw s) as [|x l] eqn:Er; [congruence|].
      assert (I : In x (results nw s)) by (rewrite Er; simpl; auto).
      apply results_in in I as (w & L & I).
      destruct (c_found s C w) as [?|(t & ?)]; auto; [intros Z; rewrite Z in I; contradiction|].
      rewrite D in H by auto; discriminate.
  Qed.

  Lemma no_deadlock : forall s, inv s -> ok s -> (forall a, step s a = None) -> returned nw s.
  Proof using Hnw Hid.
    intros s I O Z. pose proof I as (C & P). specialize (P O).
    assert (G : negb all && flag s = false) by (destruct O as [->| ->]; auto using andb_false_r).
    assert (W0 : (0 <? nw) = true) by (apply Nat.ltb_lt; auto).
    assert (NT : forall w, w < nw -> wrk s w = WIdle /\ inq s w = [] \/ wrk s w = WDone).
    { intros w L. pose proof (Z (Take w)) as Z1. pose proof (Z (Test w)) as Z2. pose proof (Z (Mark w)) as Z3.
      unfold gstep in *. destruct (wrk s w) eqn:E; auto.
      - left; split; auto. rewrite (proj2 (Nat.ltb_lt _ _) L) in Z1. destruct (inq s w) as [|[|] ?]; auto; discriminate.
      - rewrite G in Z2. destruct (hit t); discriminate.
      - destruct all; discriminate. }
    destruct (emt s) eqn:E.
    - pose proof (Z (Start 0)) as Z1. unfold gstep in Z1. rewrite E, W0 in Z1.
      destruct st; [|discriminate]. destruct (ident n <? bits); discriminate.
    - pose proof (Z (Emit 0)) as Z1. unfold gstep in Z1. rewrite E, W0 in Z1.
      destruct rest; [discriminate|]. destruct (ident n <? bits); discriminate.
    - pose proof (p_idle s P E) as N. rewrite (p_cnt s P) in N.
      destruct (sumn_pos nw (nl s)) as (w & L & Pw); [lia|].
      pose proof (Z (Back w)) as Z1. unfold gstep in Z1. rewrite E, (proj2 (Nat.ltb_lt _ _) L) in Z1.
      destruct (fbq s w) as [|m q] eqn:F.
      + unfold nl in Pw. rewrite F in Pw. destruct (NT w L) as [(A & B)|A].
        * rewrite A, B in Pw. simpl in Pw; lia.
        * destruct (p_live s P) with (w := w) as (_ & _ & D); auto; [rewrite E; simpl; auto|congruence].
      + cbv zeta in Z1. rewrite G in Z1. destruct m; discriminate.
    - pose proof (Z (Emit 0)) as Z1. unfold gstep in Z1. rewrite E, W0, G in Z1.
      destruct rest as [|n r]; [destruct (cnt s =? 0)%Z; discriminate|].
      cbv zeta in Z1. destruct (negb all && (S k =? 256) && flag s); [discriminate|].
      destruct (ident n <? bits); [|discriminate]. destruct (mask s (ident n)); discriminate.
    - destruct (p_abs s P i E) as (L & D). pose proof (D i L) as Di. rewrite Nat.ltb_irrefl in Di.
      destruct Di as [(A1 & A2 & _)|(_ & _ & A3)].
      + destruct (NT i L) as [(_ & B)|B]; congruence.
      + pose proof (Z Absorb) as Z1. unfold gstep in Z1. rewrite E, A3 in Z1. cbv zeta in Z1. discriminate.
    - split; auto. intros w L. apply (p_end s P E w L).
    - elim (p_abort s P E).
  Qed.

  Lemma nodup_sent : forall a l s, st = Some a -> NoDup (a :: out a) ->
    exec step (g_init nw) l = Some s -> NoDup (hsent s).
  Proof using Hnw Hid.
    intros a l s Ea ND H.
    assert (J : inv s /\ NoDup (hsent s)); [|apply J].
    refine (exec_inv step (fun s => inv s /\ NoDup (hsent s)) _ l (g_init nw) s _ H).
    - clear l s H. intros s b s' (I & N) H. split; [eapply inv_step_; eauto|].
      destruct I as (C & _).
      destruct b; unfold gstep in H; cbv zeta in H; try (inv_step H; cs; auto; fail).
      + destruct (emt s) eqn:E; try discriminate. rewrite Ea in H. inv_step H; cs; auto.
        destruct (c_boot s C E) as (-> & _). repeat constructor; intros [].
      + destruct (emt s) as [|[|n r]| |t [|n r] k| | |] eqn:E; try discriminate; try (inv_step H; cs; auto; fail).
        * destruct (c_first s C _ E) as (a' & d & Es & Eo & Eh & _). rewrite Ea in Es; injection Es as <-.
          inv_step H; cs; auto. rewrite Eh. rewrite Eo in ND.
          change (NoDup ((a :: d) ++ [n])). change (a :: d ++ n :: r) with ((a :: d) ++ n :: r) in ND.
          replace (n :: r) with ([n] ++ r) in ND by reflexivity. rewrite app_assoc in ND.
          clear - ND. revert ND. generalize ((a :: d) ++ [n]). intros l0. induction l0; simpl; intros ND; constructor.
          -- inversion ND; subst. intros I; apply H1; apply in_or_app; auto.
          -- inversion ND; subst. auto.
        * inv_step H; cs; auto.
          assert (~ In n (hsent s)).
          { intros I. assert (mask s (ident n) = true) by (apply (c_mask s C); eauto). congruence. }
          clear - N H. induction (hsent s) as [|y l IH]; simpl; [repeat constructor; intros []|].
          inversion N; subst. constructor.
          -- intros I. apply in_app_or in I as [I|[<-|[]]]; [auto|]. apply H; simpl; auto.
          -- apply IH; auto. intros I; apply H; simpl; auto.
    - split; [split; [apply core_init|intros _; apply comp_init]|constructor].
  Qed.
End Inv.
