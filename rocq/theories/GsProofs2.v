(** Graph search: executions are finite; a search that never ends; one worker. *)
From Coq Require Import List Arith ZArith Bool Lia.
From Verif Require Import Base GsModel GsSpec GsProofs.
Import ListNotations.
Local Open Scope nat_scope.

Ltac inv_step H :=
  repeat match type of H with
  | match ?x with _ => _ end = Some _ => destruct x eqn:?; try discriminate
  | (if ?x then _ else _) = Some _ => destruct x eqn:?; try discriminate
  end; injection H as <-.
Ltac cs := cbn [emt mask cnt left inq fbq wrk fnd flag hsent hexp send finish expanded set_emt to_emitter] in *.
Ltac fu v w := destruct (Nat.eq_dec v w) as [?Ev|?Nv];
  [subst v; rewrite ?fupd_eq in * | rewrite ?fupd_neq in * by assumption].

Section Term.
  Variable out : nat -> list nat.
  Variable ident : nat -> nat.
  Variable hit : nat -> bool.
  Variables (bits : nat) (all : bool) (nw : nat) (st : option nat).
  Hypothesis Hnw : 0 < nw.
  Hypothesis Hid : forall a, st = Some a -> good_ids out ident bits a.
  Variable U : list nat.
  Hypothesis HU : forall n, rch out st n -> In n U.

  Notation step := (gstep out ident hit bits all nw st).
  Notation inv := (inv out ident hit all nw st).

  (** Steps a node can cause, from the moment it is sent. *)
  Definition K (n : nat) : nat := length (out n) + 6.
  Definition KS (l : list nat) : nat := list_sum (map (fun n => K n + 1) l).
  Definition wi (m : msg) : nat := match m with Item n => K n - 1 | Eos => 2 end.
  Definition wf (m : msg) : nat := match m with Item n => K n - 4 | Eos => 1 end.
  Definition wp (p : wpc) : nat := match p with WHave n => K n - 2 | WHit n => K n - 3 | _ => 0 end.
  Definition we (e : epc) : nat :=
    match e with
    | EBoot => 2 * nw + 1 + match st with Some a => KS (out a) + 1 + K a | None => 0 end
    | EFirst r => 2 * nw + 1 + KS r + 1
    | EIdle => 2 * nw + 1
    | ESend _ r _ => 2 * nw + 1 + length r + 1
    | _ => 0
    end.
  Definition W (s : gst) (w : nat) : nat :=
    list_sum (map wi (inq s w)) + wp (wrk s w) + list_sum (map wf (fbq s w)).
  Definition un (m : nat -> bool) : nat := list_sum (map (fun n => if m (ident n) then 0 else K n) U).
  Definition phi (s : gst) : nat := we (emt s) + sumn nw (W s) + un (mask s).

  Lemma lsum_app : forall a b, list_sum (a ++ b) = list_sum a + list_sum b.
  Proof using Hnw Hid HU. induction a; simpl; intros; [auto|rewrite IHa; lia]. Qed.

  Lemma lsum_le : forall (f g : nat -> nat) l, (forall x, f x <= g x) -> list_sum (map f l) <= list_sum (map g l).
  Proof using Hnw Hid HU. intros f g l H; induction l as [|x l IH]; simpl; [auto|]. pose proof (H x). lia. Qed.
  Lemma lsum_lt : forall (f g : nat -> nat) l n d, (forall x, f x <= g x) -> In n l -> f n + d <= g n ->
    list_sum (map f l) + d <= list_sum (map g l).
  Proof using Hnw Hid HU.
    intros f g l n d H I D; induction l as [|x l IH]; simpl; [destruct I|].
    pose proof (H x). pose proof (lsum_le f g l H). destruct I as [->|I]; [lia|]. specialize (IH I). lia.
  Qed.
  Lemma un_pt : forall m i x, (if fupd m i true (ident x) then 0 else K x) <= (if m (ident x) then 0 else K x).
  Proof using Hnw Hid HU. intros m i x. unfold fupd. destruct (ident x =? i); [apply Nat.le_0_l|auto]. Qed.
  Lemma un_le : forall m i, un (fupd m i true) <= un m.
  Proof using Hnw Hid HU. intros m i. apply lsum_le. apply un_pt. Qed.
  Lemma un_lt : forall m n, In n U -> m (ident n) = false -> un (fupd m (ident n) true) + K n <= un m.
  Proof using Hnw Hid HU.
    intros m n I E. apply (lsum_lt _ _ U n); auto; [apply un_pt|]. rewrite fupd_eq, E. auto.
  Qed.

  Lemma W_in : forall s s' w d, w < nw -> (forall v, v <> w -> W s' v = W s v) -> W s' w + d <= W s w ->
    sumn nw (W s') + d <= sumn nw (W s).
  Proof using Hnw Hid HU.
    intros s s' w d L F D. pose proof (sumn_upd nw (W s) (W s') w L F). lia.
  Qed.

  Lemma W_send : forall s n w e, w < nw -> sumn nw (W (send ident s n w e)) = sumn nw (W s) + (K n - 1).
  Proof using Hnw Hid HU.
    intros s n w e L. pose proof (sumn_upd nw (W s) (W (send ident s n w e)) w L) as P.
    specialize (P ltac:(intros v N; unfold W; cs; rewrite fupd_neq by auto; reflexivity)).
    assert (W (send ident s n w e) w = W s w + (K n - 1)); [|lia].
    unfold W; cs. rewrite fupd_eq, map_app, lsum_app. simpl. lia.
  Qed.

  Lemma W_finish : forall s, sumn nw (W (finish nw s)) = sumn nw (W s) + 2 * nw.
  Proof using Hnw Hid HU.
    intros s.
    assert (forall k, k <= nw -> sumn k (W (finish nw s)) = sumn k (W s) + 2 * k) as P; [|apply P; auto].
    induction k; intros L; [reflexivity|]. rewrite !sumn_S, IHk by lia.
    assert (W (finish nw s) k = W s k + 2); [|lia].
    unfold W; cs. rewrite (proj2 (Nat.ltb_lt k nw)) by lia. rewrite map_app, lsum_app. simpl. lia.
  Qed.

  Lemma abs_lt : forall l s, exec step (g_init nw) l = Some s -> forall i, emt s = EAbsorb i -> i < nw.
  Proof using Hnw Hid HU.
    intros l s H. refine (exec_inv step (fun s => forall i, emt s = EAbsorb i -> i < nw) _ l _ s _ H); [|discriminate].
    clear l s H. intros s a s' I H i E.
    destruct a; unfold gstep in H; cbv zeta in H.
    4: { destruct (emt s) eqn:Es; try discriminate. destruct (fbq s i0) as [|[|] q]; try discriminate;
         remember (S i0 =? nw) as b eqn:Eb; injection H as <-; cs; [discriminate|].
         destruct b; [discriminate|]. injection E as <-. symmetry in Eb; apply Nat.eqb_neq in Eb.
         specialize (I i0 eq_refl). lia. }
    all: inv_step H; cs; try discriminate; try (injection E as <-; auto); auto.
    all: try (destruct (left s =? 1); discriminate).
    all: try congruence.
  Qed.

  Lemma phi_step : forall s a s', inv s -> (forall i, emt s = EAbsorb i -> i < nw) -> step s a = Some s' ->
    phi s' < phi s.
  Proof using Hnw Hid HU.
    intros s a s' (C & _) A H. unfold phi.
    destruct a; unfold gstep in H; cbv zeta in H.
    - destruct (emt s) eqn:E; try discriminate.
      assert (D : (exists a, st = Some a) \/ st = None) by (clear; destruct st; eauto).
      destruct D as [(a & Es)|Es]; rewrite Es in H.
      + inv_step H.
        * apply Nat.ltb_lt in Heqb. rewrite W_send by auto. cs. pose proof (un_le (mask s) (ident a)).
          cbn [we]. rewrite Es. unfold K in *. lia.
        * cs. cbn [we]. unfold W; cs. lia.
      + injection H as <-. rewrite W_finish. cs. cbn [we]. lia.
    - destruct (emt s) as [|[|n r]| |t [|n r] k| | |] eqn:E; try discriminate.
      + injection H as <-. cs. cbn [we]. unfold W; cs. lia.
      + inv_step H.
        * apply Nat.ltb_lt in Heqb. rewrite W_send by auto. cs. pose proof (un_le (mask s) (ident n)).
          cbn [we]. unfold KS; simpl. unfold K in *. lia.
        * cs. cbn [we]. unfold W; cs. lia.
      + assert (X : forall e, sumn nw (W (set_emt (expanded s t) e)) = sumn nw (W s)) by reflexivity.
        destruct (cnt s =? 0)%Z; [|destruct (negb all && flag s)]; injection H as <-.
        * rewrite W_finish. change (sumn nw (W (expanded s t))) with (sumn nw (W s)). cs. cbn [we length]. lia.
        * rewrite W_finish. change (sumn nw (W (expanded s t))) with (sumn nw (W s)). cs. cbn [we length]. lia.
        * rewrite X. cs. cbn [we length]. lia.
      + destruct (c_send _ _ _ _ _ _ s C t (n :: r) k E) as (It & d & Ed & _).
        assert (I : In n U).
        { apply HU. eapply rch_next; [apply (c_reach _ _ _ _ _ _ s C t It)|rewrite Ed; apply in_or_app; simpl; auto]. }
        assert (X : forall e, sumn nw (W (set_emt s e)) = sumn nw (W s)) by reflexivity.
        destruct (w <? nw) eqn:L; [|discriminate]. apply Nat.ltb_lt in L.
        destruct (negb all && (S k =? 256) && flag s).
        { injection H as <-. rewrite W_finish. cs. cbn [we length]. lia. }
        destruct (ident n <? bits).
        * destruct (mask s (ident n)) eqn:M; injection H as <-.
          -- rewrite X. cs. cbn [we length]. lia.
          -- rewrite W_send by auto. cs. cbn [we length]. pose proof (un_lt (mask s) n I M). unfold K in *. lia.
        * injection H as <-. rewrite X. cs. cbn [we length]. lia.
    - destruct (emt s) eqn:E; try discriminate. destruct (fbq s w) as [|m q] eqn:F; try discriminate.
      destruct (w <? nw) eqn:L; [|discriminate]. apply Nat.ltb_lt in L.
      assert (P : forall e c l, sumn nw (W (mkG e (mask s) c l (inq s) (fupd (fbq s) w q) (wrk s) (fnd s)
                 (flag s) (hsent s) (hexp s))) + wf m <= sumn nw (W s)).
      { intros e c l. apply (W_in _ _ w); auto.
        - intros v N. unfold W; cs. rewrite fupd_neq by auto. auto.
        - unfold W; cs. rewrite fupd_eq, F. simpl. lia. }
      destruct m as [t|].
      + destruct (negb all && flag s); injection H as <-.
        * rewrite W_finish. specialize (P EIdle (cnt s - 1)%Z (left s)). cs. cbn [we wf] in *. unfold K in *. lia.
        * specialize (P (ESend t (out t) 0) (cnt s - 1)%Z (left s)). cs. cbn [we wf] in *. unfold K in *. lia.
      + injection H as <-. specialize (P (if left s =? 1 then EEnd else EIdle) (cnt s) (left s - 1)).
        cs. cbn [wf] in P. destruct (left s =? 1); cbn [we]; lia.
    - destruct (emt s) eqn:E; try discriminate. destruct (fbq s i) as [|m q] eqn:F; [discriminate|].
      specialize (A i eq_refl).
      assert (P : forall e, sumn nw (W (mkG e (mask s) (cnt s) (left s) (inq s) (fupd (fbq s) i q) (wrk s) (fnd s)
                 (flag s) (hsent s) (hexp s))) + wf m <= sumn nw (W s)).
      { intros e. apply (W_in _ _ i); auto.
        - intros v N. unfold W; cs. rewrite fupd_neq by auto. auto.
        - unfold W; cs. rewrite fupd_eq, F. simpl. lia. }
      remember (S i =? nw) as b.
      destruct m as [t|]; injection H as <-.
      + specialize (P EAbort). cs. cbn [we wf] in *. unfold K in *. lia.
      + specialize (P (if b then EEnd else EAbsorb (S i))). cs. cbn [wf] in P. destruct b; cbn [we]; lia.
    - destruct (wrk s w) eqn:E; try discriminate. destruct (inq s w) as [|m q] eqn:F; try discriminate.
      destruct (w <? nw) eqn:L; [|discriminate]. apply Nat.ltb_lt in L.
      destruct m as [t|]; injection H as <-; cs;
        match goal with |- _ + sumn nw (W ?s') + _ < _ => enough (sumn nw (W s') + 1 <= sumn nw (W s)) by lia end;
        apply (W_in _ _ w); auto;
        try (intros v N; unfold W; cs; rewrite !fupd_neq by auto; auto; fail);
        unfold W; cs; rewrite !fupd_eq, E, F, ?map_app, ?lsum_app; simpl; unfold K; lia.
    - destruct (wrk s w) as [|t| |] eqn:E; try discriminate.
      pose proof (core_lt out ident hit bits all nw st Hnw Hid s w C ltac:(congruence)) as L.
      destruct (negb all && flag s); [|destruct (hit t)]; injection H as <-; cs;
        match goal with |- _ + sumn nw (W ?s') + _ < _ => enough (sumn nw (W s') + 1 <= sumn nw (W s)) by lia end;
        apply (W_in _ _ w); auto;
        try (intros v N; unfold W; cs; rewrite !fupd_neq by auto; auto; fail);
        unfold W; cs; rewrite !fupd_eq, E, ?map_app, ?lsum_app; simpl; unfold K; lia.
    - destruct (wrk s w) as [| |t|] eqn:E; try discriminate.
      pose proof (core_lt out ident hit bits all nw st Hnw Hid s w C ltac:(congruence)) as L.
      destruct all; injection H as <-; cs;
        match goal with |- _ + sumn nw (W ?s') + _ < _ => enough (sumn nw (W s') + 1 <= sumn nw (W s)) by lia end;
        apply (W_in _ _ w); auto;
        try (intros v N; unfold W; cs; rewrite !fupd_neq by auto; auto; fail);
        unfold W; cs; rewrite !fupd_eq, E, ?map_app, ?lsum_app; simpl; unfold K; lia.
  Qed.

  Lemma terminates : forall l s, exec step (g_init nw) l = Some s -> length l + phi s <= phi (g_init nw).
  Proof using Hnw Hid HU.
    intros l. induction l as [|a l IH] using rev_ind; intros s H.
    - injection H as <-. simpl. lia.
    - apply exec_app in H as (m & H1 & H2). simpl in H2. destruct (step m a) eqn:E; [|discriminate].
      injection H2 as <-. rewrite app_length; simpl.
      pose proof (IH m H1).
      pose proof (phi_step m a g (inv_exec out ident hit bits all nw st Hnw Hid l m H1) (abs_lt l m H1) E). lia.
  Qed.
End Term.

(** ** The start node matches and has no successor: two or more workers *)
Section Hang.
  Variable out : nat -> list nat.
  Variable ident : nat -> nat.
  Variable hit : nat -> bool.
  Variables (bits nw a : nat).
  Hypothesis Hnw : 2 <= nw.
  Hypothesis Ho : out a = [].
  Hypothesis Hh : hit a = true.
  Hypothesis Hi : ident a < bits.
  Notation step := (gstep out ident hit bits false nw (Some a)).

  Definition quiet (s : gst) (v : nat) : Prop := inq s v = [] /\ fbq s v = [] /\ wrk s v = WIdle.

  Record hang (s : gst) : Prop := mkHang {
    h_emt : emt s = EBoot /\ (forall v, quiet s v) /\ flag s = false /\ left s = nw \/
            (emt s = EFirst [] \/ emt s = EIdle) /\
            exists w, w < nw /\ (forall v, v <> w -> quiet s v) /\
              (flag s = false /\ left s = nw /\ fbq s w = [] /\
                 (inq s w = [Item a] /\ wrk s w = WIdle \/
                  inq s w = [] /\ (wrk s w = WHave a \/ wrk s w = WHit a)) \/
               flag s = true /\ inq s w = [] /\ wrk s w = WDone /\
                 (fbq s w = [Eos] /\ left s = nw \/ fbq s w = [] /\ left s = nw - 1)) }.

  Lemma hang_step : forall s b s', hang s -> step s b = Some s' -> hang s'.
  Proof using Hnw Ho Hh Hi.
    intros s b s' [[(E & Q & F & L)|(E & w & Lw & Q & D)]] H.
    - destruct b; unfold gstep in H; cbv zeta in H; try rewrite E in H; try discriminate.
      + destruct (w <? nw) eqn:Lw; [|discriminate]. apply Nat.ltb_lt in Lw.
        rewrite (proj2 (Nat.ltb_lt _ _) Hi) in H. injection H as <-. constructor. right.
        rewrite Ho. split; [auto|]. exists w. split; auto. cs. split.
        * intros v N. destruct (Q v) as (? & ? & ?). unfold quiet; cs. rewrite fupd_neq by auto. auto.
        * left. destruct (Q w) as (A & B & C). rewrite fupd_eq, A. auto 8.
      + destruct (Q w) as (A & B & C). rewrite C, A in H. discriminate.
      + destruct (Q w) as (A & B & C). rewrite C in H. discriminate.
      + destruct (Q w) as (A & B & C). rewrite C in H. discriminate.
    - assert (QW : forall v, ~ quiet s v -> v = w) by (intros v N; destruct (Nat.eq_dec v w); auto; elim N; auto).
      destruct b; unfold gstep in H; cbv zeta in H.
      + destruct E as [E|E]; rewrite E in H; discriminate.
      + destruct E as [E|E]; rewrite E in H; [|discriminate]. injection H as <-. constructor. right.
        split; [cs; auto|]. exists w. cs. auto.
      + destruct E as [E|E]; rewrite E in H; [discriminate|].
        destruct (fbq s w0) as [|m q] eqn:Fb; [discriminate|].
        assert (w0 = w) as -> by (apply QW; intros (_ & Z & _); congruence).
        destruct D as [(_ & _ & Z & _)|(Ff & Iq & Wd & [(Z & Ll)|(Z & _)])]; try congruence.
        rewrite Z in Fb. injection Fb as <- <-. rewrite (proj2 (Nat.ltb_lt _ _) Lw) in H.
        injection H as <-. rewrite Ll.
        destruct (Nat.eqb_spec nw 1); [lia|].
        constructor. right. split; [cs; auto|]. exists w. split; auto. split.
        * intros v N. destruct (Q v N) as (? & ? & ?). unfold quiet; cs. rewrite fupd_neq by auto. auto.
        * right. cs. rewrite fupd_eq. auto 8.
      + destruct E as [E|E]; rewrite E in H; discriminate.
      + destruct (wrk s w0) eqn:Ew; try discriminate. destruct (inq s w0) as [|m q] eqn:Iq; [discriminate|].
        assert (w0 = w) as -> by (apply QW; intros (Z & _); congruence).
        destruct D as [(Ff & Ll & Fb & [(Z & _)|(Z & _)])|(_ & Z & _)]; try congruence.
        rewrite Z in Iq; injection Iq as <- <-. rewrite (proj2 (Nat.ltb_lt _ _) Lw) in H. injection H as <-.
        constructor. right. split; [cs; auto|]. exists w. split; auto. split.
        * intros v N. destruct (Q v N) as (? & ? & ?). unfold quiet; cs. rewrite !fupd_neq by auto. auto.
        * left. cs. rewrite !fupd_eq. auto 8.
      + destruct (wrk s w0) as [|t| |] eqn:Ew; try discriminate.
        assert (w0 = w) as -> by (apply QW; intros (_ & _ & Z); congruence).
        destruct D as [(Ff & Ll & Fb & [(_ & Z)|(Iq & [Z|Z])])|(_ & _ & Z & _)]; try congruence.
        rewrite Z in Ew; injection Ew as <-. rewrite Ff, Hh in H. cbn [negb andb] in H. injection H as <-.
        constructor. right. split; [cs; auto|]. exists w. split; auto. split.
        * intros v N. destruct (Q v N) as (? & ? & ?). unfold quiet; cs. rewrite !fupd_neq by auto. auto.
        * left. cs. rewrite !fupd_eq. auto 8.
      + destruct (wrk s w0) as [| |t|] eqn:Ew; try discriminate.
        assert (w0 = w) as -> by (apply QW; intros (_ & _ & Z); congruence).
        destruct D as [(Ff & Ll & Fb & [(_ & Z)|(Iq & [Z|Z])])|(_ & _ & Z & _)]; try congruence.
        injection H as <-.
        constructor. right. split; [cs; auto|]. exists w. split; auto. split.
        * intros v N. destruct (Q v N) as (? & ? & ?). unfold quiet; cs. rewrite !fupd_neq by auto. auto.
        * right. cs. rewrite !fupd_eq, Fb. auto 8.
  Qed.

  Lemma hangs : forall l s, exec step (g_init nw) l = Some s -> ~ returned nw s.
  Proof using Hnw Ho Hh Hi.
    intros l s H (R & _).
    assert (I : hang s).
    { eapply (exec_inv step hang hang_step); [|exact H]. constructor. left. repeat split; auto. }
    destruct I as [[(E & _)|([E|E] & _)]]; congruence.
  Qed.
End Hang.

(** ** One worker *)
Section One.
  Variable out : nat -> list nat.
  Variable ident : nat -> nat.
  Variable hit : nat -> bool.
  Variables (bits : nat) (st : option nat).
  Hypothesis Hid : forall a, st = Some a -> good_ids out ident bits a.
  Notation step := (gstep out ident hit bits false 1 st).
  Notation inv := (inv out ident hit false 1 st).

  Definition one (s : gst) : Prop :=
    (live (emt s) -> left s = 1) /\
    (flag s = true -> wrk s 0 = WDone /\
       (live (emt s) \/ (exists i, emt s = EAbsorb i) -> exists p, fbq s 0 = p ++ [Eos] /\ ~ In Eos p)) /\
    (forall i, emt s = EAbsorb i -> i = 0).

  Lemma one_step : forall s a s', inv s -> one s -> step s a = Some s' -> one s'.
  Proof using Hid.
    intros s a s' (C & P) (O1 & O2 & O3) H.
    assert (W0 : forall w, wrk s w <> WIdle -> w = 0).
    { intros w N. pose proof (core_lt out ident hit bits false 1 st ltac:(lia) Hid s w C N). lia. }
    assert (FW : forall w, wrk s w <> WDone -> w = 0 -> flag s = false).
    { intros w N ->. destruct (flag s); auto. destruct (O2 eq_refl). congruence. }
    assert (G : forall s1, live (emt s) -> flag s1 = flag s -> wrk s1 = wrk s -> fbq s1 = fbq s -> left s1 = left s ->
      live (emt s1) \/ emt s1 = EAbsorb 0 \/ emt s1 = EAbort -> one s1).
    { intros s1 Lv A1 A2 A3 A4 A5. unfold one. rewrite A1, A2, A3, A4. split; [auto|]. split.
      - intros F. destruct (O2 F) as (B1 & B2). split; auto.
      - intros i Ei. destruct A5 as [A5|[A5|A5]]; rewrite Ei in A5; [contradiction|congruence|congruence]. }
    destruct a; unfold gstep in H; cbv zeta in H.
    - destruct (emt s) eqn:E; try discriminate.
      inv_step H; apply G; cs; simpl; auto.
    - destruct (emt s) as [|[|n r]| |t [|n r] k| | |] eqn:E; try discriminate;
        inv_step H; apply G; cs; simpl; auto.
    - destruct (emt s) eqn:E; try discriminate. destruct (fbq s w) as [|m q] eqn:F; try discriminate.
      destruct (w <? 1) eqn:L; [|discriminate]. apply Nat.ltb_lt in L. assert (w = 0) as -> by lia.
      simpl in O1, O2. specialize (O1 Logic.I).
      assert (Q : forall t, m = Item t -> flag s = true -> wrk s 0 = WDone /\ exists p, q = p ++ [Eos] /\ ~ In Eos p).
      { intros t -> Ff. destruct (O2 Ff) as (B1 & B2). split; auto. destruct B2 as (p & Ep & Np); auto.
        rewrite F in Ep. destruct p as [|y p]; [discriminate|]. injection Ep as <- ->. exists p; split; auto.
        intros I; apply Np; simpl; auto. }
      destruct m as [t|].
      + destruct (negb false && flag s); injection H as <-; unfold one; cs; rewrite fupd_eq;
          (split; [auto|split; [intros Ff; destruct (Q t eq_refl Ff); auto|]]); congruence.
      + injection H as <-. rewrite O1. unfold one; cs. simpl. split; [intros []|].
        split; [|discriminate]. intros Ff. destruct (O2 Ff). split; auto. intros [[]|(i & Z)]; discriminate.
    - destruct (emt s) eqn:E; try discriminate. specialize (O3 i eq_refl). subst i.
      destruct (fbq s 0) as [|m q]; [discriminate|]. simpl in H.
      destruct m; injection H as <-; unfold one; cs; simpl; (split; [intros []|split; [|discriminate]]);
        intros Ff; destruct (O2 Ff); (split; auto); intros [[]|(i & Z)]; discriminate.
    - destruct (wrk s w) eqn:E; try discriminate. destruct (inq s w) as [|m q] eqn:F; try discriminate.
      destruct (w <? 1) eqn:L; [|discriminate]. apply Nat.ltb_lt in L. assert (w = 0) as -> by lia.
      pose proof (FW 0 ltac:(congruence) eq_refl) as Ff.
      destruct m; injection H as <-; unfold one; cs; (split; [auto|split; [intros ?; congruence|auto]]).
    - destruct (wrk s w) as [|t| |] eqn:E; try discriminate.
      pose proof (FW w ltac:(congruence) (W0 w ltac:(congruence))) as Ff.
      rewrite Ff in H. cbn [negb andb] in H.
      destruct (hit t); injection H as <-; unfold one; cs; (split; [auto|split; [intros ?; congruence|auto]]).
    - destruct (wrk s w) as [| |t|] eqn:E; try discriminate. injection H as <-.
      assert (w = 0) as -> by (apply W0; congruence).
      pose proof (FW 0 ltac:(congruence) eq_refl) as Ff.
      specialize (P (or_intror Ff)).
      assert (Lv : live (emt s)).
      { apply (busy_live out ident hit bits 1 st ltac:(lia) Hid s 0 P); [lia|]. apply not_drained; rewrite E; discriminate. }
      destruct (p_live _ _ _ P Lv 0 ltac:(lia)) as (_ & NF & _).
      unfold one; cs. rewrite !fupd_eq. split; [auto|split; [|auto]].
      intros _. split; auto. intros _. exists (fbq s 0); auto.
  Qed.

  Lemma one_worker : forall l s, exec step (g_init 1) l = Some s -> (forall a, step s a = None) ->
    returned 1 s \/ emt s = EAbort.
  Proof using Hid.
    intros l s H Z.
    assert (I : inv s /\ one s).
    { refine (exec_inv step (fun s => inv s /\ one s) _ l (g_init 1) s _ H).
      - intros s0 a s1 (I & O) E. split; [eapply inv_step_; eauto|eapply one_step; eauto].
      - split; [apply (inv_exec out ident hit bits false 1 st ltac:(lia) Hid []); reflexivity|].
        repeat split; try discriminate. }
    destruct I as (I & O1 & O2 & O3).
    destruct (flag s) eqn:F.
    - destruct (O2 eq_refl) as (D & Q). destruct (emt s) eqn:E; auto.
      + pose proof (Z (Start 0)) as Z1. unfold gstep in Z1. rewrite E in Z1. simpl in Z1.
        destruct st; [|discriminate]. destruct (ident n <? bits); discriminate.
      + pose proof (Z (Emit 0)) as Z1. unfold gstep in Z1. rewrite E in Z1.
        destruct rest; [discriminate|]. simpl in Z1. destruct (ident n <? bits); discriminate.
      + destruct Q as (p & Ep & _); [simpl; auto|].
        pose proof (Z (Back 0)) as Z1. unfold gstep in Z1. rewrite E, Ep in Z1.
        destruct p as [|[|] p]; simpl in Z1; [discriminate| |discriminate]. rewrite F in Z1. discriminate.
      + pose proof (Z (Emit 0)) as Z1. unfold gstep in Z1. rewrite E, F in Z1.
        destruct rest as [|n r]; [destruct (cnt s =? 0)%Z; discriminate|].
        cbv zeta in Z1. rewrite (eq_refl : (0 <? 1) = true) in Z1.
        destruct (negb false && (S k =? 256) && true); [discriminate|].
        destruct (ident n <? bits); [|discriminate]. destruct (mask s (ident n)); discriminate.
      + destruct Q as (p & Ep & _); [eauto|]. specialize (O3 i eq_refl). subst i.
        pose proof (Z Absorb) as Z1. unfold gstep in Z1. rewrite E, Ep in Z1.
        destruct p as [|[|] p]; simpl in Z1; discriminate.
      + left. split; auto. intros w L. assert (w = 0) as -> by lia. auto.
    - left. eapply (no_deadlock out ident hit bits false 1 st); eauto. right; auto.
  Qed.
End One.
