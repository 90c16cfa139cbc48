(** Invariant of the distributed runtime. *)
From Coq Require Import List Arith Bool Lia.
From Verif Require Import Base DgrModel DgrSpec DgrProofs.
Import ListNotations.

Section Inv.
  Context {X : Type}.
  Notation msg := (msg X).
  Notation st := (st X).
  Variables (n : nat) (edges : list (nat * nat)) (grp : nat -> nat) (size : X -> nat)
            (urgent : msg -> bool) (batch limit : nat) (ack : bool) (otf : nat).
  Notation succ := (succ edges).
  Notation pred := (pred edges).
  Notation conns := (conns edges grp).
  Notation item := (option nat * X)%type.

  Definition mkd (u : nat) (p : item) : msg := mkMsg u (fst p) (Data (snd p)).
  Definition eos (u : nat) : msg := mkMsg u None Eos.
  Definition EE (u : nat) (b : bool) : list msg := if b then [eos u] else [].
  Definition dat (l : list msg) : list item :=
    flat_map (fun m => match cont m with Data x => [(dest m, x)] | _ => [] end) l.
  Definition strip (l : list msg) : list msg := filter (fun m => negb (is_flush m)) l.
  Definition pay (m : msg) : option X := match cont m with Data x => Some x | _ => None end.
  Definition chl (Ch : nat -> option msg) (u : nat) : list msg :=
    ofsrc u (match Ch (grp u) with Some m => [m] | None => [] end).
  Definition path (rb : nat -> list msg) (net : nat -> nat -> list (list msg)) (pend : nat -> list (nat * list msg))
    (buf : nat -> nat -> list msg) (u h : nat) : list msg :=
    ofsrc u (rb h) ++ ofsrc u (concat (net (grp u) h)) ++ ofsrc u (pendfor h (pend (grp u)) ++ buf (grp u) h).

  Definition Pc (u : nat) (p : item) (h : nat) : Prop :=
    In h (conns u) /\ forall v, fst p = Some v -> In v (succ u) /\ h = grp v.
  Definition Pn (u h : nat) (p : item) (v : nat) : Prop :=
    In v (succ u) /\ grp v = h /\ forall w, fst p = Some w -> v = w.

  Record InvS (O : nat -> list msg) (C : nat -> bool) (Ch : nat -> option msg) (Se : nat -> list item)
              (pre : nat -> list item) (tc : nat -> list nat) (et : nat -> bool) : Prop := {
    s_sent : forall u, Se u = pre u ++ dat (chl Ch u) ++ dat (O u);
    s_outq : forall u, strip (O u) = map (mkd u) (dat (O u)) ++ EE u (C u && negb (et u));
    s_et : forall u, et u = true -> C u = true /\ strip (O u) = [] /\ chl Ch u = [];
    s_legal : forall u p v, In p (Se u) -> fst p = Some v -> In v (succ u);
    s_closed : forall u, C u = true -> succ u <> [];
    s_succ : forall u, O u <> [] -> succ u <> [];
    s_pre : forall u, Forall2 (Pc u) (pre u) (tc u) }.

  Definition InvP (rb : nat -> list msg) net pend buf (pre : nat -> list item) tc et (dd : nat -> nat -> list item)
      (de : nat -> nat -> bool) : Prop :=
    forall u h, map (mkd u) (picks h (pre u) (tc u)) ++ EE u (et u && mem h (conns u)) =
                map (mkd u) (dd u h) ++ EE u (de u h) ++ path rb net pend buf u h.

  Record InvB (buf : nat -> nat -> list msg) (pend : nat -> list (nat * list msg)) (net : nat -> nat -> list (list msg))
              (Ch : nat -> option msg) (cr ac : nat -> nat -> nat) (rb : nat -> list msg) : Prop := {
    b_buf : forall g h m, In m (buf g h) -> grp (src m) = g /\ In h (conns (src m)) /\ pay m <> None;
    b_pend : forall g h b, In (h, b) (pend g) -> b <> [] /\ forall m, In m b -> grp (src m) = g /\ In h (conns (src m));
    b_net : forall g h b, In b (net g h) -> b <> [] /\ forall m, In m b -> grp (src m) = g /\ In h (conns (src m));
    b_rb : forall h m, In m (rb h) -> In h (conns (src m));
    b_ch : forall g m, Ch g = Some m -> grp (src m) = g /\ pend g = [] /\ ack = true /\ dest m = None /\ pay m <> None /\
             exists c, In c (conns (src m)) /\ cr g c = 0;
    b_flow : ack = true -> forall g h, cr g h + length (net g h) + ac g h = otf;
    b_acks : forall g h, 0 < ac g h -> exists u, grp u = g /\ In h (conns u) }.

  Definition InvD (dd : nat -> nat -> list item) (tn : nat -> nat -> list nat) : Prop :=
    forall u h, Forall2 (Pn u h) (dd u h) (tn u h).

  Record InvL (lq : nat -> list msg) (recv : nat -> list (nat * option X)) (dd : nat -> nat -> list item)
              (de : nat -> nat -> bool) (tn : nat -> nat -> list nat) : Prop := {
    l_eq : forall u v, In (u, v) edges ->
      map Some (map snd (picks v (dd u (grp v)) (tn u (grp v)))) ++ (if de u (grp v) then [None] else []) =
      from u (recv v) ++ map pay (ofsrc u (lq v));
    l_lq : forall v m, In m (lq v) -> In (src m, v) edges;
    l_recv : forall v u o, In (u, o) (recv v) -> In (u, v) edges }.

  Record InvE (recv : nat -> list (nat * option X)) (en : nat -> list nat) (A C : nat -> bool) : Prop := {
    e_ended : forall v u, In u (en v) <-> In (u, None) (recv v);
    e_nodup : forall v, NoDup (en v);
    e_dead : forall v, A v = false <-> pred v <> [] /\ incl (pred v) (en v);
    e_closed : forall v, A v = false -> C v = true \/ succ v = [] }.

  Definition Inv (s : st) : Prop :=
    exists pre tc et dd de tn,
      InvS (outq s) (closed s) (choosing s) (sent s) pre tc et /\
      InvP (rb s) (net s) (pend s) (buf s) pre tc et dd de /\
      InvB (buf s) (pend s) (net s) (choosing s) (credit s) (acks s) (rb s) /\
      InvD dd tn /\ InvL (lq s) (recv s) dd de tn /\ InvE (recv s) (ended s) (alive s) (closed s) /\
      aborted s = false /\ lost s = 0.

  (** Hypotheses on the program. *)
  Hypothesis Hrange : forall u v, In (u, v) edges -> u < n /\ v < n.
  Hypothesis Hnd : NoDup edges.
  Hypothesis Hsize : forall x, 0 < size x.
  Hypothesis Hack : ack = true -> forall u w h, grp u = grp w -> succ u <> [] -> In h (conns w) -> In h (conns u).

  Lemma succ_in : forall u v, In v (succ u) <-> In (u, v) edges.
  Proof.
    intros. unfold DgrModel.succ. rewrite in_map_iff. split.
    - intros ((a & b) & <- & H). apply filter_In in H. destruct H as (H & E). apply Nat.eqb_eq in E. simpl in *. now subst.
    - intros H. exists (u, v). split; auto. apply filter_In. split; auto. apply Nat.eqb_refl.
  Qed.
  Lemma pred_in : forall u v, In u (pred v) <-> In (u, v) edges.
  Proof.
    intros. unfold DgrModel.pred. rewrite in_map_iff. split.
    - intros ((a & b) & <- & H). apply filter_In in H. destruct H as (H & E). apply Nat.eqb_eq in E. simpl in *. now subst.
    - intros H. exists (u, v). split; auto. apply filter_In. split; auto. apply Nat.eqb_refl.
  Qed.
  Lemma conns_in : forall u h, In h (conns u) <-> exists v, In v (succ u) /\ grp v = h.
  Proof.
    intros. unfold DgrModel.conns. rewrite nodup_In, in_map_iff. split; intros (v & A & B); exists v; auto.
  Qed.
  Lemma conns_nodup : forall u, NoDup (conns u).
  Proof. intros. apply NoDup_nodup. Qed.
  Lemma known_in : forall u d, In d (succ u) -> known edges grp (grp u) d = true.
  Proof.
    intros u d H. apply succ_in in H. unfold known. apply existsb_exists. exists (u, d). split; auto. simpl.
    now rewrite !Nat.eqb_refl.
  Qed.
  Lemma targets_in : forall h u v, In v (targets n edges grp h u) <-> In (u, v) edges /\ grp v = h.
  Proof.
    intros. unfold targets, members. rewrite !filter_In, in_seq, mem_in, pred_in, Nat.eqb_eq. split.
    - intros ((A & B) & D). auto.
    - intros (A & B). destruct (Hrange _ _ A). repeat split; auto; lia.
  Qed.
  Lemma targets_nodup : forall h u, NoDup (targets n edges grp h u).
  Proof. intros. unfold targets, members. apply NoDup_filter, NoDup_filter, seq_NoDup. Qed.
  Lemma members_in : forall h v, In v (members n grp h) <-> v < n /\ grp v = h.
  Proof. intros. unfold members. rewrite filter_In, in_seq, Nat.eqb_eq. split; intros; repeat split; try tauto; lia. Qed.

  Lemma ofsrc_in : forall u l (m : msg), In m (ofsrc u l) <-> In m l /\ src m = u.
  Proof using Type. clear. intros. unfold ofsrc. rewrite filter_In, Nat.eqb_eq. tauto. Qed.
  Lemma ofsrc_none : forall u l, (forall m : msg, In m l -> src m <> u) -> ofsrc u l = [].
  Proof.
    intros u l H. unfold ofsrc. induction l as [|m l IH]; simpl; auto. destruct (Nat.eqb_spec (src m) u) as [E|E].
    - exfalso. apply (H m); simpl; auto.
    - apply IH. intros; apply H; simpl; auto.
  Qed.
  Lemma mkd_unpack : forall u p, unpack size (mkd u p) = mkd u p.
  Proof. intros u (d & x). unfold unpack, mkd. simpl. pose proof (Hsize x). destruct (Nat.eqb_spec (size x) 0); [lia|reflexivity]. Qed.
  Lemma dat_app : forall l m, dat (l ++ m) = dat l ++ dat m.
  Proof. intros. unfold dat. apply flat_map_app. Qed.
  Lemma strip_app : forall l m, strip (l ++ m) = strip l ++ strip m.
  Proof. intros. apply filter_app. Qed.
  Lemma dat_mkd : forall u l, dat (map (mkd u) l) = l.
  Proof. intros u l. induction l as [|(d & x) l IH]; simpl; congruence. Qed.

  (** The mark is the last message. *)
  Lemma eqshape : forall u A b1 B b2 P, map (mkd u) A ++ EE u b1 = map (mkd u) B ++ EE u b2 ++ P ->
    (b2 = true -> P = [] /\ A = B /\ b1 = true) /\
    (b2 = false -> exists A', A = B ++ A' /\ P = map (mkd u) A' ++ EE u b1).
  Proof.
    intros u A b1 B. revert A. induction B as [|(d & x) B IH]; intros A b2 P H.
    - simpl in H. split; intros ->; simpl in H.
      + destruct A as [|(d & x) A]; simpl in H; [|discriminate]. destruct b1; simpl in H; [|discriminate].
        injection H as <-. auto.
      + exists A. auto.
    - destruct A as [|(d' & x') A]; simpl in H.
      + destruct b1; simpl in H; discriminate.
      + injection H as -> -> H. destruct (IH _ _ _ H) as (I1 & I2). split; intros E.
        * destruct (I1 E) as (-> & -> & ->). auto.
        * destruct (I2 E) as (A' & -> & ->). exists A'. auto.
  Qed.

  (** What may be on a connection. *)
  Lemma path_in : forall u A b1 B b2 P m, map (mkd u) A ++ EE u b1 = map (mkd u) B ++ EE u b2 ++ P -> In m P ->
    m = eos u \/ exists p, In p A /\ m = mkd u p.
  Proof.
    intros u A b1 B b2 P m H Hm. assert (Hi : In m (map (mkd u) A ++ EE u b1)).
    { rewrite H. apply in_app_iff. right. apply in_app_iff. auto. }
    apply in_app_iff in Hi. destruct Hi as [Hi|Hi].
    - apply in_map_iff in Hi. destruct Hi as (p & <- & Hi). eauto.
    - destruct b1; simpl in Hi; [|contradiction]. destruct Hi as [<-|[]]. auto.
  Qed.

  Lemma inv_init : Inv (init_st (X := X) otf).
  Proof.
    exists (fun _ => []), (fun _ => []), (fun _ => false), (fun _ _ => []), (fun _ _ => false), (fun _ _ => []).
    split; [|split; [|split; [|split; [|split; [|split; [|split]]]]]]; try reflexivity; cbn.
    - constructor; cbn; try discriminate; try contradiction; auto; constructor.
    - intros u h. reflexivity.
    - constructor; cbn; try contradiction; try discriminate; intros; lia.
    - intros u h. constructor.
    - constructor; cbn; try contradiction. reflexivity.
    - constructor; cbn; try tauto; try discriminate; intros; [constructor|].
      split; [discriminate|]. intros (H1 & H2). destruct (pred v); [congruence|]. destruct (H2 n0); simpl; auto.
  Qed.
End Inv.
