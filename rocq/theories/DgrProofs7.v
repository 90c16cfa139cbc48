(** The runtime stops: a measure that every step of the runtime decreases. *)
From Coq Require Import List Arith Bool Lia.
From Verif Require Import Base DgrModel DgrSpec DgrProofs DgrProofs2 DgrProofs3 DgrProofs4 DgrProofs5.
Import ListNotations.

Definition sumf {A} (f : A -> nat) (l : list A) : nat := list_sum (map f l).
Lemma sumf_ext : forall A (f g : A -> nat) l, (forall x, In x l -> f x = g x) -> sumf f l = sumf g l.
Proof. intros A f g l H. unfold sumf. f_equal. now apply map_ext_in. Qed.
Lemma sumf_change : forall (f g : nat -> nat) x l, NoDup l -> In x l -> (forall y, y <> x -> f y = g y) ->
  sumf f l + g x = sumf g l + f x.
Proof.
  intros f g x l ND Hx H. induction ND as [|y l Hn ND IH]; [contradiction|]. unfold sumf in *. simpl.
  destruct (Nat.eq_dec y x) as [->|N].
  - rewrite (map_ext_in f g l); [lia|]. intros z Hz. apply H. intros ->. contradiction.
  - destruct Hx as [Hx|Hx]; [congruence|]. specialize (IH Hx). rewrite (H y N). lia.
Qed.
Lemma sumf_plus : forall A (f g : A -> nat) l, sumf (fun x => f x + g x) l = sumf f l + sumf g l.
Proof. intros A f g l. unfold sumf. induction l; simpl; lia. Qed.
Lemma sumf_mem : forall hs l w, NoDup l -> sumf (fun h => if mem h hs then w else 0) l <= w * length hs.
Proof.
  intros hs l w ND. revert hs. induction ND as [|y l Hn ND IH]; intros hs; unfold sumf in *; simpl; [lia|].
  destruct (mem y hs) eqn:M; [|apply IH]. apply mem_in in M. apply in_split in M. destruct M as (h1 & h2 & ->).
  specialize (IH (h1 ++ h2)). rewrite app_length in *. simpl.
  rewrite (map_ext_in (fun h => if mem h (h1 ++ y :: h2) then w else 0) (fun h => if mem h (h1 ++ h2) then w else 0)); [nia|].
  intros z Hz. unfold mem. rewrite !existsb_app. simpl. destruct (Nat.eqb_spec z y) as [->|]; [contradiction|reflexivity].
Qed.

Section Measure.
  Context {X : Type}.
  Notation msg := (msg X).
  Notation st := (st X).
  Variables (n : nat) (edges : list (nat * nat)) (grp : nat -> nat) (size : X -> nat)
            (urgent : msg -> bool) (batch limit : nat) (ack : bool) (otf : nat).
  Notation succ := (succ edges).
  Notation pred := (pred edges).
  Notation conns := (conns edges grp).
  Notation Inv := (@Inv X edges grp ack otf).
  Notation step := (step n edges grp size urgent batch limit ack).

  Hypothesis Hrange : forall u v, In (u, v) edges -> u < n /\ v < n.
  Hypothesis Hnd : NoDup edges.
  Hypothesis Hsize : forall x, 0 < size x.
  Hypothesis Hack : ack = true -> forall u w h, grp u = grp w -> succ u <> [] -> In h (conns w) -> In h (conns u).

  Definition GS : list nat := nodup Nat.eq_dec (map grp (seq 0 n)).
  Definition wp := n + 4.
  Definition wo := length edges * wp + wp + 2.
  Definition nodem (s : st) (u : nat) : nat := wo * length (outq s u) + length (lq s u) + (if closed s u then 0 else wo).
  Definition cell (s : st) (g h : nat) : nat :=
    wp * length (pendfor h (pend s g) ++ buf s g h) + (n + 3) * length (concat (net s g h)) + acks s g h.
  Definition row (s : st) (g : nat) : nat :=
    sumf (cell s g) GS + (match choosing s g with Some _ => wp + 1 | None => 0 end) + (n + 1) * length (rb s g).
  Definition measure (s : st) : nat := sumf (nodem s) (seq 0 n) + sumf (row s) GS.

  Lemma gs_in : forall u, u < n -> In (grp u) GS.
  Proof using Type. intros u H. unfold GS. apply nodup_In. apply in_map. apply in_seq. lia. Qed.
  Lemma gs_nodup : NoDup GS.
  Proof using Type. apply NoDup_nodup. Qed.
  Lemma conns_gs : forall u h, In h (conns u) -> In h GS /\ u < n.
  Proof using Type*.
    intros u h H. apply conns_in in H. destruct H as (v & H & <-). apply succ_in in H. destruct (Hrange _ _ H).
    split; auto. now apply gs_in.
  Qed.
  Lemma conns_len : forall u, length (conns u) <= length edges.
  Proof using Type.
    intros u. unfold DgrModel.conns. transitivity (length (map grp (succ u))).
    - apply NoDup_incl_length; [apply NoDup_nodup|]. intros x Hx. now apply nodup_In in Hx.
    - rewrite map_length. unfold DgrModel.succ. rewrite map_length. clear. induction edges as [|e l IH]; simpl; auto.
      destruct (fst e =? u); simpl; lia.
  Qed.
  Lemma targets_len : forall h u, length (targets n edges grp h u) <= n.
  Proof using Type*.
    intros h u. transitivity (length (seq 0 n)); [|rewrite seq_length; lia]. apply NoDup_incl_length; [apply targets_nodup|].
    intros v Hv. apply targets_in in Hv; auto. destruct Hv as (Hv & _). destruct (Hrange _ _ Hv). apply in_seq. lia.
  Qed.

  Lemma m_row : forall s s' g, In g GS -> (forall u, nodem s' u = nodem s u) -> (forall g', g' <> g -> row s' g' = row s g') ->
    row s' g < row s g -> measure s' < measure s.
  Proof using Type.
    intros s s' g Hg Hn Hr Hl. unfold measure. rewrite (sumf_ext _ (nodem s') (nodem s)) by auto.
    pose proof (sumf_change (row s') (row s) g GS gs_nodup Hg Hr). lia.
  Qed.
  Lemma m_node_row : forall s s' u g, u < n -> In g GS -> (forall v, v <> u -> nodem s' v = nodem s v) ->
    (forall g', g' <> g -> row s' g' = row s g') -> nodem s' u + row s' g < nodem s u + row s g -> measure s' < measure s.
  Proof using Type.
    intros s s' u g Hu Hg Hn Hr Hl. unfold measure.
    assert (Hi : In u (seq 0 n)) by (apply in_seq; lia).
    pose proof (sumf_change (row s') (row s) g GS gs_nodup Hg Hr).
    pose proof (sumf_change (nodem s') (nodem s) u (seq 0 n) (seq_NoDup n 0) Hi Hn). lia.
  Qed.

  (** Pushing a message to the connections hs costs at most wp for each. *)
  Lemma row_push : forall s s1 g hs m B P,
    s1 = same_but s B P ->
    (forall h', pendfor h' (P g) ++ B g h' = pendfor h' (pend s g) ++ buf s g h' ++ hasm h' hs m) ->
    row s1 g <= row s g + wp * length hs.
  Proof using Type.
    intros s s1 g hs m B P -> H. unfold row, same_but. cbn.
    assert (E : sumf (cell (same_but s B P) g) GS = sumf (cell s g) GS + sumf (fun h => if mem h hs then wp else 0) GS).
    { rewrite <- sumf_plus. apply sumf_ext. intros h _. unfold cell. cbn [same_but pend buf net acks]. rewrite H, !app_length.
      unfold hasm. destruct (mem h hs); cbn; lia. }
    unfold same_but in E. rewrite E. pose proof (sumf_mem hs GS wp gs_nodup). lia.
  Qed.
  Lemma row_flush : forall s s1 g B P,
    s1 = same_but s B P -> (forall h', pendfor h' (P g) ++ B g h' = pendfor h' (pend s g) ++ buf s g h') ->
    row s1 g = row s g.
  Proof using Type.
    intros s s1 g B P -> H. unfold row, same_but. cbn. f_equal. f_equal. apply sumf_ext. intros h _.
    unfold cell. cbn [pend buf net acks]. now rewrite H.
  Qed.
  Lemma row_other : forall s s1 g' B P, s1 = same_but s B P -> (forall h, B g' h = buf s g' h) -> P g' = pend s g' ->
    row s1 g' = row s g'.
  Proof using Type.
    intros s s1 g' B P -> H1 H2. unfold row, same_but. cbn. f_equal. f_equal. apply sumf_ext. intros h _.
    unfold cell. cbn [pend buf net acks]. now rewrite H1, H2.
  Qed.
  Lemma push_row : forall s g hs m, NoDup hs ->
    row (push_all size urgent batch limit s g hs m) g <= row s g + wp * length hs /\
    (forall g', g' <> g -> row (push_all size urgent batch limit s g hs m) g' = row s g') /\
    (forall u, nodem (push_all size urgent batch limit s g hs m) u = nodem s u).
  Proof using Type.
    intros s g hs m ND. destruct (push_all_spec size urgent batch limit g m hs s ND) as (B & P & R1 & R2 & R3 & R4 & _).
    split; [eapply row_push; eauto|]. split.
    - intros g' N. eapply row_other; eauto.
    - intros u. rewrite R1. reflexivity.
  Qed.
  Lemma flush_row : forall s g hs,
    row (flush_all (X := X) s g hs) g = row s g /\ (forall g', g' <> g -> row (flush_all s g hs) g' = row s g') /\
    (forall u, nodem (flush_all s g hs) u = nodem s u).
  Proof using Type.
    intros s g hs. destruct (flush_all_spec g hs s) as (B & P & R1 & R2 & R3 & R4 & _).
    split; [eapply row_flush; eauto|]. split.
    - intros g' N. eapply row_other; eauto.
    - intros u. rewrite R1. reflexivity.
  Qed.

  (** One cell of a row changes. *)
  Lemma row_cell : forall s s' g h, In h GS -> (forall h', h' <> h -> cell s' g h' = cell s g h') ->
    row s' g + (cell s g h + (match choosing s g with Some _ => wp + 1 | None => 0 end) + (n + 1) * length (rb s g)) =
    row s g + (cell s' g h + (match choosing s' g with Some _ => wp + 1 | None => 0 end) + (n + 1) * length (rb s' g)).
  Proof using Type.
    intros s s' g h Hh H. unfold row. pose proof (sumf_change (cell s' g) (cell s g) h GS gs_nodup Hh H). lia.
  Qed.

  Lemma dec_take : forall s u c s', Inv s -> step s (Take u c) = Some s' -> measure s' < measure s.
  Proof using Type*.
    intros s u c s' I E. pose proof (inv_take n edges grp size urgent batch limit ack otf Hrange Hnd Hsize Hack s u c s' I E) as I'.
    destruct I as (pre & tc & et & dd & de & tn & IS & IP & IB & ID & IL & IE & Hab & Hlo).
    unfold DgrModel.step in E. rewrite Hab in E.
    destruct (outq s u) as [|m r] eqn:HO; [discriminate|]. destruct (pend s (grp u)) eqn:Hpe; [|discriminate].
    destruct (choosing s (grp u)) eqn:Hc; [discriminate|]. cbv zeta in E.
    match type of E with context [flush_all ?x _ _] => set (s1 := x) in * end.
    assert (Hs : succ u <> []). { apply (s_succ _ _ _ _ _ _ _ _ _ IS u). rewrite HO. discriminate. }
    apply (proj1 (conns_nonempty edges grp u)) in Hs. destruct Hs as (c0 & Hc0).
    destruct (conns_gs _ _ Hc0) as (_ & Hu). pose proof (gs_in u Hu) as Hg.
    assert (Hn1 : nodem s1 u + wo = nodem s u). { unfold s1, nodem. cbn. rewrite fupd_eq, HO. cbn. lia. }
    assert (Hn2 : forall v, v <> u -> nodem s1 v = nodem s v). { intros v N. unfold s1, nodem. cbn. rewrite fupd_neq; auto. }
    assert (Hr1 : forall g, row s1 g = row s g) by reflexivity.
    assert (Kpush : forall hs m, NoDup hs -> wp * length hs < wo ->
      measure (push_all size urgent batch limit s1 (grp u) hs m) < measure s).
    { intros hs m' ND Hl. destruct (push_row s1 (grp u) hs m' ND) as (K1 & K2 & K3). apply (m_node_row s _ u (grp u)); auto.
      - intros v N. rewrite K3. auto.
      - rewrite K3. rewrite Hr1 in K1. lia. }
    assert (Hw1 : wp * 1 < wo) by (unfold wo; lia).
    assert (Hw2 : wp * length (conns u) < wo) by (unfold wo; pose proof (conns_len u); nia).
    destruct (is_flush m).
    { injection E as <-. destruct (flush_row s1 (grp u) (conns u)) as (K1 & K2 & K3). apply (m_node_row s _ u (grp u)); auto.
      - intros v N. rewrite K3. auto.
      - rewrite K3, K1, Hr1. unfold wo, wp in *. lia. }
    assert (Sinj : forall a b : st, Some a = Some b -> a = b) by congruence.
    destruct (dest m) as [d|].
    { destruct (known edges grp (grp u) d); apply Sinj in E; subst s'; [apply Kpush; auto; repeat constructor; intros []|].
      destruct I' as (? & ? & ? & ? & ? & ? & I'). destruct I' as (_ & _ & _ & _ & _ & _ & I' & _). discriminate. }
    destruct (bsize size (cont m) =? 0).
    { apply Sinj in E. subst s'. apply Kpush; auto. apply conns_nodup. }
    destruct (mem c (conns u)); [|discriminate].
    match type of E with (if ?b then _ else _) = _ => destruct b end; apply Sinj in E; subst s'.
    - apply (m_node_row s _ u (grp u)); auto.
      + intros g' N. unfold row. cbn. rewrite fupd_neq by auto. reflexivity.
      + match goal with |- nodem ?x u + _ < _ => change (nodem x u) with (nodem s1 u) end.
        unfold row in *. cbn. rewrite fupd_eq, Hc.
        match goal with |- context [sumf (cell ?x _) GS] => change (cell x (grp u)) with (cell s (grp u)) end.
        unfold wo, wp in *. lia.
    - apply Kpush; auto. repeat constructor. intros [].
  Qed.

  Lemma dec_step : forall s a s', Inv s -> internal a = true -> step s a = Some s' -> measure s' < measure s.
  Proof using Type*.
    intros s a s' I Ha E. destruct a; try discriminate.
    - eapply dec_take; eauto.
    - (* Emit *)
      destruct I as (pre & tc & et & dd & de & tn & IS & IP & IB & ID & IL & IE & Hab & Hlo).
      unfold DgrModel.step in E. rewrite Hab in E. destruct (pend s g) as [|(h & b) r] eqn:Hpe; [discriminate|].
      destruct (ack && (credit s g h =? 0)); [discriminate|]. injection E as <-.
      destruct (b_pend _ _ _ _ _ _ _ _ _ _ _ IB g h b) as (Hne & Hb); [rewrite Hpe; simpl; auto|].
      destruct b as [|m b]; [congruence|]. destruct (Hb m (or_introl eq_refl)) as (Hgm & Hhm).
      destruct (conns_gs _ _ Hhm) as (Hh & Hu). pose proof (gs_in _ Hu) as Hg. rewrite Hgm in Hg.
      apply (m_row s _ g); auto.
      + intros g' N. unfold row. cbn. f_equal. f_equal. apply sumf_ext. intros h' _. unfold cell. cbn.
        rewrite fupd_neq, fupd2_neq by auto. reflexivity.
      + match goal with |- row ?x g < _ => pose proof (row_cell s x g h Hh) as K end.
        match type of K with ?P -> _ => assert (HP : P) end.
        { intros h' N. unfold cell. cbn. rewrite fupd_eq, fupd2_neq by auto. rewrite Hpe. unfold pendfor. cbn.
          destruct (Nat.eqb_spec h h'); [congruence|]. reflexivity. }
        specialize (K HP). unfold cell in K. cbn in K. rewrite fupd_eq, fupd2_eq, Hpe in K. unfold pendfor in K. cbn in K.
        rewrite Nat.eqb_refl in K. cbn in K. rewrite concat_app in K. cbn in K. rewrite app_nil_r, !app_length in K.
        rewrite ?app_length in K. cbn [length] in K. unfold wp in K. nia.
    - (* AckRead *)
      destruct I as (pre & tc & et & dd & de & tn & IS & IP & IB & ID & IL & IE & Hab & Hlo).
      unfold DgrModel.step in E. rewrite Hab in E. destruct (pend s g) as [|(h0 & b) r] eqn:Hpe; [discriminate|].
      destruct ((credit s g h0 =? 0) && (0 <? acks s g h)) eqn:Ea; [|discriminate]. injection E as <-.
      apply andb_true_iff in Ea. destruct Ea as (_ & Ea). apply Nat.ltb_lt in Ea.
      destruct (b_acks _ _ _ _ _ _ _ _ _ _ _ IB _ _ Ea) as (w & Hw & Hhw).
      destruct (conns_gs _ _ Hhw) as (Hh & Hu). pose proof (gs_in _ Hu) as Hg. rewrite Hw in Hg.
      apply (m_row s _ g); auto.
      + intros g' N. unfold row. cbn. f_equal. f_equal. apply sumf_ext. intros h' _. unfold cell. cbn.
        rewrite fupd2_neq by auto. reflexivity.
      + match goal with |- row ?x g < _ => pose proof (row_cell s x g h Hh) as K end.
        match type of K with ?P -> _ => assert (HP : P) end.
        { intros h' N. unfold cell. cbn. rewrite fupd2_neq by auto. reflexivity. }
        specialize (K HP). unfold cell in K. cbn [pend buf net acks choosing rb] in K. rewrite fupd2_eq in K. lia.
    - (* AckAny *)
      destruct I as (pre & tc & et & dd & de & tn & IS & IP & IB & ID & IL & IE & Hab & Hlo).
      unfold DgrModel.step in E. rewrite Hab in E. destruct (choosing s g) as [m|] eqn:Hc; [|discriminate].
      destruct (0 <? acks s g h) eqn:Ea; [|discriminate]. apply Nat.ltb_lt in Ea.
      assert (Sinj : forall a b : st, Some a = Some b -> a = b) by congruence. apply Sinj in E. subst s'.
      destruct (b_acks _ _ _ _ _ _ _ _ _ _ _ IB _ _ Ea) as (w & Hw & Hhw).
      destruct (conns_gs _ _ Hhw) as (Hh & Hu). pose proof (gs_in _ Hu) as Hg. rewrite Hw in Hg.
      match goal with |- measure (push_all _ _ _ _ ?z _ _ _) < _ => set (s1 := z) in * end.
      assert (ND : NoDup [h]) by (repeat constructor; intros []).
      destruct (push_row s1 g [h] m ND) as (K1 & K2 & K3). apply (m_row s _ g); auto.
      + intros g' N. rewrite K2 by auto. unfold row, s1. cbn. rewrite fupd_neq by auto. f_equal. f_equal. apply sumf_ext.
        intros h' _. unfold cell. cbn. rewrite fupd2_neq by auto. reflexivity.
      + pose proof (row_cell s s1 g h Hh) as K. match type of K with ?P -> _ => assert (HP : P) end.
        { intros h' N. unfold cell, s1. cbn. rewrite fupd2_neq by auto. reflexivity. }
        specialize (K HP). unfold cell, s1 in K. cbn [pend buf net acks choosing rb] in K. rewrite fupd2_eq, fupd_eq, Hc in K. fold s1 in K.
        cbn [length] in K1. lia.
    - (* Deliver *)
      destruct I as (pre & tc & et & dd & de & tn & IS & IP & IB & ID & IL & IE & Hab & Hlo).
      unfold DgrModel.step in E. rewrite Hab in E. destruct (net s g h) as [|b r] eqn:Hn; [discriminate|].
      destruct (rb s h) eqn:Hrb; [|discriminate]. injection E as <-.
      assert (Hb : In b (net s g h)) by (rewrite Hn; simpl; auto).
      destruct (b_net _ _ _ _ _ _ _ _ _ _ _ IB _ _ _ Hb) as (Hne & Hbm).
      destruct b as [|m b]; [congruence|]. destruct (Hbm m (or_introl eq_refl)) as (Hgm & Hhm).
      destruct (conns_gs _ _ Hhm) as (Hh & Hu). pose proof (gs_in _ Hu) as Hg. rewrite Hgm in Hg.
      match goal with |- measure ?x < _ => set (s1 := x) in * end.
      (* first the connection, then the router *)
      set (s2 := mkSt (outq s1) (closed s1) (alive s1) (buf s1) (pend s1) (choosing s1) (net s1) (credit s1) (acks s1)
                      (rb s) (lq s1) (ended s1) (aborted s1) (lost s1) (sent s1) (recv s1)).
      assert (H2 : measure s2 + (n + 1) * length (m :: b) < measure s).
      { unfold measure. rewrite (sumf_ext _ (nodem s2) (nodem s)) by reflexivity.
        pose proof (sumf_change (row s2) (row s) g GS gs_nodup Hg) as K0. match type of K0 with ?P -> _ => assert (HP : P) end.
        { intros g' N. unfold row. cbn. f_equal. f_equal. apply sumf_ext. intros h' _. unfold cell. cbn.
          destruct ack; rewrite ?fupd2_neq by auto; reflexivity. }
        specialize (K0 HP). clear HP.
        pose proof (row_cell s s2 g h Hh) as K. match type of K with ?P -> _ => assert (HP : P) end.
        { intros h' N. unfold cell. cbn. destruct ack; rewrite ?fupd2_neq by auto; reflexivity. }
        specialize (K HP). clear HP. set (R2 := row s2 g) in *. clearbody R2.
        unfold cell, s2, s1 in K. cbn [pend buf net acks choosing rb] in K. rewrite fupd2_eq, Hn in K. cbn [concat] in K. rewrite (app_length (m :: b)) in K.
        assert (Hak : (if ack then fupd2 (acks s) g h (S (acks s g h)) else acks s) g h <= S (acks s g h)).
        { destruct ack; [rewrite fupd2_eq; auto|auto]. }
        cbn [length] in *. nia. }
      assert (H1 : measure s1 = measure s2 + (n + 1) * length (m :: b)).
      { unfold measure. rewrite (sumf_ext _ (nodem s1) (nodem s2)) by reflexivity.
        pose proof (sumf_change (row s1) (row s2) h GS gs_nodup Hh) as K0. match type of K0 with ?P -> _ => assert (HP : P) end.
        { intros g' N. unfold row. cbn. rewrite fupd_neq by auto. reflexivity. }
        specialize (K0 HP).
        assert (K1 : row s1 h = row s2 h + (n + 1) * length (m :: b)).
        { unfold row. change (cell s1 h) with (cell s2 h).
          change (rb s1 h) with (fupd (rb s) h (map (unpack size) (m :: b)) h). rewrite fupd_eq, map_length.
          change (rb s2 h) with (rb s h). rewrite Hrb. change (choosing s1 h) with (choosing s2 h). cbn [length]. lia. }
        lia. }
      lia.
    - (* Route *)
      destruct I as (pre & tc & et & dd & de & tn & IS & IP & IB & ID & IL & IE & Hab & Hlo).
      unfold DgrModel.step in E. rewrite Hab in E. destruct (rb s h) as [|m r] eqn:Hrb; [discriminate|]. cbv zeta in E.
      assert (Hhm : In h (conns (src m))). { apply (b_rb _ _ _ _ _ _ _ _ _ _ _ IB). rewrite Hrb. simpl. auto. }
      destruct (conns_gs _ _ Hhm) as (Hh & Hu).
      assert (K : forall q k ts, NoDup ts -> length ts <= n ->
        (forall v', length (q v') <= length (lq s v') + (if mem v' ts then 1 else 0)) ->
        measure (mkSt (outq s) (closed s) (alive s) (buf s) (pend s) (choosing s) (net s) (credit s) (acks s)
                   (fupd (rb s) h r) q (ended s) false k (sent s) (recv s)) < measure s).
      { intros q k ts ND Hl Hq. unfold measure.
        match goal with |- sumf (nodem ?x) _ + _ < _ => set (s1 := x) end.
        assert (K1 : sumf (nodem s1) (seq 0 n) <= sumf (nodem s) (seq 0 n) + sumf (fun v => if mem v ts then 1 else 0) (seq 0 n)).
        { rewrite <- sumf_plus. unfold sumf. clear - Hq. induction (seq 0 n) as [|a l IH]; simpl; auto.
          unfold nodem at 1 3. unfold s1 at 1 2 3. cbn. specialize (Hq a). lia. }
        pose proof (sumf_mem ts (seq 0 n) 1 (seq_NoDup n 0)) as K2.
        pose proof (sumf_change (row s1) (row s) h GS gs_nodup Hh) as K0. match type of K0 with ?P -> _ => assert (HP : P) end.
        { intros g' N. unfold row. cbn. rewrite fupd_neq by auto. reflexivity. }
        specialize (K0 HP).
        assert (K3 : row s1 h + (n + 1) = row s h).
        { unfold row. change (cell s1 h) with (cell s h). cbn. rewrite fupd_eq, Hrb. cbn. lia. }
        lia. }
      assert (K1 : forall w k, measure (mkSt (outq s) (closed s) (alive s) (buf s) (pend s) (choosing s) (net s) (credit s) (acks s)
                   (fupd (rb s) h r) (fupd (lq s) w (lq s w ++ [m])) (ended s) false k (sent s) (recv s)) < measure s).
      { intros w k. apply (K _ k [w]).
        - repeat constructor. intros [].
        - cbn. lia.
        - intros v'. cbn. rewrite orb_false_r. destruct (Nat.eqb_spec v' w) as [->|N].
          + rewrite fupd_eq, app_length. cbn. lia.
          + rewrite fupd_neq by auto. lia. }
      assert (Sinj : forall a b : st, Some a = Some b -> a = b) by congruence.
      destruct (dest m) as [d|].
      { apply Sinj in E. subst s'. apply K1. }
      destruct (targets n edges grp h (src m)) as [|t ts] eqn:Et.
      { apply Sinj in E. subst s'. apply (K _ _ []); [constructor|cbn; lia|intros; cbn; lia]. }
      destruct (bsize size (cont m) =? 0).
      { apply Sinj in E. subst s'. apply (K _ _ (t :: ts)).
        - rewrite <- Et. apply targets_nodup.
        - rewrite <- Et. apply targets_len.
        - intros v'. rewrite fold_put by (rewrite <- Et; apply targets_nodup). destruct (mem v' (t :: ts)); [|lia].
          rewrite app_length. cbn. lia. }
      destruct (mem v (t :: ts)); [|discriminate]. apply Sinj in E. subst s'. apply K1.
    - (* Recv *)
      destruct I as (pre & tc & et & dd & de & tn & IS & IP & IB & ID & IL & IE & Hab & Hlo).
      unfold DgrModel.step in E. rewrite Hab in E. destruct (lq s v) as [|m r] eqn:Hlq; [discriminate|].
      destruct (alive s v); [|discriminate]. cbv zeta in E.
      assert (Hv : v < n). { destruct (Hrange (src m) v); auto. apply (l_lq _ _ _ _ _ _ _ IL). rewrite Hlq. simpl. auto. }
      assert (K : forall o c a e p, (forall w, w <> v -> length (o w) = length (outq s w) /\ c w = closed s w) ->
        wo * length (o v) + (if c v then 0 else wo) <= wo * length (outq s v) + (if closed s v then 0 else wo) ->
        measure (mkSt o c a (buf s) (pend s) (choosing s) (net s) (credit s) (acks s) (rb s)
                      (fupd (lq s) v r) e false (lost s) (sent s) (fupd (recv s) v (recv s v ++ p))) < measure s).
      { intros o c a e p H1 H2. unfold measure. match goal with |- sumf (nodem ?x) _ + _ < _ => set (s1 := x) end.
        change (row s1) with (row s).
        assert (Hi : In v (seq 0 n)) by (apply in_seq; lia).
        pose proof (sumf_change (nodem s1) (nodem s) v (seq 0 n) (seq_NoDup n 0) Hi) as K0.
        match type of K0 with ?P -> _ => assert (HP : P) end.
        { intros w N. unfold nodem, s1. cbn. rewrite fupd_neq by auto. destruct (H1 w N) as (-> & ->). reflexivity. }
        specialize (K0 HP).
        assert (K1 : nodem s1 v < nodem s v).
        { unfold nodem, s1. cbn. rewrite fupd_eq, Hlq. cbn. lia. }
        lia. }
      assert (K1 : forall a e p, measure (mkSt (outq s) (closed s) a (buf s) (pend s) (choosing s) (net s) (credit s) (acks s) (rb s)
                      (fupd (lq s) v r) e false (lost s) (sent s) (fupd (recv s) v (recv s v ++ p))) < measure s).
      { intros. apply K; auto. }
      destruct (if bsize size (cont m) =? 0 then None else _) as [x|]; [injection E as <-; apply K1|].
      destruct (mem (src m) (ended s v)); [injection E as <-; apply K1|].
      destruct (length (pred v) <=? _); [|injection E as <-; apply K1].
      destruct (succ v); [injection E as <-; apply K1|]. destruct (closed s v) eqn:HC; injection E as <-; [apply K1|].
      apply K.
      + intros w N. rewrite !fupd_neq by auto. auto.
      + rewrite !fupd_eq, app_length. cbn. lia.
  Qed.

  Lemma internal_no_eos_to : forall a : act X, internal a = true -> no_eos_to a = true.
  Proof using Type. intros a H. destruct a; auto; discriminate. Qed.

  Lemma internal_bounded : forall l s s', Inv s -> forallb internal l = true -> exec step s l = Some s' ->
    length l + measure s' <= measure s /\ Inv s'.
  Proof using Type*.
    intros l. induction l as [|a l IH]; intros s s' I Hl E; simpl in *.
    - injection E as <-. auto.
    - apply andb_true_iff in Hl. destruct Hl as (H1 & H2). destruct (step s a) as [s1|] eqn:E1; [|discriminate].
      pose proof (dec_step s a s1 I H1 E1) as D.
      pose proof (inv_step n edges grp size urgent batch limit ack otf Hrange Hnd Hsize Hack s a s1 (internal_no_eos_to a H1) I E1) as I1.
      destruct (IH s1 s' I1 H2 E). split; auto. lia.
  Qed.
End Measure.
