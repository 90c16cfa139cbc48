(** Preservation of the invariant: the steps. *)
From Coq Require Import List Arith Bool Lia.
From Verif Require Import Base DgrModel DgrSpec DgrProofs DgrProofs2 DgrProofs3.
Import ListNotations.

Lemma somes_split : forall X (A : list X) (b : bool) l r, map Some A ++ (if b then [None] else []) = l ++ None :: r ->
  ~ In None l /\ r = [] /\ b = true /\ l = map Some A.
Proof.
  intros X A b. induction A as [|a A IH]; intros l r H; simpl in H.
  - destruct b.
    + destruct l as [|o l]; simpl in H.
      * injection H as <-. auto.
      * injection H as _ H. destruct l; discriminate.
    + destruct l; discriminate.
  - destruct l as [|o l]; simpl in H; [discriminate|]. injection H as <- H. destruct (IH _ _ H) as (E1 & E2 & E3 & ->).
    split; [|auto]. intros [E|E]; [discriminate|auto].
Qed.
Lemma fold_put : forall T (e : T) ts (q : nat -> list T) v, NoDup ts ->
  fold_left (fun q v => fupd q v (q v ++ [e])) ts q v = if mem v ts then q v ++ [e] else q v.
Proof.
  intros T e ts. induction ts as [|t ts IH]; intros q v H; [reflexivity|]. inversion H as [|? ? Hn Hd]; subst. simpl.
  rewrite IH by auto. destruct (Nat.eqb_spec v t) as [->|N]; simpl.
  - destruct (mem t ts) eqn:M; [apply mem_in in M; contradiction|]. now rewrite fupd_eq.
  - now rewrite fupd_neq.
Qed.

Section Step.
  Context {X : Type}.
  Notation msg := (msg X).
  Notation st := (st X).
  Variables (n : nat) (edges : list (nat * nat)) (grp : nat -> nat) (size : X -> nat)
            (urgent : msg -> bool) (batch limit : nat) (ack : bool) (otf : nat).
  Notation succ := (succ edges).
  Notation pred := (pred edges).
  Notation conns := (conns edges grp).
  Notation item := (option nat * X)%type.
  Notation InvS := (@InvS X edges grp).
  Notation InvP := (@InvP X edges grp).
  Notation InvB := (@InvB X edges grp ack otf).
  Notation InvD := (@InvD X edges grp).
  Notation InvL := (@InvL X edges grp).
  Notation InvE := (@InvE X edges).
  Notation Inv := (@Inv X edges grp ack otf).
  Notation path := (@path X grp).
  Notation step := (step n edges grp size urgent batch limit ack).

  Hypothesis Hrange : forall u v, In (u, v) edges -> u < n /\ v < n.
  Hypothesis Hnd : NoDup edges.
  Hypothesis Hsize : forall x, 0 < size x.
  Hypothesis Hack : ack = true -> forall u w h, grp u = grp w -> succ u <> [] -> In h (conns w) -> In h (conns u).

  Ltac cs u' u := destruct (Nat.eq_dec u' u) as [->|?]; [rewrite ?fupd_eq in *|rewrite ?(fupd_neq) in * by assumption].

  Lemma pred_nodup : forall v, NoDup (pred v).
  Proof.
    intros v. unfold DgrModel.pred. induction edges as [|(a & b) l IH] in Hnd |- *; simpl; [constructor|].
    inversion Hnd as [|? ? Hn Hd]; subst. destruct (Nat.eqb_spec b v) as [->|]; simpl; auto. constructor; auto.
    intros H. apply in_map_iff in H. destruct H as ((a' & b') & E & H). apply filter_In in H. destruct H as (H & E').
    apply Nat.eqb_eq in E'. simpl in *. subst. contradiction.
  Qed.

  Lemma conns_nonempty : forall u, succ u <> [] <-> exists h, In h (conns u).
  Proof.
    intros u. split.
    - destruct (succ u) as [|v l] eqn:E; [congruence|]. intros _. exists (grp v). apply conns_in. exists v. rewrite E. simpl. auto.
    - intros (h & H) E. apply conns_in in H. destruct H as (v & H & _). rewrite E in H. contradiction.
  Qed.

  Lemma pay_data : forall (m : msg), pay m <> None -> exists x, cont m = Data x /\ m = mkd (src m) (dest m, x).
  Proof. intros [a b c] H. unfold pay in H. cbn in *. destruct c; try congruence. exists x. auto. Qed.

  Lemma B_push : forall buf pend net Ch cr ac rb pend' buf' g hs (m : msg),
    InvB buf pend net Ch cr ac rb -> Ch g = None ->
    (forall g' h', g' <> g -> buf' g' h' = buf g' h') -> (forall g', g' <> g -> pend' g' = pend g') ->
    (forall h', pendfor h' (pend' g) ++ buf' g h' = pendfor h' (pend g) ++ buf g h' ++ hasm h' hs m) ->
    (forall h', mem h' hs = false -> buf' g h' = buf g h') ->
    (forall h', mem h' hs = true -> bsize size (cont m) = 0 -> buf' g h' = []) ->
    (forall h', mem h' hs = true -> buf' g h' = [] \/ buf' g h' = buf g h' ++ [m]) ->
    (forall h b, In (h, b) (pend' g) -> In (h, b) (pend g) \/ (In h hs /\ b <> [])) ->
    grp (src m) = g -> (forall h, In h hs -> In h (conns (src m))) ->
    InvB buf' pend' net Ch cr ac rb.
  Proof.
    intros until m. intros I Hc H1 H2 H3 H4 H5 H6 H7 Hg Hh. destruct I. constructor; auto.
    - intros g' h' m' Hi. destruct (Nat.eq_dec g' g) as [->|N]; [|rewrite H1 in Hi by auto; auto].
      destruct (mem h' hs) eqn:M; [|rewrite H4 in Hi by auto; auto].
      destruct (H6 _ M) as [E|E]; [rewrite E in Hi; contradiction|].
      destruct (Nat.eq_dec (bsize size (cont m)) 0) as [Z|Z]; [rewrite H5 in Hi by auto; contradiction|].
      rewrite E in Hi. apply in_app_iff in Hi. destruct Hi as [Hi|[<-|[]]]; [auto|]. split; auto. split.
      + apply Hh. now apply mem_in.
      + unfold pay. destruct (cont m); [discriminate| |]; simpl in Z; lia.
    - intros g' h b Hi. destruct (Nat.eq_dec g' g) as [->|N]; [|rewrite H2 in Hi by auto; auto].
      destruct (H7 _ _ Hi) as [Hp|(Hp & Hne)]; [auto|]. split; auto. intros m' Hm.
      assert (K : In m' (pendfor h (pend g) ++ buf g h ++ hasm h hs m)).
      { rewrite <- H3. apply in_app_iff. left. apply pendfor_in. eauto. }
      apply in_app_iff in K. destruct K as [K|K].
      + apply pendfor_in in K. destruct K as (b' & K1 & K2). destruct (b_pend _ _ _ K1). auto.
      + apply in_app_iff in K. destruct K as [K|K].
        * destruct (b_buf _ _ _ K) as (? & ? & ?). auto.
        * unfold hasm in K. destruct (mem h hs); simpl in K; [|contradiction]. destruct K as [<-|[]]. auto.
    - intros g' m' E. destruct (Nat.eq_dec g' g) as [->|N]; [congruence|]. rewrite H2 by auto. auto.
  Qed.

  Lemma B_flush : forall buf pend net Ch cr ac rb pend' buf' g hs,
    InvB buf pend net Ch cr ac rb -> Ch g = None ->
    (forall g' h', g' <> g -> buf' g' h' = buf g' h') -> (forall g', g' <> g -> pend' g' = pend g') ->
    (forall h', pendfor h' (pend' g) ++ buf' g h' = pendfor h' (pend g) ++ buf g h') ->
    (forall h', buf' g h' = [] \/ buf' g h' = buf g h') ->
    (forall h b, In (h, b) (pend' g) -> In (h, b) (pend g) \/ (In h hs /\ b <> [])) ->
    InvB buf' pend' net Ch cr ac rb.
  Proof.
    intros until hs. intros I Hc H1 H2 H3 H4 H5. destruct I. constructor; auto.
    - intros g' h' m' Hi. destruct (Nat.eq_dec g' g) as [->|N]; [|rewrite H1 in Hi by auto; auto].
      destruct (H4 h') as [E|E]; rewrite E in Hi; [contradiction|auto].
    - intros g' h b Hi. destruct (Nat.eq_dec g' g) as [->|N]; [|rewrite H2 in Hi by auto; auto].
      destruct (H5 _ _ Hi) as [Hp|(Hp & Hne)]; [auto|]. split; auto. intros m' Hm.
      assert (K : In m' (pendfor h (pend g) ++ buf g h)).
      { rewrite <- H3. apply in_app_iff. left. apply pendfor_in. eauto. }
      apply in_app_iff in K. destruct K as [K|K].
      + apply pendfor_in in K. destruct K as (b' & K1 & K2). destruct (b_pend _ _ _ K1). auto.
      + destruct (b_buf _ _ _ K) as (? & ? & ?). auto.
    - intros g' m' E. destruct (Nat.eq_dec g' g) as [->|N]; [congruence|]. rewrite H2 by auto. auto.
  Qed.

  Lemma L_put : forall lq recv dd de tn u v p, InvL lq recv dd de tn -> In (u, v) edges -> de u (grp v) = false ->
    length (tn u (grp v)) = length (dd u (grp v)) ->
    InvL (fupd lq v (lq v ++ [mkd u p])) recv (fupd2 dd u (grp v) (dd u (grp v) ++ [p])) de
         (fupd2 tn u (grp v) (tn u (grp v) ++ [v])).
  Proof.
    intros lq recv dd de tn u v p I Hi Hde Hl. destruct I. constructor; auto.
    - intros u' v' Hi'. specialize (l_eq _ _ Hi'). rewrite !fupd2_case.
      destruct (Nat.eqb_spec u' u) as [->|Nu]; cbn [andb].
      + destruct (Nat.eqb_spec (grp v') (grp v)) as [E|E].
        * rewrite E in *. rewrite Hde, app_nil_r in *. rewrite picks_snoc by auto. rewrite !map_app, l_eq.
          destruct (Nat.eqb_spec v v') as [->|N].
          -- rewrite fupd_eq, ofsrc_app, map_app. cbn. rewrite Nat.eqb_refl. cbn. now rewrite <- app_assoc.
          -- rewrite fupd_neq by auto. cbn. now rewrite app_nil_r.
        * rewrite fupd_neq by congruence. exact l_eq.
      + rewrite l_eq. f_equal. cs v' v; auto. rewrite ofsrc_app. cbn. destruct (Nat.eqb_spec u u'); [congruence|].
        now rewrite app_nil_r.
    - intros v' m Hm. cs v' v; auto. apply in_app_iff in Hm. destruct Hm as [Hm|[<-|[]]]; auto.
  Qed.

  Lemma L_eos : forall lq recv dd de tn u h, InvL lq recv dd de tn -> de u h = false ->
    InvL (fold_left (fun q v => fupd q v (q v ++ [eos u])) (targets n edges grp h u) lq) recv dd (fupd2 de u h true) tn.
  Proof.
    intros lq recv dd de tn u h I Hde. destruct I. constructor; auto.
    - intros u' v' Hi'. specialize (l_eq _ _ Hi'). rewrite fold_put by apply targets_nodup. rewrite fupd2_case.
      destruct (mem v' (targets n edges grp h u)) eqn:M.
      + apply mem_in in M. apply targets_in in M; [|exact Hrange]. destruct M as (M1 & M2). rewrite M2, Nat.eqb_refl, andb_true_r in *.
        rewrite ofsrc_app, map_app, app_assoc, <- l_eq. cbn. rewrite (Nat.eqb_sym u u').
        destruct (Nat.eqb_spec u' u) as [->|]; cbn.
        * rewrite Hde, app_nil_r. reflexivity.
        * now rewrite app_nil_r.
      + destruct (Nat.eqb_spec u' u) as [->|]; cbn; auto. destruct (Nat.eqb_spec (grp v') h) as [E|E]; auto.
        assert (mem v' (targets n edges grp h u) = true); [|congruence]. apply mem_in. apply targets_in; auto.
    - intros v m Hm. rewrite fold_put in Hm by apply targets_nodup. destruct (mem v (targets n edges grp h u)) eqn:M; auto.
      apply in_app_iff in Hm. destruct Hm as [Hm|[<-|[]]]; auto. apply mem_in in M. apply targets_in in M; [|exact Hrange].
      cbn. tauto.
  Qed.

  Lemma D_put : forall dd tn u v p, InvD dd tn -> Pn edges grp u (grp v) p v ->
    InvD (fupd2 dd u (grp v) (dd u (grp v) ++ [p])) (fupd2 tn u (grp v) (tn u (grp v) ++ [v])).
  Proof.
    intros dd tn u v p I H u' h'. rewrite !fupd2_case. destruct (Nat.eqb_spec u' u) as [->|]; cbn; [|apply I].
    destruct (Nat.eqb_spec h' (grp v)) as [->|]; [|apply I]. apply Forall2_app; [apply I|]. constructor; [exact H|constructor].
  Qed.

  (** The head of a router's input. *)
  Lemma rb_head : forall rb net pend buf pre tc et dd de h (m : msg) r,
    InvP rb net pend buf pre tc et dd de -> rb h = m :: r ->
    de (src m) h = false /\
    ((exists p, m = mkd (src m) p /\ In p (picks h (pre (src m)) (tc (src m))) /\
        InvP (fupd rb h r) net pend buf pre tc et (fupd2 dd (src m) h (dd (src m) h ++ [p])) de) \/
     (m = eos (src m) /\ InvP (fupd rb h r) net pend buf pre tc et dd (fupd2 de (src m) h true))).
  Proof.
    intros rb net pend buf pre tc et dd de h m r I Hrb. set (u := src m).
    pose proof (I u h) as E.
    assert (Hp : path rb net pend buf u h = m :: path (fupd rb h r) net pend buf u h).
    { unfold DgrProofs2.path. rewrite fupd_eq, Hrb. cbn. unfold u. rewrite Nat.eqb_refl. reflexivity. }
    assert (Ho : forall u' h', u' <> u \/ h' <> h -> path (fupd rb h r) net pend buf u' h' = path rb net pend buf u' h').
    { intros u' h' N. unfold DgrProofs2.path. f_equal. destruct (Nat.eq_dec h' h) as [->|N']; [|now rewrite fupd_neq].
      rewrite fupd_eq, Hrb. cbn. destruct (Nat.eqb_spec (src m) u') as [E'|]; auto. exfalso. destruct N; auto. }
    pose proof E as E0. rewrite Hp in E. destruct (eqshape _ _ _ _ _ _ E) as (K1 & K2).
    destruct (de u h) eqn:De; [destruct (K1 eq_refl); discriminate|]. split; auto. destruct (K2 eq_refl) as (A' & HA & HP).
    destruct A' as [|p A'].
    - right. destruct (et u && mem h (conns u)) eqn:Et; cbn in HP; [|discriminate]. injection HP as Hm Hp0. split; [exact Hm|].
      intros u' h'. rewrite fupd2_case. destruct (Nat.eqb_spec u' u) as [->|]; cbn [andb]; [|rewrite Ho by auto; apply I].
      destruct (Nat.eqb_spec h' h) as [->|]; [|rewrite Ho by auto; apply I].
      rewrite Hp0, HA, Et. cbn. rewrite app_nil_r. reflexivity.
    - left. cbn in HP. injection HP as Hm Hp0. exists p. split; [exact Hm|]. split; [rewrite HA; apply in_app_iff; simpl; auto|].
      intros u' h'. rewrite fupd2_case. destruct (Nat.eqb_spec u' u) as [->|]; cbn [andb]; [|rewrite Ho by auto; apply I].
      destruct (Nat.eqb_spec h' h) as [->|]; [|rewrite Ho by auto; apply I].
      rewrite Hp0, HA, De, !map_app. cbn. rewrite <- !app_assoc. reflexivity.
  Qed.

  (** Messages on a connection are values or marks. *)
  Lemma net_unpack : forall rb net pend buf pre tc et dd de, InvP rb net pend buf pre tc et dd de ->
    (forall g h b, In b (net g h) -> b <> [] /\ forall m : msg, In m b -> grp (src m) = g /\ In h (conns (src m))) ->
    forall g h b, In b (net g h) -> map (unpack size) b = b.
  Proof.
    intros rb net pend buf pre tc et dd de I HB g h b Hb. destruct (HB _ _ _ Hb) as (_ & H).
    transitivity (map (fun m => m) b); [|apply map_id]. apply map_ext_in. intros m Hm.
    destruct (H m Hm) as (Hg & _). assert (Hi : In m (path rb net pend buf (src m) h)).
    { unfold DgrProofs2.path. rewrite !in_app_iff. right. left. apply (proj2 (ofsrc_in _ _ _)). split; auto. rewrite Hg. apply in_concat. eauto. }
    destruct (path_in _ _ _ _ _ _ m (I (src m) h) Hi) as [-> |(p & _ & ->)]; [reflexivity|].
    now apply mkd_unpack.
  Qed.

  Lemma E_mono : forall recv en A C C', InvE recv en A C -> (forall u, C u = true -> C' u = true) -> InvE recv en A C'.
  Proof.
    intros recv en A C C' I H. destruct I. constructor; auto. intros v Hv. destruct (e_closed v Hv); auto.
  Qed.
End Step.
