(** Preservation of the invariant: the pieces. *)
From Coq Require Import List Arith Bool Lia.
From Verif Require Import Base DgrModel DgrSpec DgrProofs DgrProofs2.
Import ListNotations.

Section Pres.
  Context {X : Type}.
  Notation msg := (msg X).
  Notation st := (st X).
  Variables (n : nat) (edges : list (nat * nat)) (grp : nat -> nat) (size : X -> nat)
            (urgent : msg -> bool) (batch limit : nat) (ack : bool) (otf : nat).
  Notation succ := (succ edges).
  Notation pred := (pred edges).
  Notation conns := (conns edges grp).
  Notation item := (option nat * X)%type.
  Notation InvS := (@InvS X edges grp).
  Notation InvP := (@InvP X edges grp).
  Notation InvB := (@InvB X edges grp ack otf).
  Notation InvD := (@InvD X edges grp).
  Notation InvL := (@InvL X edges grp).
  Notation InvE := (@InvE X edges).
  Notation chl := (@chl X grp).
  Notation path := (@path X grp).

  Ltac cs u' u := destruct (Nat.eq_dec u' u) as [->|?]; [rewrite ?fupd_eq in *|rewrite ?(fupd_neq) in * by assumption].

  Lemma S_data : forall O C Ch Se pre tc et u d x, InvS O C Ch Se pre tc et -> C u = false -> succ u <> [] ->
    (forall v, d = Some v -> In v (succ u)) ->
    InvS (fupd O u (O u ++ [mkMsg u d (Data x)])) C Ch (fupd Se u (Se u ++ [(d, x)])) pre tc et.
  Proof.
    intros O C Ch Se pre tc et u d x I HC Hs Hd. destruct I. constructor; auto.
    - intros u'. cs u' u; auto. rewrite dat_app, s_sent. cbn. now rewrite !app_assoc.
    - intros u'. cs u' u; auto. rewrite strip_app, dat_app, s_outq, HC. cbn. rewrite map_app, !app_nil_r. reflexivity.
    - intros u' E. cs u' u; auto. destruct (s_et _ E). congruence.
    - intros u' p v Hp E. cs u' u; [|eauto]. apply in_app_iff in Hp. destruct Hp as [Hp|[<-|[]]]; [eauto|]. apply Hd. exact E.
    - intros u' E. cs u' u; auto.
  Qed.
  Lemma S_flush : forall O C Ch Se pre tc et u, InvS O C Ch Se pre tc et -> succ u <> [] ->
    InvS (fupd O u (O u ++ [mkMsg u None Flush])) C Ch Se pre tc et.
  Proof.
    intros O C Ch Se pre tc et u I Hs. destruct I. constructor; auto.
    - intros u'. cs u' u; auto. rewrite dat_app. cbn. rewrite app_nil_r. auto.
    - intros u'. cs u' u; auto. rewrite strip_app, dat_app. cbn. rewrite !app_nil_r. auto.
    - intros u' E. cs u' u; auto. destruct (s_et _ E) as (A & B & D). rewrite strip_app, B. auto.
    - intros u' E. cs u' u; auto.
  Qed.
  Lemma S_eos : forall O C Ch Se pre tc et u, InvS O C Ch Se pre tc et -> C u = false -> succ u <> [] ->
    InvS (fupd O u (O u ++ [eos u])) (fupd C u true) Ch Se pre tc et.
  Proof.
    intros O C Ch Se pre tc et u I HC Hs. destruct I. constructor; auto.
    - intros u'. cs u' u; auto. rewrite dat_app. cbn. rewrite app_nil_r. auto.
    - intros u'. cs u' u; auto. rewrite strip_app, dat_app, s_outq, HC. cbn. rewrite !app_nil_r.
      destruct (et u) eqn:E; auto. destruct (s_et _ E). congruence.
    - intros u' E. destruct (s_et _ E) as (A & B & D). cs u' u; auto. congruence.
    - intros u' E. cs u' u; auto.
    - intros u' E. cs u' u; auto.
  Qed.
  Lemma S_take_flush : forall O C Ch Se pre tc et u m r, InvS O C Ch Se pre tc et -> O u = m :: r -> is_flush m = true ->
    InvS (fupd O u r) C Ch Se pre tc et.
  Proof.
    intros O C Ch Se pre tc et u m r I HO Hm. destruct I.
    assert (Hdr : dat (O u) = dat r). { rewrite HO. unfold is_flush in Hm. cbn. destruct (cont m); try discriminate. reflexivity. }
    assert (Hsr : strip (O u) = strip r). { rewrite HO. cbn. now rewrite Hm. }
    constructor; auto.
    - intros u'. cs u' u; auto. now rewrite <- Hdr.
    - intros u'. cs u' u; auto. now rewrite <- Hdr, <- Hsr.
    - intros u' E. cs u' u; auto. now rewrite <- Hsr; auto.
    - intros u' E. cs u' u; auto; apply s_succ; rewrite HO; discriminate.
  Qed.
  Lemma S_head : forall O C Ch Se pre tc et u m r, InvS O C Ch Se pre tc et -> O u = m :: r -> is_flush m = false ->
    (m = eos u /\ C u = true /\ et u = false /\ strip r = [] /\ dat r = []) \/
    (exists p, m = mkd u p /\ In p (Se u) /\ et u = false /\
       strip r = map (mkd u) (dat r) ++ EE u (C u && negb (et u))).
  Proof.
    intros O C Ch Se pre tc et u m r I HO Hm. destruct I.
    pose proof (s_outq u) as H. pose proof (s_sent u) as H2. rewrite HO in H, H2. cbn in H, H2. rewrite Hm in H. cbn in H.
    destruct (et u) eqn:Et.
    { destruct (s_et _ Et) as (_ & E & _). rewrite HO in E. cbn in E. rewrite Hm in E. discriminate. }
    destruct (cont m) as [x| |] eqn:Ec.
    - right. cbn in H. injection H as Hm1 Hr. exists (dest m, x). split; [exact Hm1|]. split; [|split; auto].
      rewrite H2. rewrite !in_app_iff. right. right. simpl. auto.
    - left. cbn in H. fold (dat r) in H. destruct (dat r) as [|p l] eqn:Ed.
      + cbn in H. destruct (C u) eqn:EC; cbn in H; [|discriminate]. injection H as -> Hr. auto.
      + cbn in H. injection H as H _. rewrite H in Ec. discriminate.
    - unfold is_flush in Hm. rewrite Ec in Hm. discriminate.
  Qed.
  Lemma S_take_eos : forall O C Ch Se pre tc et u m r, InvS O C Ch Se pre tc et -> O u = m :: r -> is_flush m = false ->
    m = eos u -> Ch (grp u) = None -> InvS (fupd O u r) C Ch Se pre tc (fupd et u true).
  Proof.
    intros O C Ch Se pre tc et u m r I HO Hm He Hc.
    destruct (S_head _ _ _ _ _ _ _ _ _ _ I HO Hm) as [(_ & HC & Het & Hr & Hd)|(p & E & _)]; [|subst m; discriminate].
    destruct I. assert (dat (O u) = []) by (rewrite HO, He; exact Hd).
    constructor; auto.
    - intros u'. cs u' u; auto. rewrite Hd, s_sent, H. reflexivity.
    - intros u'. cs u' u; auto. rewrite Hr, Hd. now rewrite andb_false_r.
    - intros u' E. cs u' u; auto. split; auto. split; auto. unfold DgrProofs2.chl. rewrite Hc. reflexivity.
    - intros u' E. cs u' u; auto; apply s_succ; rewrite HO; discriminate.
  Qed.
  Lemma S_take_data : forall O C Ch Se pre tc et u p r h, InvS O C Ch Se pre tc et -> O u = mkd u p :: r ->
    Ch (grp u) = None -> Pc edges grp u p h -> 
    InvS (fupd O u r) C Ch Se (fupd pre u (pre u ++ [p])) (fupd tc u (tc u ++ [h])) et.
  Proof.
    intros O C Ch Se pre tc et u p r h I HO Hc HP.
    destruct (S_head _ _ _ _ _ _ _ _ _ _ I HO eq_refl) as [(E & _)|(p' & E & Hp & Het & Hr)]; [discriminate|].
    destruct I. constructor; auto.
    - intros u'. cs u' u; auto. rewrite s_sent, HO. destruct p as (d & x). cbn.
      unfold DgrProofs2.chl. rewrite Hc. cbn. now rewrite <- app_assoc.
    - intros u'. cs u' u; auto.
    - intros u' Eu. cs u' u; [congruence|auto].
    - intros u' Eu. cs u' u; auto; apply s_succ; rewrite HO; discriminate.
    - intros u'. cs u' u; auto. apply Forall2_app; auto.
  Qed.
  Lemma chl_set : forall Ch g (m : msg) u, grp (src m) = g -> chl (fupd Ch g (Some m)) u = if src m =? u then [m] else if grp u =? g then [] else chl Ch u.
  Proof.
    intros Ch g m u H. unfold DgrProofs2.chl, fupd. destruct (Nat.eqb_spec (grp u) g) as [E|E].
    - cbn. destruct (src m =? u); reflexivity.
    - destruct (Nat.eqb_spec (src m) u); [congruence|]. reflexivity.
  Qed.
  Lemma chl_unset : forall (Ch : nat -> option msg) g u, chl (fupd Ch g None) u = if grp u =? g then [] else chl Ch u.
  Proof.
    intros Ch g u. unfold DgrProofs2.chl, fupd. destruct (Nat.eqb_spec (grp u) g) as [E|E]; reflexivity.
  Qed.
  Lemma S_choose : forall O C Ch Se pre tc et u p r, InvS O C Ch Se pre tc et -> O u = mkd u p :: r ->
    Ch (grp u) = None -> InvS (fupd O u r) C (fupd Ch (grp u) (Some (mkd u p))) Se pre tc et.
  Proof.
    intros O C Ch Se pre tc et u p r I HO Hc.
    destruct (S_head _ _ _ _ _ _ _ _ _ _ I HO eq_refl) as [(E & _)|(p' & E & Hp & Het & Hr)]; [discriminate|].
    destruct I.
    assert (HE : forall u', u' <> u -> chl (fupd Ch (grp u) (Some (mkd u p))) u' = chl Ch u').
    { intros u' N. rewrite chl_set by reflexivity. cbn. destruct (Nat.eqb_spec u u'); [congruence|].
      destruct (Nat.eqb_spec (grp u') (grp u)) as [Eg|]; auto. unfold DgrProofs2.chl. rewrite Eg, Hc. reflexivity. }
    constructor; auto.
    - intros u'. cs u' u; [|rewrite HE; auto]. rewrite s_sent, HO. destruct p as (d & x). rewrite chl_set by reflexivity.
      cbn. rewrite Nat.eqb_refl. unfold DgrProofs2.chl. rewrite Hc. reflexivity.
    - intros u'. cs u' u; auto.
    - intros u' Eu. cs u' u; [congruence|]. rewrite HE; auto.
    - intros u' Eu. cs u' u; auto; apply s_succ; rewrite HO; discriminate.
  Qed.
  Lemma S_chosen : forall O C Ch Se pre tc et u p h, InvS O C Ch Se pre tc et -> Ch (grp u) = Some (mkd u p) ->
    Pc edges grp u p h ->
    InvS O C (fupd Ch (grp u) None) Se (fupd pre u (pre u ++ [p])) (fupd tc u (tc u ++ [h])) et /\ et u = false /\ In p (Se u).
  Proof.
    intros O C Ch Se pre tc et u p h I Hc HP.
    destruct I. assert (Hcu : chl Ch u = [mkd u p]). { unfold DgrProofs2.chl. rewrite Hc. cbn. now rewrite Nat.eqb_refl. }
    assert (Et : et u = false). { destruct (et u) eqn:E; auto. destruct (s_et _ E) as (_ & _ & H). congruence. }
    assert (HE : forall u', u' <> u -> chl (fupd Ch (grp u) None) u' = chl Ch u').
    { intros u' N. rewrite chl_unset. destruct (Nat.eqb_spec (grp u') (grp u)) as [Eg|]; auto. unfold DgrProofs2.chl.
      rewrite Eg, Hc. cbn. destruct (Nat.eqb_spec u u'); [congruence|]. reflexivity. }
    split; [|split; auto; rewrite s_sent, Hcu; destruct p; cbn; rewrite in_app_iff; simpl; auto].
    constructor; auto.
    - intros u'. cs u' u; [|rewrite HE; auto]. rewrite s_sent, Hcu. rewrite chl_unset, Nat.eqb_refl. destruct p as (d & x).
      cbn. now rewrite <- app_assoc.
    - intros u' E. cs u' u; [congruence|]. rewrite HE; auto.
    - intros u'. cs u' u; auto. apply Forall2_app; auto.
  Qed.

  (** Paths. *)
  Lemma P_same : forall rb net pend buf rb' net' pend' buf' pre tc et dd de,
    InvP rb net pend buf pre tc et dd de -> (forall u h, path rb' net' pend' buf' u h = path rb net pend buf u h) ->
    InvP rb' net' pend' buf' pre tc et dd de.
  Proof. intros until de. intros I H u h. rewrite H. apply I. Qed.

  Lemma path_push : forall (rb : nat -> list msg) net pend buf pend' buf' g hs m,
    (forall g' h', g' <> g -> buf' g' h' = buf g' h') -> (forall g', g' <> g -> pend' g' = pend g') ->
    (forall h', pendfor h' (pend' g) ++ buf' g h' = pendfor h' (pend g) ++ buf g h' ++ hasm h' hs m) ->
    grp (src m) = g ->
    forall u h, path rb net pend' buf' u h = path rb net pend buf u h ++ (if (src m =? u) && mem h hs then [m] else []).
  Proof.
    intros rb net pend buf pend' buf' g hs m H1 H2 H3 Hg u h. unfold DgrProofs2.path.
    rewrite <- !app_assoc. f_equal. f_equal. destruct (Nat.eq_dec (grp u) g) as [E|E].
    - rewrite E, H3, app_assoc, ofsrc_app. f_equal. unfold hasm. destruct (mem h hs); cbn; [|now rewrite andb_false_r].
      destruct (src m =? u); reflexivity.
    - rewrite H1, H2 by exact E. destruct (Nat.eqb_spec (src m) u) as [<-|]; [congruence|]. cbn. now rewrite app_nil_r.
  Qed.
  Lemma P_data : forall rb net pend buf pend' buf' pre tc et dd de u p h,
    InvP rb net pend buf pre tc et dd de -> length (pre u) = length (tc u) -> et u = false ->
    (forall u' h', path rb net pend' buf' u' h' = path rb net pend buf u' h' ++ (if (u =? u') && mem h' [h] then [mkd u p] else [])) ->
    InvP rb net pend' buf' (fupd pre u (pre u ++ [p])) (fupd tc u (tc u ++ [h])) et dd de.
  Proof.
    intros rb net pend buf pend' buf' pre tc et dd de u p h I Hl Het H u' h'. rewrite H. specialize (I u' h').
    cs u' u.
    - rewrite Nat.eqb_refl. cbn [andb]. rewrite picks_snoc by auto. rewrite Het in *. cbn [andb EE] in *. rewrite app_nil_r in *.
      rewrite map_app, I, <- !app_assoc. f_equal. f_equal. f_equal. cbn. rewrite orb_false_r, (Nat.eqb_sym h' h).
      destruct (h =? h'); reflexivity.
    - destruct (Nat.eqb_spec u u'); [congruence|]. cbn. rewrite app_nil_r. exact I.
  Qed.
  Lemma P_eos : forall rb net pend buf pend' buf' pre tc et dd de u,
    InvP rb net pend buf pre tc et dd de -> et u = false ->
    (forall u' h', path rb net pend' buf' u' h' = path rb net pend buf u' h' ++ (if (u =? u') && mem h' (conns u) then [eos u] else [])) ->
    InvP rb net pend' buf' pre tc (fupd et u true) dd de.
  Proof.
    intros rb net pend buf pend' buf' pre tc et dd de u I Het H u' h'. rewrite H. specialize (I u' h').
    cs u' u.
    - rewrite Nat.eqb_refl. cbn [andb]. rewrite Het in *. cbn [andb EE] in *. rewrite app_nil_r in I. rewrite I.
      rewrite <- !app_assoc. f_equal.
    - destruct (Nat.eqb_spec u u'); [congruence|]. cbn. rewrite app_nil_r. exact I.
  Qed.
End Pres.
