(** Proofs about DynqModel.v (property C09). *)
From Coq Require Import List Arith Bool Lia.
From Verif Require Import Base LinSpec DynqModel.
Import ListNotations.

Fixpoint linked (nx : nat -> option nat) (l : list nat) : Prop :=
  match l with
  | [] => False
  | a :: r => match r with [] => nx a = None | b :: _ => nx a = Some b /\ linked nx r end
  end.

Lemma linked_ext : forall nx nx' l, (forall a, In a l -> nx' a = nx a) -> linked nx l -> linked nx' l.
Proof.
  intros nx nx' l. induction l as [|a [|b r] IH]; cbn [linked]; auto.
  - intros H. rewrite H by (cbn; auto). auto.
  - intros H [H1 H2]. split; [rewrite H by (cbn; auto); auto|]. apply IH; auto.
    intros c Hc. apply H. right. exact Hc.
Qed.

Lemma linked_last : forall nx pre b, linked nx (pre ++ [b]) -> nx b = None.
Proof.
  intros nx pre. induction pre as [|a r IH]; intros b H; [exact H|].
  destruct r as [|c r]; cbn in H; [apply (IH b); tauto|]. apply IH. cbn. tauto.
Qed.

Lemma linked_snoc : forall nx pre b n, NoDup (pre ++ [b]) -> ~ In n (pre ++ [b]) -> nx n = None ->
  linked nx (pre ++ [b]) -> linked (fupd nx b (Some n)) (pre ++ [b; n]).
Proof.
  intros nx pre. induction pre as [|a r IH]; intros b n ND Hn Hx H.
  - cbn. rewrite fupd_eq. split; auto. rewrite fupd_neq; auto. intro; subst; apply Hn; cbn; auto.
  - cbn [app] in *. assert (Hab : a <> b).
    { inversion ND; subst. intro; subst. apply H2. apply in_or_app. right; cbn; auto. }
    assert (R : linked (fupd nx b (Some n)) (r ++ [b; n])).
    { apply IH. inversion ND; auto. intro; apply Hn; cbn; auto. auto.
      destruct r as [|c r]; cbn in H; cbn; tauto. }
    destruct r as [|c r]; cbn in *; (split; [rewrite fupd_neq by auto; tauto|tauto]).
Qed.

Lemma NoDup_app_sub : forall (A : Type) (l r : list A), NoDup (l ++ r) -> NoDup l /\ NoDup r.
Proof.
  intros A l r. induction l as [|a l IH]; cbn; intros H; [split; [constructor|auto]|].
  inversion H; subst. destruct (IH H3). split; auto. constructor; auto. intro; apply H2. apply in_or_app; auto.
Qed.

Section Proofs.
  Context {A : Type}.
  Notation dq := (dq A). Notation pc := (pc A).

  Definition own (p : pc) : option nat :=
    match p with
    | PData _ n | PNext _ n | PLock _ n | PLink _ n | CCache _ n | CFree _ n => Some n
    | CUnlock _ f => f
    | _ => None
    end.
  Definition inP (p : pc) : bool := match p with PLink _ _ | PTail _ | PUnlock => true | _ => false end.
  Definition inC (p : pc) : bool :=
    match p with CTest | CRead | CHead _ | CCache _ _ | CUnlock _ _ | CFail => true | _ => false end.
  Definition stat (p : pc) : status A :=
    match p with
    | DIdle | CFail => Idle
    | PAlloc x | PMalloc x | PData x _ | PNext x _ | PLock x _ | PLink x _ => WantPush x
    | PTail _ | PUnlock => DidPush
    | CLock | CTest | CRead | CHead _ => WantPop
    | CCache v _ | CUnlock v _ | CFree v _ => DidPop v
    end.
  (** What a thread knows about the memory at each point. *)
  Definition know (s : dq) (rest : list nat) (p : pc) : Prop :=
    match p with
    | PNext x n => ndata s n = x
    | PLock x n | PLink x n => ndata s n = x /\ nnext s n = None
    | PTail n => exists pre, head s :: rest = pre ++ [n]
    | CRead => rest <> []
    | CHead v => exists m r, rest = m :: r /\ ndata s m = v
    | _ => True
    end.
  Definition isT (p : pc) : bool := match p with PTail _ => true | _ => false end.

  Definition lst (s : dq) (rest : list nat) := head s :: rest ++ cache s.

  Record inv (s : dq) (rest : list nat) (th : nat -> status A) : Prop := {
    i_lnk : linked (nnext s) (head s :: rest);
    i_lin : lins None false [] (fun _ => Idle) (tr s) (map (ndata s) rest) th;
    i_th : forall t, th t = stat (dp s t);
    i_nd : NoDup (lst s rest);
    i_own : forall t n, own (dp s t) = Some n -> ~ In n (lst s rest) /\ live s n = true;
    i_uni : forall t u n, own (dp s t) = Some n -> own (dp s u) = Some n -> t = u;
    i_live : forall n, In n (lst s rest) -> live s n = true;
    i_leak : forall n, live s n = true -> In n (lst s rest) \/ exists t, own (dp s t) = Some n;
    i_lkP : forall t, lkP s = Some t <-> inP (dp s t) = true;
    i_lkC : forall t, lkC s = Some t <-> inC (dp s t) = true;
    i_know : forall t, know s rest (dp s t);
    i_tail : (forall t, isT (dp s t) = false) -> exists pre, head s :: rest = pre ++ [tail s] }.
  Definition Inv s := exists rest th, inv s rest th.

  Lemma Inv_init : forall d0 x0 h c, NoDup (h :: c) -> Inv (dq_init d0 x0 h c).
  Proof.
    intros d0 x0 h c ND. exists [], (fun _ => Idle). constructor; unfold dq_init, lst; cbn;
      try (intros; discriminate); auto.
    - apply fupd_eq.
    - constructor.
    - intros n [->|H]; [rewrite Nat.eqb_refl; auto|]. apply orb_true_iff. right. apply existsb_exists.
      exists n. split; auto. apply Nat.eqb_refl.
    - intros n H. left. apply orb_true_iff in H. destruct H as [H|H]; [apply Nat.eqb_eq in H; auto|].
      apply existsb_exists in H. destruct H as (m & Hm & E). apply Nat.eqb_eq in E. subst; auto.
    - split; discriminate.
    - split; discriminate.
    - intros _. exists []. reflexivity.
  Qed.

  Ltac fu := repeat (rewrite fupd_eq in * || rewrite fupd_neq in * by auto).

  (** Lemma for the thread part: thread [t] moves to [p'], emitting [es]. *)
  Lemma th_upd : forall (s : dq) th t p', (forall u, th u = stat (dp s u)) ->
    forall u, fupd th t (stat p') u = stat (fupd (dp s) t p' u).
  Proof. intros. destruct (Nat.eq_dec u t) as [->|N]; fu; auto. Qed.

  Lemma lins_keep : forall c r (th th' : nat -> status A) q tr q0 th0,
    lins c r q0 th0 tr q th -> (forall u, th' u = th u) ->
    (forall e q2 th2, lin c r q th e q2 th2 -> lins c r q0 th0 (tr ++ [e]) q2 th2).
  Proof. intros. eapply lins_snoc; eauto. Qed.

  (** Steps which leave memory, list, cache and locks alone. *)
  Lemma Inv_local : forall s rest th t p' es th',
    inv s rest th -> own p' = own (dp s t) -> inP p' = inP (dp s t) -> inC p' = inC (dp s t) ->
    isT p' = isT (dp s t) -> know s rest p' ->
    lins None false [] (fun _ => Idle) (tr s ++ es) (map (ndata s) rest) th' ->
    (forall u, th' u = stat (fupd (dp s) t p' u)) ->
    inv (mkD (ndata s) (nnext s) (live s) (head s) (tail s) (cache s) (lkP s) (lkC s) (fupd (dp s) t p') (tr s ++ es))
        rest th'.
  Proof.
    intros s rest th t p' es th' I Eo EP EC ET K L Hth. destruct I.
    assert (O : forall u, own (fupd (dp s) t p' u) = own (dp s u))
      by (intro u; destruct (Nat.eq_dec u t) as [->|N]; fu; auto).
    constructor; unfold lst in *; cbn [ndata nnext live head tail cache lkP lkC dp tr]; auto.
    - intros u n. rewrite O. apply i_own0.
    - intros u v n. rewrite !O. eauto.
    - intros n H. destruct (i_leak0 n H) as [|[u Hu]]; auto. right. exists u. rewrite O. auto.
    - intros u. destruct (Nat.eq_dec u t) as [->|N]; fu; [rewrite EP|]; apply i_lkP0.
    - intros u. destruct (Nat.eq_dec u t) as [->|N]; fu; [rewrite EC|]; apply i_lkC0.
    - intros u. destruct (Nat.eq_dec u t) as [->|N]; fu; [exact K|]. exact (i_know0 u).
    - intros H. apply i_tail0. intros u. specialize (H u).
      destruct (Nat.eq_dec u t) as [->|N]; fu; congruence.
  Qed.

  Lemma Inv_go : forall s rest th t p',
    inv s rest th -> own p' = own (dp s t) -> inP p' = inP (dp s t) -> inC p' = inC (dp s t) ->
    isT p' = isT (dp s t) -> stat p' = stat (dp s t) -> know s rest p' ->
    inv (go s t p') rest th.
  Proof.
    intros s rest th t p' I Eo EP EC ET ES K. unfold go.
    assert (H := Inv_local s rest th t p' [] th I Eo EP EC ET K). rewrite app_nil_r in H. apply H.
    - exact (i_lin _ _ _ I).
    - intros u. rewrite (i_th _ _ _ I). destruct (Nat.eq_dec u t) as [->|N]; fu; auto.
  Qed.

  Lemma Inv_goe : forall s rest th t p' e,
    inv s rest th -> own p' = own (dp s t) -> inP p' = inP (dp s t) -> inC p' = inC (dp s t) ->
    isT p' = isT (dp s t) -> know s rest p' ->
    lin None false (map (ndata s) rest) th e (map (ndata s) rest) (fupd th t (stat p')) ->
    inv (goe s t p' e) rest (fupd th t (stat p')).
  Proof.
    intros s rest th t p' e I Eo EP EC ET K L. unfold goe. eapply Inv_local; eauto.
    - eapply lins_snoc; [exact (i_lin _ _ _ I)|exact L].
    - apply th_upd. exact (i_th _ _ _ I).
  Qed.

  Lemma in_lst_mem : forall (s : dq) rest n, In n (head s :: rest) -> In n (lst s rest).
  Proof. intros. unfold lst. cbn in *. destruct H; auto. right. apply in_or_app; auto. Qed.

  Lemma map_ext_in' : forall (f g : nat -> A) l, (forall a, In a l -> f a = g a) -> map f l = map g l.
  Proof. intros. apply map_ext_in. auto. Qed.

  Lemma Inv_step : forall s a s', Inv s -> dstep s a = Some s' -> Inv s'.
  Proof.
    intros s a s' (rest & th & I) H. destruct a as [t x|t|t hit addr]; cbn in H.
    - destruct (dp s t) eqn:P; try discriminate. injection H as <-.
      exists rest, (fupd th t (WantPush x)). apply (Inv_goe s rest th t (PAlloc x)); rewrite ?P; auto; try exact Logic.I.
      apply lin_call_push. rewrite (i_th _ _ _ I), P. reflexivity.
    - destruct (dp s t) eqn:P; try discriminate. injection H as <-.
      exists rest, (fupd th t WantPop). apply (Inv_goe s rest th t CLock); rewrite ?P; auto; try exact Logic.I.
      apply lin_call_pop. rewrite (i_th _ _ _ I), P. reflexivity.
    - destruct (dp s t) eqn:P; try discriminate.
      + (* PAlloc *)
        destruct (lkP s) eqn:LP; try discriminate. destruct hit; [|injection H as <-; exists rest, th; apply Inv_go; rewrite ?P; auto; exact Logic.I].
        destruct (cache s) as [|n c] eqn:C; injection H as <-; [exists rest, th; apply Inv_go; rewrite ?P; auto; exact Logic.I|].
        exists rest, th. destruct I. unfold lst in *. rewrite C in *.
        assert (PM : NoDup (n :: head s :: rest ++ c)) by (apply (NoDup_Add (a := n) (l := head s :: rest ++ c)) in i_nd0;
          [constructor; tauto|apply (Add_app n (head s :: rest) c)]).
        constructor; unfold lst; cbn [ndata nnext live head tail cache lkP lkC dp tr]; auto.
        * intros u. rewrite i_th0. destruct (Nat.eq_dec u t) as [->|N]; fu; auto. rewrite P; auto.
        * inversion PM; auto.
        * intros u m. destruct (Nat.eq_dec u t) as [->|N]; fu.
          -- cbn. intro E; injection E as <-. split; [inversion PM; auto|]. apply i_live0. cbn. right. apply in_or_app; cbn; auto.
          -- intros Hm. destruct (i_own0 _ _ Hm) as [Ha Hb]. split; auto. intro Hin. apply Ha. cbn in *.
             destruct Hin as [|Hin]; auto. right. apply in_app_or in Hin. apply in_or_app. cbn. tauto.
        * assert (F : forall u m, u <> t -> own (dp s u) = Some m -> m <> n).
          { intros u m N Hm ->. destruct (i_own0 _ _ Hm) as [Ha _]. apply Ha. cbn. right. apply in_or_app; cbn; auto. }
          intros u v m. destruct (Nat.eq_dec u t) as [->|N]; destruct (Nat.eq_dec v t) as [->|N']; fu; eauto; cbn; intros.
          -- exfalso. apply (F v m); auto; congruence.
          -- exfalso. apply (F u m); auto; congruence.
        * intros m Hm. apply i_live0. cbn in *. destruct Hm as [|Hm]; auto. right. apply in_app_or in Hm. apply in_or_app; cbn; tauto.
        * intros m Hm. destruct (i_leak0 m Hm) as [Hin|[u Hu]].
          -- cbn in Hin. destruct Hin as [|Hin]; [left; cbn; auto|]. apply in_app_or in Hin. destruct Hin as [Hin|[Hin|Hin]].
             ++ left. right. apply in_or_app; auto.
             ++ right. exists t. fu. subst; auto.
             ++ left. right. apply in_or_app; auto.
          -- right. exists u. destruct (Nat.eq_dec u t) as [->|N]; fu; auto. rewrite P in Hu. discriminate.
        * intros u. rewrite <- LP. rewrite i_lkP0. destruct (Nat.eq_dec u t) as [->|N]; fu; [rewrite P|]; reflexivity.
        * intros u. rewrite i_lkC0. destruct (Nat.eq_dec u t) as [->|N]; fu; [rewrite P|]; reflexivity.
        * intros u. destruct (Nat.eq_dec u t) as [->|N]; fu; [exact Logic.I|exact (i_know0 u)].
        * intros Hu. apply i_tail0. intros u. specialize (Hu u). destruct (Nat.eq_dec u t) as [->|N]; fu; [rewrite P|]; auto.
      + (* PMalloc *)
        destruct (live s addr) eqn:LA; try discriminate. injection H as <-. exists rest, th. destruct I. unfold lst in *.
        assert (NA : ~ In addr (lst s rest)) by (intro Hin; rewrite (i_live0 _ Hin) in LA; discriminate).
        assert (FL : forall m, live s m = true -> fupd (live s) addr true m = true)
          by (intros m Hm; destruct (Nat.eq_dec m addr) as [->|N]; fu; auto).
        constructor; unfold lst; cbn [ndata nnext live head tail cache lkP lkC dp tr]; auto.
        * intros u. rewrite i_th0. destruct (Nat.eq_dec u t) as [->|N]; fu; auto. rewrite P; auto.
        * intros u m. destruct (Nat.eq_dec u t) as [->|N]; fu.
          -- cbn. intro E; injection E as <-. fu. split; auto.
          -- intros Hm. destruct (i_own0 _ _ Hm). auto.
        * assert (F : forall u m, own (dp s u) = Some m -> m <> addr)
            by (intros u m Hm ->; destruct (i_own0 _ _ Hm); congruence).
          intros u v m. destruct (Nat.eq_dec u t) as [->|N]; destruct (Nat.eq_dec v t) as [->|N']; fu; eauto; cbn; intros.
          -- exfalso. apply (F v m); auto; congruence.
          -- exfalso. apply (F u m); auto; congruence.
        * intros m Hm. destruct (Nat.eq_dec m addr) as [->|N]; fu; [right; exists t; fu; auto|].
          destruct (i_leak0 m Hm) as [|[u Hu]]; auto. right. exists u.
          destruct (Nat.eq_dec u t) as [->|N']; fu; auto. rewrite P in Hu. discriminate.
        * intros u. rewrite i_lkP0. destruct (Nat.eq_dec u t) as [->|N]; fu; [rewrite P|]; reflexivity.
        * intros u. rewrite i_lkC0. destruct (Nat.eq_dec u t) as [->|N]; fu; [rewrite P|]; reflexivity.
        * intros u. destruct (Nat.eq_dec u t) as [->|N]; fu; [exact Logic.I|exact (i_know0 u)].
        * intros Hu. apply i_tail0. intros u. specialize (Hu u). destruct (Nat.eq_dec u t) as [->|N]; fu; [rewrite P|]; auto.
      + (* PData *)
        injection H as <-. assert (O := i_own _ _ _ I t n). rewrite P in O. destruct (O eq_refl) as [On Ol].
        assert (U : forall u m, u <> t -> own (dp s u) = Some m -> m <> n).
        { intros u m N Hm ->. apply N. apply (i_uni _ _ _ I u t n); auto. rewrite P; auto. }
        assert (ND : forall m, In m (head s :: rest) -> m <> n)
          by (intros m Hm ->; apply On; apply in_lst_mem; auto).
        exists rest, th. destruct I. unfold lst in *.
        constructor; unfold lst; cbn [ndata nnext live head tail cache lkP lkC dp tr]; auto.
        * rewrite (map_ext_in' (fupd (ndata s) n x) (ndata s)); auto. intros a Ha. apply fupd_neq. apply ND. cbn; auto.
        * intros u. rewrite i_th0. destruct (Nat.eq_dec u t) as [->|N]; fu; auto. rewrite P; auto.
        * intros u m. destruct (Nat.eq_dec u t) as [->|N]; fu; [cbn; intro E; injection E as <-; auto|apply i_own0].
        * intros u v m. destruct (Nat.eq_dec u t) as [->|N]; destruct (Nat.eq_dec v t) as [->|N']; fu; eauto; cbn; intros.
          -- exfalso. apply (U v m); auto; congruence.
          -- exfalso. apply (U u m); auto; congruence.
        * intros m Hm. destruct (i_leak0 m Hm) as [|[u Hu]]; auto. right.
          exists u. destruct (Nat.eq_dec u t) as [->|N]; fu; auto. rewrite P in Hu. auto.
        * intros u. rewrite i_lkP0. destruct (Nat.eq_dec u t) as [->|N]; fu; [rewrite P|]; reflexivity.
        * intros u. rewrite i_lkC0. destruct (Nat.eq_dec u t) as [->|N]; fu; [rewrite P|]; reflexivity.
        * intros u. destruct (Nat.eq_dec u t) as [->|N]; fu; [cbn; apply fupd_eq|].
          assert (K := i_know0 u). destruct (dp s u) eqn:Pu; cbn in *; auto;
            try (assert (n0 <> n) by (apply (U u); auto; rewrite Pu; auto); fu; auto).
          destruct K as (m & r & K1 & K2). exists m, r. split; auto. rewrite fupd_neq; auto. apply ND. subst; cbn; auto.
        * intros Hu. apply i_tail0. intros u. specialize (Hu u). destruct (Nat.eq_dec u t) as [->|N]; fu; [rewrite P|]; auto.
      + (* PNext *)
        injection H as <-. assert (O := i_own _ _ _ I t n). rewrite P in O. destruct (O eq_refl) as [On Ol].
        assert (U : forall u m, u <> t -> own (dp s u) = Some m -> m <> n).
        { intros u m N Hm ->. apply N. apply (i_uni _ _ _ I u t n); auto. rewrite P; auto. }
        assert (ND : forall m, In m (head s :: rest) -> m <> n)
          by (intros m Hm ->; apply On; apply in_lst_mem; auto).
        assert (Kt := i_know _ _ _ I t). rewrite P in Kt. cbn in Kt.
        exists rest, th. destruct I. unfold lst in *.
        constructor; unfold lst; cbn [ndata nnext live head tail cache lkP lkC dp tr]; auto.
        * eapply linked_ext; [|exact i_lnk0]. intros a Ha. apply fupd_neq. apply ND; auto.
        * intros u. rewrite i_th0. destruct (Nat.eq_dec u t) as [->|N]; fu; auto. rewrite P; auto.
        * intros u m. destruct (Nat.eq_dec u t) as [->|N]; fu; [cbn; intro E; injection E as <-; auto|apply i_own0].
        * intros u v m. destruct (Nat.eq_dec u t) as [->|N]; destruct (Nat.eq_dec v t) as [->|N']; fu; eauto; cbn; intros.
          -- exfalso. apply (U v m); auto; congruence.
          -- exfalso. apply (U u m); auto; congruence.
        * intros m Hm. destruct (i_leak0 m Hm) as [|[u Hu]]; auto. right.
          exists u. destruct (Nat.eq_dec u t) as [->|N]; fu; auto. rewrite P in Hu. auto.
        * intros u. rewrite i_lkP0. destruct (Nat.eq_dec u t) as [->|N]; fu; [rewrite P|]; reflexivity.
        * intros u. rewrite i_lkC0. destruct (Nat.eq_dec u t) as [->|N]; fu; [rewrite P|]; reflexivity.
        * intros u. destruct (Nat.eq_dec u t) as [->|N]; fu; [cbn; rewrite fupd_eq; auto|].
          assert (K := i_know0 u). destruct (dp s u) eqn:Pu; cbn in *; auto;
            try (assert (n0 <> n) by (apply (U u); auto; rewrite Pu; auto); fu; auto).
        * intros Hu. apply i_tail0. intros u. specialize (Hu u). destruct (Nat.eq_dec u t) as [->|N]; fu; [rewrite P|]; auto.
      + (* PLock *)
        destruct (lkP s) eqn:LP; try discriminate. injection H as <-.
        assert (Kt := i_know _ _ _ I t). rewrite P in Kt. cbn in Kt.
        exists rest, th. destruct I. unfold lst in *.
        constructor; unfold lst; cbn [ndata nnext live head tail cache lkP lkC dp tr]; auto.
        * intros u. rewrite i_th0. destruct (Nat.eq_dec u t) as [->|N]; fu; auto. rewrite P; auto.
        * intros u m. destruct (Nat.eq_dec u t) as [->|N]; fu; [intro E; apply (i_own0 t m); rewrite P; auto|apply i_own0].
        * intros u v m. assert (O : forall w, own (fupd (dp s) t (PLink x n) w) = own (dp s w))
            by (intro w; destruct (Nat.eq_dec w t) as [->|N]; fu; auto; rewrite P; auto). rewrite !O. eauto.
        * intros m Hm. destruct (i_leak0 m Hm) as [|[u Hu]]; auto. right.
          exists u. destruct (Nat.eq_dec u t) as [->|N]; fu; auto. rewrite P in Hu. auto.
        * intros u. destruct (Nat.eq_dec u t) as [->|N]; fu; [cbn; tauto|].
          rewrite <- i_lkP0. split; congruence.
        * intros u. rewrite i_lkC0. destruct (Nat.eq_dec u t) as [->|N]; fu; [rewrite P|]; reflexivity.
        * intros u. destruct (Nat.eq_dec u t) as [->|N]; fu; [exact Kt|exact (i_know0 u)].
        * intros Hu. apply i_tail0. intros u. specialize (Hu u). destruct (Nat.eq_dec u t) as [->|N]; fu; [rewrite P|]; auto.
      + (* PLink *)
        injection H as <-. assert (O := i_own _ _ _ I t n). rewrite P in O. destruct (O eq_refl) as [On Ol].
        assert (U : forall u m, u <> t -> own (dp s u) = Some m -> m <> n).
        { intros u m N Hm ->. apply N. apply (i_uni _ _ _ I u t n); auto. rewrite P; auto. }
        assert (Kt := i_know _ _ _ I t). rewrite P in Kt. cbn in Kt. destruct Kt as [Kd Kn].
        assert (LP : lkP s = Some t) by (apply (i_lkP _ _ _ I); rewrite P; auto).
        assert (NT : forall u, isT (dp s u) = false).
        { intros u. destruct (isT (dp s u)) eqn:E; auto. assert (lkP s = Some u).
          { apply (i_lkP _ _ _ I). destruct (dp s u); try discriminate. auto. }
          assert (u = t) by congruence. subst. rewrite P in E. discriminate. }
        destruct (i_tail _ _ _ I NT) as (pre & Hpre).
        exists (rest ++ [n]), (fupd th t DidPush). destruct I. unfold lst in *.
        assert (Nn : ~ In n (head s :: rest)) by (intro Hin; apply On; apply in_lst_mem; auto).
        assert (ND1 : NoDup (head s :: rest)).
        { change (NoDup ((head s :: rest) ++ cache s)) in i_nd0. apply NoDup_app_sub in i_nd0. tauto. }
        assert (MV : forall m, In m (head s :: (rest ++ [n]) ++ cache s) <-> m = n \/ In m (head s :: rest ++ cache s)).
        { intros m. cbn. rewrite !in_app_iff. cbn. intuition congruence. }
        constructor; unfold lst; cbn [ndata nnext live head tail cache lkP lkC dp tr]; auto.
        * change (head s :: rest ++ [n]) with ((head s :: rest) ++ [n]). rewrite Hpre, <- app_assoc. cbn [app].
          apply linked_snoc; auto; rewrite <- Hpre; auto.
        * rewrite map_app. cbn. eapply lins_snoc; [exact i_lin0|]. rewrite Kd. apply lin_push; [|exact Logic.I].
          rewrite i_th0, P. reflexivity.
        * apply (th_upd s th t (PTail n)). auto.
        * rewrite <- app_assoc. cbn [app]. change (NoDup ((head s :: rest) ++ n :: cache s)).
          apply (NoDup_Add (a := n) (l := (head s :: rest) ++ cache s)); [apply Add_app|]. split; auto.
        * intros u m. destruct (Nat.eq_dec u t) as [->|N]; fu; [discriminate|].
          intros Hm. destruct (i_own0 u m Hm) as [Ha Hb]. split; auto. rewrite MV. intros [->|Hin]; auto.
          apply (U u n); auto.
        * intros u v m. destruct (Nat.eq_dec u t) as [->|N]; destruct (Nat.eq_dec v t) as [->|N']; fu; eauto; discriminate.
        * intros m. rewrite MV. intros [->|Hm]; auto.
        * intros m Hm. rewrite MV. destruct (i_leak0 m Hm) as [|[u Hu]]; auto.
          destruct (Nat.eq_dec u t) as [->|N]; [rewrite P in Hu; injection Hu as ->; auto|].
          right. exists u. fu. auto.
        * intros u. rewrite i_lkP0. destruct (Nat.eq_dec u t) as [->|N]; fu; [rewrite P|]; reflexivity.
        * intros u. rewrite i_lkC0. destruct (Nat.eq_dec u t) as [->|N]; fu; [rewrite P|]; reflexivity.
        * intros u. destruct (Nat.eq_dec u t) as [->|N]; fu; [exists (head s :: rest); auto|].
          assert (TA : In (tail s) (head s :: rest)) by (rewrite Hpre; apply in_or_app; cbn; auto).
          assert (K := i_know0 u). destruct (dp s u) eqn:Pu; cbn in *; auto.
          -- split; [tauto|]. rewrite fupd_neq; [tauto|]. intro; subst. 
             assert (Q := i_own0 u (tail s)). rewrite Pu in Q. destruct (Q eq_refl) as [Q1 _]. apply Q1.
             destruct TA; auto. right; apply in_or_app; auto.
          -- exfalso. apply N. assert (lkP s = Some u) by (apply i_lkP0; rewrite Pu; auto). congruence.
          -- exfalso. specialize (NT u). rewrite Pu in NT. discriminate.
          -- destruct rest; discriminate.
          -- destruct K as (m & r & -> & K2). exists m, (r ++ [n]). auto.
        * intros Hu. specialize (Hu t). fu. discriminate.
      + (* PTail *)
        injection H as <-. 
        assert (Kt := i_know _ _ _ I t). rewrite P in Kt. cbn in Kt.
        exists rest, th. destruct I. unfold lst in *.
        assert (O : forall w, own (fupd (dp s) t PUnlock w) = own (dp s w))
            by (intro w; destruct (Nat.eq_dec w t) as [->|N]; fu; auto; rewrite P; auto).
        constructor; unfold lst; cbn [ndata nnext live head tail cache lkP lkC dp tr]; auto.
        * intros u. rewrite i_th0. destruct (Nat.eq_dec u t) as [->|N]; fu; auto. rewrite P; auto.
        * intros u m. rewrite O. apply i_own0.
        * intros u v m. rewrite !O. eauto.
        * intros m Hm. destruct (i_leak0 m Hm) as [|[u Hu]]; auto. right. exists u. rewrite O. auto.
        * intros u. rewrite i_lkP0. destruct (Nat.eq_dec u t) as [->|N]; fu; [rewrite P|]; reflexivity.
        * intros u. rewrite i_lkC0. destruct (Nat.eq_dec u t) as [->|N]; fu; [rewrite P|]; reflexivity.
        * intros u. destruct (Nat.eq_dec u t) as [->|N]; fu; [exact Logic.I|exact (i_know0 u)].
      + (* PUnlock *)
        injection H as <-. exists rest, (fupd th t Idle). destruct I. unfold lst in *.
        assert (O : forall w, own (fupd (dp s) t DIdle w) = own (dp s w))
            by (intro w; destruct (Nat.eq_dec w t) as [->|N]; fu; auto; rewrite P; auto).
        assert (LP : lkP s = Some t) by (apply i_lkP0; rewrite P; auto).
        constructor; unfold lst; cbn [ndata nnext live head tail cache lkP lkC dp tr]; auto.
        * eapply lins_snoc; [exact i_lin0|]. apply lin_ret_push. rewrite i_th0, P. reflexivity.
        * apply (th_upd s th t DIdle). auto.
        * intros u m. rewrite O. apply i_own0.
        * intros u v m. rewrite !O. eauto.
        * intros m Hm. destruct (i_leak0 m Hm) as [|[u Hu]]; auto. right. exists u. rewrite O. auto.
        * intros u. destruct (Nat.eq_dec u t) as [->|N]; fu; [split; discriminate|]. rewrite <- i_lkP0. split; congruence.
        * intros u. rewrite i_lkC0. destruct (Nat.eq_dec u t) as [->|N]; fu; [rewrite P|]; reflexivity.
        * intros u. destruct (Nat.eq_dec u t) as [->|N]; fu; [exact Logic.I|exact (i_know0 u)].
        * intros Hu. apply i_tail0. intros u. specialize (Hu u). destruct (Nat.eq_dec u t) as [->|N]; fu; [rewrite P|]; auto.
      + (* CLock *)
        destruct (lkC s) eqn:LC; try discriminate. injection H as <-. exists rest, th. destruct I. unfold lst in *.
        assert (O : forall w, own (fupd (dp s) t CTest w) = own (dp s w))
            by (intro w; destruct (Nat.eq_dec w t) as [->|N]; fu; auto; rewrite P; auto).
        constructor; unfold lst; cbn [ndata nnext live head tail cache lkP lkC dp tr]; auto.
        * intros u. rewrite i_th0. destruct (Nat.eq_dec u t) as [->|N]; fu; auto. rewrite P; auto.
        * intros u m. rewrite O. apply i_own0.
        * intros u v m. rewrite !O. eauto.
        * intros m Hm. destruct (i_leak0 m Hm) as [|[u Hu]]; auto. right. exists u. rewrite O. auto.
        * intros u. rewrite i_lkP0. destruct (Nat.eq_dec u t) as [->|N]; fu; [rewrite P|]; reflexivity.
        * intros u. destruct (Nat.eq_dec u t) as [->|N]; fu; [cbn; tauto|].
          rewrite <- i_lkC0. split; congruence.
        * intros u. destruct (Nat.eq_dec u t) as [->|N]; fu; [exact Logic.I|exact (i_know0 u)].
        * intros Hu. apply i_tail0. intros u. specialize (Hu u). destruct (Nat.eq_dec u t) as [->|N]; fu; [rewrite P|]; auto.
      + (* CTest *)
        assert (LN := i_lnk _ _ _ I). destruct (nnext s (head s)) eqn:E; injection H as <-.
        * exists rest, th. apply Inv_go; rewrite ?P; auto. cbn. intro; subst. cbn in LN. congruence.
        * exists rest, (fupd th t Idle).
          apply (Inv_goe s rest th t CFail (RetPop t None)); rewrite ?P; auto; try exact Logic.I.
          assert (rest = []) by (destruct rest; auto; cbn in LN; destruct LN; congruence). subst.
          apply lin_fail_pop; auto. rewrite (i_th _ _ _ I), P. reflexivity.
      + (* CRead *)
        assert (LN := i_lnk _ _ _ I). destruct (nnext s (head s)) eqn:E; try discriminate. injection H as <-.
        exists rest, th. apply Inv_go; rewrite ?P; auto. cbn.
        destruct rest as [|m r]; cbn in LN; [congruence|]. exists m, r. split; auto. destruct LN; congruence.
      + (* CHead *)
        assert (LN := i_lnk _ _ _ I). destruct (nnext s (head s)) as [m|] eqn:E; try discriminate. injection H as <-.
        assert (Kt := i_know _ _ _ I t). rewrite P in Kt. cbn in Kt. destruct Kt as (m' & r & -> & Kv).
        cbn [linked] in LN. destruct LN as [LN1 LN2]. assert (m' = m) by congruence. subst m'.
        exists r, (fupd th t (DidPop v)). destruct I. unfold lst in *.
        assert (LC : lkC s = Some t) by (apply i_lkC0; rewrite P; auto).
        constructor; unfold lst; cbn [ndata nnext live head tail cache lkP lkC dp tr]; auto.
        * eapply lins_snoc; [exact i_lin0|]. cbn. rewrite Kv. apply lin_pop. rewrite i_th0, P. reflexivity.
        * apply (th_upd s th t (CCache v (head s))). auto.
        * inversion i_nd0; auto.
        * intros u n. destruct (Nat.eq_dec u t) as [->|N]; fu.
          -- cbn. intro Q; injection Q as <-. split; [inversion i_nd0; auto|]. apply i_live0. cbn; auto.
          -- intros Hn. destruct (i_own0 u n Hn) as [Ha Hb]. split; auto. intro; apply Ha. right. exact H.
        * assert (F : forall u n, own (dp s u) = Some n -> n <> head s).
          { intros u n Hn ->. destruct (i_own0 u _ Hn) as [Ha _]. apply Ha. cbn; auto. }
          intros u w n. destruct (Nat.eq_dec u t) as [->|N]; destruct (Nat.eq_dec w t) as [->|N']; fu; eauto; cbn; intros.
          -- exfalso. apply (F w n); auto; congruence.
          -- exfalso. apply (F u n); auto; congruence.
        * intros n Hn. apply i_live0. right. exact Hn.
        * intros n Hn. destruct (i_leak0 n Hn) as [[->|Hin]|[u Hu]]; [right; exists t; fu; auto|left; exact Hin|].
          right. exists u. destruct (Nat.eq_dec u t) as [->|N]; fu; auto. rewrite P in Hu. discriminate.
        * intros u. rewrite i_lkP0. destruct (Nat.eq_dec u t) as [->|N]; fu; [rewrite P|]; reflexivity.
        * intros u. rewrite i_lkC0. destruct (Nat.eq_dec u t) as [->|N]; fu; [rewrite P|]; reflexivity.
        * intros u. destruct (Nat.eq_dec u t) as [->|N]; fu; [exact Logic.I|].
          assert (K := i_know0 u). destruct (dp s u) eqn:Pu; cbn in *; auto.
          -- destruct K as (pre & K). destruct pre as [|a pre]; cbn in K; [discriminate|]. injection K as <- K. exists pre. exact K.
          -- exfalso. apply N. assert (lkC s = Some u) by (apply i_lkC0; rewrite Pu; auto). congruence.
          -- exfalso. apply N. assert (lkC s = Some u) by (apply i_lkC0; rewrite Pu; auto). congruence.
        * intros Hu. destruct i_tail0 as (pre & Hpre).
          { intros u. specialize (Hu u). destruct (Nat.eq_dec u t) as [->|N]; fu; [rewrite P|]; auto. }
          destruct pre as [|a pre]; cbn in Hpre; [discriminate|]. injection Hpre as <- Hp. exists pre. exact Hp.
      + (* CCache *)
        destruct hit; injection H as <-; [|exists rest, th; apply Inv_go; rewrite ?P; auto; exact Logic.I].
        assert (O := i_own _ _ _ I t n). rewrite P in O. destruct (O eq_refl) as [On Ol].
        assert (U : forall u m, u <> t -> own (dp s u) = Some m -> m <> n).
        { intros u m N Hm ->. apply N. apply (i_uni _ _ _ I u t n); auto. rewrite P; auto. }
        exists rest, th. destruct I. unfold lst in *.
        assert (MV : forall m, In m (head s :: rest ++ cache s ++ [n]) <-> m = n \/ In m (head s :: rest ++ cache s)).
        { intros m. cbn. rewrite !in_app_iff. cbn. intuition congruence. }
        constructor; unfold lst; cbn [ndata nnext live head tail cache lkP lkC dp tr]; auto.
        * intros u. rewrite i_th0. destruct (Nat.eq_dec u t) as [->|N]; fu; auto. rewrite P; auto.
        * assert (Q : NoDup (n :: head s :: rest ++ cache s)) by (constructor; auto).
          apply (NoDup_Add (a := n) (l := head s :: rest ++ cache s)).
          { assert (Z := Add_app n (head s :: rest ++ cache s) []). cbn in Z. rewrite app_nil_r, <- app_assoc in Z. exact Z. }
          split; auto.
        * intros u m. destruct (Nat.eq_dec u t) as [->|N]; fu; [discriminate|].
          intros Hm. destruct (i_own0 u m Hm) as [Ha Hb]. split; auto. rewrite MV. intros [->|Hin]; auto. apply (U u n); auto.
        * intros u w m. destruct (Nat.eq_dec u t) as [->|N]; destruct (Nat.eq_dec w t) as [->|N']; fu; eauto; discriminate.
        * intros m. rewrite MV. intros [->|Hm]; auto.
        * intros m Hm. rewrite MV. destruct (i_leak0 m Hm) as [|[u Hu]]; auto.
          destruct (Nat.eq_dec u t) as [->|N]; [rewrite P in Hu; injection Hu as ->; auto|].
          right. exists u. fu. auto.
        * intros u. rewrite i_lkP0. destruct (Nat.eq_dec u t) as [->|N]; fu; [rewrite P|]; reflexivity.
        * intros u. rewrite i_lkC0. destruct (Nat.eq_dec u t) as [->|N]; fu; [rewrite P|]; reflexivity.
        * intros u. destruct (Nat.eq_dec u t) as [->|N]; fu; [exact Logic.I|exact (i_know0 u)].
        * intros Hu. apply i_tail0. intros u. specialize (Hu u). destruct (Nat.eq_dec u t) as [->|N]; fu; [rewrite P|]; auto.
      + (* CUnlock *)
        destruct f as [n|]; injection H as <-.
        * exists rest, th. destruct I. unfold lst in *.
          assert (O : forall w, own (fupd (dp s) t (CFree v n) w) = own (dp s w))
            by (intro w; destruct (Nat.eq_dec w t) as [->|N]; fu; auto; rewrite P; auto).
          assert (LC : lkC s = Some t) by (apply i_lkC0; rewrite P; auto).
          constructor; unfold lst; cbn [ndata nnext live head tail cache lkP lkC dp tr]; auto.
          -- intros u. rewrite i_th0. destruct (Nat.eq_dec u t) as [->|N]; fu; auto. rewrite P; auto.
          -- intros u m. rewrite O. apply i_own0.
          -- intros u w m. rewrite !O. eauto.
          -- intros m Hm. destruct (i_leak0 m Hm) as [|[u Hu]]; auto. right. exists u. rewrite O. auto.
          -- intros u. rewrite i_lkP0. destruct (Nat.eq_dec u t) as [->|N]; fu; [rewrite P|]; reflexivity.
          -- intros u. destruct (Nat.eq_dec u t) as [->|N]; fu; [split; discriminate|]. rewrite <- i_lkC0. split; congruence.
          -- intros u. destruct (Nat.eq_dec u t) as [->|N]; fu; [exact Logic.I|exact (i_know0 u)].
          -- intros Hu. apply i_tail0. intros u. specialize (Hu u). destruct (Nat.eq_dec u t) as [->|N]; fu; [rewrite P|]; auto.
        * exists rest, (fupd th t Idle). destruct I. unfold lst in *.
          assert (O : forall w, own (fupd (dp s) t DIdle w) = own (dp s w))
            by (intro w; destruct (Nat.eq_dec w t) as [->|N]; fu; auto; rewrite P; auto).
          assert (LC : lkC s = Some t) by (apply i_lkC0; rewrite P; auto).
          constructor; unfold lst; cbn [ndata nnext live head tail cache lkP lkC dp tr]; auto.
          -- eapply lins_snoc; [exact i_lin0|]. apply lin_ret_pop. rewrite i_th0, P. reflexivity.
          -- apply (th_upd s th t DIdle). auto.
          -- intros u m. rewrite O. apply i_own0.
          -- intros u w m. rewrite !O. eauto.
          -- intros m Hm. destruct (i_leak0 m Hm) as [|[u Hu]]; auto. right. exists u. rewrite O. auto.
          -- intros u. rewrite i_lkP0. destruct (Nat.eq_dec u t) as [->|N]; fu; [rewrite P|]; reflexivity.
          -- intros u. destruct (Nat.eq_dec u t) as [->|N]; fu; [split; discriminate|]. rewrite <- i_lkC0. split; congruence.
          -- intros u. destruct (Nat.eq_dec u t) as [->|N]; fu; [exact Logic.I|exact (i_know0 u)].
          -- intros Hu. apply i_tail0. intros u. specialize (Hu u). destruct (Nat.eq_dec u t) as [->|N]; fu; [rewrite P|]; auto.
      + (* CFree *)
        injection H as <-.
        assert (O := i_own _ _ _ I t n). rewrite P in O. destruct (O eq_refl) as [On Ol].
        assert (U : forall u m, u <> t -> own (dp s u) = Some m -> m <> n).
        { intros u m N Hm ->. apply N. apply (i_uni _ _ _ I u t n); auto. rewrite P; auto. }
        exists rest, (fupd th t Idle). destruct I. unfold lst in *.
        constructor; unfold lst; cbn [ndata nnext live head tail cache lkP lkC dp tr]; auto.
        * eapply lins_snoc; [exact i_lin0|]. apply lin_ret_pop. rewrite i_th0, P. reflexivity.
        * apply (th_upd s th t DIdle). auto.
        * intros u m. destruct (Nat.eq_dec u t) as [->|N]; fu; [discriminate|].
          intros Hm. destruct (i_own0 u m Hm) as [Ha Hb]. split; auto. rewrite fupd_neq; auto. apply (U u); auto.
        * intros u w m. destruct (Nat.eq_dec u t) as [->|N]; destruct (Nat.eq_dec w t) as [->|N']; fu; eauto; discriminate.
        * intros m Hm. rewrite fupd_neq; auto. intro; subst; auto.
        * intros m. destruct (Nat.eq_dec m n) as [->|Nm]; fu; [discriminate|]. intros Hm.
          destruct (i_leak0 m Hm) as [|[u Hu]]; auto.
          destruct (Nat.eq_dec u t) as [->|N]; [rewrite P in Hu; cbn in Hu; congruence|].
          right. exists u. fu. auto.
        * intros u. rewrite i_lkP0. destruct (Nat.eq_dec u t) as [->|N]; fu; [rewrite P|]; reflexivity.
        * intros u. rewrite i_lkC0. destruct (Nat.eq_dec u t) as [->|N]; fu; [rewrite P|]; reflexivity.
        * intros u. destruct (Nat.eq_dec u t) as [->|N]; fu; [exact Logic.I|exact (i_know0 u)].
        * intros Hu. apply i_tail0. intros u. specialize (Hu u). destruct (Nat.eq_dec u t) as [->|N]; fu; [rewrite P|]; auto.
      + (* CFail *)
        injection H as <-. exists rest, th. destruct I. unfold lst in *.
        assert (O : forall w, own (fupd (dp s) t DIdle w) = own (dp s w))
            by (intro w; destruct (Nat.eq_dec w t) as [->|N]; fu; auto; rewrite P; auto).
        assert (LC : lkC s = Some t) by (apply i_lkC0; rewrite P; auto).
        constructor; unfold lst; cbn [ndata nnext live head tail cache lkP lkC dp tr]; auto.
        * intros u. rewrite i_th0. destruct (Nat.eq_dec u t) as [->|N]; fu; auto. rewrite P; auto.
        * intros u m. rewrite O. apply i_own0.
        * intros u w m. rewrite !O. eauto.
        * intros m Hm. destruct (i_leak0 m Hm) as [|[u Hu]]; auto. right. exists u. rewrite O. auto.
        * intros u. rewrite i_lkP0. destruct (Nat.eq_dec u t) as [->|N]; fu; [rewrite P|]; reflexivity.
        * intros u. destruct (Nat.eq_dec u t) as [->|N]; fu; [split; discriminate|]. rewrite <- i_lkC0. split; congruence.
        * intros u. destruct (Nat.eq_dec u t) as [->|N]; fu; [exact Logic.I|exact (i_know0 u)].
        * intros Hu. apply i_tail0. intros u. specialize (Hu u). destruct (Nat.eq_dec u t) as [->|N]; fu; [rewrite P|]; auto.
  Qed.

  Lemma reach : forall d0 x0 h c l s, NoDup (h :: c) -> exec dstep (dq_init d0 x0 h c) l = Some s -> Inv s.
  Proof.
    intros d0 x0 h c l s ND. apply (exec_inv dstep Inv).
    - intros s0 a s' I H. exact (Inv_step s0 a s' I H).
    - apply Inv_init; auto.
  Qed.
End Proofs.

Inductive reaches (nx : nat -> option nat) (h : nat) : nat -> Prop :=
| rch_head : reaches nx h h
| rch_next : forall a b, reaches nx h a -> nx a = Some b -> reaches nx h b.

Lemma reaches_cons : forall nx h m x, nx h = Some m -> reaches nx m x -> reaches nx h x.
Proof.
  intros nx h m x E H. induction H.
  - eapply rch_next; [apply rch_head|exact E].
  - eapply rch_next; eauto.
Qed.

Lemma linked_reaches : forall nx rest h, linked nx (h :: rest) -> forall x, reaches nx h x <-> In x (h :: rest).
Proof.
  intros nx rest. induction rest as [|m r IH]; intros h L x.
  - cbn in L. split.
    + intros H. induction H; cbn; auto. destruct IHreaches as [->|[]]. congruence.
    + intros [->|[]]. apply rch_head.
  - cbn [linked] in L. destruct L as [L1 L2]. split.
    + intros H. induction H; [cbn; auto|]. destruct IHreaches as [->|Hin].
      * right. cbn. left. congruence.
      * right. apply (IH m L2). apply (IH m L2) in Hin. eapply rch_next; eauto.
    + intros [->|Hin]; [apply rch_head|]. eapply reaches_cons; eauto. apply IH; auto.
Qed.

Section Facts.
  Context {A : Type}.
  Notation dq := (dq A).

  Lemma Inv_lin : forall s : dq, Inv s -> exists q, linearizable None false (tr s) q.
  Proof. intros s (rest & th & I). exists (map (ndata s) rest), th. exact (i_lin _ _ _ I). Qed.

  Lemma Inv_lists : forall s : dq, Inv s -> 
    (forall n, reaches (nnext s) (head s) n -> live s n = true /\ ~ In n (cache s)) /\
    NoDup (cache s) /\ (forall n, In n (cache s) -> live s n = true).
  Proof.
    intros s (rest & th & I). assert (R := linked_reaches _ _ _ (i_lnk _ _ _ I)).
    assert (ND := i_nd _ _ _ I). unfold lst in ND. change (NoDup ((head s :: rest) ++ cache s)) in ND.
    assert (LV := i_live _ _ _ I). unfold lst in LV. change (forall n, In n ((head s :: rest) ++ cache s) -> live s n = true) in LV.
    split; [|split].
    - intros n Hn. apply R in Hn. split; [apply LV; apply in_or_app; auto|].
      clear LV R I. revert ND Hn. generalize (head s :: rest). intros l. induction l as [|a l IH]; cbn; [tauto|].
      intros ND [->|Hn]; inversion ND; subst; auto. intro; apply H1. apply in_or_app; auto.
    - apply NoDup_app_sub in ND. tauto.
    - intros n Hn. apply LV. apply in_or_app; auto.
  Qed.

  Lemma Inv_private : forall (s : dq) t n, Inv s -> own (dp s t) = Some n ->
    live s n = true /\ ~ In n (cache s) /\ ~ reaches (nnext s) (head s) n /\
    forall u, u <> t -> own (dp s u) <> Some n.
  Proof.
    intros s t n (rest & th & I) O. destruct (i_own _ _ _ I t n O) as [O1 O2]. unfold lst in O1.
    change (~ In n ((head s :: rest) ++ cache s)) in O1. rewrite in_app_iff in O1.
    split; auto. split; [tauto|]. split; [rewrite (linked_reaches _ _ _ (i_lnk _ _ _ I)); tauto|].
    intros u N E. apply N. exact (i_uni _ _ _ I u t n E O).
  Qed.

  Lemma Inv_tail : forall (s : dq) t x n, Inv s -> dp s t = PLink x n -> reaches (nnext s) (head s) (tail s).
  Proof.
    intros s t x n (rest & th & I) P. rewrite (linked_reaches _ _ _ (i_lnk _ _ _ I)).
    destruct (i_tail _ _ _ I) as (pre & ->); [|apply in_or_app; cbn; auto].
    intros u. destruct (isT (dp s u)) eqn:E; auto.
    assert (lkP s = Some u) by (apply (i_lkP _ _ _ I); destruct (dp s u); try discriminate; auto).
    assert (lkP s = Some t) by (apply (i_lkP _ _ _ I); rewrite P; auto).
    assert (u = t) by congruence. subst. rewrite P in E. discriminate.
  Qed.

  Lemma Inv_all : forall s : dq, Inv s -> (forall t, dp s t = DIdle) ->
    forall n, live s n = true <-> (reaches (nnext s) (head s) n \/ In n (cache s)).
  Proof.
    intros s I0 Q n. split.
    - destruct I0 as (rest & th & I). intros L. destruct (i_leak _ _ _ I n L) as [H|[t H]]; [|rewrite Q in H; discriminate].
      unfold lst in H. change (In n ((head s :: rest) ++ cache s)) in H. apply in_app_or in H.
      rewrite (linked_reaches _ _ _ (i_lnk _ _ _ I)). tauto.
    - destruct (Inv_lists s I0) as (L1 & _ & L3). intros [H|H]; auto. apply L1; auto.
  Qed.

  Lemma Inv_progress : forall (s : dq) t, Inv s -> dp s t <> DIdle -> (exists a, live s a = false) ->
    exists u hit addr s', dstep s (DStep u hit addr) = Some s'.
  Proof.
    intros s t (rest & th & I) N [a La].
    assert (HP : forall u, lkP s = Some u -> exists s', dstep s (DStep u true a) = Some s').
    { intros u Hu. apply (i_lkP _ _ _ I) in Hu. cbn. destruct (dp s u) eqn:E; try discriminate; eauto. }
    assert (HC : forall u, lkC s = Some u -> exists s', dstep s (DStep u true a) = Some s').
    { intros u Hu. apply (i_lkC _ _ _ I) in Hu. assert (K := i_know _ _ _ I u). assert (L := i_lnk _ _ _ I).
      cbn. destruct (dp s u) eqn:E; try discriminate; eauto.
      - destruct (nnext s (head s)); eauto.
      - cbn in K. destruct rest as [|m r]; [congruence|]. cbn in L. destruct L as [-> _]. eauto.
      - cbn in K. destruct K as (m & r & -> & _). cbn in L. destruct L as [-> _]. eauto.
      - destruct f; eauto. }
    destruct (lkP s) as [u|] eqn:LP; [destruct (HP u eq_refl); eauto 6|].
    destruct (lkC s) as [u|] eqn:LC; [destruct (HC u eq_refl); eauto 6|].
    exists t, false, a. assert (NC : inC (dp s t) = false).
    { destruct (inC (dp s t)) eqn:E; auto. apply (i_lkC _ _ _ I) in E. congruence. }
    cbn. rewrite La, LP, LC. destruct (dp s t); try discriminate; eauto. congruence.
  Qed.
End Facts.
