(** The loops over the stages: all links, then all stages. *)
From Coq Require Import List Arith Bool Lia.
From Verif Require Import WireModel WireSpec WireProofs WireProofs2 WireProofs3 WireProofs4.
Import ListNotations.

(** prepare of a stage whose single output node is connected by the stage itself. *)
Lemma prep_deferred : forall i p k h base, stage_ok p = true -> ordered_coll p -> deferred p (SNode k) = true -> BP h i p (SNode k) base ->
  (forall x, In x (innerO i p) -> nout h x = None /\ outN h x = []) ->
  (forall x, In x (innerI i p) -> nin h x = None /\ inN h x = []) ->
  if is_a2a p && exit_mo p then prep i p h = None
  else exists h', prep i p h = Some h' /\ IN h' i p (nb h) /\ BF h' i p (SNode k) base /\ nb h' = nb h + icnt p /\
       keepO (innerO i p ++ exit i p) h h' /\ keepI (innerI i p) h h'.
Proof.
  intros i p k h base SO OC D H FO FI. unfold BP in H. rewrite D in H. destruct H as (NP & O1 & Y1 & Y2 & FX).
  simpl in D. apply andb_prop in D. destruct D as [MK SP]. apply negb_true_iff in MK, SP.
  destruct p as [k0|n kw c o|n1 k1 n2 k2]; [discriminate| |].
  - destruct c as [| |kc]; try discriminate. destruct o; [contradiction|].
    unfold np in NP. simpl in NP. rewrite length_wk in NP. subst n. simpl is_a2a. simpl andb. cbv iota.
    destruct (FX (i, Wk 0)) as [X1 X2]; [apply in_wk; lia|]. destruct (FI (i, Wk 0)) as [X3 X4]; [simpl; auto|].
    destruct (FO (i, Em)) as [X5 X6]; [simpl; auto|].
    unfold prep. simpl (1 =? 0). simpl orb. cbv iota. cbn [seq iter]. unfold prep_worker, create_in. rewrite X3. cbv zeta. cbn [bind].
    set (h1 := if mi kw then add_in (i, Wk 0) [Bref (nb h)] (set_nin (i, Wk 0) (Some (nb h)) (alloc h)) else set_nin (i, Wk 0) (Some (nb h)) (alloc h)).
    assert (A1 : nout h1 = nout h) by (unfold h1; destruct (mi kw); auto).
    assert (A2 : outN h1 = outN h) by (unfold h1; destruct (mi kw); auto).
    assert (A3 : nb h1 = S (nb h)) by (unfold h1; destruct (mi kw); auto).
    assert (A4 : nin h1 = upd (nin h) (i, Wk 0) (Some (nb h))) by (unfold h1; destruct (mi kw); auto).
    assert (A5 : inN h1 (i, Wk 0) = if mi kw then [Bref (nb h)] else []).
    { unfold h1; destruct (mi kw); simpl; [rewrite upd_eq, X4; auto|auto]. }
    assert (A6 : forall y, y <> (i, Wk 0) -> inN h1 y = inN h y).
    { intros y Hy. unfold h1; destruct (mi kw); simpl; auto. apply upd_neq; auto. }
    cbn [add_out nout outN]. rewrite A1, A2, X1, (upd_neq _ _ (i, Em) _ (i, Obj)), O1 by discriminate.
    set (h2 := add_out (i, Em) [Nref (i, Wk 0)] h1).
    assert (RES : exists h', (if mo kw then Some (add_out (i, Wk 0) [Nref (S i, Self)] h2)
                   else if length [Nref (S i, Self)] =? 1
                        then Some (set_nout (i, Wk 0) (match nth_error [Nref (S i, Self)] 0 with Some r => refin h2 r | None => None end) h2) else None) = Some h' /\
             nb h' = S (nb h) /\ nin h' = nin h1 /\ inN h' = inN h1 /\
             outN h' (i, Em) = [Nref (i, Wk 0)] /\
             nout h' (i, Wk 0) = (if mo kw then None else Some base) /\ outN h' (i, Wk 0) = (if mo kw then [Nref (S i, Self)] else []) /\
             (forall x, x <> (i, Em) -> x <> (i, Wk 0) -> nout h' x = nout h x /\ outN h' x = outN h x)).
    { assert (Y3 : nin h1 (S i, Self) = Some base) by (rewrite A4, upd_neq; [auto|discriminate]).
      destruct (mo kw); eexists; (split; [reflexivity|]); unfold h2; simpl; rewrite ?A1, ?A2, ?A3;
        repeat match goal with
               | |- context [upd ?f ?x ?v ?x] => rewrite (upd_eq _ f x v)
               | |- context [upd ?f ?x ?v ?y] => rewrite (upd_neq _ f x v y) by discriminate
               end; rewrite ?X1, ?X2, ?X6, ?Y3; repeat split; auto; intros; rewrite ?upd_neq by congruence; auto. }
    destruct RES as (h' & E & B & N1 & N2 & Q1 & Q2 & Q3 & Q4). exists h'. fold h2. rewrite E. split; [auto|].
    assert (Q5 : nin h' (i, Wk 0) = Some (nb h)) by (rewrite N1, A4, upd_eq; auto).
    assert (Q6 : inN h' (i, Wk 0) = if mi kw then [Bref (nb h)] else []) by (rewrite N2; auto).
    assert (Q7 : nin h' (S i, Self) = Some base) by (rewrite N1, A4, upd_neq; [auto|discriminate]).
    split; [|split; [|split; [|split]]].
    + split; [|exact Logic.I]. split.
      * intros x [<-|[]]. unfold writes. rewrite Q1. simpl. rewrite Q5. split; [do 2 f_equal; unfold pos; simpl; lia|]. intros z [E'|[]]. left. congruence.
      * intros y [<-|[]]. unfold reads. rewrite Q5, Q6. split.
        -- destruct (mi kw); simpl; do 2 f_equal; unfold pos; simpl; lia.
        -- intros z Hz. destruct (mi kw); simpl in Hz; [destruct Hz as [Hz|[]]; discriminate|contradiction].
    + match goal with |- BF _ _ ?p ?c _ => assert (FL : full p c = true) by reflexivity end. unfold BF, bundle. simpl exit. simpl entry. simpl exit_mo. simpl entry_mi. rewrite MK. unfold wk. simpl map. split.
      * intros x [<-|[]]. unfold aft, blab. rewrite FL. simpl. unfold writes. rewrite Q2, Q3. split.
        -- destruct (mo kw); simpl; rewrite ?Q7; do 2 f_equal; unfold pos; simpl; lia.
        -- intros z Hz. destruct (mo kw); simpl in Hz; [destruct Hz as [Hz|[]]; left; congruence|contradiction].
      * intros y [<-|[]]. unfold bef, blab. rewrite FL. simpl. rewrite Q7, N2, A6 by discriminate. rewrite Y2. simpl. split; [do 2 f_equal; unfold pos; simpl; lia|contradiction].
    + rewrite B. simpl. lia.
    + intros x Hx. simpl in Hx. apply Q4; intros ->; apply Hx; auto.
    + intros x Hx. simpl in Hx. assert (x <> (i, Wk 0)) by (intros ->; apply Hx; auto). rewrite N1, N2, A4, upd_neq, A6; auto.
  - unfold np in NP. simpl in NP. rewrite length_rw in NP. subst n2. simpl is_a2a. rewrite andb_true_l. change (exit_mo (SA2A n1 k1 1 k2)) with (mo k2).
    simpl in SO. apply andb_prop in SO. destruct SO as [SO OK2]. apply andb_prop in SO. destruct SO as [SO OK1]. apply andb_prop in SO.
    destruct SO as [N1 _]. apply Nat.ltb_lt in N1. unfold prep.
    replace (n1 =? 0) with false by (symmetry; apply Nat.eqb_neq; lia). simpl (1 =? 0).
    replace (mi k1 && negb (mo k1)) with false by (destruct (mi k1), (mo k1); auto).
    replace (mo k2 && negb (mi k2)) with false by (destruct (mi k2), (mo k2); auto). simpl orb. cbv iota.
    destruct (cross_form (lw i n1) (rw i 1) h (posd_nodup _ (posd_lw i n1)) (posd_nodup _ (posd_rw i 1)))
      as (h1 & E & B & M1 & M2 & K & P & Q & R).
    assert (BU : a2a_ok h1 i n1 1 (nb h)).
    { eapply cross_bundle; eauto using posd_lw, posd_rw.
      - intros x Hx. apply (FO x Hx).
      - intros x Hx. apply (FI x Hx).
      - intros x y Hx Hy. rewrite length_lw. auto. }
    assert (NL : forall r, (forall j, r <> Lw j) -> ~ In (i, r) (lw i n1)).
    { intros r Hr H. apply in_lw_inv in H. destruct H as (j & H & _). injection H as ->. apply (Hr j); auto. }
    rewrite E. cbn [bind]. rewrite (K (i, Obj)), O1 by (apply NL; discriminate). change (length [Nref (S i, Self)] =? 1) with true. simpl andb.
    destruct (mo k2) eqn:MO; simpl negb; cbv iota; [auto|].
    eexists. split; [reflexivity|]. cbn [combine iter fst snd refin].
    destruct (FX (i, Rw 0)) as [X1 X2]; [simpl; auto|].
    assert (Y3 : nin h1 (S i, Self) = Some base) by (rewrite M1; auto).
    split; [|split; [|split; [|split]]].
    + eapply bundle_frame; [| |exact BU].
      * rewrite app_nil_r. intros x Hx. simpl. rewrite upd_neq; auto. intros <-. revert Hx. apply NL. discriminate.
      * intros y Hy. simpl. auto.
    + match goal with |- BF _ _ ?p ?c _ => assert (FL : full p c = true) by reflexivity end. unfold BF, bundle. simpl exit. simpl entry. simpl exit_mo. simpl entry_mi. rewrite MK, MO. unfold rw. simpl map. split.
      * intros x [<-|[]]. unfold aft, blab. rewrite FL. simpl. rewrite upd_eq, Y3, (K (i, Rw 0)), X2 by (apply NL; discriminate).
        simpl. split; [do 2 f_equal; unfold pos; simpl; lia|contradiction].
      * intros y [<-|[]]. unfold bef, blab. rewrite FL. simpl. rewrite Y3, (Q (S i, Self)), Y2; [simpl; split; [do 2 f_equal; unfold pos; simpl; lia|contradiction]|].
        intros [H|[]]. discriminate.
    + simpl. rewrite B, length_lw, length_rw. lia.
    + intros x Hx. simpl. rewrite upd_neq, M2, K; auto.
      * intros A. apply Hx. apply in_or_app; auto.
      * intros <-. apply Hx. apply in_or_app; right; simpl; auto.
    + intros x Hx. simpl. rewrite M1, Q; auto.
Qed.

Lemma prep_fails : forall i s h, stage_ok s = false -> prep i s h = None.
Proof.
  intros i [k|n kw c o|n1 k1 n2 k2] h H; [discriminate| |]; simpl in *.
  - destruct (Nat.ltb_spec 0 n) as [L|L].
    + simpl in H. apply negb_false_iff in H. rewrite H, orb_true_r. auto.
    + replace (n =? 0) with true by (symmetry; apply Nat.eqb_eq; lia). auto.
  - destruct (Nat.ltb_spec 0 n1); destruct (Nat.ltb_spec 0 n2); simpl in H;
      try (replace (n1 =? 0) with true by (symmetry; apply Nat.eqb_eq; lia); auto; fail);
      try (replace (n2 =? 0) with true by (symmetry; apply Nat.eqb_eq; lia); rewrite orb_true_r; auto; fail).
    destruct (mi k1), (mo k1), (mo k2), (mi k2); simpl in *; try discriminate; rewrite ?orb_true_r; auto.
Qed.

Lemma inner_disjO : forall i s x, In x (innerO i s) -> ~ In x (exit i s ++ [(i, Obj)]).
Proof.
  intros i s x H. rewrite in_app_iff. intros [A|[A|[]]].
  - destruct s as [k|n kw [| |kc] o|n1 k1 n2 k2]; simpl in *; try contradiction.
    + destruct H as [<-|[]]. apply in_wk_inv in A. destruct A as (j & A & _). discriminate.
    + destruct A as [<-|[]]. destruct H as [A|A]; [discriminate|]. apply in_wk_inv in A. destruct A as (j & A & _). discriminate.
    + destruct A as [<-|[]]. destruct H as [A|A]; [discriminate|]. apply in_wk_inv in A. destruct A as (j & A & _). discriminate.
    + apply in_lw_inv in H. destruct H as (j & -> & _). apply in_rw_inv in A. destruct A as (j' & A & _). discriminate.
  - subst x. destruct s as [k|n kw [| |kc] o|n1 k1 n2 k2]; simpl in *; try contradiction.
    + destruct H as [A|[]]. discriminate.
    + destruct H as [A|A]; [discriminate|]. apply not_obj_wk in A. auto.
    + destruct H as [A|A]; [discriminate|]. apply not_obj_wk in A. auto.
    + apply in_lw_inv in H. destruct H as (j & H & _). discriminate.
Qed.
Lemma inner_disjI : forall i s x, In x (innerI i s) -> ~ In x (entry i s).
Proof.
  intros i s x H A. destruct s as [k|n kw c o|n1 k1 n2 k2]; simpl in *; try contradiction.
  - destruct A as [<-|[]]. apply in_app_or in H. destruct H as [H|H].
    + apply in_wk_inv in H. destruct H as (j & H & _). discriminate.
    + destruct c; simpl in H; try contradiction; destruct H as [H|[]]; discriminate.
  - apply in_rw_inv in H. destruct H as (j & -> & _). apply in_lw_inv in A. destruct A as (j' & A & _). discriminate.
Qed.
Lemma exit_fst : forall i s x, In x (exit i s) -> fst x = i.
Proof.
  intros i [k|n kw [| |kc] o|n1 k1 n2 k2] x H; simpl in H; try (destruct H as [<-|[]]; auto; fail).
  - apply in_wk_inv in H. destruct H as (j & -> & _). auto.
  - apply in_rw_inv in H. destruct H as (j & -> & _). auto.
Qed.
Lemma entry_fst : forall i s x, In x (entry i s) -> fst x = i.
Proof.
  intros i [k|n kw c o|n1 k1 n2 k2] x H; simpl in H; try (destruct H as [<-|[]]; auto; fail).
  apply in_lw_inv in H. destruct H as (j & -> & _). auto.
Qed.
Lemma innerO_fst : forall i s x, In x (innerO i s) -> fst x = i.
Proof.
  intros i [k|n kw c o|n1 k1 n2 k2] x H; simpl in H; try contradiction.
  - destruct H as [<-|H]; auto. destruct c; try contradiction; apply in_wk_inv in H; destruct H as (j & -> & _); auto.
  - apply in_lw_inv in H. destruct H as (j & -> & _). auto.
Qed.
Lemma innerI_fst : forall i s x, In x (innerI i s) -> fst x = i.
Proof.
  intros i [k|n kw c o|n1 k1 n2 k2] x H; simpl in H; try contradiction.
  - apply in_app_or in H. destruct H as [H|H].
    + apply in_wk_inv in H; destruct H as (j & -> & _); auto.
    + destruct c; simpl in H; try contradiction; destruct H as [<-|[]]; auto.
  - apply in_rw_inv in H. destruct H as (j & -> & _). auto.
Qed.

Lemma BP_frame : forall h h' i p c b, (forall x, In x (exit i p ++ [(i, Obj)]) -> nout h' x = nout h x /\ outN h' x = outN h x) ->
  (forall y, In y (entry (S i) c) -> nin h' y = nin h y /\ inN h' y = inN h y) -> BP h i p c b -> BP h' i p c b.
Proof.
  intros h h' i p c b KO KI. unfold BP. assert (OB : outN h' (i, Obj) = outN h (i, Obj)) by (apply KO; apply in_or_app; right; left; auto).
  destruct (deferred p c) eqn:D.
  - intros (A & B & C & E & F). split; [auto|]. destruct c as [k| |]; try discriminate. destruct (KI (S i, Self)) as [Q1 Q2]; [left; auto|].
    rewrite OB, Q1, Q2. repeat split; auto; destruct (KO x) as [Q3 Q4]; try (apply in_or_app; auto; fail); [rewrite Q3|rewrite Q4]; apply F; auto.
  - intros (A & B). split; [|congruence]. unfold BF in *. eapply bundle_frame; eauto.
Qed.
Lemma BF_frame : forall h h' i p c b, (forall x, In x (exit i p ++ [(i, Obj)]) -> nout h' x = nout h x /\ outN h' x = outN h x) ->
  (forall y, In y (entry (S i) c) -> nin h' y = nin h y /\ inN h' y = inN h y) -> BF h i p c b -> BF h' i p c b.
Proof. intros. unfold BF in *. eapply bundle_frame; eauto. Qed.
Lemma IN_frame : forall h h' i s b, (forall x, In x (innerO i s) -> nout h' x = nout h x /\ outN h' x = outN h x) ->
  (forall y, In y (innerI i s) -> nin h' y = nin h y /\ inN h' y = inN h y) -> IN h i s b -> IN h' i s b.
Proof.
  intros h h' i [k|n kw c o|n1 k1 n2 k2] b KO KI; simpl; auto.
  - intros (A & B). split.
    + eapply bundle_frame; [| |exact A].
      * intros x Hx. rewrite app_nil_r in Hx. apply KO. left. destruct Hx as [<-|[]]; auto.
      * intros y Hy. apply KI. simpl. apply in_or_app; auto.
    + destruct c; auto; (eapply bundle_frame; [| |exact B]; [intros x Hx; rewrite app_nil_r in Hx; apply KO; right; auto|
        intros y Hy; apply KI; simpl; apply in_or_app; auto]).
  - intros A. eapply bundle_frame; [| |exact A]; [intros x Hx; rewrite app_nil_r in Hx; apply KO; auto|auto].
Qed.
