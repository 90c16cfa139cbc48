(** Divide and conquer: the invariant holds along every execution; progress. *)
From Coq Require Import List Arith Bool Lia Permutation.
From Verif Require Import Base DCModel DCSpec DCProofs DCProofs2 DCProofs3 DCProofs4 DCProofs5 DCProofs6.
Import ListNotations.

Definition stream (w : worker) : list ev := outq w ++ prog w.

Section Glue.
Context {Op Res : Type}.
Variable cond : Op -> bool.
Variable divide : Op -> list Op.
Variable seqf : Op -> Res.
Variable combine : list Res -> Res.
Variable dflt : Res.
Variable junk : nat -> nat -> nat.
Variable op0 : Op.
Notation Inv := (Inv cond divide seqf combine op0).
Notation st := (@st Op Res).
Notation step := (step cond divide seqf combine dflt junk).
Notation start := (start cond divide seqf dflt).
Notation solves := (solves cond divide seqf combine).

Definition SSof (s : st) (j : nat) : list ev :=
  match j with
  | 0 => map Snd (todo s)
  | S i => match nth_error (ws s) i with Some w => stream w | None => [] end
  end.
Definition rqlof (s : st) : list nat := rq s ++ flat_map inq (ws s).

(** What a worker puts into its output queue: commands and notifications. *)
Definition ismsg (e : ev) : Prop := match e with Snd _ | Don _ => True | _ => False end.

Definition GI (s : st) : Prop :=
  Inv (SSof s) (tk s) (addr s) (rqlof s) (frames s) (mem s) (nid s) (numb s) (comp s) /\
  bad s = false /\ (fin s = true <-> (numb s = comp s /\ todo s = [])) /\
  Forall (fun w => Forall ismsg (outq w)) (ws s).

Lemma inv_rql : forall SS SS' tk ad rql rql' fr mem nid nb cp,
  Inv SS tk ad rql fr mem nid nb cp -> (forall j, SS' j = SS j) -> NoDup rql' ->
  (forall x, In x rql' <-> In x rql) -> Inv SS' tk ad rql' fr mem nid nb cp.
Proof.
  intros SS SS' tk ad rql rql' fr mem nid nb cp I Es Nq Eq.
  assert (Fr : forall t, fresh SS' t <-> fresh SS t).
  { intros t. split; intros H j X; apply (H j); rewrite Es in *; auto. }
  assert (Pr : forall lab x, present lab SS' tk x <-> present lab SS tk x).
  { intros lab x. split; (intros [(j & H)|(t & v & A & B & C)]; [left; exists j; rewrite Es in *; auto | right; exists t, v; rewrite Fr in *; auto]). }
  assert (Tk : forall k, tok SS' tk k <-> tok SS tk k).
  { intros k. split; (intros [(j & e & H & E)|(t & v & A & B & C)]; [left; exists j, e; rewrite Es in *; auto | right; exists t, v; rewrite Fr in *; auto]). }
  assert (Cv : forall t a, covers SS tk t a -> covers SS' tk t a).
  { intros t a [[A B]|(j & H)]; [left; rewrite Fr; auto | right; exists j; rewrite Es; auto]. }
  assert (F0 : forall a, free0 SS tk ad a -> free0 SS' tk ad a).
  { intros a H Ha. destruct (H (proj1 (Pr _ _) Ha)) as (v & A & B). eauto. }
  assert (Un : forall lab, uniq lab SS tk -> uniq lab SS' tk).
  { intros lab [A B C D]. split.
    - intros j. rewrite Es. auto.
    - intros j j' x. rewrite !Es. apply B.
    - intros t v x j H F. rewrite Fr in F. rewrite Es. eauto.
    - intros t v t' v' x H F H' F'. rewrite Fr in F, F'. eauto. }
  split; intros; try (rewrite Es in * ); try (rewrite Tk in * ).
  - eapply i_fr; eauto.
  - eapply i_solv; eauto.
  - eapply i_tok; eauto.
  - destruct (i_own _ _ _ _ _ _ _ _ _ _ _ _ _ _ I _ _ H) as (n & r & T). exists n, r. rewrite Tk. auto.
  - unfold held. rewrite Pr. eapply i_val; eauto.
  - apply Un. eapply i_ub; eauto.
  - apply Un. eapply i_uo; eauto.
  - eapply wfs_mono; [| |eapply i_wfs; eauto]; auto.
  - unfold held. rewrite Pr. eapply i_cmb; eauto.
  - rewrite Fr in H0. apply F0. eapply i_cf; eauto.
  - eapply i_ad; eauto.
  - eapply i_ads; eauto.
  - rewrite Fr in H0. eapply i_adf; eauto.
  - eapply i_first; eauto.
  - eapply i_dac; eauto.
  - eapply i_dacs; eauto.
  - eapply i_rem; eauto.
  - eapply i_stat; eauto.
  - eapply i_dac0; eauto.
  - eapply i_unum; eauto.
  - eapply i_pt; eauto.
  - eapply i_nd; eauto.
  - eapply i_ds; eauto.
  - eapply i_dt; eauto.
  - auto.
  - rewrite Eq, (i_rqt _ _ _ _ _ _ _ _ _ _ _ _ _ _ I). split; intros (v & A & B & C); exists v; rewrite Fr in *; auto.
  - eapply i_nid; eauto.
  - eapply i_adn; eauto.
  - eapply i_last; eauto.
  - eapply i_zero; eauto.
  - eapply i_cnt; eauto.
Qed.

(** *** Updates of one worker *)
Lemma lupd_split : forall A (l : list A) i x y, nth_error l i = Some x ->
  exists l1 l2, l = l1 ++ x :: l2 /\ lupd l i y = l1 ++ y :: l2.
Proof.
  induction l as [|z l IH]; intros [|i] x y H; simpl in *; try discriminate.
  - injection H as ->. exists [], l. auto.
  - destruct (IH _ _ y H) as (l1 & l2 & E1 & E2). exists (z :: l1), l2. rewrite E1 at 1. rewrite E2. auto.
Qed.

Lemma Forall_lupd : forall A (P : A -> Prop) l i y, Forall P l -> P y -> Forall P (lupd l i y).
Proof.
  intros A P. induction l as [|z l IH]; intros [|i] y H Hy; simpl; auto; inversion H; subst; constructor; auto.
Qed.

Lemma SS_upd : forall (s s' : st) wi w w', nth_error (ws s) wi = Some w ->
  ws s' = lupd (ws s) wi w' -> todo s' = todo s ->
  SSof s (S wi) = stream w /\ SSof s' (S wi) = stream w' /\ forall j, j <> S wi -> SSof s' j = SSof s j.
Proof.
  intros s s' wi w w' H E T. unfold SSof. rewrite E, T, H.
  rewrite nth_error_lupd_eq by (apply nth_error_Some; congruence). split; [auto|split; [auto|]].
  intros [|i] N; auto. rewrite nth_error_lupd_neq by congruence. auto.
Qed.

Lemma rql_upd : forall (s s' : st) wi w w', nth_error (ws s) wi = Some w ->
  ws s' = lupd (ws s) wi w' ->
  exists a b, rqlof s = rq s ++ a ++ inq w ++ b /\ rqlof s' = rq s' ++ a ++ inq w' ++ b.
Proof.
  intros s s' wi w w' H E. destruct (lupd_split _ _ _ _ w' H) as (l1 & l2 & E1 & E2).
  exists (flat_map inq l1), (flat_map inq l2). unfold rqlof. rewrite E, E2, E1, !flat_map_app. auto.
Qed.

Lemma frame_In : forall (l : list (nat * list Op)) b ops, frame l b = Some ops -> In (b, ops) l.
Proof.
  induction l as [|[c o] l IH]; simpl; intros b ops H; [discriminate|].
  destruct (Nat.eqb_spec c b) as [->|]; [injection H as ->; auto | auto].
Qed.

Lemma slot_live_ok : forall fr a o, slot_op op0 fr a o -> slot_live fr a = true.
Proof.
  intros fr a o [[-> _]|(b & ops & i & F & N & ->)]; unfold slot_live; [auto|].
  apply orb_true_iff. right. apply existsb_exists. exists (b, ops). split; [apply frame_In; auto|].
  unfold in_frame. simpl. apply nth_error_lt in N. apply andb_true_iff. split; [apply Nat.leb_le | apply Nat.ltb_lt]; lia.
Qed.

Lemma in_flat_inq : forall (s : st) wi w t, nth_error (ws s) wi = Some w -> In t (inq w) -> In t (rqlof s).
Proof.
  intros s wi w t H I. apply in_app_iff. right. apply in_flat_map. exists w. split; auto. eapply nth_error_In; eauto.
Qed.

Lemma gi_work : forall s wi w b s', GI s -> nth_error (ws s) wi = Some w ->
  work cond divide seqf combine dflt s wi w b = Some s' -> GI s'.
Proof.
  intros s wi w b' s' (I & Hb & Hf & Hm) Hw E. unfold work in E.
  assert (Hmw : Forall ismsg (outq w)) by (rewrite Forall_forall in Hm; apply Hm; eapply nth_error_In; eauto).
  assert (Hk : forall p' o', Forall ismsg o' -> Forall (fun w => Forall ismsg (outq w)) (lupd (ws s) wi (mkW (inq w) p' o')))
    by (intros; apply Forall_lupd; auto).
  destruct (prog w) as [|e p] eqn:Ep; [discriminate|].
  assert (Es : SSof s (S wi) = outq w ++ e :: p).
  { simpl. rewrite Hw. unfold stream. rewrite Ep. auto. }
  assert (In_e : In e (SSof s (S wi))) by (rewrite Es; apply in_app_iff; right; left; auto).
  assert (Same : forall s1 : st, ws s1 = lupd (ws s) wi (mkW (inq w) p (outq w ++ [e])) -> todo s1 = todo s ->
            forall j, SSof s1 j = SSof s j).
  { intros s1 E1 E2 j. destruct (SS_upd s s1 wi w _ Hw E1 E2) as (A & B & C).
    destruct (Nat.eq_dec j (S wi)) as [->|N]; [|auto]. rewrite B, Es. unfold stream. simpl. rewrite <- app_assoc. auto. }
  assert (Rsame : forall (s1 : st) p' o', ws s1 = lupd (ws s) wi (mkW (inq w) p' o') -> rq s1 = rq s -> rqlof s1 = rqlof s).
  { intros s1 p' o' E1 E2. destruct (rql_upd s s1 wi w _ Hw E1) as (x & y & A & B). rewrite A, B, E2. auto. }
  destruct e as [k|b i|b n r|t].
  - injection E as <-. split; [|split; [auto | split; [auto | apply Hk; apply Forall_app; split; [auto | repeat constructor]]]]. eapply inv_rql; [exact I | apply Same; auto | |].
    + erewrite Rsame by reflexivity. eapply i_rq; eauto.
    + intros x. erewrite Rsame by reflexivity. tauto.
  - pose proof (i_tok _ _ _ _ _ _ _ _ _ _ _ _ _ _ I (KDac b i)) as K.
    destruct K as (ops & Fo & Li); [left; exists (S wi), (Cal b i); auto|].
    rewrite Fo in E. destruct (nth_error ops i) as [x|] eqn:Nx; [|apply nth_error_None in Nx; lia].
    assert (So : slot_op op0 (frames s) (b + i) x) by (right; exists b, ops, i; auto).
    destruct (cond x) eqn:Cx.
    + injection E as <-. split; [|split; [auto | split; [auto | apply Hk; auto]]].
      set (s1 := mkS (tk s) (addr s) (nid s) (numb s) (comp s) (rq s) (todo s) (lupd (ws s) wi (mkW (inq w) p (outq w)))
         (fupd (mem s) (b + i) (seqf x)) (frames s) (fin s) (bad s)).
      destruct (SS_upd s s1 wi w _ Hw eq_refl eq_refl) as (A & B & C).
      rewrite (Rsame s1 p (outq w) eq_refl eq_refl).
      apply (inv_exec cond divide seqf combine op0 (SSof s) (SSof s1) (tk s) (addr s) (rqlof s) (frames s) (frames s) (mem s) (seqf x)
        (nid s) (numb s) (comp s) (S wi) (outq w) p (Cal b i) (KDac b i)); auto.
      * intros y Hy. rewrite <- (slot_op_det _ _ _ _ _ _ _ _ _ _ _ _ _ _ _ _ _ I So Hy). apply solves_base; auto.
      * left. split; eauto.
    + assert (Dx : divide x <> []).
      { destruct (i_solv _ _ _ _ _ _ _ _ _ _ _ _ _ _ I _ _ So) as (n & v & Sv).
        eapply (solve_sub _ _ _ _ _ _ _ Sv Cx). }
      destruct (length (divide x) =? 0) eqn:Z.
      { apply Nat.eqb_eq in Z. destruct (divide x); [congruence | discriminate]. }
      apply Nat.eqb_neq in Z. destruct (base_free (frames s) b' (length (divide x))) eqn:Bf; [|discriminate].
      injection E as <-. split; [|split; [auto | split; [auto | apply Hk; auto]]].
      set (s1 := mkS (tk s) (addr s) (nid s) (numb s) (comp s) (rq s) (todo s)
         (lupd (ws s) wi (mkW (inq w) (expand b' (length (divide x)) (b + i) ++ p) (outq w)))
         (fill dflt (mem s) b' (length (divide x))) ((b', divide x) :: frames s) (fin s) (bad s)).
      destruct (SS_upd s s1 wi w _ Hw eq_refl eq_refl) as (A & B & C).
      rewrite (Rsame s1 _ _ eq_refl eq_refl).
      unfold base_free in Bf. apply andb_true_iff in Bf as [Bf1 Bf]. apply andb_true_iff in Bf1 as [Bf1 Bf2].
      apply Nat.ltb_lt in Bf1, Bf2. rewrite forallb_forall in Bf.
      eapply (inv_expand cond divide seqf combine op0 (SSof s) (SSof s1) (tk s) (addr s) (rqlof s) (frames s) (mem s) (mem s1)
        (nid s) (numb s) (comp s) (S wi) (outq w) p b i b' ops x); eauto.
      * intros b0 ops0 F0. apply frame_In in F0. apply Bf in F0. simpl in F0.
        apply orb_true_iff in F0 as [F0|F0]; apply Nat.leb_le in F0; auto.
      * intros a Na. simpl. unfold fill. destruct (Nat.leb_spec b' a); simpl; auto.
        destruct (Nat.ltb_spec a (b' + length (divide x))); simpl; auto. lia.
  - pose proof (i_tok _ _ _ _ _ _ _ _ _ _ _ _ _ _ I (KComb b n r)) as K.
    destruct K as (x & Fo & -> & So & Cx & _); [left; exists (S wi), (Cmb b n r); auto|].
    rewrite Fo, (slot_live_ok _ _ _ So) in E. injection E as <-. split; [|split; [auto | split; [auto | apply Hk; auto]]].
    set (n := length (divide x)) in *.
    set (s1 := mkS (tk s) (addr s) (nid s) (numb s) (comp s) (rq s) (todo s) (lupd (ws s) wi (mkW (inq w) p (outq w)))
       (fupd (mem s) r (combine (map (mem s) (seq b n)))) (drop_frame (frames s) b) (fin s) (bad s)).
    destruct (SS_upd s s1 wi w _ Hw eq_refl eq_refl) as (A & B & C).
    rewrite (Rsame s1 p (outq w) eq_refl eq_refl).
    apply (inv_exec cond divide seqf combine op0 (SSof s) (SSof s1) (tk s) (addr s) (rqlof s) (frames s) (drop_frame (frames s) b) (mem s)
      (combine (map (mem s) (seq b n))) (nid s) (numb s) (comp s) (S wi) (outq w) p (Cmb b n r) (KComb b n r)); auto.
    + intros y Hy. rewrite <- (slot_op_det _ _ _ _ _ _ _ _ _ _ _ _ _ _ _ _ _ I So Hy).
      assert (Dx : divide x <> []).
      { destruct (i_solv _ _ _ _ _ _ _ _ _ _ _ _ _ _ I _ _ So) as (m & v & Sv).
        eapply (solve_sub _ _ _ _ _ _ _ Sv Cx). }
      apply solves_step; auto.
      assert (G : forall q o, nth_error (divide x) q = Some o -> solves o (mem s (b + q))).
      { intros q o Hq. destruct (i_val _ _ _ _ _ _ _ _ _ _ _ _ _ _ I (b + q) o) as [H|H]; auto.
        - right. exists b, (divide x), q. auto.
        - exfalso. eapply (i_cmb _ _ _ _ _ _ _ _ _ _ _ _ _ _ I (S wi) b n r (b + q)); eauto.
          apply nth_error_lt in Hq. unfold n. lia. }
      unfold n. clear - G. revert b G. induction (divide x) as [|o l IH]; simpl; intros b G; constructor.
      * specialize (G 0 o eq_refl). rewrite Nat.add_0_r in G. auto.
      * apply IH. intros q o' H. specialize (G (S q) o' H). now replace (S b + q) with (b + S q) by lia.
    + right. exists b, n, r. auto.
  - injection E as <-. split; [|split; [auto | split; [auto | apply Hk; apply Forall_app; split; [auto | repeat constructor]]]]. eapply inv_rql; [exact I | apply Same; auto | |].
    + erewrite Rsame by reflexivity. eapply i_rq; eauto.
    + intros x. erewrite Rsame by reflexivity. tauto.
Qed.

Lemma insert_frame : forall k (s : st), let s' := insert junk k s in
  todo s' = todo s /\ ws s' = ws s /\ mem s' = mem s /\ frames s' = frames s /\ fin s' = fin s /\ bad s' = bad s /\
  comp s' = comp s /\ numb s' = S (numb s).
Proof.
  intros k s s'. subst s'. unfold insert.
  destruct (p_out _ _ _ _). cbv zeta. simpl. repeat (split; [reflexivity|]). reflexivity.
Qed.

Lemma cnt_pos : forall SS tk ad rql fr mem nid nb cp t v,
  Inv SS tk ad rql fr mem nid nb cp -> tk t = Some v -> cp < nb.
Proof.
  intros SS tk ad rql fr mem nid nb cp t v I H.
  destruct (i_cnt _ _ _ _ _ _ _ _ _ _ _ _ _ _ I) as (L & _ & E & HL).
  assert (In t L) as X by (apply HL; congruence). destruct L; [destruct X | simpl in E; lia].
Qed.

Lemma insert_has : forall k (s : st), exists v, tk (insert junk k s) (nid s) = Some v.
Proof.
  intros k s. unfold insert.
  (* every operation keeps the new task *)
  assert (Kt : forall tk i f a, tk a <> None -> tupd tk i f a <> None).
  { intros tk i f a H. unfold tupd, fupd. destruct (Nat.eqb_spec a i) as [->|]; auto. destruct (tk i); simpl; congruence. }
  assert (Ki : forall l tk a, tk a <> None -> fold_left (fun tk d => p_in (nid s) d tk (addr s)) l tk a <> None).
  { induction l as [|d l IH]; simpl; intros tk a H; auto. apply IH. unfold p_in. destruct (find_task _ _); auto. }
  assert (Ks : forall t l tk del a, tk a <> None -> fst (scan (nid s) t l tk del) a <> None).
  { intros t. induction l as [|d l IH]; simpl; intros tk del a H; auto.
    destruct (tk t); auto. destruct (find_task tk (ids t0 d)); auto.
    destruct ((ids t0 d =? nid s) || _); auto. }
  assert (Kc : forall t del tk a, tk a <> None -> compact t del tk a <> None).
  { intros t. unfold compact. induction del as [|d del IH]; simpl; intros tk a H; auto. }
  assert (H0 : fupd (tk s) (nid s) (Some (mkT k NotReady 0 (junk (nid s)) 0)) (nid s) <> None) by (rewrite fupd_eq; discriminate).
  apply (Ki (ins k)) in H0. revert H0.
  generalize (fold_left (fun tk0 d => p_in (nid s) d tk0 (addr s)) (ins k)
     (fupd (tk s) (nid s) (Some (mkT k NotReady 0 (junk (nid s)) 0)))) as tk1. intros tk1 H1.
  destruct (p_out (nid s) (kout k) tk1 (addr s)) as [tk2 ad] eqn:E.
  assert (H2 : tk2 (nid s) <> None).
  { unfold p_out in E. injection E as <- _. destruct (find_task tk1 (addr s (kout k))) as [t|]; auto.
    destruct (unum t =? 0); auto. specialize (Ks (addr s (kout k)) (seq 0 (unum t)) tk1 [] (nid s) H1).
    destruct (scan _ _ _ _ _) as [tk' del]. apply Kc. exact Ks. }
  cbv zeta. simpl. match goal with |- exists v, ?X = Some v => assert (X <> None) as H3 end.
  { destruct (match tk2 (nid s) with Some a => rem a | None => 0 end =? 0); auto. }
  revert H3. match goal with |- ?X <> None -> _ => destruct X; [eauto | congruence] end.
Qed.

Lemma gi_insert : forall (s s0 : st) k j,
  GI s0 -> Forall (fun w => Forall ismsg (outq w)) (ws s) -> fin s = false ->
  tk s = tk s0 -> addr s = addr s0 -> nid s = nid s0 -> numb s = numb s0 -> comp s = comp s0 -> rq s = rq s0 ->
  flat_map inq (ws s) = flat_map inq (ws s0) ->
  mem s = mem s0 -> frames s = frames s0 -> fin s = fin s0 -> bad s = bad s0 ->
  SSof s0 j = Snd k :: SSof s j -> (forall j', j' <> j -> SSof s j' = SSof s0 j') ->
  GI (insert junk k s).
Proof.
  intros s s0 k j (I & Hb & Hf & _) Hm Nf E1 E2 E3 E4 E5 E6 E7 E8 E9 E10 E11 Ej Eo.
  destruct (insert_frame k s) as (F1 & F2 & F3 & F4 & F5 & F6 & F7 & F8).
  rewrite <- E1, <- E2, <- E3, <- E4, <- E5, <- E8, <- E9 in I.
  assert (Hs : forall j', SSof (insert junk k s) j' = SSof s j').
  { intros [|i]; unfold SSof; rewrite ?F1, ?F2; auto. }
  assert (Nr : ~ In (nid s) (rqlof s0)).
  { intros X. apply (i_rqt _ _ _ _ _ _ _ _ _ _ _ _ _ _ I) in X as (v & A & _).
    apply (i_nid _ _ _ _ _ _ _ _ _ _ _ _ _ _ I) in A. lia. }
  assert (G : Inv (SSof (insert junk k s)) (tk (insert junk k s)) (addr (insert junk k s)) (rqlof (insert junk k s))
      (frames s) (mem s) (nid (insert junk k s)) (numb (insert junk k s)) (comp (insert junk k s))).
  { destruct (inv_step_insert cond divide seqf combine junk op0 s (SSof s0) (SSof s) (rqlof s0) j k I Ej Eo) as [[R G]|[R G]].
    - eapply inv_rql; [exact G | exact Hs | |]; unfold rqlof; rewrite R, F2, E6, E7.
      + eapply i_rq; eauto.
      + intros x. tauto.
    - assert (P : Permutation (rqlof (insert junk k s)) (nid s :: rqlof s0)).
      { unfold rqlof. rewrite R, F2, E6, E7, <- app_assoc. symmetry. apply Permutation_middle. }
      eapply inv_rql; [apply (G (rqlof (insert junk k s))) | exact Hs | |].
      + apply (Permutation_NoDup (Permutation_sym P)). constructor; [auto | eapply i_rq; eauto].
      + intros x. split; intros X.
        * apply (Permutation_in _ P) in X. destruct X; auto.
        * apply (Permutation_in _ (Permutation_sym P)). destruct X; [right | left]; auto.
      + apply (Permutation_NoDup (Permutation_sym P)). constructor; [auto | eapply i_rq; eauto].
      + intros x. tauto. }
  split; [|split; [|split]].
  - rewrite F3, F4. exact G.
  - rewrite F6. congruence.
  - rewrite F5, Nf. split; [discriminate|]. intros [X _]. exfalso.
    destruct (insert_has k s) as (v & Hv). pose proof (cnt_pos _ _ _ _ _ _ _ _ _ _ _ G Hv). lia.
  - rewrite F2. exact Hm.
Qed.

Lemma gi_step : forall s a s', GI s -> step s a = Some s' -> GI s'.
Proof.
  intros s a s' G E. assert (G0 := G). destruct G0 as (I & Hb & Hf & Hm).
  assert (Ez : tk s 0 = None).
  { destruct (tk s 0) as [u|] eqn:X; auto. apply (i_nid _ _ _ _ _ _ _ _ _ _ _ _ _ _ I) in X. lia. }
  destruct a as [|wi t|wi|wi b|wi]; cbn [DCModel.step] in E.
  - destruct (todo s) as [|k r] eqn:Et; [discriminate|]. injection E as <-.
    eapply gi_insert with (s0 := s) (j := 0); auto.
    + simpl. destruct (fin s); auto. destruct (proj1 Hf eq_refl) as [_ F]. discriminate.
    + simpl. rewrite Et. auto.
    + intros [|j] N; [congruence | auto].
  - destruct (nth_error (ws s) wi) as [w|] eqn:Hw; [|discriminate].
    destruct (existsb (Nat.eqb t) (rq s)) eqn:Ex; [|discriminate]. injection E as <-.
    apply existsb_exists in Ex as (t' & It & Et). apply Nat.eqb_eq in Et. subst t'.
    set (s1 := set_ws (set_rq s (remove Nat.eq_dec t (rq s))) (lupd (ws s) wi (mkW (inq w ++ [t]) (prog w) (outq w)))).
    destruct (SS_upd s s1 wi w _ Hw eq_refl eq_refl) as (A & B & C).
    destruct (rql_upd s s1 wi w _ Hw eq_refl) as (x & y & R1 & R2).
    assert (Nq := i_rq _ _ _ _ _ _ _ _ _ _ _ _ _ _ I). 
    assert (Nrq : NoDup (rq s)).
    { unfold rqlof in Nq. clear - Nq. induction (rq s) as [|z l IH]; [constructor|]. simpl in Nq. inversion Nq; subst.
      constructor; auto. intros X. apply H1. apply in_app_iff; auto. }
    assert (P : Permutation (rq s) (t :: remove Nat.eq_dec t (rq s))).
    { clear - Nrq It. induction (rq s) as [|z l IH]; [destruct It|]. simpl. inversion Nrq; subst.
      destruct (Nat.eq_dec t z) as [->|N].
      - rewrite notin_remove by auto. auto.
      - destruct It as [X|X]; [congruence|]. etransitivity; [apply perm_skip; apply IH; auto|]. apply perm_swap. }
    assert (P2 : Permutation (rqlof s1) (rqlof s)).
    { rewrite R1, R2. symmetry. etransitivity; [apply Permutation_app_tail; exact P|].
      change (rq s1) with (remove Nat.eq_dec t (rq s)). cbn [inq]. set (rr := remove Nat.eq_dec t (rq s)).
      replace (rr ++ x ++ (inq w ++ [t]) ++ y) with ((rr ++ x ++ inq w) ++ t :: y) by (rewrite <- !app_assoc; reflexivity).
      replace ((t :: rr) ++ x ++ inq w ++ y) with (t :: (rr ++ x ++ inq w) ++ y) by (rewrite <- !app_assoc; reflexivity).
      apply Permutation_middle. }
    split; [|split; [auto | split; [auto|]]]; cycle 1.
    { apply Forall_lupd; auto. rewrite Forall_forall in Hm. apply (Hm w). eapply nth_error_In; eauto. }
    eapply inv_rql; [exact I | | |].
    + intros j. destruct (Nat.eq_dec j (S wi)) as [->|N]; [rewrite B, A; auto | auto].
    + apply (Permutation_NoDup (Permutation_sym P2)); auto.
    + intros z. split; apply Permutation_in; [auto | symmetry; auto].
  - destruct (nth_error (ws s) wi) as [[[|t q] [|e p] o]|] eqn:Hw; try discriminate.
    assert (It : In t (rqlof s)) by (eapply in_flat_inq; [exact Hw | left; auto]).
    assert (Hv := It). apply (i_rqt _ _ _ _ _ _ _ _ _ _ _ _ _ _ I) in Hv as (v & Hv & _).
    rewrite find_tk, Hv in E by auto. injection E as <-.
    change (match kd v with KDac b i => Cal b i | KComb b n r => Cmb b n r end) with (first_ev (kd v)).
    set (s1 := set_ws s (lupd (ws s) wi (mkW q [first_ev (kd v); Don t] o))).
    destruct (SS_upd s s1 wi _ _ Hw eq_refl eq_refl) as (A & B & C).
    destruct (rql_upd s s1 wi _ _ Hw eq_refl) as (x & y & R1 & R2).
    assert (P2 : Permutation (rqlof s) (t :: rqlof s1)).
    { rewrite R1, R2. simpl. rewrite !app_assoc. symmetry. rewrite <- !app_assoc. rewrite (app_assoc (rq s) x). rewrite (app_assoc (rq s) x).
      apply Permutation_middle. }
    assert (N1 : NoDup (t :: rqlof s1)) by (apply (Permutation_NoDup P2); eapply i_rq; eauto).
    split; [|split; [auto | split; [auto|]]]; cycle 1.
    { apply Forall_lupd; auto. rewrite Forall_forall in Hm. apply (Hm _ (nth_error_In _ _ Hw)). }
    apply (inv_start cond divide seqf combine op0 (SSof s) (SSof s1) (tk s) (addr s) (rqlof s) (rqlof s1) (frames s) (mem s)
      (nid s) (numb s) (comp s) (S wi) t v); auto; try lia.
    + rewrite A, B. unfold stream. simpl. rewrite app_nil_r. auto.
    + inversion N1; auto.
    + intros z. inversion N1; subst. split.
      * intros Z. split; [apply (Permutation_in _ (Permutation_sym P2)); right; auto | intros ->; auto].
      * intros [Z N]. apply (Permutation_in _ P2) in Z. destruct Z as [Z|Z]; [congruence | auto].
  - destruct (nth_error (ws s) wi) as [w|] eqn:Hw; [|discriminate]. eapply gi_work; eauto.
  - destruct (fin s) eqn:Ff; [discriminate|]. destruct (todo s) as [|] eqn:Et; [|discriminate].
    destruct (nth_error (ws s) wi) as [[q p [|m o]]|] eqn:Hw; try discriminate.
    set (s1 := set_ws s (lupd (ws s) wi (mkW q p o))) in *.
    destruct (SS_upd s s1 wi _ _ Hw eq_refl eq_refl) as (A & B & C).
    destruct (rql_upd s s1 wi _ _ Hw eq_refl) as (x & y & R1 & R2). simpl inq in R1, R2.
    assert (Fl : flat_map inq (ws s1) = flat_map inq (ws s)).
    { unfold rqlof in R1, R2. apply app_inv_head in R1, R2. congruence. }
    assert (Es : SSof s (S wi) = m :: SSof s1 (S wi)) by (rewrite A, B; reflexivity).
    assert (Hmw : Forall ismsg (m :: o)).
    { rewrite Forall_forall in Hm. apply (Hm _ (nth_error_In _ _ Hw)). }
    assert (Hm1 : Forall (fun w => Forall ismsg (outq w)) (ws s1)).
    { apply Forall_lupd; auto. inversion Hmw; auto. }
    destruct m as [k|b i|b n r|t].
    + injection E as <-. eapply gi_insert with (s0 := s) (j := S wi); auto.
    + inversion Hmw as [|? ? X]. destruct X.
    + inversion Hmw as [|? ? X]. destruct X.
    + injection E as <-.
      destruct (inv_step_done cond divide seqf combine junk op0 s1 (SSof s) (SSof s1) (rqlof s) (S wi) t I Es C)
        as (D1 & D2 & D3 & D4 & D5 & D6 & D7 & D8 & D9 & D10 & D11).
      assert (Hs : forall j', SSof (handle s1 t) j' = SSof s1 j').
      { intros [|i]; unfold SSof; rewrite ?D5, ?D6; auto. }
      split; [|split; [|split]].
      * rewrite D1, D2, D3, D4, D7, D8. destruct D11 as [[R J]|(c & R & Nc & J)].
        -- eapply inv_rql; [exact J | exact Hs | |]; unfold rqlof; rewrite R, D6, Fl.
           ++ eapply i_rq; eauto.
           ++ intros z. tauto.
        -- assert (P : Permutation (rqlof (handle s1 t)) (c :: rqlof s)).
           { unfold rqlof. rewrite R, D6, Fl, <- app_assoc. symmetry. apply Permutation_middle. }
           assert (ND : NoDup (rqlof (handle s1 t))).
           { apply (Permutation_NoDup (Permutation_sym P)). constructor; [auto | eapply i_rq; eauto]. }
           eapply inv_rql; [apply (J (rqlof (handle s1 t)) ND) | exact Hs | exact ND |]; [|intros z; tauto].
           intros z. split; intros X.
           ++ apply (Permutation_in _ P) in X. destruct X; auto.
           ++ apply (Permutation_in _ (Permutation_sym P)). destruct X; [right | left]; auto.
      * rewrite D10. exact Hb.
      * rewrite D9, D3, D4, D5. simpl todo. rewrite Et. rewrite Nat.eqb_eq. tauto.
      * rewrite D6. exact Hm1.
Qed.
End Glue.
