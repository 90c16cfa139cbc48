(** Divide and conquer: the invariant, and its preservation by the workers. *)
From Coq Require Import List Arith Bool Lia Permutation.
From Verif Require Import Base DCModel DCSpec DCProofs.
Import ListNotations.

Definition isdac (k : kind) : Prop := match k with KDac _ _ => True | KComb _ _ _ => False end.
Definition points (u : task) (c : nat) : Prop := unum u = 1 /\ ids u 0 = c.

Definition present (lab : kind -> list nat) (SS : nat -> list ev) (tk : nat -> option task) (x : nat) : Prop :=
  (exists j, In x (labs lab (SS j))) \/
  exists t v, tk t = Some v /\ fresh SS t /\ In x (lab (kd v)).
Definition held := present lab_out.

Definition tok (SS : nat -> list ev) (tk : nat -> option task) (k : kind) : Prop :=
  (exists j e, In e (SS j) /\ evk e = Some k) \/
  exists t v, tk t = Some v /\ fresh SS t /\ kd v = k.

Definition covers (SS : nat -> list ev) (tk : nat -> option task) (t a : nat) : Prop :=
  (fresh SS t /\ exists v, tk t = Some v /\ kout (kd v) = a) \/ exists j, pre (SS j) t a.

Definition free0 (SS : nat -> list ev) (tk : nat -> option task) (ad : nat -> nat) (a : nat) : Prop :=
  held SS tk a -> exists v, tk (ad a) = Some v /\ covers SS tk (ad a) a.

Lemma tok_present : forall lab SS tk k x, tok SS tk k -> In x (lab k) -> present lab SS tk x.
Proof.
  intros lab SS tk k x [(j & e & I & E)|(t & v & H & F & E)] Hx.
  - left. exists j. apply in_labs. eauto.
  - right. exists t, v. rewrite E. auto.
Qed.
Lemma tok_held : forall SS tk k, tok SS tk k -> held SS tk (kout k).
Proof. intros. eapply tok_present; eauto. left; auto. Qed.

Lemma frame_drop : forall Op (l : list (nat * list Op)) b b',
  frame (drop_frame l b) b' = if b' =? b then None else frame l b'.
Proof.
  induction l as [|[c ops] l IH]; intros b b'; simpl.
  - destruct (b' =? b); auto.
  - destruct (Nat.eqb_spec c b) as [->|N]; simpl.
    + rewrite IH. destruct (Nat.eqb_spec b' b) as [->|N']; auto.
      destruct (Nat.eqb_spec b b'); congruence.
    + destruct (Nat.eqb_spec c b') as [->|N'].
      * destruct (Nat.eqb_spec b' b); congruence.
      * apply IH.
Qed.

Section Inv.
Context {Op Res : Type}.
Variable cond : Op -> bool.
Variable divide : Op -> list Op.
Variable seqf : Op -> Res.
Variable combine : list Res -> Res.
Variable op0 : Op.
Notation solve := (solve cond divide seqf combine).
Notation solves := (solves cond divide seqf combine).

Definition slot_op (fr : list (nat * list Op)) (a : nat) (o : Op) : Prop :=
  (a = 0 /\ o = op0) \/
  exists b ops i, frame fr b = Some ops /\ nth_error ops i = Some o /\ a = b + i.

Definition kok (fr : list (nat * list Op)) (k : kind) : Prop :=
  match k with
  | KDac b i => exists ops, frame fr b = Some ops /\ i < length ops
  | KComb b n r => exists o, frame fr b = Some (divide o) /\ n = length (divide o) /\
      slot_op fr r o /\ cond o = false /\ ~ (b <= r < b + n)
  end.

Record Inv (SS : nat -> list ev) (tk : nat -> option task) (ad : nat -> nat) (rql : list nat)
    (fr : list (nat * list Op)) (mem : nat -> Res) (nid numb comp : nat) : Prop := {
  i_fr : forall b ops, frame fr b = Some ops -> 0 < b /\ ops <> [] /\
    (forall b' ops', frame fr b' = Some ops' -> b <> b' -> b + length ops <= b' \/ b' + length ops' <= b);
  i_solv : forall a o, slot_op fr a o -> exists n v, solve n o = Some v;
  i_tok : forall k, tok SS tk k -> kok fr k;
  i_own : forall b ops, frame fr b = Some ops -> exists n r, tok SS tk (KComb b n r);
  i_val : forall a o, slot_op fr a o -> held SS tk a \/ solves o (mem a);
  i_ub : uniq lab_base SS tk;
  i_uo : uniq lab_out SS tk;
  i_wfs : forall j, wfs (free0 SS tk ad) [] (SS j);
  i_cmb : forall j b n r d, In (Cmb b n r) (SS j) -> b <= d < b + n -> ~ held SS tk d /\ tk (ad d) = None;
  i_cf : forall c v b n r d, tk c = Some v -> fresh SS c -> kd v = KComb b n r -> b <= d < b + n ->
    free0 SS tk ad d;
  i_ad : forall a v, tk (ad a) = Some v -> kout (kd v) = a /\ (exists o, slot_op fr a o) /\ (a = 0 -> unum v = 0);
  i_ads : forall j b n r a v, In (Snd (KComb b n r)) (SS j) -> b <= a < b + n -> tk (ad a) = Some v -> unum v = 0;
  i_adf : forall c w b n r a v, tk c = Some w -> fresh SS c -> kd w = KComb b n r -> b <= a < b + n ->
    tk (ad a) = Some v -> points v c;
  i_first : forall j b i, In (Snd (KDac b i)) (SS j) -> tk (ad (b + i)) = None;
  i_dac : forall b i v, tok SS tk (KDac b i) -> tk (ad (b + i)) = Some v -> isdac (kd v);
  i_dacs : forall j b n r v, In (Snd (KComb b n r)) (SS j) -> tk (ad r) = Some v -> isdac (kd v);
  i_rem : forall c v, tk c = Some v ->
    exists L, NoDup L /\ length L = rem v /\ forall t, In t L <-> exists u, tk t = Some u /\ points u c;
  i_stat : forall c v, tk c = Some v -> (stat v = Ready <-> rem v = 0);
  i_dac0 : forall c v, tk c = Some v -> isdac (kd v) -> rem v = 0;
  i_unum : forall t u, tk t = Some u -> unum u <= 1;
  i_pt : forall t u, tk t = Some u -> unum u = 1 -> exists w b n r,
    tk (ids u 0) = Some w /\ kd w = KComb b n r /\ (b <= kout (kd u) < b + n \/ isdac (kd u));
  i_nd : forall j, NoDup (dons (SS j));
  i_ds : forall j j' t, In t (dons (SS j)) -> In t (dons (SS j')) -> j = j';
  i_dt : forall j t, In t (dons (SS j)) -> exists v, tk t = Some v /\ stat v = Ready;
  i_rq : NoDup rql;
  i_rqt : forall t, In t rql <-> exists v, tk t = Some v /\ stat v = Ready /\ fresh SS t;
  i_nid : forall t v, tk t = Some v -> 0 < t < nid;
  i_adn : forall a, ad a < nid;
  i_last : forall j, 0 < j -> SS j = [] \/ exists l t, SS j = l ++ [Don t];
  i_zero : forall e, In e (SS 0) -> exists k, e = Snd k;
  i_cnt : exists L, NoDup L /\ length L + comp = numb /\ forall t, In t L <-> tk t <> None }.

Lemma nth_error_lt : forall A (l : list A) i x, nth_error l i = Some x -> i < length l.
Proof. intros A l i x H. apply nth_error_Some. rewrite H. discriminate. Qed.

Lemma slot_op_det : forall SS tk ad rql fr mem nid nb cp a o o',
  Inv SS tk ad rql fr mem nid nb cp -> slot_op fr a o -> slot_op fr a o' -> o = o'.
Proof.
  intros SS tk ad rql fr mem nid nb cp a o o' I [[A ->]|(b & ops & i & F & N & A)] [[A' ->]|(b' & ops' & i' & F' & N' & A')]; auto.
  - apply (i_fr _ _ _ _ _ _ _ _ _ I) in F' as (P & _). lia.
  - apply (i_fr _ _ _ _ _ _ _ _ _ I) in F as (P & _). lia.
  - destruct (Nat.eq_dec b b') as [->|Nb].
    + rewrite F in F'. injection F' as <-. replace i' with i in N' by lia. congruence.
    + apply (i_fr _ _ _ _ _ _ _ _ _ I) in F as (_ & _ & D). specialize (D _ _ F' Nb).
      apply nth_error_lt in N, N'. lia.
Qed.

(** *** A call ends: the event disappears, its result is stored. *)
Section Exec1.
Variables (SS SS' : nat -> list ev) (tk : nat -> option task) (j : nat) (o p : list ev) (e : ev) (k : kind).
Hypothesis Ej : SS j = o ++ e :: p.
Hypothesis Ej' : SS' j = o ++ p.
Hypothesis Eo : forall j', j' <> j -> SS' j' = SS j'.
Hypothesis Ek : evk e = Some k.

Lemma ex_dons : forall j', dons (SS' j') = dons (SS j').
Proof.
  intros j'. destruct (Nat.eq_dec j' j) as [->|N]; [|rewrite Eo; auto].
  rewrite Ej, Ej', !dons_app, dons_cons. destruct e; simpl in *; try discriminate; auto.
Qed.
Lemma ex_fresh : forall t, fresh SS' t <-> fresh SS t.
Proof. intros t. unfold fresh. split; intros H j' I; apply (H j'); rewrite ex_dons in *; auto. Qed.
Lemma ex_in : forall j' e', In e' (SS' j') -> In e' (SS j').
Proof.
  intros j' e' I. destruct (Nat.eq_dec j' j) as [->|N]; [|rewrite Eo in I; auto].
  rewrite Ej. rewrite Ej' in I. rewrite in_app_iff in *. simpl. tauto.
Qed.
Lemma ex_in' : forall j' e', In e' (SS j') -> In e' (SS' j') \/ e' = e.
Proof.
  intros j' e' I. destruct (Nat.eq_dec j' j) as [->|N]; [|rewrite Eo; auto].
  rewrite Ej'. rewrite Ej in I. rewrite in_app_iff in *. simpl in I. intuition.
Qed.
Lemma ex_labs : forall lab j' x, In x (labs lab (SS' j')) -> In x (labs lab (SS j')).
Proof. intros lab j' x. rewrite !in_labs. intros (e' & k' & I & H). exists e', k'. split; [apply ex_in|]; auto. Qed.
Lemma ex_labsj : forall lab, labs lab (SS j) = labs lab o ++ lab k ++ labs lab p.
Proof. intros lab. rewrite Ej, labs_app, labs_cons. unfold lab1. rewrite Ek. auto. Qed.
Lemma ex_uniq : forall lab, uniq lab SS tk -> uniq lab SS' tk.
Proof.
  intros lab U. eapply uniq_repl; eauto.
  - pose proof (u_nd _ _ _ U j) as N. rewrite ex_labsj in N. rewrite Ej', labs_app.
    clear - N. induction (lab k) as [|x l IH]; auto. apply IH. simpl in N.
    eapply NoDup_remove_1; eauto.
  - intros x I. left. apply ex_labs; auto.
  - intros t v' H F. exists v'. rewrite ex_fresh in F. auto.
Qed.
Lemma ex_absent : forall lab x, uniq lab SS tk -> In x (lab k) -> ~ present lab SS' tk x.
Proof.
  intros lab x U Hx H.
  assert (X : In x (labs lab (SS j))) by (rewrite ex_labsj, !in_app_iff; auto).
  destruct H as [(j' & I)|(t & v & H & F & I)].
  - pose proof (u_st _ _ _ U _ _ _ (ex_labs _ _ _ I) X) as ->.
    pose proof (u_nd _ _ _ U j) as N. rewrite ex_labsj in N. rewrite Ej', labs_app in I.
    clear - N I Hx. induction (lab k) as [|y l IH]; simpl in *; auto.
    destruct Hx as [->|Hx].
    + apply NoDup_remove_2 in N. apply N. rewrite !in_app_iff in *. tauto.
    + apply IH; auto. eapply NoDup_remove_1; eauto.
  - rewrite ex_fresh in F. eapply u_tk; eauto.
Qed.
Lemma ex_present : forall lab x, present lab SS' tk x -> present lab SS tk x.
Proof.
  intros lab x [(j' & I)|(t & v & H & F & I)]; [left; exists j'; apply ex_labs; auto|].
  right. exists t, v. rewrite ex_fresh in F. auto.
Qed.
Lemma ex_held : forall a, held SS tk a -> a <> kout k -> held SS' tk a.
Proof.
  intros a [(j' & I)|(t & v & H & F & I)] N.
  - left. exists j'. apply in_labs in I as (e' & k' & I & E & L). apply in_labs. exists e', k'.
    split; [|auto]. apply ex_in' in I as [I| ->]; auto. rewrite Ek in E. injection E as <-.
    destruct L as [L|[]]. congruence.
  - right. exists t, v. rewrite ex_fresh. auto.
Qed.
Lemma ex_tok : forall k', tok SS' tk k' -> tok SS tk k'.
Proof.
  intros k' [(j' & e' & I & E)|(t & v & H & F & E)].
  - left. exists j', e'. split; [apply ex_in|]; auto.
  - right. exists t, v. rewrite ex_fresh in F. auto.
Qed.
Lemma ex_tok' : forall k', tok SS tk k' -> k' <> k -> tok SS' tk k'.
Proof.
  intros k' [(j' & e' & I & E)|(t & v & H & F & E)] N.
  - left. exists j', e'. split; auto. apply ex_in' in I as [I| ->]; auto. congruence.
  - right. exists t, v. rewrite ex_fresh. auto.
Qed.
Lemma ex_covers : forall t a, covers SS tk t a -> a <> kout k -> covers SS' tk t a.
Proof.
  intros t a [[F H]|(j' & H)] N.
  - left. rewrite ex_fresh. auto.
  - right. exists j'. destruct (Nat.eq_dec j' j) as [->|Nj]; [|rewrite Eo; auto].
    rewrite Ej in H. rewrite Ej'. apply pre_app in H. apply pre_app. cbn [pre] in H.
    unfold lab1 in H. rewrite Ek in H.
    change (In a (lab_out k)) with (kout k = a \/ False) in H.
    assert (D : dons (e :: p) = dons p) by (destruct e; simpl in *; try discriminate; auto).
    rewrite D in H. intuition congruence.
Qed.
Lemma ex_free0 : forall ad a, uniq lab_out SS tk -> free0 SS tk ad a -> free0 SS' tk ad a.
Proof.
  intros ad a U H Ha.
  assert (a <> kout k) as N by (intros ->; revert Ha; apply ex_absent; [auto | left; auto]).
  destruct (H (ex_present _ _ Ha)) as (v & H1 & H2). exists v. split; auto. now apply ex_covers.
Qed.
End Exec1.

Lemma inv_exec : forall SS SS' tk ad rql fr fr' mem val nid nb cp j o p e k,
  Inv SS tk ad rql fr mem nid nb cp ->
  SS j = o ++ e :: p -> SS' j = o ++ p -> (forall j', j' <> j -> SS' j' = SS j') ->
  evk e = Some k ->
  (forall x, slot_op fr (kout k) x -> solves x val) ->
  ((fr' = fr /\ exists b i, e = Cal b i) \/
   (exists b n r, e = Cmb b n r /\ fr' = drop_frame fr b)) ->
  Inv SS' tk ad rql fr' (fupd mem (kout k) val) nid nb cp.
Proof.
  intros SS SS' tk ad rql fr fr' mem val nid nb cp j o p e k I Ej Ej' Eo Ek Hv Hfr.
  pose proof (i_ub _ _ _ _ _ _ _ _ _ I) as Ub. pose proof (i_uo _ _ _ _ _ _ _ _ _ I) as Uo.
  assert (Fsub : forall b ops, frame fr' b = Some ops -> frame fr b = Some ops).
  { intros b ops H. destruct Hfr as [[-> _]|(b' & n & r & _ & ->)]; auto.
    rewrite frame_drop in H. destruct (b =? b'); [discriminate | auto]. }
  assert (Ssub : forall a x, slot_op fr' a x -> slot_op fr a x).
  { intros a x [H|(b & ops & i & H & H')]; [left; auto | right; exists b, ops, i; auto]. }
  (* a slot of the dropped frame is neither held nor registered *)
  assert (Fdrop : forall b ops, frame fr b = Some ops -> frame fr' b = Some ops \/
            (exists r, e = Cmb b (length ops) r /\ k = KComb b (length ops) r)).
  { intros b ops H. destruct Hfr as [[-> _]|(b' & n & r & -> & ->)]; auto.
    rewrite frame_drop. destruct (Nat.eqb_spec b b') as [->|]; auto. right. exists r.
    simpl in Ek. injection Ek as <-.
    assert (kok fr (KComb b' n r)) as K.
    { apply (i_tok _ _ _ _ _ _ _ _ _ I). left. exists j, (Cmb b' n r). split; auto.
      rewrite Ej. apply in_app_iff; right; left; auto. }
    simpl in K. destruct K as (x & K1 & K2 & _). rewrite H in K1. injection K1 as ->. subst n. auto. }
  assert (Sdrop : forall a x, slot_op fr a x -> slot_op fr' a x \/ (~ held SS tk a /\ tk (ad a) = None)).
  { intros a x [H|(b & ops & i & H & H' & ->)]; [left; left; auto|].
    destruct (Fdrop _ _ H) as [H1|(r & -> & ->)]; [left; right; exists b, ops, i; auto|].
    right. apply (i_cmb _ _ _ _ _ _ _ _ _ I) with (j := j) (b := b) (n := length ops) (r := r).
    - rewrite Ej. apply in_app_iff; right; left; auto.
    - apply nth_error_lt in H'. lia. }
  assert (In_e : In e (SS j)) by (rewrite Ej; apply in_app_iff; right; left; auto).
  assert (Dn : forall j', dons (SS' j') = dons (SS j')) by (eapply ex_dons; eauto).
  assert (Fr : forall t, fresh SS' t <-> fresh SS t) by (eapply ex_fresh; eauto).
  split.
  - intros b ops H. apply Fsub in H. destruct (i_fr _ _ _ _ _ _ _ _ _ I _ _ H) as (A & B & C).
    split; [auto|split; [auto|]]. intros b' ops' H' N. apply Fsub in H'. eapply C; eauto.
  - intros a x H. eapply i_solv; eauto.
  - intros k' Hk. assert (Hk0 := ex_tok _ _ tk _ _ _ _ _ Ej Ej' Eo Ek _ Hk).
    pose proof (i_tok _ _ _ _ _ _ _ _ _ I _ Hk0) as K. destruct k' as [b i|b n r]; simpl in *.
    + destruct K as (ops & K1 & K2). exists ops. split; auto.
      destruct (Fdrop _ _ K1) as [H|(r & -> & ->)]; auto. exfalso.
      eapply (i_cmb _ _ _ _ _ _ _ _ _ I) with (j := j) (d := b + i); [exact In_e | lia |].
      apply (tok_held _ _ _ Hk0).
    + destruct K as (x & K1 & K2 & K3 & K4 & K5). exists x. split; [|split; [auto|split; [|auto]]].
      * destruct (Fdrop _ _ K1) as [H|(r' & -> & ->)]; auto. exfalso.
        eapply (ex_absent _ _ tk _ _ _ _ _ Ej Ej' Eo Ek lab_base b Ub); [left; auto|].
        eapply tok_present; eauto. left; auto.
      * destruct (Sdrop _ _ K3) as [H|[H _]]; auto. destruct (H (tok_held _ _ _ Hk0)).
  - intros b ops H. destruct (i_own _ _ _ _ _ _ _ _ _ I b ops (Fsub _ _ H)) as (n & r & T).
    exists n, r. eapply ex_tok'; eauto. intros <-.
    destruct Hfr as [[_ (b' & i & ->)]|(b' & n' & r' & -> & ->)]; [discriminate|].
    simpl in Ek. injection Ek as <- <- <-. rewrite frame_drop, Nat.eqb_refl in H. discriminate.
  - intros a x H. destruct (Nat.eq_dec a (kout k)) as [->|N].
    + right. rewrite fupd_eq. auto.
    + rewrite fupd_neq by auto. destruct (i_val _ _ _ _ _ _ _ _ _ I a x (Ssub _ _ H)) as [T|T]; auto.
      left. eapply ex_held; eauto.
  - eapply ex_uniq; eauto.
  - eapply ex_uniq; eauto.
  - intros j'. destruct (Nat.eq_dec j' j) as [->|N].
    + rewrite Ej'. pose proof (i_wfs _ _ _ _ _ _ _ _ _ I j) as W. rewrite Ej in W.
      apply wfs_app in W as [W1 [_ W2]]. apply wfs_app. split.
      * eapply wfs_mono; [| |exact W1]; [auto | intros; eapply ex_free0; eauto].
      * eapply wfs_mono; [| |exact W2]; [|intros; eapply ex_free0; eauto].
        intros b n r d _ _ H. apply in_app_iff in H as [H|H]; auto. right.
        unfold lab1 in H. rewrite Ek in H. destruct H as [<-|[]]. intros Hh. exfalso.
        eapply (ex_absent _ _ tk _ _ _ _ _ Ej Ej' Eo Ek lab_out); eauto. left; auto.
    + rewrite Eo by auto. eapply wfs_mono; [| |apply (i_wfs _ _ _ _ _ _ _ _ _ I j')]; auto.
      intros; eapply ex_free0; eauto.
  - intros j' b n r d H Hd. pose proof (ex_in _ _ tk _ _ _ _ Ej Ej' Eo _ _ H) as H0; clear H; rename H0 into H.
    destruct (i_cmb _ _ _ _ _ _ _ _ _ I _ _ _ _ _ H Hd) as [A B]. split; auto.
    intros Hh. apply A. eapply ex_present; eauto.
  - intros c v b n r d H F K Hd. rewrite Fr in F. eapply ex_free0; eauto. eapply i_cf; eauto.
  - intros a v H. destruct (i_ad _ _ _ _ _ _ _ _ _ I a v H) as (A & (x & B) & C).
    split; [auto|split; [|auto]]. destruct (Sdrop _ _ B) as [D|[_ D]]; [exists x; auto | congruence].
  - intros j' b n r a v H. pose proof (ex_in _ _ tk _ _ _ _ Ej Ej' Eo _ _ H) as H0; clear H; rename H0 into H. eapply i_ads; eauto.
  - intros c w b n r a v H F. rewrite Fr in F. eapply i_adf; eauto.
  - intros j' b i H. pose proof (ex_in _ _ tk _ _ _ _ Ej Ej' Eo _ _ H) as H0; clear H; rename H0 into H. eapply i_first; eauto.
  - intros b i v H. apply (ex_tok _ _ tk _ _ _ _ _ Ej Ej' Eo Ek) in H. eapply i_dac; eauto.
  - intros j' b n r v H. pose proof (ex_in _ _ tk _ _ _ _ Ej Ej' Eo _ _ H) as H0; clear H; rename H0 into H. eapply i_dacs; eauto.
  - apply (i_rem _ _ _ _ _ _ _ _ _ I).
  - apply (i_stat _ _ _ _ _ _ _ _ _ I).
  - apply (i_dac0 _ _ _ _ _ _ _ _ _ I).
  - apply (i_unum _ _ _ _ _ _ _ _ _ I).
  - apply (i_pt _ _ _ _ _ _ _ _ _ I).
  - intros j'. rewrite Dn. eapply i_nd; eauto.
  - intros j1 j2 t. rewrite !Dn. eapply i_ds; eauto.
  - intros j' t. rewrite Dn. eapply i_dt; eauto.
  - apply (i_rq _ _ _ _ _ _ _ _ _ I).
  - intros t. rewrite (i_rqt _ _ _ _ _ _ _ _ _ I). split; intros (v & A & B & C); exists v;
      rewrite Fr in *; auto.
  - apply (i_nid _ _ _ _ _ _ _ _ _ I).
  - apply (i_adn _ _ _ _ _ _ _ _ _ I).
  - intros j' Hj. destruct (Nat.eq_dec j' j) as [->|N]; [|rewrite Eo by auto; eapply i_last; eauto].
    destruct (i_last _ _ _ _ _ _ _ _ _ I j Hj) as [E|(l & t & E)].
    + rewrite Ej in E. destruct o; discriminate.
    + right. rewrite Ej in E. rewrite Ej'. destruct (exists_last (l := e :: p)) as (p' & x & E'); [discriminate|].
      rewrite E' in E. rewrite app_assoc in E. apply app_inj_tail in E as [E1 ->].
      destruct p' as [|e' p'']; simpl in E'.
      * injection E' as -> ->. discriminate.
      * injection E' as <- E'. exists (o ++ p''), t. rewrite E'. now rewrite app_assoc.
  - intros e' H. destruct (Nat.eq_dec 0 j) as [<-|N].
    + eapply i_zero; [exact I|]. eapply ex_in; eauto.
    + rewrite Eo in H by auto. eapply i_zero; eauto.
  - apply (i_cnt _ _ _ _ _ _ _ _ _ I).
Qed.
End Inv.
