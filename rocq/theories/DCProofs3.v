(** Divide and conquer: the invariant is preserved when a task is started and when an
    operand is divided. *)
From Coq Require Import List Arith Bool Lia Permutation.
From Verif Require Import Base DCModel DCSpec DCProofs DCProofs2.
Import ListNotations.

Section Inv.
Context {Op Res : Type}.
Variable cond : Op -> bool.
Variable divide : Op -> list Op.
Variable seqf : Op -> Res.
Variable combine : list Res -> Res.
Variable op0 : Op.
Notation solve := (solve cond divide seqf combine).
Notation solves := (solves cond divide seqf combine).
Notation Inv := (Inv cond divide seqf combine op0).
Notation slot_op := (slot_op op0).
Notation kok := (kok cond divide op0).

(** *** Start of a task *)
Definition first_ev (k : kind) : ev := match k with KDac b i => Cal b i | KComb b n r => Cmb b n r end.
Lemma evk_first : forall k, evk (first_ev k) = Some k.
Proof. destruct k; auto. Qed.

Section Start.
Variables (SS SS' : nat -> list ev) (tk : nat -> option task) (j t : nat) (v : task).
Hypothesis Ej' : SS' j = SS j ++ [first_ev (kd v); Don t].
Hypothesis Eo : forall j', j' <> j -> SS' j' = SS j'.
Hypothesis Ht : tk t = Some v.
Hypothesis Ft : fresh SS t.

Lemma st_in : forall j' e, In e (SS' j') <-> In e (SS j') \/ (j' = j /\ (e = first_ev (kd v) \/ e = Don t)).
Proof.
  intros j' e. destruct (Nat.eq_dec j' j) as [->|N].
  - rewrite Ej', in_app_iff. simpl. intuition.
  - rewrite Eo by auto. intuition.
Qed.
Lemma st_dons : forall j' x, In x (dons (SS' j')) <-> In x (dons (SS j')) \/ (j' = j /\ x = t).
Proof.
  intros j' x. rewrite !in_dons, st_in. split.
  - intros [H|[-> [H|H]]]; auto; [destruct (kd v); discriminate | injection H as ->; auto].
  - intros [H|[-> ->]]; auto.
Qed.
Lemma st_fresh : forall x, fresh SS' x <-> fresh SS x /\ x <> t.
Proof.
  intros x. split.
  - intros H. split.
    + intros j' I. apply (H j'). apply st_dons; auto.
    + intros ->. apply (H j). apply st_dons; auto.
  - intros [H N] j' I. apply st_dons in I as [I|[_ I]]; [apply (H j'); auto | auto].
Qed.
Lemma st_tok : forall k, tok SS' tk k <-> tok SS tk k.
Proof.
  intros k. split.
  - intros [(j' & e & I & E)|(t' & v' & H & F & E)].
    + apply st_in in I as [I|[-> [->|E']]].
      * left; eauto.
      * rewrite evk_first in E. injection E as <-. right. eauto.
      * subst e. discriminate.
    + apply st_fresh in F as [F _]. right; eauto.
  - intros [(j' & e & I & E)|(t' & v' & H & F & E)].
    + left. exists j', e. rewrite st_in. auto.
    + destruct (Nat.eq_dec t' t) as [->|N].
      * left. exists j, (first_ev (kd v)). rewrite st_in, evk_first. split; auto. congruence.
      * right. exists t', v'. rewrite st_fresh. auto.
Qed.
Lemma present_tok : forall lab S0 x, present lab S0 tk x <-> exists k, tok S0 tk k /\ In x (lab k).
Proof.
  intros lab S0 x. split.
  - intros [(j' & I)|(t' & v' & H & F & I)].
    + apply in_labs in I as (e & k & I & E & L). exists k. split; auto. left; eauto.
    + exists (kd v'). split; auto. right; eauto.
  - intros (k & T & I). eapply tok_present; eauto.
Qed.
Lemma st_held : forall x, held SS' tk x <-> held SS tk x.
Proof.
  intros x. unfold held. rewrite !present_tok. split; intros (k & T & I); exists k; rewrite st_tok in *; auto.
Qed.
Lemma st_covers : forall x a, covers SS tk x a -> covers SS' tk x a.
Proof.
  intros x a [[F (w & H & E)]|(j' & H)].
  - destruct (Nat.eq_dec x t) as [->|N].
    + right. exists j. rewrite Ej'. apply pre_app. right; right. left. split.
      * unfold lab1. rewrite evk_first. left. rewrite Ht in H. injection H as ->. auto.
      * left; auto.
    + left. rewrite st_fresh. eauto.
  - right. exists j'. destruct (Nat.eq_dec j' j) as [->|N].
    + rewrite Ej'. apply pre_app. auto.
    + rewrite Eo; auto.
Qed.
Lemma st_free0 : forall ad a, free0 SS tk ad a -> free0 SS' tk ad a.
Proof.
  intros ad a H Hh. apply st_held in Hh. destruct (H Hh) as (w & A & B). exists w. split; auto.
  apply st_covers; auto.
Qed.
End Start.

Lemma rem0_unpointed : forall SS tk ad rql fr mem nid nb cp c v t u,
  Inv SS tk ad rql fr mem nid nb cp -> tk c = Some v -> rem v = 0 -> tk t = Some u -> ~ points u c.
Proof.
  intros SS tk ad rql fr mem nid nb cp c v t u I Hc Hr Ht Hp.
  destruct (i_rem _ _ _ _ _ _ _ _ _ _ _ _ _ _ I c v Hc) as (L & _ & E & H).
  destruct L; [|simpl in E; lia]. apply (H t). eauto.
Qed.

Lemma inv_start : forall SS SS' tk ad rql rql' fr mem nid nb cp j t v,
  Inv SS tk ad rql fr mem nid nb cp ->
  0 < j -> SS' j = SS j ++ [first_ev (kd v); Don t] -> (forall j', j' <> j -> SS' j' = SS j') ->
  tk t = Some v -> In t rql -> NoDup rql' -> (forall x, In x rql' <-> In x rql /\ x <> t) ->
  Inv SS' tk ad rql' fr mem nid nb cp.
Proof.
  intros SS SS' tk ad rql rql' fr mem nid nb cp j t v I Hj Ej' Eo Ht Hq Nq Eq.
  assert (Ft : fresh SS t /\ stat v = Ready).
  { apply (i_rqt _ _ _ _ _ _ _ _ _ _ _ _ _ _ I) in Hq as (w & A & B & C).
    rewrite Ht in A. injection A as ->. auto. }
  destruct Ft as [Ft Rt].
  assert (R0 : rem v = 0) by (eapply (i_stat _ _ _ _ _ _ _ _ _ _ _ _ _ _ I); eauto).
  assert (Hin : forall j' e, In e (SS' j') <-> In e (SS j') \/ (j' = j /\ (e = first_ev (kd v) \/ e = Don t)))
    by (eapply st_in; eauto).
  assert (HinS : forall j' k, In (Snd k) (SS' j') -> In (Snd k) (SS j')).
  { intros j' k H. apply Hin in H as [H|[_ [H|H]]]; auto; destruct (kd v); discriminate. }
  assert (Hd : forall j' x, In x (dons (SS' j')) <-> In x (dons (SS j')) \/ (j' = j /\ x = t))
    by (eapply st_dons; eauto).
  assert (Fr : forall x, fresh SS' x <-> fresh SS x /\ x <> t) by (eapply st_fresh; eauto).
  assert (Tk : forall k, tok SS' tk k <-> tok SS tk k) by (eapply st_tok; eauto).
  assert (Hh : forall x, held SS' tk x <-> held SS tk x) by (eapply st_held; eauto).
  assert (F0 : forall a, free0 SS tk ad a -> free0 SS' tk ad a) by (intros; eapply st_free0; eauto).
  split.
  - apply (i_fr _ _ _ _ _ _ _ _ _ _ _ _ _ _ I).
  - apply (i_solv _ _ _ _ _ _ _ _ _ _ _ _ _ _ I).
  - intros k H. apply Tk in H. eapply i_tok; eauto.
  - intros b ops H. destruct (i_own _ _ _ _ _ _ _ _ _ _ _ _ _ _ I _ _ H) as (n & r & T).
    exists n, r. rewrite Tk. auto.
  - intros a o H. rewrite Hh. eapply i_val; eauto.
  - eapply uniq_start; eauto using evk_first, i_ub. destruct (kd v); repeat constructor; auto.
  - eapply uniq_start; eauto using evk_first, i_uo. repeat constructor; auto.
  - intros j'. destruct (Nat.eq_dec j' j) as [->|N].
    + rewrite Ej'. apply wfs_app. split.
      * eapply wfs_mono; [| |apply (i_wfs _ _ _ _ _ _ _ _ _ _ _ _ _ _ I j)]; auto.
      * destruct (kd v); simpl; auto.
    + rewrite Eo by auto. eapply wfs_mono; [| |apply (i_wfs _ _ _ _ _ _ _ _ _ _ _ _ _ _ I j')]; auto.
  - intros j' b n r d H Hr. rewrite Hh. apply Hin in H as [H|[-> [H|H]]]; [|  |discriminate].
    + eapply i_cmb; eauto.
    + destruct (kd v) as [|b' n' r'] eqn:K; [discriminate|]. injection H as -> -> ->.
      assert (X : tk (ad d) = None).
      { destruct (tk (ad d)) as [u|] eqn:E; auto. exfalso.
        apply (rem0_unpointed _ _ _ _ _ _ _ _ _ t v (ad d) u I Ht R0 E). eapply i_adf; eauto. }
      split; auto. intros Hd'. destruct (i_cf _ _ _ _ _ _ _ _ _ _ _ _ _ _ I t v b' n' r' d Ht Ft K Hr Hd') as (u & A & _).
      congruence.
  - intros c w b n r d H F. apply Fr in F as [F _]. intros. apply F0. eapply i_cf; eauto.
  - apply (i_ad _ _ _ _ _ _ _ _ _ _ _ _ _ _ I).
  - intros j' b n r a w H. apply HinS in H. eapply i_ads; eauto.
  - intros c w b n r a u H F. apply Fr in F as [F _]. eapply i_adf; eauto.
  - intros j' b i H. apply HinS in H. eapply i_first; eauto.
  - intros b i u H. apply Tk in H. eapply i_dac; eauto.
  - intros j' b n r u H. apply HinS in H. eapply i_dacs; eauto.
  - apply (i_rem _ _ _ _ _ _ _ _ _ _ _ _ _ _ I).
  - apply (i_stat _ _ _ _ _ _ _ _ _ _ _ _ _ _ I).
  - apply (i_dac0 _ _ _ _ _ _ _ _ _ _ _ _ _ _ I).
  - apply (i_unum _ _ _ _ _ _ _ _ _ _ _ _ _ _ I).
  - apply (i_pt _ _ _ _ _ _ _ _ _ _ _ _ _ _ I).
  - intros j'. destruct (Nat.eq_dec j' j) as [->|N]; [|rewrite Eo by auto; eapply i_nd; eauto].
    rewrite Ej', dons_app. replace (dons [first_ev (kd v); Don t]) with [t] by (destruct (kd v); auto).
    apply NoDup_Add with (a := t) (l := dons (SS j)).
    { replace (dons (SS j)) with (dons (SS j) ++ []) at 1 by apply app_nil_r. apply Add_app. }
    split; [eapply i_nd; eauto | apply Ft].
  - intros j1 j2 x H1 H2. apply Hd in H1, H2.
    destruct H1 as [H1|[-> ->]], H2 as [H2|[-> E]]; subst; auto.
    + eapply i_ds; eauto.
    + destruct (Ft _ H1).
    + destruct (Ft _ H2).
  - intros j' x H. apply Hd in H as [H|[-> ->]]; [eapply i_dt; eauto | eauto].
  - auto.
  - intros x. rewrite Eq, (i_rqt _ _ _ _ _ _ _ _ _ _ _ _ _ _ I). split.
    + intros [(w & A & B & C) N]. exists w. rewrite Fr. auto.
    + intros (w & A & B & C). apply Fr in C as [C N]. eauto 6.
  - apply (i_nid _ _ _ _ _ _ _ _ _ _ _ _ _ _ I).
  - apply (i_adn _ _ _ _ _ _ _ _ _ _ _ _ _ _ I).
  - intros j' Hj'. destruct (Nat.eq_dec j' j) as [->|N]; [|rewrite Eo by auto; eapply i_last; eauto].
    right. exists (SS j ++ [first_ev (kd v)]), t. rewrite Ej', <- app_assoc. auto.
  - intros e H. rewrite Eo in H by lia. eapply i_zero; eauto.
  - apply (i_cnt _ _ _ _ _ _ _ _ _ _ _ _ _ _ I).
Qed.

(** *** Division of an operand *)
Lemma kok_slot : forall fr k, kok fr k -> exists o, slot_op fr (kout k) o.
Proof.
  intros fr [b i|b n r]; simpl.
  - intros (ops & F & L). destruct (nth_error ops i) as [o|] eqn:E; [|apply nth_error_None in E; lia].
    exists o. right. exists b, ops, i. auto.
  - intros (o & _ & _ & H & _). eauto.
Qed.
Lemma held_slot : forall SS tk ad rql fr mem nid nb cp a,
  Inv SS tk ad rql fr mem nid nb cp -> held SS tk a -> exists o, slot_op fr a o.
Proof.
  intros SS tk ad rql fr mem nid nb cp a I H. apply present_tok in H as (k & T & [<-|[]]).
  apply kok_slot. eapply i_tok; eauto.
Qed.

Lemma expand_in : forall b n r e, 0 < n -> (In e (expand b n r) <->
  (exists q, q < n - 1 /\ e = Snd (KDac b q)) \/ e = Cal b (n - 1) \/ e = Snd (KComb b n r)).
Proof.
  intros b n r e Hn. unfold expand. rewrite in_app_iff, in_map_iff. simpl.
  split.
  - intros [(q & <- & I)|[<-|[<-|[]]]]; auto. apply in_seq in I. left. exists q. split; [lia | auto].
  - intros [(q & Hq & ->)|[->| ->]]; auto. left. exists q. split; auto. apply in_seq. lia.
Qed.
Lemma expand_dons : forall b n r, dons (expand b n r) = [].
Proof.
  intros. unfold expand. rewrite dons_app. simpl. rewrite app_nil_r.
  induction (seq 0 (n - 1)); auto.
Qed.
Lemma expand_base : forall b n r, labs lab_base (expand b n r) = [b].
Proof.
  intros. unfold expand. rewrite labs_app. change [b] with ([] ++ [b]). f_equal.
  induction (seq 0 (n - 1)); auto.
Qed.
Lemma expand_outs : forall b n r, 0 < n -> labs lab_out (expand b n r) = seq b n ++ [r].
Proof.
  intros b n r Hn. unfold expand. rewrite labs_app.
  assert (E : labs lab_out (map (fun j => Snd (KDac b j)) (seq 0 (n - 1))) = seq b (n - 1)).
  { assert (G : forall l, labs lab_out (map (fun j => Snd (KDac b j)) l) = map (fun j => b + j) l)
      by (induction l as [|x l IH]; simpl; [auto | f_equal; exact IH]).
    rewrite G. clear. generalize (n - 1) as m. intros m.
    assert (forall m s, map (fun j => b + j) (seq s m) = seq (b + s) m) as X.
    { induction m0; intros s; simpl; auto. f_equal. rewrite IHm0. f_equal. lia. }
    rewrite X. f_equal. lia. }
  rewrite E. replace n with (S (n - 1)) at 4 by lia. rewrite seq_S, <- app_assoc. reflexivity.
Qed.

Section Expand.
Variables (SS SS' : nat -> list ev) (tk : nat -> option task) (j b i b' n : nat) (o p : list ev).
Hypothesis Ej : SS j = o ++ Cal b i :: p.
Hypothesis Ej' : SS' j = o ++ expand b' n (b + i) ++ p.
Hypothesis Eo : forall j', j' <> j -> SS' j' = SS j'.
Hypothesis Hn : 0 < n.

Lemma xp_dons : forall j', dons (SS' j') = dons (SS j').
Proof.
  intros j'. destruct (Nat.eq_dec j' j) as [->|N]; [|rewrite Eo; auto].
  rewrite Ej, Ej', !dons_app, expand_dons. auto.
Qed.
Lemma xp_fresh : forall t, fresh SS' t <-> fresh SS t.
Proof. intros t. unfold fresh. split; intros H j' I; apply (H j'); rewrite xp_dons in *; auto. Qed.
Lemma xp_in : forall j' e, In e (SS' j') -> In e (SS j') \/ In e (expand b' n (b + i)).
Proof.
  intros j' e I. destruct (Nat.eq_dec j' j) as [->|N]; [|rewrite Eo in I; auto].
  rewrite Ej. rewrite Ej' in I. rewrite !in_app_iff in *. simpl. tauto.
Qed.
Lemma xp_in' : forall j' e, In e (SS j') -> In e (SS' j') \/ e = Cal b i.
Proof.
  intros j' e I. destruct (Nat.eq_dec j' j) as [->|N]; [|rewrite Eo; auto].
  rewrite Ej'. rewrite Ej in I. rewrite !in_app_iff in *. simpl in I. intuition.
Qed.
Lemma xp_new : forall e, In e (expand b' n (b + i)) -> In e (SS' j).
Proof. intros e I. rewrite Ej', !in_app_iff. auto. Qed.
Lemma xp_tok : forall k, tok SS' tk k ->
  tok SS tk k \/ (exists q, q < n /\ k = KDac b' q) \/ k = KComb b' n (b + i).
Proof.
  intros k [(j' & e & I & E)|(t & v & H & F & E)].
  - apply xp_in in I as [I|I]; [left; left; eauto|]. right.
    apply expand_in in I as [(q & Hq & ->)|[->| ->]]; simpl in E; auto; injection E as <-; auto.
    + left. exists q. split; [lia | auto].
    + left. exists (n - 1). split; [lia | auto].
  - left. right. exists t, v. rewrite xp_fresh in F. auto.
Qed.
Lemma xp_tok' : forall k, tok SS tk k -> k <> KDac b i -> tok SS' tk k.
Proof.
  intros k [(j' & e & I & E)|(t & v & H & F & E)] N.
  - left. exists j', e. split; auto. apply xp_in' in I as [I| ->]; auto. simpl in E. congruence.
  - right. exists t, v. rewrite xp_fresh. auto.
Qed.
Lemma xp_comb : tok SS' tk (KComb b' n (b + i)).
Proof.
  left. exists j, (Snd (KComb b' n (b + i))). split; auto. apply xp_new. apply expand_in; auto.
Qed.
Lemma xp_dac : forall q, q < n -> tok SS' tk (KDac b' q).
Proof.
  intros q Hq. left. exists j. destruct (Nat.eq_dec q (n - 1)) as [->|N].
  - exists (Cal b' (n - 1)). split; auto. apply xp_new. apply expand_in; auto.
  - exists (Snd (KDac b' q)). split; auto. apply xp_new. apply expand_in; auto.
    left. exists q. split; [lia | auto].
Qed.
Lemma xp_held : forall a, held SS' tk a <-> held SS tk a \/ b' <= a < b' + n.
Proof.
  intros a. unfold held. rewrite !present_tok. split.
  - intros (k & T & [<-|[]]). apply xp_tok in T as [T|[(q & Hq & ->)| ->]].
    + left. exists k. split; [auto | left; auto].
    + right. simpl. lia.
    + left. exists (KDac b i). split; [|left; auto]. left. exists j, (Cal b i). split; auto.
      rewrite Ej. apply in_app_iff; right; left; auto.
  - intros [(k & T & [<-|[]])|H].
    + destruct k as [b0 i0|b0 n0 r0].
      * destruct (Nat.eq_dec b0 b) as [->|N]; [destruct (Nat.eq_dec i0 i) as [->|N]|].
        -- exists (KComb b' n (b + i)). split; [apply xp_comb | left; auto].
        -- exists (KDac b i0). split; [apply xp_tok'; auto; congruence | left; auto].
        -- exists (KDac b0 i0). split; [apply xp_tok'; auto; congruence | left; auto].
      * exists (KComb b0 n0 r0). split; [apply xp_tok'; auto; congruence | left; auto].
    + exists (KDac b' (a - b')). split; [apply xp_dac; lia | left; simpl; lia].
Qed.
Lemma xp_covers : forall t a, covers SS tk t a -> covers SS' tk t a.
Proof.
  intros t a [[F H]|(j' & H)].
  - left. rewrite xp_fresh. auto.
  - right. exists j'. destruct (Nat.eq_dec j' j) as [->|N]; [|rewrite Eo; auto].
    rewrite Ej in H. rewrite Ej'. rewrite !pre_app in *. cbn [pre] in H.
    change (dons (Cal b i :: p)) with (dons p) in H. rewrite dons_app, expand_dons. simpl app.
    unfold outs at 2. rewrite expand_outs by auto. rewrite in_app_iff.
    change (lab1 lab_out (Cal b i)) with [b + i] in H. tauto.
Qed.
Lemma xp_free0 : forall ad a, ~ (b' <= a < b' + n) -> free0 SS tk ad a -> free0 SS' tk ad a.
Proof.
  intros ad a N H Ha. apply xp_held in Ha as [Ha|Ha]; [|tauto].
  destruct (H Ha) as (v & A & B). exists v. split; auto. now apply xp_covers.
Qed.
End Expand.

Lemma NoDup_join : forall A (l m : list A), NoDup l -> NoDup m -> (forall x, In x l -> ~ In x m) -> NoDup (l ++ m).
Proof.
  induction l as [|y l IH]; simpl; intros m Nl Nm D; auto. inversion Nl; subst.
  constructor; [rewrite in_app_iff; intros [I|I]; [auto | eapply D; eauto] | apply IH; auto].
Qed.
Lemma NoDup_mid : forall (l1 l2 m : list nat) r, NoDup (l1 ++ r :: l2) -> NoDup m ->
  (forall x, In x m -> ~ In x (l1 ++ r :: l2)) -> NoDup (l1 ++ (m ++ [r]) ++ l2).
Proof.
  intros l1 l2 m r N Nm D. rewrite <- app_assoc. simpl.
  apply (Permutation_NoDup (l := m ++ (l1 ++ r :: l2))).
  - rewrite !app_assoc. apply Permutation_app_tail. apply Permutation_app_comm.
  - apply NoDup_join; auto.
Qed.

Lemma inv_expand : forall SS SS' tk ad rql fr mem mem' nid nb cp j o p b i b' ops x,
  Inv SS tk ad rql fr mem nid nb cp ->
  SS j = o ++ Cal b i :: p -> (forall j', j' <> j -> SS' j' = SS j') ->
  frame fr b = Some ops -> nth_error ops i = Some x -> cond x = false ->
  SS' j = o ++ expand b' (length (divide x)) (b + i) ++ p ->
  0 < b' -> 0 < length (divide x) ->
  (forall b0 ops0, frame fr b0 = Some ops0 -> b' + length (divide x) <= b0 \/ b0 + length ops0 <= b') ->
  (forall a, ~ (b' <= a < b' + length (divide x)) -> mem' a = mem a) ->
  Inv SS' tk ad rql ((b', divide x) :: fr) mem' nid nb cp.
Proof.
  intros SS SS' tk ad rql fr mem mem' nid nb cp j o p b i b' ops x I Ej Eo Hf Hx Hc Ej' Hb Hn Dj Hm.
  remember (length (divide x)) as n eqn:En.
  set (fr' := (b', divide x) :: fr).
  assert (Fno : frame fr b' = None).
  { destruct (frame fr b') as [l|] eqn:E; auto. destruct (i_fr _ _ _ _ _ _ _ _ _ _ _ _ _ _ I _ _ E) as (_ & N & _).
    specialize (Dj _ _ E). destruct l; [congruence | simpl in Dj; lia]. }
  assert (Feq : forall c, frame fr' c = if b' =? c then Some (divide x) else frame fr c) by reflexivity.
  assert (Fold : forall c l, frame fr c = Some l -> frame fr' c = Some l).
  { intros c l H. rewrite Feq. destruct (Nat.eqb_spec b' c) as [<-|]; congruence. }
  assert (Sold : forall a y, slot_op fr a y -> slot_op fr' a y).
  { intros a y [H|(c & l & q & A & B & C)]; [left; auto|]. right. exists c, l, q. auto. }
  assert (Sout : forall a y, slot_op fr a y -> ~ (b' <= a < b' + n)).
  { intros a y [[-> _]|(c & l & q & A & B & ->)]; [lia|]. specialize (Dj _ _ A). apply nth_error_lt in B. lia. }
  assert (Snew : forall a y, slot_op fr' a y -> slot_op fr a y \/ (b' <= a < b' + n /\ In y (divide x))).
  { intros a y [H|(c & l & q & A & B & C)]; [left; left; auto|]. rewrite Feq in A.
    destruct (Nat.eqb_spec b' c) as [<-|].
    - injection A as <-. right. split; [apply nth_error_lt in B; lia | eapply nth_error_In; eauto].
    - left. right. exists c, l, q. auto. }
  assert (Hnh : forall d, b' <= d < b' + n -> ~ held SS tk d).
  { intros d Hd H. destruct (held_slot _ _ _ _ _ _ _ _ _ _ I H) as (y & Y). eapply Sout; eauto. }
  assert (Hnt : forall d, b' <= d < b' + n -> tk (ad d) = None).
  { intros d Hd. destruct (tk (ad d)) as [u|] eqn:E; auto.
    destruct (i_ad _ _ _ _ _ _ _ _ _ _ _ _ _ _ I d u E) as (_ & (y & Y) & _). destruct (Sout _ _ Y Hd). }
  assert (Tc : tok SS tk (KDac b i)).
  { left. exists j, (Cal b i). split; auto. rewrite Ej. apply in_app_iff; right; left; auto. }
  assert (Dn : forall j', dons (SS' j') = dons (SS j')) by (eapply xp_dons; eauto).
  assert (Fr : forall t, fresh SS' t <-> fresh SS t) by (eapply xp_fresh; eauto).
  assert (Hin : forall j' e, In e (SS' j') -> In e (SS j') \/ In e (expand b' n (b + i))) by (eapply xp_in; eauto).
  assert (Tk : forall k, tok SS' tk k -> tok SS tk k \/ (exists q, q < n /\ k = KDac b' q) \/ k = KComb b' n (b + i))
    by (eapply xp_tok; eauto).
  assert (Tk' : forall k, tok SS tk k -> k <> KDac b i -> tok SS' tk k) by (eapply xp_tok'; eauto).
  assert (Hh : forall a, held SS' tk a <-> held SS tk a \/ b' <= a < b' + n) by (eapply xp_held; eauto).
  assert (F0 : forall a, ~ (b' <= a < b' + n) -> free0 SS tk ad a -> free0 SS' tk ad a)
    by (intros; eapply xp_free0; eauto).
  (* a slot of the frame of an existing combine is old *)
  assert (Oc : forall c m r d, tok SS tk (KComb c m r) -> c <= d < c + m -> ~ (b' <= d < b' + n)).
  { intros c m r d T Hd. destruct (i_tok _ _ _ _ _ _ _ _ _ _ _ _ _ _ I _ T) as (y & A & B & _).
    specialize (Dj _ _ A). lia. }
  assert (Oe : forall j' e c m r d, In e (SS j') -> evk e = Some (KComb c m r) -> c <= d < c + m -> ~ (b' <= d < b' + n)).
  { intros j' e c m r d H E. apply Oc with (r := r). left. exists j', e. auto. }
  split.
  - intros c l H. rewrite Feq in H. destruct (Nat.eqb_spec b' c) as [<-|N].
    + injection H as <-. split; [auto|split; [intros E; rewrite E in En; simpl in En; lia|]].
      intros c' l' H' N'. rewrite Feq in H'. destruct (Nat.eqb_spec b' c'); [congruence|].
      rewrite <- En. apply Dj; auto.
    + destruct (i_fr _ _ _ _ _ _ _ _ _ _ _ _ _ _ I _ _ H) as (A & B & C). split; [auto|split; [auto|]].
      intros c' l' H' N'. rewrite Feq in H'. destruct (Nat.eqb_spec b' c') as [<-|].
      * injection H' as <-. rewrite <- En. specialize (Dj _ _ H). lia.
      * eapply C; eauto.
  - intros a y H. apply Snew in H as [H|[_ H]]; [eapply i_solv; eauto|].
    assert (slot_op fr (b + i) x) as Y by (right; exists b, ops, i; auto).
    destruct (i_solv _ _ _ _ _ _ _ _ _ _ _ _ _ _ I _ _ Y) as (m & v & Ev).
    destruct (solve_sub _ _ _ _ _ _ _ Ev Hc) as [_ S]. destruct (S y H) as (m' & w & _ & E). eauto.
  - intros k T. apply Tk in T as [T|[(q & Hq & ->)| ->]].
    + apply (i_tok _ _ _ _ _ _ _ _ _ _ _ _ _ _ I) in T. destruct k as [c q|c m r]; simpl in *.
      * destruct T as (l & A & B). exists l. auto.
      * destruct T as (y & A & B & C & D). exists y. auto.
    + cbn [DCProofs2.kok]. exists (divide x). rewrite Feq, Nat.eqb_refl. split; [auto | lia].
    + cbn [DCProofs2.kok]. exists x. rewrite Feq, Nat.eqb_refl. split; [auto|split; [auto|split; [|split; [auto|]]]].
      * right. exists b, ops, i. auto.
      * specialize (Dj _ _ Hf). apply nth_error_lt in Hx. lia.
  - intros c l H. rewrite Feq in H. destruct (Nat.eqb_spec b' c) as [<-|N].
    + exists n, (b + i). eapply xp_comb; eauto.
    + destruct (i_own _ _ _ _ _ _ _ _ _ _ _ _ _ _ I _ _ H) as (m & r & T). exists m, r. apply Tk'; [auto | congruence].
  - intros a y H. rewrite Hh. apply Snew in H as [H|[H _]]; [|auto]. rewrite Hm by (eapply Sout; eauto).
    destruct (i_val _ _ _ _ _ _ _ _ _ _ _ _ _ _ I _ _ H); auto.
  - assert (Nb : forall k, tok SS tk k -> ~ In b' (lab_base k)).
    { intros k T Hk. destruct k as [|c m r]; simpl in Hk; [auto|]. destruct Hk as [<-|[]].
      destruct (i_tok _ _ _ _ _ _ _ _ _ _ _ _ _ _ I _ T) as (y & A & _). congruence. }
    assert (Nb' : forall j', ~ In b' (labs lab_base (SS j'))).
    { intros j' H. apply in_labs in H as (e & k & A & B & C). apply (Nb k); auto. left; eauto. }
    eapply uniq_repl; [eapply i_ub; eauto | exact Eo | | |].
    + rewrite Ej', !labs_app, expand_base.
      pose proof (u_nd _ _ _ (i_ub _ _ _ _ _ _ _ _ _ _ _ _ _ _ I) j) as N.
      specialize (Nb' j). rewrite Ej, labs_app in N, Nb'.
      change (labs lab_base (Cal b i :: p)) with (labs lab_base p) in N, Nb'.
      apply NoDup_Add with (a := b') (l := labs lab_base o ++ labs lab_base p); [apply Add_app | auto].
    + intros y H. rewrite Ej', !labs_app, expand_base, !in_app_iff in H.
      rewrite Ej, labs_app, in_app_iff. change (labs lab_base (Cal b i :: p)) with (labs lab_base p).
      destruct H as [H|[H|H]]; auto. destruct H as [<-|[]]. right. split; auto.
      intros t v A B. apply Nb. right; eauto.
    + intros t v' H F. exists v'. rewrite Fr in F. auto.
  - assert (Nb : forall k y, tok SS tk k -> b' <= y < b' + n -> ~ In y (lab_out k)).
    { intros k y T Hy [Hk|[]]. apply (Hnh y Hy). rewrite <- Hk. now apply tok_held. }
    assert (Nb' : forall j' y, b' <= y < b' + n -> ~ In y (labs lab_out (SS j'))).
    { intros j' y Hy H. apply in_labs in H as (e & k & A & B & C). apply (Nb k y); auto. left; eauto. }
    eapply uniq_repl; [eapply i_uo; eauto | exact Eo | | |].
    + rewrite Ej', !labs_app, expand_outs by auto.
      pose proof (u_nd _ _ _ (i_uo _ _ _ _ _ _ _ _ _ _ _ _ _ _ I) j) as N.
      specialize (Nb' j). rewrite Ej, labs_app in N, Nb'.
      change (labs lab_out (Cal b i :: p)) with ((b + i) :: labs lab_out p) in N, Nb'.
      apply NoDup_mid; auto; [apply seq_NoDup|]. intros y H. apply in_seq in H. apply Nb'. lia.
    + intros y H. rewrite Ej', !labs_app, expand_outs, !in_app_iff in H by auto.
      rewrite Ej, labs_app, in_app_iff. change (labs lab_out (Cal b i :: p)) with ((b + i) :: labs lab_out p).
      simpl. destruct H as [H|[[H|[H|[]]]|H]]; auto. apply in_seq in H.
      right. split; [intros j'; apply Nb'; lia|].
      intros t v A B. apply Nb; [right; eauto | lia].
    + intros t v' H F. exists v'. rewrite Fr in F. auto.
  - intros j'. destruct (Nat.eq_dec j' j) as [->|N].
    + rewrite Ej'. pose proof (i_wfs _ _ _ _ _ _ _ _ _ _ _ _ _ _ I j) as W. rewrite Ej in W.
      apply wfs_app in W as [W1 [_ W2]]. rewrite !wfs_app. split; [|split].
      * eapply wfs_mono; [| |exact W1]; auto. intros c m r d H Hd. apply F0.
        apply (Oe j (Snd (KComb c m r)) c m r d); [rewrite Ej; apply in_app_iff; auto | reflexivity | exact Hd].
      * simpl app. unfold expand. apply wfs_app. split.
        -- clear. generalize (outs o). induction (seq 0 (n - 1)); simpl; auto.
        -- simpl. split; [auto|split; [|auto]]. intros d Hd. left.
           rewrite <- !app_assoc. apply in_app_iff. right.
           assert (In d (labs lab_out (expand b' n 0))) as X.
           { rewrite expand_outs by auto. apply in_app_iff. left. apply in_seq. lia. }
           unfold expand in X. rewrite labs_app in X. change (outs (map (fun q => Snd (KDac b' q)) (seq 0 (n - 1))))
             with (labs lab_out (map (fun q => Snd (KDac b' q)) (seq 0 (n - 1)))).
           apply in_app_iff in X as [X|X]; apply in_app_iff; auto. right.
           simpl in X. destruct X as [X|[X|[]]]; [left; auto | lia].
      * eapply wfs_mono; [| |exact W2].
        -- intros c m r d _ _ H. left. change (lab1 lab_out (Cal b i)) with [b + i] in H.
           unfold outs in *. rewrite expand_outs by auto. rewrite !in_app_iff in *. tauto.
        -- intros c m r d H Hd. apply F0.
           apply (Oe j (Snd (KComb c m r)) c m r d); [rewrite Ej; apply in_app_iff; right; right; auto | reflexivity | exact Hd].
    + rewrite Eo by auto. eapply wfs_mono; [| |apply (i_wfs _ _ _ _ _ _ _ _ _ _ _ _ _ _ I j')]; auto.
      intros c m r d H Hd. apply F0. exact (Oe j' _ c m r d H eq_refl Hd).
  - intros j' c m r d H Hd. apply Hin in H as [H|H].
    + destruct (i_cmb _ _ _ _ _ _ _ _ _ _ _ _ _ _ I _ _ _ _ _ H Hd) as [A B]. split; auto.
      rewrite Hh. intros [X|X]; [auto|]. exact (Oe j' _ c m r d H eq_refl Hd X).
    + exfalso. apply expand_in in H as [(q & _ & H)|[H|H]]; auto; discriminate.
  - intros c v c' m r d H F K Hd. rewrite Fr in F. apply F0.
    + eapply Oc; eauto. right; eauto.
    + eapply i_cf; eauto.
  - intros a v H. destruct (i_ad _ _ _ _ _ _ _ _ _ _ _ _ _ _ I a v H) as (A & (y & B) & C).
    split; [auto|split; [exists y; auto | auto]].
  - intros j' c m r a v H Ha. apply Hin in H as [H|H]; [eapply i_ads; eauto|].
    apply expand_in in H as [(q & _ & H)|[H|H]]; auto; try discriminate. injection H as -> -> ->.
    intros H. rewrite Hnt in H by auto. discriminate.
  - intros c w c' m r a v H F. rewrite Fr in F. eapply i_adf; eauto.
  - intros j' c q H. apply Hin in H as [H|H]; [eapply i_first; eauto|].
    apply expand_in in H as [(q' & Hq & H)|[H|H]]; auto; try discriminate. injection H as -> ->.
    apply Hnt. lia.
  - intros c q v T H. apply Tk in T as [T|[(q' & Hq & T)|T]]; [eapply i_dac; eauto | | discriminate].
    injection T as -> ->. rewrite Hnt in H by lia. discriminate.
  - intros j' c m r v H E. apply Hin in H as [H|H]; [eapply i_dacs; eauto|].
    apply expand_in in H as [(q & _ & H)|[H|H]]; auto; try discriminate. injection H as -> -> ->.
    eapply i_dac; eauto.
  - apply (i_rem _ _ _ _ _ _ _ _ _ _ _ _ _ _ I).
  - apply (i_stat _ _ _ _ _ _ _ _ _ _ _ _ _ _ I).
  - apply (i_dac0 _ _ _ _ _ _ _ _ _ _ _ _ _ _ I).
  - apply (i_unum _ _ _ _ _ _ _ _ _ _ _ _ _ _ I).
  - apply (i_pt _ _ _ _ _ _ _ _ _ _ _ _ _ _ I).
  - intros j'. rewrite Dn. eapply i_nd; eauto.
  - intros j1 j2 t. rewrite !Dn. eapply i_ds; eauto.
  - intros j' t. rewrite Dn. eapply i_dt; eauto.
  - apply (i_rq _ _ _ _ _ _ _ _ _ _ _ _ _ _ I).
  - intros t. rewrite (i_rqt _ _ _ _ _ _ _ _ _ _ _ _ _ _ I). split; intros (v & A & B & C); exists v;
      rewrite Fr in *; auto.
  - apply (i_nid _ _ _ _ _ _ _ _ _ _ _ _ _ _ I).
  - apply (i_adn _ _ _ _ _ _ _ _ _ _ _ _ _ _ I).
  - intros j' Hj. destruct (Nat.eq_dec j' j) as [->|N]; [|rewrite Eo by auto; eapply i_last; eauto].
    destruct (i_last _ _ _ _ _ _ _ _ _ _ _ _ _ _ I j Hj) as [E|(l & t & E)].
    + rewrite Ej in E. destruct o; discriminate.
    + right. rewrite Ej in E. rewrite Ej'.
      destruct (exists_last (l := Cal b i :: p)) as (p' & y & E'); [discriminate|].
      rewrite E' in E. rewrite app_assoc in E. apply app_inj_tail in E as [E1 ->].
      destruct p' as [|e' p'']; simpl in E'.
      * discriminate.
      * injection E' as <- E'. exists (o ++ expand b' n (b + i) ++ p''), t. rewrite E'. now rewrite !app_assoc.
  - intros e H. destruct (Nat.eq_dec 0 j) as [<-|N].
    + exfalso. destruct (i_zero _ _ _ _ _ _ _ _ _ _ _ _ _ _ I (Cal b i)) as (k & K); [|discriminate].
      rewrite Ej. apply in_app_iff; right; left; auto.
    + rewrite Eo in H by auto. eapply i_zero; eauto.
  - apply (i_cnt _ _ _ _ _ _ _ _ _ _ _ _ _ _ I).
Qed.
End Inv.
