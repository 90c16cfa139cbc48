(** Divide and conquer: the invariant is preserved by the scheduler. *)
From Coq Require Import List Arith Bool Lia Permutation.
From Verif Require Import Base DCModel DCSpec DCProofs DCProofs2 DCProofs3.
Import ListNotations.

Section Inv.
Context {Op Res : Type}.
Variable cond : Op -> bool.
Variable divide : Op -> list Op.
Variable seqf : Op -> Res.
Variable combine : list Res -> Res.
Variable op0 : Op.
Notation solve := (solve cond divide seqf combine).
Notation solves := (solves cond divide seqf combine).
Notation Inv := (Inv cond divide seqf combine op0).
Notation slot_op := (slot_op op0).
Notation kok := (kok cond divide op0).

(** *** A completed task *)
Lemma inv_done : forall SS SS' tk tk' ad rql rql' fr mem nid nb cp j t v,
  Inv SS tk ad rql fr mem nid nb cp ->
  SS j = Don t :: SS' j -> (forall j', j' <> j -> SS' j' = SS j') ->
  tk t = Some v -> tk' t = None ->
  (forall x, x <> t -> tk x = None -> tk' x = None) ->
  (forall x w, x <> t -> tk x = Some w -> exists w', tk' x = Some w' /\ kd w' = kd w /\ ids w' = ids w /\
     unum w' = unum w /\ (points v x -> rem w = S (rem w')) /\ (~ points v x -> w' = w) /\
     (stat w' = Ready <-> rem w' = 0)) ->
  NoDup rql' ->
  (forall x, In x rql' <-> In x rql \/ (points v x /\ exists w', tk' x = Some w' /\ rem w' = 0)) ->
  Inv SS' tk' ad rql' fr mem nid nb (S cp).
Proof.
  intros SS SS' tk tk' ad rql rql' fr mem nid nb cp j t v I Ej Eo Ht Ht' Hn Hs Nq Eq.
  assert (Dj : dons (SS j) = t :: dons (SS' j)) by (rewrite Ej; reflexivity).
  assert (Rt : stat v = Ready /\ rem v = 0).
  { destruct (i_dt _ _ _ _ _ _ _ _ _ _ _ _ _ _ I j t) as (w & A & B); [rewrite Dj; left; auto|].
    rewrite Ht in A. injection A as <-. split; auto. eapply (i_stat _ _ _ _ _ _ _ _ _ _ _ _ _ _ I); eauto. }
  destruct Rt as [Rt R0].
  assert (Nf : ~ fresh SS t) by (intros H; apply (H j); rewrite Dj; left; auto).
  assert (Hin : forall j' e, In e (SS' j') -> In e (SS j')).
  { intros j' e H. destruct (Nat.eq_dec j' j) as [->|N]; [rewrite Ej; right; auto | rewrite Eo in H; auto]. }
  assert (Hin' : forall j' e, In e (SS j') -> In e (SS' j') \/ e = Don t).
  { intros j' e H. destruct (Nat.eq_dec j' j) as [->|N]; [rewrite Ej in H; destruct H; auto | rewrite Eo; auto]. }
  assert (Ft' : fresh SS' t).
  { intros j' H. destruct (Nat.eq_dec j' j) as [->|N].
    - pose proof (i_nd _ _ _ _ _ _ _ _ _ _ _ _ _ _ I j) as D. rewrite Dj in D. inversion D; auto.
    - rewrite Eo in H by auto. apply N. eapply i_ds; eauto. rewrite Dj. left; auto. }
  assert (Fr : forall x, x <> t -> (fresh SS' x <-> fresh SS x)).
  { intros x N. split; intros H j' J; apply (H j'); rewrite in_dons in *.
    - destruct (Hin' _ _ J) as [K|K]; auto. congruence.
    - auto. }
  assert (Hback : forall x w', tk' x = Some w' -> x <> t /\ exists w, tk x = Some w /\ kd w' = kd w /\ ids w' = ids w /\
     unum w' = unum w /\ (points v x -> rem w = S (rem w')) /\ (~ points v x -> w' = w) /\ (stat w' = Ready <-> rem w' = 0)).
  { intros x w' H. destruct (Nat.eq_dec x t) as [->|N]; [congruence|]. split; auto.
    destruct (tk x) as [w|] eqn:E; [|rewrite (Hn x N E) in H; discriminate].
    exists w. destruct (Hs x w N E) as (w1 & A & B). rewrite H in A. injection A as <-. auto. }
  assert (Pd : forall x, points v x \/ ~ points v x).
  { intros x. unfold points. destruct (Nat.eq_dec (unum v) 1), (Nat.eq_dec (ids v 0) x); tauto. }
  assert (Unp : forall x u, tk x = Some u -> ~ points u t) by (intros; eapply rem0_unpointed; eauto).
  assert (Tk : forall k, tok SS' tk' k <-> tok SS tk k).
  { intros k. split.
    - intros [(j' & e & A & B)|(x & w' & A & B & C)]; [left; eauto|]. right.
      destruct (Hback _ _ A) as (N & w & D & E & _). exists x, w. rewrite <- Fr; auto. split; [auto|split; [auto|congruence]].
    - intros [(j' & e & A & B)|(x & w & A & B & C)].
      + left. exists j', e. split; auto. destruct (Hin' _ _ A) as [K| ->]; auto. discriminate.
      + right. assert (x <> t) as N by (intros ->; auto).
        destruct (Hs x w N A) as (w' & D & E & _). exists x, w'. rewrite Fr; auto. split; [auto|split; [auto|congruence]]. }
  assert (Hh : forall a, held SS' tk' a <-> held SS tk a).
  { intros a. unfold held. rewrite !present_tok. split; intros (k & A & B); exists k; rewrite Tk in *; auto. }
  assert (Cv : forall x a, covers SS tk x a -> x <> t /\ covers SS' tk' x a).
  { intros x a H. assert (x <> t) as N.
    { intros ->. destruct H as [[H _]|(j' & H)]; [auto|].
      assert (j' = j) as -> by (eapply i_ds; eauto; [apply (pre_don _ _ _ H) | rewrite Dj; left; auto]).
      rewrite Ej in H. cbn [pre] in H. destruct H as [[H _]|H]; [destruct H|].
      apply (Ft' j). apply (pre_don _ _ _ H). }
    split; auto. destruct H as [[H (w & A & B)]|(j' & H)].
    - left. rewrite Fr by auto. split; auto. destruct (Hs x w N A) as (w' & C & D & _). exists w'. split; [auto|congruence].
    - right. exists j'. destruct (Nat.eq_dec j' j) as [->|Nj]; [|rewrite Eo; auto].
      rewrite Ej in H. cbn [pre] in H. destruct H as [[H _]|H]; [destruct H | auto]. }
  assert (F0 : forall a, free0 SS tk ad a -> free0 SS' tk' ad a).
  { intros a H Ha. apply Hh in Ha. destruct (H Ha) as (w & A & B). destruct (Cv _ _ B) as [N B'].
    destruct (Hs _ _ N A) as (w' & C & _). exists w'. auto. }
  split.
  - apply (i_fr _ _ _ _ _ _ _ _ _ _ _ _ _ _ I).
  - apply (i_solv _ _ _ _ _ _ _ _ _ _ _ _ _ _ I).
  - intros k H. apply Tk in H. eapply i_tok; eauto.
  - intros b ops H. destruct (i_own _ _ _ _ _ _ _ _ _ _ _ _ _ _ I _ _ H) as (n & r & T).
    exists n, r. rewrite Tk. auto.
  - intros a o H. rewrite Hh. eapply i_val; eauto.
  - assert (U := i_ub _ _ _ _ _ _ _ _ _ _ _ _ _ _ I). eapply uniq_repl with (j := j); eauto.
    + pose proof (u_nd _ _ _ U j) as N. rewrite Ej in N. exact N.
    + intros x H. left. rewrite Ej. exact H.
    + intros x w' A B. destruct (Hback _ _ A) as (N & w & D & E & _). exists w. rewrite <- Fr; auto.
  - assert (U := i_uo _ _ _ _ _ _ _ _ _ _ _ _ _ _ I). eapply uniq_repl with (j := j); eauto.
    + pose proof (u_nd _ _ _ U j) as N. rewrite Ej in N. exact N.
    + intros x H. left. rewrite Ej. exact H.
    + intros x w' A B. destruct (Hback _ _ A) as (N & w & D & E & _). exists w. rewrite <- Fr; auto.
  - intros j'. pose proof (i_wfs _ _ _ _ _ _ _ _ _ _ _ _ _ _ I j') as W.
    destruct (Nat.eq_dec j' j) as [->|N].
    + rewrite Ej in W. destruct W as [_ W]. eapply wfs_mono; [| |exact W]; auto.
    + rewrite Eo by auto. eapply wfs_mono; [| |exact W]; auto.
  - intros j' b n r d H Hd. apply Hin in H. rewrite Hh. destruct (i_cmb _ _ _ _ _ _ _ _ _ _ _ _ _ _ I _ _ _ _ _ H Hd) as [A B].
    split; auto. destruct (Nat.eq_dec (ad d) t) as [E|N]; [congruence | auto].
  - intros c w' b n r d H F K Hd. destruct (Hback _ _ H) as (N & w & D & E & _). apply F0.
    apply (i_cf _ _ _ _ _ _ _ _ _ _ _ _ _ _ I c w b n r d D (proj1 (Fr c N) F)); [congruence | auto].
  - intros a w' H. destruct (Hback _ _ H) as (N & w & D & E & _ & G & _). rewrite E, G. eapply i_ad; eauto.
  - intros j' b n r a w' H Ha E. destruct (Hback _ _ E) as (N & w & D & _ & _ & G & _). rewrite G. eapply i_ads; eauto.
  - intros c w' b n r a u' H F K Ha E. destruct (Hback _ _ H) as (N & w & D & E1 & _).
    destruct (Hback _ _ E) as (N2 & u & D2 & _ & G1 & G2 & _). unfold points. rewrite G1, G2.
    apply (i_adf _ _ _ _ _ _ _ _ _ _ _ _ _ _ I c w b n r a u D (proj1 (Fr c N) F)); [congruence | auto | auto].
  - intros j' b i H. apply Hin in H. pose proof (i_first _ _ _ _ _ _ _ _ _ _ _ _ _ _ I _ _ _ H) as A.
    destruct (Nat.eq_dec (ad (b + i)) t) as [E|N]; [congruence | auto].
  - intros b i w' T H. apply Tk in T. destruct (Hback _ _ H) as (N & w & D & E & _). rewrite E. eapply i_dac; eauto.
  - intros j' b n r w' T H. apply Hin in T. destruct (Hback _ _ H) as (N & w & D & E & _). rewrite E. eapply i_dacs; eauto.
  - intros c w' H. destruct (Hback _ _ H) as (N & w & D & _ & _ & _ & P & Q & _).
    destruct (i_rem _ _ _ _ _ _ _ _ _ _ _ _ _ _ I c w D) as (L & NL & EL & HL).
    assert (Eqv : forall x, x <> t -> ((exists u, tk x = Some u /\ points u c) <-> (exists u, tk' x = Some u /\ points u c))).
    { intros x Nx. split.
      - intros (u & A & B). destruct (Hs x u Nx A) as (u' & C & _ & G1 & G2 & _). exists u'. split; auto.
        unfold points in *. now rewrite G1, G2.
      - intros (u' & A & B). destruct (Hback _ _ A) as (_ & u & C & _ & G1 & G2 & _). exists u. split; auto.
        unfold points in *. now rewrite <- G1, <- G2. }
    destruct (Pd c) as [Pc|Pc].
    + assert (In t L) as X by (apply HL; eauto). apply in_split in X as (l1 & l2 & ->).
      exists (l1 ++ l2). split; [eapply NoDup_remove_1; eauto|]. split.
      { rewrite app_length in *. simpl in EL. rewrite (P Pc) in EL. lia. }
      intros x. destruct (Nat.eq_dec x t) as [->|Nx].
      * split; [intros J; apply NoDup_remove_2 in NL; tauto | intros (u & A & _); congruence].
      * rewrite <- Eqv by auto. rewrite <- HL, !in_app_iff. simpl. intuition congruence.
    + exists L. rewrite (Q Pc). split; [auto|split; [auto|]]. intros x.
      destruct (Nat.eq_dec x t) as [->|Nx]; [|rewrite HL; auto].
      rewrite HL. split; intros (u & A & B); [|congruence].
      rewrite Ht in A. injection A as <-. tauto.
  - intros c w' H. apply Hback in H as (_ & w & _ & _ & _ & _ & _ & _ & S). exact S.
  - intros c w' H K. destruct (Hback _ _ H) as (N & w & D & E & _ & _ & P & Q & _). rewrite E in K.
    pose proof (i_dac0 _ _ _ _ _ _ _ _ _ _ _ _ _ _ I c w D K) as R.
    destruct (Pd c) as [Pc|Pc]; [apply P in Pc; lia | rewrite (Q Pc); auto].
  - intros x u' H. destruct (Hback _ _ H) as (N & u & D & _ & _ & G & _). rewrite G. eapply i_unum; eauto.
  - intros x u' H E. destruct (Hback _ _ H) as (N & u & D & G0 & G1 & G2 & _). rewrite G0, G1. rewrite G2 in E.
    destruct (i_pt _ _ _ _ _ _ _ _ _ _ _ _ _ _ I x u D E) as (w & b & n & r & A & B & C).
    assert (ids u 0 <> t) as Ny by (intros Y; apply (Unp x u D); split; auto).
    destruct (Hs _ _ Ny A) as (w' & A' & B' & _). exists w', b, n, r. split; [auto|split; [congruence|auto]].
  - intros j'. pose proof (i_nd _ _ _ _ _ _ _ _ _ _ _ _ _ _ I j') as D. destruct (Nat.eq_dec j' j) as [->|N].
    + rewrite Dj in D. inversion D; auto.
    + rewrite Eo; auto.
  - intros j1 j2 x A B. rewrite in_dons in A, B. apply Hin in A, B. rewrite <- in_dons in A, B. eapply i_ds; eauto.
  - intros j' x H. assert (x <> t) as N by (intros ->; destruct (Ft' _ H)).
    rewrite in_dons in H. apply Hin in H. rewrite <- in_dons in H.
    destruct (i_dt _ _ _ _ _ _ _ _ _ _ _ _ _ _ I _ _ H) as (w & A & B).
    destruct (Hs _ _ N A) as (w' & A' & _ & _ & _ & P & Q & _).
    destruct (Pd x) as [Px|Px]; [|exists w'; rewrite (Q Px) in *; auto].
    apply (i_stat _ _ _ _ _ _ _ _ _ _ _ _ _ _ I x w A) in B. apply P in Px. lia.
  - auto.
  - intros x. rewrite Eq, (i_rqt _ _ _ _ _ _ _ _ _ _ _ _ _ _ I). split.
    + intros [(w & A & B & C)|(P & w' & A & B)].
      * assert (x <> t) as N by (intros ->; auto). destruct (Hs _ _ N A) as (w' & A' & _ & _ & _ & P & Q & _).
        exists w'. rewrite Fr by auto. split; [auto|split; [|auto]].
        destruct (Pd x) as [Px|Px]; [|rewrite (Q Px); auto].
        apply (i_stat _ _ _ _ _ _ _ _ _ _ _ _ _ _ I x w A) in B. apply P in Px. lia.
      * destruct (Hback _ _ A) as (N & w & D & _ & _ & _ & P1 & _ & S). exists w'. split; [auto|split; [apply S; auto|]].
        apply Fr; auto. intros j' J. destruct (i_dt _ _ _ _ _ _ _ _ _ _ _ _ _ _ I _ _ J) as (w2 & A2 & B2).
        apply (i_stat _ _ _ _ _ _ _ _ _ _ _ _ _ _ I x w2 A2) in B2. apply P1 in P. congruence.
    + intros (w' & A & B & C). destruct (Hback _ _ A) as (N & w & D & _ & _ & _ & P & Q & S).
      destruct (Pd x) as [Px|Px].
      * right. split; auto. exists w'. split; auto. apply S; auto.
      * left. rewrite (Q Px) in B. exists w. rewrite <- Fr; auto.
  - intros x w' H. destruct (Hback _ _ H) as (N & w & D & _). eapply i_nid; eauto.
  - apply (i_adn _ _ _ _ _ _ _ _ _ _ _ _ _ _ I).
  - intros j' Hj. destruct (i_last _ _ _ _ _ _ _ _ _ _ _ _ _ _ I j' Hj) as [E|(l & x & E)].
    + left. destruct (Nat.eq_dec j' j) as [->|N]; [rewrite Ej in E; discriminate | rewrite Eo; auto].
    + destruct (Nat.eq_dec j' j) as [->|N]; [|right; rewrite Eo by auto; eauto].
      rewrite Ej in E. destruct l as [|y l]; simpl in E; injection E as E1 E2; [auto|].
      right. exists l, x. auto.
  - intros e H. apply Hin in H. eapply i_zero; eauto.
  - destruct (i_cnt _ _ _ _ _ _ _ _ _ _ _ _ _ _ I) as (L & NL & EL & HL).
    assert (In t L) as X by (apply HL; congruence). apply in_split in X as (l1 & l2 & ->).
    exists (l1 ++ l2). split; [eapply NoDup_remove_1; eauto|]. split.
    { rewrite app_length in *. simpl in EL. lia. }
    intros x. destruct (Nat.eq_dec x t) as [->|Nx].
    + split; [intros J; apply NoDup_remove_2 in NL; tauto | congruence].
    + assert (In x (l1 ++ l2) <-> tk x <> None) as Y.
      { rewrite <- HL, !in_app_iff. simpl. intuition congruence. }
      rewrite Y. split; intros H H'.
      * destruct (tk x) as [w|] eqn:E; [|auto]. destruct (Hs _ _ Nx E) as (w' & A & _). congruence.
      * apply Hn in H'; auto.
Qed.
End Inv.
