From Coq Require Import List ZArith Bool Arith Lia.
From Verif Require Import Base Outcome FrameModel FrameSpec NetBufModel NetBufSpec.
From Verif Require FrameProofs.
Import ListNotations.

(** ** Sender *)
Record SInv (s : sb) : Prop := {
  i_clash : clash s = false;
  i_cur : forall b, cur s = Some b -> ~ In b (busy s) /\ ~ In b (pool s) /\ b < fresh s;
  i_held : cur s = None -> held s = 0;
  i_busy : forall b, In b (busy s) -> b < fresh s;
  i_pool : forall b, In b (pool s) -> b < fresh s }.

Lemma is_busy_false : forall s b, ~ In b (busy s) -> is_busy s b = false.
Proof.
  intros s b H. unfold is_busy. destruct (existsb _ _) eqn:E; auto.
  apply existsb_exists in E as (x & I & Q). apply Nat.eqb_eq in Q. subst. contradiction.
Qed.
Lemma is_busy_true : forall s b, is_busy s b = false -> ~ In b (busy s).
Proof.
  intros s b H I. unfold is_busy in H. assert (existsb (Nat.eqb b) (busy s) = true); [|congruence].
  apply existsb_exists. exists b. rewrite Nat.eqb_refl. auto.
Qed.

Lemma SInv0 : forall k, SInv (sb0 k).
Proof. intros k. constructor; cbn; try discriminate; auto; try contradiction. intros b H. apply in_seq in H. lia. Qed.

Lemma alloc_ok : forall s s' b, SInv s -> alloc s = Some (s', b) -> SInv s' /\ cur s' = Some b /\ held s' = held s.
Proof.
  intros s s' b [HC HU HH HB HP] E. unfold alloc in E. destruct (cur s) as [c|] eqn:EC.
  - injection E as <- <-. split; [|auto]. constructor; auto; rewrite EC; auto.
  - remember (pool s) as pq eqn:EP. destruct pq as [|p q0].
    + injection E as <- <-. split; [|auto]. constructor; cbn; auto; try discriminate; try contradiction.
      * intros b H. injection H as <-. split; [intros I; apply HB in I; lia|]. split; [auto|lia].
      * intros b I. apply HB in I. lia.
    + remember (p :: q0) as q eqn:EQ. clear EQ. destruct (find _ q) as [x|] eqn:EF; [|discriminate]. injection E as <- <-.
      apply find_some in EF as [IX NX]. apply negb_true_iff, is_busy_true in NX.
      split; [|auto]. constructor; cbn [clash cur held busy pool fresh]; auto; try discriminate.
      * intros b H. injection H as <-. split; auto. split; [|apply HP; auto].
        intros I. apply filter_In in I as [_ I]. rewrite Nat.eqb_refl in I. discriminate.
      * intros b I. apply filter_In in I as [I _]. apply HP; auto.
Qed.

Lemma sstep_ok : forall s a s', SInv s -> (a = SDirect -> held s = 0) -> sstep s a = Some s' -> SInv s'.
Proof.
  intros s a s' HI HD E. destruct a as [f| | |b]; cbn [sstep] in E.
  - destruct (alloc s) as [[s1 b]|] eqn:EA; [|discriminate].
    destruct (alloc_ok _ _ _ HI EA) as ([HC HU HH HB HP] & EC & EH). destruct (HU b EC) as (B1 & B2 & B3).
    pose proof (is_busy_false s1 b B1) as EB. injection E as <-. destruct f.
    + constructor; cbn; auto; try discriminate.
      * unfold is_busy in *. cbn. rewrite HC, EB. reflexivity.
      * intros x [<-|I]; auto.
      * intros x [<-|I]; auto.
    + constructor; cbn; auto.
      * rewrite HC, EB. reflexivity.
      * congruence.
  - destruct (alloc s) as [[s1 b]|] eqn:EA; [|discriminate].
    destruct (alloc_ok _ _ _ HI EA) as ([HC HU HH HB HP] & EC & EH). destruct (HU b EC) as (B1 & B2 & B3).
    pose proof (is_busy_false s1 b B1) as EB. rewrite EH, (HD eq_refl) in E. cbn [Nat.eqb] in E. injection E as <-.
    constructor; cbn; auto; try discriminate.
    + rewrite HC, EB. reflexivity.
    + intros x [<-|I]; auto.
    + intros x [<-|I]; auto.
  - destruct (cur s) as [b|] eqn:EC; [|injection E as <-; auto].
    destruct (held s =? 0); [injection E as <-; auto|]. injection E as <-.
    destruct HI as [HC HU HH HB HP]. destruct (HU b EC) as (B1 & B2 & B3).
    pose proof (is_busy_false s b B1) as EB. constructor; cbn; auto; try discriminate.
    + rewrite HC, EB. reflexivity.
    + intros x [<-|I]; auto.
    + intros x [<-|I]; auto.
  - injection E as <-. destruct HI as [HC HU HH HB HP]. constructor; cbn; auto.
    + intros x X. destruct (HU x X) as (B1 & B2 & B3). split; auto.
      intros I. apply filter_In in I as [I _]. auto.
    + intros x I. apply filter_In in I as [I _]. auto.
Qed.

Lemma no_clash : forall l s s', SInv s -> separate s l -> exec sstep s l = Some s' -> clash s' = false.
Proof.
  induction l as [|a l IH]; intros s s' HI HS E; cbn in *.
  - injection E as <-. apply (i_clash _ HI).
  - destruct HS as [HD HS]. destruct (sstep s a) as [s1|] eqn:ES; [|discriminate].
    apply (IH s1 s'); auto. eapply sstep_ok; eauto.
Qed.

(** ** Receiver slots *)
Local Open Scope Z_scope.

Lemma no_over_batches : forall T l s s', over s = false -> (forall i, cap (slots s i) = recorded (slots s i)) ->
  (forall i b, pend (slots s i) = Some b -> hands_off T b = false) -> no_hand_off T l ->
  exec (rstep T) s l = Some s' -> over s' = false.
Proof.
  intros T l. induction l as [|a l IH]; intros s s' HO HC HP HN E; cbn [exec] in E.
  - injection E as <-. auto.
  - inversion_clear HN as [|? ? HA HN']. destruct a as [i b|i]; cbn [rstep] in E.
    + destruct (pend (slots s i)) eqn:EP; [discriminate|].
      refine (IH _ s' _ _ _ HN' E); cbn [over slots].
      * rewrite HO. cbn [orb]. apply Z.ltb_ge. destruct (Z.ltb_spec (recorded (slots s i)) (zlen b)); cbn [cap]; [lia|]. rewrite HC. lia.
      * intros j. destruct (Nat.eq_dec j i) as [->|N]; [rewrite fupd_eq|rewrite fupd_neq by auto; auto].
        destruct (recorded (slots s i) <? zlen b); cbn; auto.
      * intros j c. destruct (Nat.eq_dec j i) as [->|N]; [rewrite fupd_eq|rewrite fupd_neq by auto; auto; apply HP].
        destruct (recorded (slots s i) <? zlen b); cbn; intros X; injection X as <-; auto.
    + destruct (pend (slots s i)) as [b|] eqn:EP; [|discriminate]. rewrite (HP i b EP) in E.
      refine (IH _ s' _ _ _ HN' E); cbn [over slots]; auto.
      * intros j. destruct (Nat.eq_dec j i) as [->|N]; [rewrite fupd_eq|rewrite fupd_neq by auto; auto]. cbn. auto.
      * intros j c. destruct (Nat.eq_dec j i) as [->|N]; [rewrite fupd_eq; cbn; discriminate|rewrite fupd_neq by auto; auto; apply HP].
Qed.

Lemma no_over_growing : forall T l s s', over s = false -> (forall i, cap (slots s i) = recorded (slots s i)) ->
  (forall i b, pend (slots s i) = Some b -> recorded (slots s i) = zlen b) ->
  (forall i b, In (RStart i b) l -> recorded (slots s i) <= zlen b) -> growing l ->
  exec (rstep T) s l = Some s' -> over s' = false.
Proof.
  intros T l. induction l as [|a l IH]; intros s s' HO HC HP HF HG E; cbn [exec] in E.
  - injection E as <-. auto.
  - inversion_clear HG as [|? ? HA HG']. destruct a as [i b|i]; cbn [rstep] in E.
    + destruct (pend (slots s i)) eqn:EP; [discriminate|].
      assert (HB : recorded (slots s i) <= zlen b) by (apply HF; left; auto).
      rewrite Forall_forall in HA.
      refine (IH _ s' _ _ _ _ HG' E); cbn [over slots].
      * rewrite HO. cbn [orb]. apply Z.ltb_ge. destruct (Z.ltb_spec (recorded (slots s i)) (zlen b)); cbn [cap]; [lia|]. rewrite HC. lia.
      * intros j. destruct (Nat.eq_dec j i) as [->|N]; [rewrite fupd_eq|rewrite fupd_neq by auto; auto].
        destruct (recorded (slots s i) <? zlen b); cbn; auto.
      * intros j c. destruct (Nat.eq_dec j i) as [->|N]; [rewrite fupd_eq|rewrite fupd_neq by auto; auto; apply HP].
        destruct (Z.ltb_spec (recorded (slots s i)) (zlen b)); cbn [pend recorded]; intros X; injection X as <-; auto. lia.
      * intros j c I. destruct (Nat.eq_dec j i) as [->|N]; [rewrite fupd_eq|rewrite fupd_neq by auto; apply HF; right; auto].
        pose proof (HA _ I eq_refl) as X. cbn beta iota in X. change (zlen b <= zlen c) in X.
        destruct (Z.ltb_spec (recorded (slots s i)) (zlen b)); cbn [recorded]; lia.
    + destruct (pend (slots s i)) as [b|] eqn:EP; [|discriminate].
      refine (IH _ s' _ _ _ _ HG' E); cbn [over slots]; auto.
      * intros j. destruct (Nat.eq_dec j i) as [->|N]; [rewrite fupd_eq|rewrite fupd_neq by auto; auto]. cbn.
        destruct (hands_off T b); auto. rewrite (HP i b EP). reflexivity.
      * intros j c. destruct (Nat.eq_dec j i) as [->|N]; [rewrite fupd_eq; cbn; discriminate|rewrite fupd_neq by auto; auto; apply HP].
      * intros j c I. destruct (Nat.eq_dec j i) as [->|N]; [rewrite fupd_eq; cbn|rewrite fupd_neq by auto]; apply HF; right; auto.
Qed.

(** ** Two outstanding receives *)
Definition plain (T : Z) (b : list Z) : Prop := exists l, handle T b = Items l.

Lemma recv_plain : forall T w, Forall (plain T) w -> exists o, recv T w = Done o.
Proof.
  intros T w F. induction F as [|b w (l & E) _ (o & IH)]; [exists []; auto|].
  cbn [recv]. rewrite E, IH. cbn. eauto.
Qed.

Lemma two_recv : forall T acts s s' items, Forall (plain T) (posted s ++ queue s) -> bad s = false ->
  obind (recv T (posted s ++ queue s)) (fun o => Done (out s ++ o)) = Done items ->
  exec (qstep T) s acts = Some s' ->
  bad s' = false /\ obind (recv T (posted s' ++ queue s')) (fun o => Done (out s' ++ o)) = Done items.
Proof.
  intros T acts. induction acts as [|a acts IH]; intros s s' items F B R E; cbn [exec] in E.
  - injection E as <-. auto.
  - destruct a; cbn [qstep] in E.
    + destruct (queue s) as [|b w] eqn:EQ; [discriminate|]. destruct (length (posted s) <? 2)%nat; [|discriminate].
      refine (IH _ s' items _ _ _ E); cbn [posted queue out bad]; auto; rewrite <- app_assoc; cbn [app]; auto.
    + destruct (posted s) as [|b ps] eqn:EP; [discriminate|].
      cbn [app] in F, R. inversion_clear F as [|? ? (l & Eb) F'].
      cbn [recv] in R. rewrite Eb in E, R. refine (IH _ s' items _ _ _ E); cbn [posted queue out bad]; auto.
      destruct (recv_plain T _ F') as (o & Eo). rewrite Eo in *. cbn in R |- *. rewrite <- app_assoc. exact R.
Qed.

Lemma two_recv_ok : forall T w items acts s, Forall (plain T) w -> recv T w = Done items ->
  exec (qstep T) (Q2 w [] [] false) acts = Some s ->
  bad s = false /\ prefix (out s) items /\ (queue s = [] -> posted s = [] -> out s = items).
Proof.
  intros T w items acts s F R E.
  destruct (two_recv T acts (Q2 w [] [] false) s items) as [B R']; auto.
  { cbn [posted queue app]. rewrite R. reflexivity. }
  split; auto. destruct (recv T (posted s ++ queue s)) as [o|] eqn:Eo; [|discriminate]. cbn in R'. injection R' as <-.
  split; [exists o; auto|]. intros Q P. rewrite Q, P in Eo. cbn in Eo. injection Eo as <-. rewrite app_nil_r. auto.
Qed.

Lemma end_to_end : forall T bytes limit l acts,
  1 <= T -> bytes <= T + 1 -> (1 <= limit)%nat /\ Z.of_nat limit < 2 ^ 31 -> Forall valid (pushed l) ->
  Forall (fun m => zlen (m_data m) <= T) (pushed l) ->
  exists snd, send T bytes limit sender0 (l ++ [Flush]) = Done snd /\
  forall s, exec (qstep T) (Q2 (wire snd) [] [] false) acts = Some s ->
    bad s = false /\ prefix (out s) (map deliver (pushed l)) /\
    (queue s = [] -> posted s = [] -> out s = map deliver (pushed l)).
Proof.
  intros T bytes limit l acts H1 H2 H3 F FT.
  destruct (FrameProofs.roundtrip T bytes limit H1 H2 H3 l F) as (snd & E & R). exists snd. split; auto.
  assert (EQ : pushed (l ++ [Flush]) = pushed l) by (unfold pushed; rewrite flat_map_app; cbn; apply app_nil_r).
  intros s X. apply (two_recv_ok T (wire snd) _ acts s); auto.
  apply (FrameProofs.roundtrip_items T bytes limit H1 H2 H3 (l ++ [Flush]) snd); rewrite ?EQ; auto.
Qed.
