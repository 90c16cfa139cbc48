(** The optimiser at level 1 always ends with a result. *)
From Coq Require Import List Arith Bool Lia.
From Verif Require Import Base OptModel OptSpec OptProofs OptProofs2 OptProofs3.
Import ListNotations.

Section Total.
  Context {A : Type}.
  Notation skelA := (skel A).

  Fixpoint height (s : skelA) : nat :=
    match s with
    | Seq _ => 0
    | Pipe l => S (list_max (map height l))
    | Farm _ _ ws _ => S (list_max (map height ws))
    | A2A a b => S (Nat.max (list_max (map height a)) (list_max (map height b)))
    end.
  Definition hmax (l : list skelA) : nat := list_max (map height l).
  Lemma hmax_le : forall l n, hmax l <= n <-> forall s, In s l -> height s <= n.
  Proof.
    intros l n. unfold hmax. rewrite list_max_le, Forall_map, Forall_forall. tauto.
  Qed.
  Lemma hmax_in : forall l s, In s l -> height s <= hmax l.
  Proof. intros l s H. apply (proj1 (hmax_le l (hmax l)) (le_n _)); auto. Qed.

  Lemma flat_height : forall s t, In t (flat s) -> height t <= height s.
  Proof.
    induction s using skel_ind'; intros t Ht; try (destruct Ht as [<-|[]]; auto; fail).
    cbn [flat] in Ht. apply in_flat_map in Ht. destruct Ht as (u & Hu & Ht).
    rewrite Forall_forall in H. specialize (H _ Hu _ Ht). cbn [height]. pose proof (hmax_in _ _ Hu). unfold hmax in *. lia.
  Qed.
  Lemma flats_height : forall l, hmax (flat_map flat l) <= hmax l.
  Proof.
    intros l. apply hmax_le. intros s Hs. apply in_flat_map in Hs. destruct Hs as (u & Hu & Ht).
    pose proof (flat_height _ _ Ht). pose proof (hmax_in _ _ Hu). lia.
  Qed.

  Lemma mapM_ok : forall T U (f : T -> res U) (R : T -> U -> Prop) l,
    (forall a, In a l -> exists b, f a = Ok b /\ R a b) -> exists l', mapM f l = Ok l' /\ Forall2 R l l'.
  Proof.
    induction l as [|a l IH]; intros H; [exists []; split; [reflexivity|constructor]|].
    destruct (H a) as (b & Hb & Rb); [now left|]. destruct IH as (l' & Hl & Rl); [intros; apply H; now right|].
    exists (b :: l'). simpl. rewrite Hb, Hl. simpl. auto.
  Qed.
  Lemma Forall2_hmax : forall l l' : list skelA, Forall2 (fun s s' => height s' <= height s) l l' -> hmax l' <= hmax l.
  Proof. induction 1; unfold hmax in *; simpl; lia. Qed.

  Lemma hmax_app : forall a b, hmax (a ++ b) = Nat.max (hmax a) (hmax b).
  Proof. intros. unfold hmax. rewrite map_app. apply list_max_app. Qed.
  Lemma height_coll : forall o e (ws : list skelA) c c', height (Farm o e ws c) = height (Farm o e ws c').
  Proof. reflexivity. Qed.

  Lemma rm_loop_total : forall k l next, length l < k + next -> 0 < k ->
    exists l', rm_loop k l next = Ok l' /\ hmax l' <= hmax l.
  Proof.
    induction k as [|k IH]; intros l next Hk H0; [lia|]. cbn [rm_loop].
    destruct (find_null_coll l 0 next) as [i|] eqn:E; [|eauto].
    destruct (find_null_coll_spec _ _ _ _ E) as (_ & Hi & o & e & ws & c & Hn & Hc). rewrite Nat.sub_0_r in Hn. rewrite Hn.
    assert (Hlen : i < length l) by (apply nth_error_Some; congruence).
    match goal with |- exists l', rm_loop k ?x _ = _ /\ _ => set (l1 := x) end.
    assert (G : length l1 <= length l /\ hmax l1 <= hmax l).
    { unfold l1. clear l1 IH E.
      assert (R1 : forall c', length (firstn i l ++ Farm o e ws c' :: skipn (S i) l) <= length l /\
                  hmax (firstn i l ++ Farm o e ws c' :: skipn (S i) l) <= hmax l).
      { intros c'. pose proof (f_equal (@length _) (nth_split' _ _ _ _ Hn)) as L1.
        pose proof (f_equal hmax (nth_split' _ _ _ _ Hn)) as L2.
        rewrite app_length in *. rewrite hmax_app in *. cbn [length] in *.
        change (hmax (Farm o e ws c :: skipn (S i) l)) with (hmax (Farm o e ws c' :: skipn (S i) l)) in L2.
        split; lia. }
      assert (R2 : forall n b, nth_error l (S i) = Some (Seq n) -> 
        length (firstn i l ++ Farm o e ws b :: skipn (S (S i)) l) <= length l /\
        hmax (firstn i l ++ Farm o e ws b :: skipn (S (S i)) l) <= hmax l).
      { intros n b En. pose proof (f_equal (@length _) (nth_split2 _ _ _ _ _ Hn En)) as L1.
        pose proof (f_equal hmax (nth_split2 _ _ _ _ _ Hn En)) as L2.
        rewrite !app_length in *. rewrite !hmax_app in *. cbn [length app] in *. split; [lia|].
        change (hmax (Farm o e ws b :: skipn (S (S i)) l)) with (Nat.max (height (Farm o e ws b)) (hmax (skipn (S (S i)) l))).
        change (hmax [Farm o e ws c; Seq n]) with (Nat.max (height (Farm o e ws c)) 0) in L2. 
        rewrite (height_coll o e ws b c). lia. }
      assert (R3 : forall n m, nth_error l (S i) = Some (Seq n) -> 
        length (firstn i l ++ Farm o e ws NoColl :: Seq m :: skipn (S (S i)) l) <= length l /\
        hmax (firstn i l ++ Farm o e ws NoColl :: Seq m :: skipn (S (S i)) l) <= hmax l).
      { intros n m En. pose proof (f_equal (@length _) (nth_split2 _ _ _ _ _ Hn En)) as L1.
        pose proof (f_equal hmax (nth_split2 _ _ _ _ _ Hn En)) as L2.
        rewrite !app_length in *. rewrite !hmax_app in *. cbn [length app] in *. split; [lia|].
        change (hmax (Farm o e ws NoColl :: Seq m :: skipn (S (S i)) l))
          with (Nat.max (height (Farm o e ws c)) (hmax (skipn (S (S i)) l))).
        change (hmax [Farm o e ws c; Seq n]) with (Nat.max (height (Farm o e ws c)) 0) in L2. lia. }
      destruct (i <? length l - 1).
      - destruct (has_coll o c); [|auto]. destruct (nth_error l (S i)) as [s2|] eqn:E2; [|auto].
        destruct o.
        + destruct s2; auto. eapply R2; eauto.
        + destruct s2; auto. destruct (nmi n); eapply R3; eauto.
      - destruct o; auto. }
    destruct (IH l1 (S i)) as (l' & H1 & H2); [lia| |].
    - lia.
    - exists l'. split; auto. lia.
  Qed.

  Lemma level1_total : forall k,
    (forall l, hmax l < k -> exists l', opt_pipe k level1 l = Ok l' /\ hmax l' <= hmax l) /\
    (forall o e ws c, height (Farm o e ws c) <= k ->
       exists f', opt_farm k level1 (Farm o e ws c) = Ok f' /\ height f' <= height (Farm o e ws c)).
  Proof.
    induction k as [|k (IHp & IHf)]; [split; intros; simpl in *; lia|].
    assert (Hin : forall w : skelA, height w <= k -> exists w', inner_of k level1 w = Ok w' /\ height w' <= height w).
    { intros w Hw. destruct w as [n|l|o e ws c|a b]; cbn [inner_of]; eauto.
      destruct (IHp l) as (l' & E & H); [cbn [height] in Hw; unfold hmax; lia|].
      rewrite E. cbn [bind]. exists (Pipe l'). split; auto. cbn [height]. unfold hmax in H. lia. }
    assert (Hins : forall ws, hmax ws <= k -> exists ws', mapM (inner_of k level1) ws = Ok ws' /\ hmax ws' <= hmax ws).
    { intros ws H. destruct (mapM_ok _ _ (inner_of k level1) (fun s s' => height s' <= height s) ws) as (ws' & E & F).
      - intros a Ha. apply Hin. pose proof (hmax_in _ _ Ha). lia.
      - exists ws'. split; auto. now apply Forall2_hmax. }
    split.
    - intros l Hl. rewrite opt_pipe_S. cbv zeta.
      pose proof (flats_height l) as Hf. set (L := flat_map flat l) in *.
      match goal with |- exists l', bind (mapM ?f L) _ = _ /\ _ =>
        destruct (mapM_ok _ _ f (fun s s' => height s' <= height s) L) as (l1 & E1 & F1) end.
      { intros a Ha. pose proof (hmax_in _ _ Ha) as Hh. destruct a as [n|l0|o e ws c|x y]; eauto.
        - destruct (Hins ws) as (ws' & E & H); [cbn [height] in Hh; unfold hmax in *; lia|].
          rewrite E. cbn [bind]. eexists; split; [reflexivity|]. cbn [height]. unfold hmax in H. lia.
        - cbn [height] in Hh. destruct (Hins x) as (x' & Ex & Hx); [unfold hmax in *; lia|].
          destruct (Hins y) as (y' & Ey & Hy); [unfold hmax in *; lia|].
          rewrite Ex. cbn [bind]. rewrite Ey. cbn [bind]. eexists; split; [reflexivity|]. cbn [height]. unfold hmax in *. lia. }
      rewrite E1. cbn [bind level1 merge_farms introduce_a2a remove_coll merge_emitter].
      apply Forall2_hmax in F1.
      match goal with |- exists l', bind (bind (mapM ?f l1) _) _ = _ /\ _ =>
        destruct (mapM_ok _ _ f (fun s s' => height s' <= height s) l1) as (l2 & E2 & F2) end.
      { intros a Ha. pose proof (hmax_in _ _ Ha) as Hh. destruct a as [n|l0|o e ws c|x y]; eauto.
        change rm_only with level1. apply IHf. lia. }
      rewrite E2. cbn [bind]. apply Forall2_hmax in F2.
      destruct (rm_loop_total (S (length l2)) l2 0) as (l3 & E3 & F3); [lia|lia|].
      rewrite E3. cbn [bind]. exists l3. split; auto. lia.
    - intros o e ws c Hw. rewrite opt_farm_S. cbn [height] in Hw.
      destruct (Hins ws) as (ws1 & E1 & F1); [unfold hmax; lia|]. rewrite E1. cbn [bind level1 remove_coll].
      match goal with |- exists l', bind (mapM ?f ws1) _ = _ /\ _ =>
        destruct (mapM_ok _ _ f (fun s s' => height s' <= height s) ws1) as (ws2 & E2 & F2) end.
      { intros a Ha. pose proof (hmax_in _ _ Ha) as Hh. unfold hmax in F1 at 2.
        assert (Ha' : height a <= k) by lia.
        change rm_only with level1.
        destruct a as [n|l0|[|] e1 w1 c1|x y]; eauto.
        - destruct (IHf _ _ _ _ Ha') as (f' & E & H). rewrite E. cbn [bind].
          destruct f' as [n|l0|o' e' ws' c'|x y]; eauto. destruct c'; eauto.
        - cbn [height] in Ha'. destruct (Hins x) as (x' & Ex & Hx); [unfold hmax in *; lia|].
          destruct (Hins y) as (y' & Ey & Hy); [unfold hmax in *; lia|].
          rewrite Ex. cbn [bind]. rewrite Ey. cbn [bind]. eexists; split; [reflexivity|]. cbn [height]. unfold hmax in *. lia. }
      rewrite E2. cbn [bind]. eexists; split; [reflexivity|]. apply Forall2_hmax in F2. cbn [height]. unfold hmax in *. lia.
  Qed.
End Total.

(** More fuel does not change the result. *)
Lemma level1_mono : forall A k,
    (forall (l : list (skel A)) l', opt_pipe k level1 l = Ok l' -> forall k', k <= k' -> opt_pipe k' level1 l = Ok l') /\
    (forall (f : skel A) f', opt_farm k level1 f = Ok f' -> forall k', k <= k' -> opt_farm k' level1 f = Ok f').
Proof.
  intros A. induction k as [|k (IHp & IHf)]; [split; intros; discriminate|].
    assert (Hin : forall (w w' : skel A), inner_of k level1 w = Ok w' -> forall k', k <= k' -> inner_of k' level1 w = Ok w').
    { intros w w' H k' Hk. destruct w as [n|l|o e ws c|a b]; cbn [inner_of] in *; auto.
      destruct (opt_pipe k level1 l) as [l'| | | |] eqn:E; try discriminate.
      rewrite (IHp _ _ E k' Hk). exact H. }
    assert (Hm : forall T U (f g : T -> res U) l l', (forall x y, In x l -> f x = Ok y -> g x = Ok y) ->
      mapM f l = Ok l' -> mapM g l = Ok l').
    { clear. induction l as [|a l IH]; intros l' H E; simpl in *; auto.
      destruct (f a) as [b| | | |] eqn:Ea; try discriminate. cbn [bind] in E.
      destruct (mapM f l) as [bs| | | |] eqn:Eb; try discriminate. cbn [bind] in E.
      rewrite (H _ _ (or_introl eq_refl) Ea). cbn [bind]. rewrite (IH bs); auto. }
    assert (Hins : forall (ws ws' : list (skel A)), mapM (inner_of k level1) ws = Ok ws' -> forall k', k <= k' -> mapM (inner_of k' level1) ws = Ok ws').
    { intros ws ws' H k' Hk. eapply Hm; [|exact H]. intros x y _ E. eapply Hin; eauto. }
    split.
    - intros l l' H [|k'] Hk; [lia|]. rewrite opt_pipe_S in *. cbv zeta in *.
      cbn [level1 merge_farms introduce_a2a remove_coll merge_emitter] in *. change rm_only with level1 in *.
      fold level1 in *.
      match type of H with bind (mapM ?f ?L) _ = _ => destruct (mapM f L) as [l1| | | |] eqn:E1; try discriminate end.
      erewrite Hm; [|clear H|exact E1].
      + cbn [bind] in *.
        match type of H with bind (bind (mapM ?f ?L) _) _ = _ => destruct (mapM f L) as [l2| | | |] eqn:E2; try discriminate end.
        erewrite Hm; [exact H| |exact E2]. intros x y _ E. destruct x; auto. eapply IHf; eauto; lia.
      + intros x y _ E. destruct x as [n|l0|o e ws c|a b]; auto.
        * destruct (mapM (inner_of k level1) ws) as [ws'| | | |] eqn:Ew; try discriminate.
          rewrite (Hins _ _ Ew k') by lia. exact E.
        * destruct (mapM (inner_of k level1) a) as [a'| | | |] eqn:Ea; try discriminate.
          rewrite (Hins _ _ Ea k') by lia. cbn [bind] in *.
          destruct (mapM (inner_of k level1) b) as [b'| | | |] eqn:Eb; try discriminate.
          rewrite (Hins _ _ Eb k') by lia. exact E.
    - intros f f' H [|k'] Hk; [lia|]. rewrite opt_farm_S in *. destruct f as [n|l0|o e ws c|a b]; try discriminate.
      cbn [level1 remove_coll] in *. change rm_only with level1 in *. fold level1 in *.
      destruct (mapM (inner_of k level1) ws) as [ws1| | | |] eqn:E1; try discriminate.
      rewrite (Hins _ _ E1 k') by lia. cbn [bind] in *.
      match type of H with bind (mapM ?f ?L) _ = _ => destruct (mapM f L) as [l1| | | |] eqn:E2; try discriminate end.
      erewrite Hm; [exact H| |exact E2].
      intros x y _ E. destruct x as [n|l0|[|] e1 w1 c1|a b]; auto.
      + eapply Hin; eauto; lia.
      + destruct (opt_farm k level1 (Farm false e1 w1 c1)) as [f1| | | |] eqn:Ef; try discriminate.
        rewrite (IHf _ _ Ef k') by lia. exact E.
      + destruct (mapM (inner_of k level1) a) as [a'| | | |] eqn:Ea; try discriminate.
        rewrite (Hins _ _ Ea k') by lia. cbn [bind] in *.
        destruct (mapM (inner_of k level1) b) as [b'| | | |] eqn:Eb; try discriminate.
        rewrite (Hins _ _ Eb k') by lia. exact E.
Qed.
