(** All-to-all: how the channels are numbered by the two sides. *)
From Coq Require Import List Arith Bool Lia Permutation.
From Verif Require Import Base NetModel NetSpec NetProofs NetProofs2 NetProofs3 NetProofs4 A2AModel.
Import ListNotations.

(** Positions in a list. *)
Definition pos {T} (p : T -> bool) (l : list T) : list nat :=
  filter (fun c => match nth_error l c with Some k => p k | None => false end) (seq 0 (length l)).

Lemma filter_map_comm : forall {S T} (f : S -> T) p l, filter p (map f l) = map f (filter (fun x => p (f x)) l).
Proof. induction l as [|a l IH]; simpl; auto. destruct (p (f a)); simpl; rewrite IH; reflexivity. Qed.

Lemma seq_from : forall a n, seq a n = map (fun x => a + x) (seq 0 n).
Proof.
  intros a n. revert a. induction n as [|n IH]; intros a; simpl; [auto|]. rewrite Nat.add_0_r. f_equal.
  rewrite IH, (IH 1), map_map. apply map_ext. intros. lia.
Qed.

Lemma pos_app : forall {T} (p : T -> bool) l1 l2, pos p (l1 ++ l2) = pos p l1 ++ map (fun c => length l1 + c) (pos p l2).
Proof.
  intros T p l1 l2. unfold pos. rewrite app_length, seq_app, filter_app. f_equal.
  - apply filter_ext_in. intros c Hc. apply in_seq in Hc. rewrite nth_error_app1 by lia. auto.
  - rewrite Nat.add_0_l, seq_from, filter_map_comm. f_equal. apply filter_ext. intros c.
    rewrite nth_error_app2 by lia. replace (length l1 + c - length l1) with c by lia. auto.
Qed.
Lemma pos_nil : forall {T} (p : T -> bool) l, (forall k, In k l -> p k = false) -> pos p l = [].
Proof.
  intros T p l H. unfold pos. induction (seq 0 (length l)) as [|c m IH]; simpl; auto.
  destruct (nth_error l c) as [k|] eqn:E; auto. rewrite H; auto. eapply nth_error_In; eauto.
Qed.
Lemma pos_all : forall {T} (p : T -> bool) l, (forall k, In k l -> p k = true) -> pos p l = seq 0 (length l).
Proof.
  intros T p l H. unfold pos. assert (G : forall m, (forall c, In c m -> c < length l) ->
    filter (fun c => match nth_error l c with Some k => p k | None => false end) m = m).
  { induction m as [|c m IH]; intros B; simpl; auto. destruct (nth_error l c) as [k|] eqn:E.
    - rewrite H by (eapply nth_error_In; eauto). rewrite IH; auto. intros; apply B; right; auto.
    - apply nth_error_None in E. specialize (B c (or_introl eq_refl)). lia. }
  apply G. intros c Hc. apply in_seq in Hc. lia.
Qed.

Section Wiring.
  Variables (L R : list nat) (cp : option nat).
  Hypothesis NDL : NoDup L.
  Hypothesis NDR : NoDup R.

  Lemma pos_one : forall L' r j l, NoDup L' -> nth_error L' j = Some l ->
    pos (fun k => src k =? l) (map (fun x => mkChan x r cp) L') = [j].
  Proof.
    induction L' as [|a L' IH]; intros r j l ND E; [destruct j; discriminate|]. inversion ND as [|? ? NI ND']; subst.
    change (map (fun x => mkChan x r cp) (a :: L')) with ([mkChan a r cp] ++ map (fun x => mkChan x r cp) L').
    rewrite pos_app. destruct j as [|j]; simpl in E.
    - injection E as ->. rewrite (pos_nil _ (map _ L')).
      + unfold pos. simpl. rewrite Nat.eqb_refl. reflexivity.
      + intros k Hk. apply in_map_iff in Hk as (x & <- & Hx). simpl. apply Nat.eqb_neq. congruence.
    - rewrite (IH r j l ND' E). unfold pos. simpl. replace (a =? l) with false; [reflexivity|].
      symmetry. apply Nat.eqb_neq. intros ->. apply NI. eapply nth_error_In; eauto.
  Qed.

  Lemma pos_outs : forall j l, nth_error L j = Some l ->
    pos (fun k => src k =? l) (a2a_chans L R cp) = map (fun i => i * length L + j) (seq 0 (length R)).
  Proof.
    clear NDR. intros j l E. induction R as [|r R' IH]; [reflexivity|]. unfold a2a_chans. cbn [flat_map]. fold (a2a_chans L R' cp).
    rewrite pos_app, (pos_one L r j l NDL E), IH, map_length. cbn [length seq map app].
    f_equal. rewrite <- seq_shift, !map_map. apply map_ext. intros i. simpl. lia.
  Qed.

  Lemma pos_ins : forall i r, nth_error R i = Some r ->
    pos (fun k => dst k =? r) (a2a_chans L R cp) = map (fun j => i * length L + j) (seq 0 (length L)).
  Proof.
    clear NDL. induction R as [|r0 R' IH]; intros i r E; [destruct i; discriminate|].
    inversion NDR as [|? ? NI ND']; subst. unfold a2a_chans. cbn [flat_map]. fold (a2a_chans L R' cp). rewrite pos_app, map_length.
    destruct i as [|i]; simpl in E.
    - injection E as ->. rewrite pos_all, map_length.
      2:{ intros k Hk. apply in_map_iff in Hk as (x & <- & _). simpl. apply Nat.eqb_refl. }
      rewrite (pos_nil _ (a2a_chans L R' cp)), app_nil_r.
      + simpl. rewrite map_id. reflexivity.
      + intros k Hk. unfold a2a_chans in Hk. apply in_flat_map in Hk as (r1 & H1 & H2).
        apply in_map_iff in H2 as (x & <- & _). simpl. apply Nat.eqb_neq. congruence.
    - rewrite pos_nil.
      2:{ intros k Hk. apply in_map_iff in Hk as (x & <- & _). simpl. apply Nat.eqb_neq. intros ->. apply NI.
          eapply nth_error_In; eauto. }
      simpl. rewrite (IH ND' i r E), map_map. apply map_ext. intros j. lia.
  Qed.

  Lemma nth_a2a : forall i j r l, nth_error R i = Some r -> nth_error L j = Some l ->
    nth_error (a2a_chans L R cp) (i * length L + j) = Some (mkChan l r cp).
  Proof.
    clear NDL NDR. induction R as [|r0 R' IH]; intros i j r l ER EL; [destruct i; discriminate|].
    assert (j < length L) by (apply nth_error_Some; congruence).
    unfold a2a_chans. cbn [flat_map]. fold (a2a_chans L R' cp). destruct i as [|i]; simpl in ER.
    - injection ER as ->. simpl. rewrite nth_error_app1 by (rewrite map_length; auto). rewrite nth_error_map, EL. auto.
    - rewrite nth_error_app2 by (rewrite map_length; simpl; lia). rewrite map_length.
      replace (S i * length L + j - length L) with (i * length L + j) by (simpl; lia). auto.
  Qed.
End Wiring.

Section Net.
  Context {X St : Type}.
  Variable N : net X St.
  Variables (L R : list nat) (cp : option nat) (pre post : list chan).
  Hypothesis EC : chans N = pre ++ a2a_chans L R cp ++ post.
  Hypothesis NDL : NoDup L.
  Hypothesis NDR : NoDup R.
  Hypothesis OUT : forall k, In k (pre ++ post) -> ~ In (src k) L /\ ~ In (dst k) R.

  Definition cid (i j : nat) : nat := length pre + (i * length L + j).

  Lemma a2a_outs : forall j l, nth_error L j = Some l -> outs N l = map (fun i => cid i j) (seq 0 (length R)).
  Proof.
    intros j l E. change (outs N l) with (pos (fun k => src k =? l) (chans N)).
    assert (IL : In l L) by (eapply nth_error_In; eauto).
    assert (PN : forall m, (forall k, In k m -> In k (pre ++ post)) -> pos (fun k => src k =? l) m = []).
    { intros m H. apply pos_nil. intros k Hk. apply Nat.eqb_neq. intros EK. destruct (OUT k (H k Hk)) as [H1 _]. congruence. }
    rewrite EC, pos_app, pos_app, (PN pre), (PN post) by (intros; apply in_or_app; auto).
    rewrite (pos_outs L R cp NDL j l E). simpl. rewrite app_nil_r, map_map. reflexivity.
  Qed.
  Lemma a2a_ins : forall i r, nth_error R i = Some r -> ins N r = map (fun j => cid i j) (seq 0 (length L)).
  Proof.
    intros i r E. change (ins N r) with (pos (fun k => dst k =? r) (chans N)).
    assert (IL : In r R) by (eapply nth_error_In; eauto).
    assert (PN : forall m, (forall k, In k m -> In k (pre ++ post)) -> pos (fun k => dst k =? r) m = []).
    { intros m H. apply pos_nil. intros k Hk. apply Nat.eqb_neq. intros EK. destruct (OUT k (H k Hk)) as [_ H1]. congruence. }
    rewrite EC, pos_app, pos_app, (PN pre), (PN post) by (intros; apply in_or_app; auto).
    rewrite (pos_ins L R cp NDR i r E). simpl. rewrite app_nil_r, map_map. reflexivity.
  Qed.
  Lemma a2a_chan : forall i j r l, nth_error R i = Some r -> nth_error L j = Some l ->
    chan_of N (cid i j) = Some (mkChan l r cp).
  Proof.
    intros i j r l ER EL. unfold chan_of, cid. rewrite EC, nth_error_app2 by lia.
    replace (length pre + (i * length L + j) - length pre) with (i * length L + j) by lia.
    pose proof (nth_a2a L R cp i j r l ER EL) as H. rewrite nth_error_app1; [auto|]. apply nth_error_Some. congruence.
  Qed.

  Lemma nth_map_seq : forall {T} (f : nat -> T) n i, i < n -> nth_error (map f (seq 0 n)) i = Some (f i).
  Proof.
    intros T f n i H. rewrite nth_error_map.
    rewrite (nth_error_nth' _ 0) by (rewrite seq_length; auto). rewrite seq_nth by auto. reflexivity.
  Qed.

  Lemma swap_flat : forall {T} (f : nat -> nat -> list T) m n,
    Permutation (flat_map (fun j => flat_map (fun i => f i j) n) m) (flat_map (fun i => flat_map (fun j => f i j) m) n).
  Proof.
    intros T f m n. induction m as [|j m IH]; simpl.
    - induction n; simpl; auto.
    - rewrite IH. clear. induction n as [|i n IH]; simpl; auto. rewrite <- IH, <- !app_assoc. apply Permutation_app_head.
      rewrite !app_assoc. apply Permutation_app_tail, Permutation_app_comm.
  Qed.

  Lemma flat_map_perm_pt : forall {S T} (f g : S -> list T) l, (forall x, In x l -> Permutation (f x) (g x)) ->
    Permutation (flat_map f l) (flat_map g l).
  Proof.
    induction l as [|a l IH]; intros H; simpl; auto. apply Permutation_app; [apply H; left; auto|].
    apply IH. intros; apply H; right; auto.
  Qed.

  Lemma flat_map_nth : forall {T} (f : nat -> list T) (l : list nat),
    flat_map f l = flat_map (fun i => f (nth i l 0)) (seq 0 (length l)).
  Proof.
    intros T f l. induction l as [|a l IH]; [reflexivity|]. cbn [flat_map length seq nth]. rewrite IH. f_equal.
    rewrite <- seq_shift. rewrite !flat_map_concat_map, map_map. reflexivity.
  Qed.

  (** Everything the first set sends reaches the second set, once. *)
  Lemma a2a_total : forall (W : wf N) h s, exec (step N) (init_st N) h = Some s -> all_done N s ->
    (forall l, In l L -> l < nodes N) -> (forall r, In r R -> patient N r) ->
    Permutation (flat_map (fun l => sent (requests N s l)) L) (flat_map (fun r => items (map snd (hl s r))) R).
  Proof.
    intros W h s E D LN PT. pose proof (reach N _ _ E) as I.
    assert (NL : forall j, j < length L -> nth_error L j = Some (nth j L 0)) by (intros; apply nth_error_nth'; auto).
    assert (NR : forall i, i < length R -> nth_error R i = Some (nth i R 0)) by (intros; apply nth_error_nth'; auto).
    rewrite (flat_map_nth _ L), (flat_map_nth _ R).
    transitivity (flat_map (fun j => flat_map (fun i => items (received N s (cid i j))) (seq 0 (length R))) (seq 0 (length L))).
    - apply flat_map_perm_pt. intros j Hj. apply in_seq in Hj as [_ Hj]. simpl in Hj. specialize (NL j Hj).
      set (l := nth j L 0) in *.
      rewrite (finished_items N W h s l E D).
      + rewrite (a2a_outs j l NL). rewrite !flat_map_concat_map, map_map. reflexivity.
      + intros c k K SK. assert (HC : In c (outs N l)) by (apply in_outs; eauto).
        rewrite (a2a_outs j l NL) in HC. apply in_map_iff in HC as (i & <- & Hi). apply in_seq in Hi as [_ Hi]. simpl in Hi.
        rewrite (a2a_chan i j _ l (NR i Hi) NL) in K. injection K as <-. simpl. apply PT. apply nth_In. auto.
      + apply LN. eapply nth_error_In; eauto.
    - rewrite swap_flat. apply flat_map_perm_pt. intros i Hi. apply in_seq in Hi as [_ Hi]. simpl in Hi. specialize (NR i Hi).
      set (r := nth i R 0) in *. symmetry.
      rewrite (split_channels (ins N r)).
      + rewrite (a2a_ins i r NR). rewrite !flat_map_concat_map, map_map.
        match goal with |- Permutation ?a ?b => replace b with a; [reflexivity|] end. f_equal. apply map_ext_in.
        intros j Hj. apply in_seq in Hj as [_ Hj]. simpl in Hj. unfold received. rewrite (a2a_chan i j r _ NR (NL j Hj)). reflexivity.
      + unfold ins. apply NoDup_filter, seq_NoDup.
      + intros [c m] Hc. simpl. eapply (i_ins _ _ I); eauto.
  Qed.
End Net.
