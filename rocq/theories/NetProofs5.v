(** Networks with cycles: if the nodes send a bounded number of messages, executions are finite. *)
From Coq Require Import List Arith Bool Lia Permutation.
From Verif Require Import Base NetModel NetSpec NetProofs NetProofs2 NetProofs3 NetProofs4.
Import ListNotations.

Section Proofs.
  Context {X St : Type}.
  Variable N : net X St.
  Notation st := (st X St).
  Notation inv := (inv N).

  Lemma realizes_length : forall v G P, realizes N v G P -> length P = length (concat G).
  Proof.
    induction 1 as [|g g' p G P PG F R IH]; simpl; [auto|]. rewrite !app_length, IH. f_equal.
    rewrite (Permutation_length PG). clear - F. induction F; simpl; auto.
  Qed.

  Lemma pushes_le : forall (W : wf N) s v, inv s -> v < nodes N ->
    length (hp s v) <= length (concat (requests N s v)) + length (outs N v).
  Proof.
    intros W s v I Hv. destruct (pushes_asked N W s v I Hv) as (rest & R & _). apply realizes_length in R.
    rewrite app_length in R. unfold requests. unfold asked in R. rewrite app_assoc, concat_app, app_length in R.
    assert (length (concat (match ph (nd s v) with Running => [] | _ => [eos_group N v] end)) <= length (outs N v)).
    { destruct (ph (nd s v)); simpl; try lia; rewrite app_nil_r; unfold eos_group; rewrite map_length, seq_length; lia. }
    lia.
  Qed.

  (** Total pushes, messages in the channels, work left. *)
  Definition pushes (s : st) : nat := list_sum (map (fun v => length (hp s v)) (seq 0 (nodes N))).
  Definition inflight (s : st) : nat := list_sum (map (fun c => length (q s c)) (seq 0 (length (chans N)))).
  Definition works (s : st) : nat := list_sum (map (work s) (seq 0 (nodes N))).

  Lemma sum_le_const : forall K f n, (forall v, v < n -> f v <= K) -> list_sum (map f (seq 0 n)) <= n * K.
  Proof.
    intros K f n. induction n as [|n IH]; intros H; [simpl; lia|].
    rewrite seq_S, map_app, list_sum_app. simpl. specialize (H n) as Hn. assert (f n <= K) by auto.
    assert (list_sum (map f (seq 0 n)) <= n * K) by auto. lia.
  Qed.

  Lemma sum_same : forall (l : list nat) f g, (forall x, In x l -> f x = g x) -> list_sum (map f l) = list_sum (map g l).
  Proof. intros. f_equal. apply map_ext_in. auto. Qed.

  Lemma step_kinds : forall s a s', step N s a = Some s' ->
    pushes s < pushes s' \/
    (pushes s' = pushes s /\ inflight s' < inflight s) \/
    (pushes s' = pushes s /\ inflight s' = inflight s /\ works s' < works s).
  Proof.
    intros s a s' E. destruct a as [v c|v k j|v|v]; cbn [step] in E.
    - destruct (ph (nd s v)), (pend (nd s v)); try discriminate. destruct (q s c) as [|m r] eqn:EQ; try discriminate.
      destruct ((v <? nodes N) && memb c (ins N v) && negb (memb c (ended (nd s v)))) eqn:B; [|discriminate].
      injection E as <-. apply andb_prop in B as [B _]. apply andb_prop in B as [B1 B2].
      apply memb_In in B2. unfold ins in B2. apply filter_In in B2 as [B2 _].
      right. left. split; [reflexivity|]. unfold inflight. apply sum_dec with (c := c); auto using seq_NoDup; cbn [q].
      + rewrite fupd_eq, EQ. simpl. lia.
      + intros x Hx. rewrite fupd_neq by auto. auto.
    - destruct (pend (nd s v)) as [|g p] eqn:EP; try discriminate. destruct (nth_error g k) as [r|] eqn:EG; try discriminate.
      destruct (resolve N v r j) as [[c m]|] eqn:ER; try discriminate.
      destruct ((v <? nodes N) && room N s c) eqn:B; [|discriminate].
      injection E as <-. apply andb_prop in B as [B1 _]. apply Nat.ltb_lt in B1.
      left. unfold pushes. apply sum_dec with (c := v); auto using seq_NoDup; cbn [hp].
      + apply in_seq. lia.
      + rewrite fupd_eq, app_length. simpl. lia.
      + intros x Hx. rewrite fupd_neq by auto. auto.
    - destruct (pend (nd s v)) as [|[|? ?] p] eqn:EP; try discriminate. destruct (v <? nodes N) eqn:B; [|discriminate].
      injection E as <-. apply Nat.ltb_lt in B. right. right. split; [reflexivity|]. split; [reflexivity|].
      unfold works. apply sum_dec with (c := v); auto using seq_NoDup.
      + apply in_seq. lia.
      + unfold work. cbn [nd]. rewrite fupd_eq, EP. cbn [pend ph map list_sum fold_right length]. lia.
      + intros x Hx. unfold work. cbn [nd]. rewrite fupd_neq by auto. auto.
    - destruct (ph (nd s v)) eqn:PV, (pend (nd s v)) eqn:EP; try discriminate. destruct (v <? nodes N) eqn:B; [|discriminate].
      injection E as <-. apply Nat.ltb_lt in B. right. right. split; [reflexivity|]. split; [reflexivity|].
      unfold works. apply sum_dec with (c := v); auto using seq_NoDup.
      + apply in_seq. lia.
      + unfold work. cbn [nd]. rewrite fupd_eq, EP, PV. simpl. lia.
      + intros x Hx. unfold work. cbn [nd]. rewrite fupd_neq by auto. auto.
  Qed.

  Lemma no_infinite_bounded : forall K, (forall l s, exec (step N) (init_st N) l = Some s -> pushes s <= K) ->
    forall a b w l s, exec (step N) (init_st N) l = Some s -> K - pushes s = a -> inflight s = b -> works s = w ->
    forall f : nat -> act, exists k, exec (step N) s (map f (seq 0 k)) = None.
  Proof.
    intros K HK a. induction a as [a IHa] using lt_wf_ind. intros b. induction b as [b IHb] using lt_wf_ind.
    intros w. induction w as [w IHw] using lt_wf_ind. intros l s R EA EB EW f.
    destruct (step N s (f 0)) as [s'|] eqn:E.
    2:{ exists 1. simpl. rewrite E. auto. }
    assert (R' : exec (step N) (init_st N) (l ++ [f 0]) = Some s').
    { apply exec_app. exists s. split; [auto|]. simpl. rewrite E. auto. }
    pose proof (HK _ _ R') as B'.
    assert (G : exists k, exec (step N) s' (map (fun i => f (S i)) (seq 0 k)) = None).
    { destruct (step_kinds _ _ _ E) as [H|[[H1 H2]|(H1 & H2 & H3)]].
      - eapply (IHa (K - pushes s')); eauto. lia.
      - eapply (IHb (inflight s')); eauto; lia.
      - eapply (IHw (works s')); eauto; lia. }
    destruct G as (k & G). exists (S k). cbn [seq map]. rewrite <- seq_shift, map_map. cbn [exec]. rewrite E. exact G.
  Qed.

  Lemma bounded_finite : forall (W : wf N) K,
    (forall l s v, exec (step N) (init_st N) l = Some s -> v < nodes N -> length (concat (requests N s v)) <= K) ->
    forall f : nat -> act, exists k, exec (step N) (init_st N) (map f (seq 0 k)) = None.
  Proof.
    intros W K HK. eapply (no_infinite_bounded (nodes N * (K + length (chans N)))) with (l := []); try reflexivity.
    intros l s E. unfold pushes. apply sum_le_const. intros v Hv.
    pose proof (pushes_le W s v (reach N _ _ E) Hv) as H. specialize (HK l s v E Hv).
    assert (length (outs N v) <= length (chans N)).
    { unfold outs. rewrite <- (seq_length (length (chans N)) 0) at 2. generalize (seq 0 (length (chans N))). clear.
      induction l as [|a l IH]; simpl; [lia|]. destruct (match chan_of N a with Some _ => _ | None => _ end); simpl; lia. }
    lia.
  Qed.
End Proofs.
