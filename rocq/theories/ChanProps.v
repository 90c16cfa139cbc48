(** C40: ff_node's Push and Pop with retry. *)
From Coq Require Import List Arith Bool Lia.
From Verif Require Import ChanModel.
Import ListNotations.

Section Props.
Variable X : Type.

(** What the other end has removed, or added, in the first [n] attempts. *)
Definition removed (d : nat -> nat) (n : nat) : nat := list_sum (map d (seq 0 n)).
Definition added (a : nat -> list X) (n : nat) : list X := concat (map a (seq 0 n)).

Definition full (cap : option nat) (q : list X) : Prop :=
  match cap with Some c => c <= length q | None => False end.

Lemma push1_spec cap (q : list X) x : (full cap q /\ push1 cap q x = None) \/ (~ full cap q /\ push1 cap q x = Some (q ++ [x])).
Proof.
  unfold full, push1. destruct cap as [c|]; [|right; tauto].
  destruct (Nat.ltb_spec (length q) c); [right|left]; split; auto; lia.
Qed.

Lemma removed_S d n : removed d (S n) = removed d n + d n.
Proof. unfold removed. rewrite seq_S, map_app, list_sum_app. cbn. lia. Qed.
Lemma added_S a n : added a (S n) = added a n ++ a n.
Proof. unfold added. rewrite seq_S, map_app, concat_app. cbn. rewrite app_nil_r. reflexivity. Qed.
Lemma skipn_skipn' (l : list X) n m : skipn n (skipn m l) = skipn (m + n) l.
Proof. revert m. induction l as [|y l IH]; intros m; [rewrite !skipn_nil; reflexivity|]. destruct m; cbn; auto. Qed.

Definition at_attempt (d : nat -> nat) (q : list X) (i : nat) : list X := skipn (removed d (S i)) q.

Lemma push_nb_spec cap d n : forall i (q0 : list X) x r q',
  push_nb cap d n i (skipn (removed d i) q0) x = (r, q') ->
  (r = true /\ exists k, i <= k < i + n /\ q' = at_attempt d q0 k ++ [x] /\ ~ full cap (at_attempt d q0 k) /\
               forall j, i <= j < k -> full cap (at_attempt d q0 j)) \/
  (r = false /\ q' = skipn (removed d (i + n)) q0 /\ forall j, i <= j < i + n -> full cap (at_attempt d q0 j)).
Proof.
  induction n as [|n IH]; intros i q0 x r q'; cbn [push_nb].
  - intros E. injection E as <- <-. right. rewrite Nat.add_0_r. repeat split; auto. lia.
  - rewrite skipn_skipn', <- removed_S. fold (at_attempt d q0 i).
    destruct (push1_spec cap (at_attempt d q0 i) x) as [(F & ->)|(F & ->)]; cbv zeta.
    + intros E. apply IH in E. rewrite Nat.add_succ_r.
      destruct E as [(-> & k & K1 & K2 & K3 & K4)|(-> & K1 & K2)]; [left|right]; (split; [reflexivity|]).
      * exists k. split; [lia|]. split; [exact K2|]. split; [exact K3|]. intros j Hj.
        destruct (Nat.eq_dec j i) as [->|]; [exact F|apply K4; lia].
      * split; [exact K1|]. intros j Hj. destruct (Nat.eq_dec j i) as [->|]; [exact F|apply K2; lia].
    + intros E. injection E as <- <-. left. split; [reflexivity|]. exists i. split; [lia|]. repeat split; auto. lia.
Qed.

Lemma push_bl_spec cap d n : forall i (q0 : list X) x,
  match push_bl cap d n i (skipn (removed d i) q0) x with
  | Some q' => exists k, i <= k < i + n /\ q' = at_attempt d q0 k ++ [x] /\ ~ full cap (at_attempt d q0 k)
  | None => forall j, i <= j < i + n -> full cap (at_attempt d q0 j)
  end.
Proof.
  induction n as [|n IH]; intros i q0 x; cbn [push_bl]; [intros; lia|].
  rewrite skipn_skipn', <- removed_S. fold (at_attempt d q0 i).
  destruct (push1_spec cap (at_attempt d q0 i) x) as [(F & ->)|(F & ->)]; cbv zeta.
  - specialize (IH (S i) q0 x). fold (at_attempt d q0 i) in IH. 
    destruct (push_bl cap d n (S i) (at_attempt d q0 i) x).
    + destruct IH as (k & K1 & K). exists k. split; [lia|exact K].
    + intros j Hj. destruct (Nat.eq_dec j i) as [->|]; [exact F|apply IH; lia].
  - exists i. split; [lia|]. auto.
Qed.

(** Push returning true: the item is in the channel, once, behind everything that was still there, and the
    channel had room for it. *)
Theorem Push_true_enqueued : forall (bl : bool) cap d retry fuel (q : list X) x q',
  Push bl cap d retry fuel q x = Some (true, q') ->
  exists k, q' = skipn (removed d k) q ++ [x] /\ match cap with Some c => length q' <= c | None => True end.
Proof.
  intros bl cap d retry fuel q x q' E.
  assert (K : exists k, q' = at_attempt d q k ++ [x] /\ ~ full cap (at_attempt d q k)).
  { unfold Push in E. destruct bl.
    - pose proof (push_bl_spec cap d fuel 0 q x) as S. cbn [removed skipn seq map list_sum fold_right] in S.
      destruct (push_bl cap d fuel 0 q x); [|discriminate]. injection E as <-.
      destruct S as (k & _ & S). eauto.
    - injection E as E. apply (push_nb_spec cap d retry 0 q) in E.
      destruct E as [(_ & k & _ & K1 & K2 & _)|(Z & _)]; [eauto|discriminate]. }
  destruct K as (k & -> & F). exists (S k). split; [reflexivity|].
  destruct cap as [c|]; [|exact I]. rewrite app_length. cbn in *. lia.
Qed.

(** Push returning false: the item is not in the channel; it happens only in non-blocking mode, after exactly
    [retry] attempts each of which found the channel full. *)
Theorem Push_false_not_enqueued : forall (bl : bool) cap d retry fuel (q : list X) x q',
  Push bl cap d retry fuel q x = Some (false, q') ->
  bl = false /\ q' = skipn (removed d retry) q /\ forall j, j < retry -> full cap (at_attempt d q j).
Proof.
  intros bl cap d retry fuel q x q' E. unfold Push in E. destruct bl.
  - destruct (push_bl cap d fuel 0 q x); discriminate.
  - injection E as E. apply (push_nb_spec cap d retry 0 q) in E.
    destruct E as [(Z & _)|(_ & K1 & K2)]; [discriminate|]. split; [reflexivity|]. split; [exact K1|].
    intros j Hj. apply K2. lia.
Qed.

(** Push succeeds if some permitted attempt finds room, and a blocking Push returns exactly then. *)
Theorem Push_succeeds_when_room : forall (bl : bool) cap d retry fuel (q : list X) x k,
  ~ full cap (at_attempt d q k) -> k < (if bl then fuel else retry) ->
  exists q', Push bl cap d retry fuel q x = Some (true, q').
Proof.
  intros bl cap d retry fuel q x k F L. unfold Push. destruct bl.
  - pose proof (push_bl_spec cap d fuel 0 q x) as S. cbn [removed skipn seq map list_sum fold_right] in S.
    destruct (push_bl cap d fuel 0 q x); [cbn; eauto|]. destruct F. apply S. lia.
  - destruct (push_nb cap d retry 0 q x) as [r q'] eqn:E. exists q'. 
    apply (push_nb_spec cap d retry 0 q) in E. destruct E as [(-> & _)|(_ & _ & K)]; [reflexivity|].
    destruct F. apply K. lia.
Qed.

Theorem Push_blocks_while_full : forall cap d retry fuel (q : list X) x,
  (forall k, full cap (at_attempt d q k)) -> Push true cap d retry fuel q x = None.
Proof.
  intros cap d retry fuel q x F. unfold Push.
  pose proof (push_bl_spec cap d fuel 0 q x) as S. cbn [removed skipn seq map list_sum fold_right] in S.
  destruct (push_bl cap d fuel 0 q x); [|reflexivity]. destruct S as (k & _ & _ & N). destruct N. apply F.
Qed.

(** ** Pop *)
Lemma pop_nb_spec act a n : forall i (q0 : list X),
  let '(r, c, q') := pop_nb act a n i (q0 ++ added a i) in
  (exists k x, i <= k < i + n /\ r = true /\ c = Got x /\ q0 ++ added a (S k) = x :: q') \/
  (exists k, i <= k < i + n /\ act k = false /\ r = false /\ c = Null /\ q' = q0 ++ added a (S k)) \/
  (r = true /\ c = Kept /\ q' = q0 ++ added a (i + n) /\ (forall k, i <= k < i + n -> act k = true /\ q0 ++ added a (S k) = [])).
Proof.
  induction n as [|n IH]; intros i q0; cbn [pop_nb].
  - right; right. rewrite Nat.add_0_r. repeat split; auto; lia.
  - rewrite <- app_assoc, <- added_S. destruct (act i) eqn:A; cbn [negb].
    + unfold pop1. destruct (q0 ++ added a (S i)) as [|x q'] eqn:Q.
      * specialize (IH (S i) q0). rewrite Q in IH. rewrite Nat.add_succ_r.
        destruct (pop_nb act a n (S i) []) as [[r c] q'].
        destruct IH as [(k & x & K1 & K)|[(k & K1 & K)|(K1 & K2 & K3 & K4)]].
        -- left. exists k, x. split; [lia|exact K].
        -- right; left. exists k. split; [lia|exact K].
        -- right; right. repeat split; auto; (destruct (Nat.eq_dec k i) as [->|]; [assumption|apply K4; lia]).
      * left. exists i, x. split; [lia|]. auto.
    + right; left. exists i. split; [lia|]. auto.
Qed.

Lemma pop_bl_spec a n : forall i (q0 : list X),
  match pop_bl a n i (q0 ++ added a i) with
  | Some (r, c, q') => exists k x, i <= k < i + n /\ r = true /\ c = Got x /\ q0 ++ added a (S k) = x :: q'
  | None => forall k, i <= k < i + n -> q0 ++ added a (S k) = []
  end.
Proof.
  induction n as [|n IH]; intros i q0; cbn [pop_bl]; [intros; lia|].
  rewrite <- app_assoc, <- added_S. destruct (q0 ++ added a (S i)) as [|x q'] eqn:Q.
  - specialize (IH (S i) q0). rewrite Q in IH. destruct (pop_bl a n (S i) []) as [[[r c] q']|].
    + destruct IH as (k & x & K1 & K). exists k, x. split; [lia|exact K].
    + intros k Hk. destruct (Nat.eq_dec k i) as [->|]; [exact Q|apply IH; lia].
  - exists i, x. split; [lia|]. auto.
Qed.

(** Whenever Pop hands an item over, it is the oldest item of the channel, and the only one taken out. *)
Theorem Pop_item_is_oldest : forall (bl : bool) act a retry fuel (q : list X) r x q',
  Pop bl act a retry fuel q = Some (r, Got x, q') ->
  r = true /\ exists k, q ++ added a k = x :: q'.
Proof.
  intros bl act a retry fuel q r x q' E. unfold Pop in E. destruct bl.
  - destruct (negb (act 0)); [discriminate|]. pose proof (pop_bl_spec a fuel 0 q) as S.
    unfold added at 1 in S. cbn [seq map concat] in S. rewrite app_nil_r in S. rewrite E in S. destruct S as (k & y & _ & R & C & K). injection C as ->. eauto.
  - injection E as E. pose proof (pop_nb_spec act a retry 0 q) as S. unfold added at 1 in S.
    cbn [seq map concat] in S. rewrite app_nil_r, E in S.
    destruct S as [(k & y & _ & R & C & K)|[(k & _ & _ & _ & C & _)|(_ & C & _)]]; try discriminate.
    injection C as ->. eauto.
Qed.

(** Pop returning false: the input was not active, the caller's variable was set to NULL, and nothing was
    taken from the channel. *)
Theorem Pop_false_inactive : forall (bl : bool) act a retry fuel (q : list X) c q',
  Pop bl act a retry fuel q = Some (false, c, q') ->
  c = Null /\ exists k, act k = false /\ (q' = q ++ added a (S k) \/ q' = q).
Proof.
  intros bl act a retry fuel q c q' E. unfold Pop in E. destruct bl.
  - destruct (act 0) eqn:A; cbn in E.
    + pose proof (pop_bl_spec a fuel 0 q) as S. unfold added at 1 in S. cbn [seq map concat] in S. rewrite app_nil_r, E in S.
      destruct S as (k & y & _ & R & _). discriminate.
    + injection E as <- <-. split; [reflexivity|]. exists 0. auto.
  - injection E as E. pose proof (pop_nb_spec act a retry 0 q) as S. unfold added at 1 in S.
    cbn [seq map concat] in S. rewrite app_nil_r, E in S.
    destruct S as [(k & y & _ & R & _)|[(k & _ & A & _ & C & K)|(R & _)]]; try discriminate.
    split; [exact C|]. exists k. auto.
Qed.

(** Full statement: Pop returning true delivered an item. *)
Definition Pop_true_claim (bl : bool) : Prop :=
  forall act a retry fuel (q : list X) c q',
    Pop bl act a retry fuel q = Some (true, c, q') -> exists x, c = Got x.

(** It holds in blocking mode... *)
Theorem Pop_true_delivers_blocking : Pop_true_claim true.
Proof.
  intros act a retry fuel q c q' E. unfold Pop in E.
  destruct (negb (act 0)); [discriminate|]. pose proof (pop_bl_spec a fuel 0 q) as S.
  unfold added at 1 in S. cbn [seq map concat] in S. rewrite app_nil_r, E in S. destruct S as (k & y & _ & _ & C & _). eauto.
Qed.

(** ...and in non-blocking mode when one of the permitted attempts finds an item. *)
Theorem Pop_true_delivers_partial : forall act a retry fuel (q : list X) k,
  k < retry -> q ++ added a (S k) <> [] -> (forall j, j <= k -> act j = true) ->
  exists x q', Pop false act a retry fuel q = Some (true, Got x, q').
Proof.
  intros act a retry fuel q k L N A. unfold Pop. pose proof (pop_nb_spec act a retry 0 q) as S.
  unfold added at 1 in S. cbn [seq map concat] in S. rewrite app_nil_r in S.
  destruct (pop_nb act a retry 0 q) as [[r c] q'] eqn:E.
  destruct S as [(j & y & _ & -> & -> & K)|[(j & Lj & Aj & -> & -> & K)|(_ & _ & _ & K)]].
  - eauto.
  - (* an earlier inactive reading is excluded up to k; after k the item would already be there *)
    destruct (Nat.le_gt_cases j k) as [H|H]; [rewrite (A j H) in Aj; discriminate|].
    exfalso. assert (G : forall n i, i <= k < i + n -> exists x q2, pop_nb act a n i (q ++ added a i) = (true, Got x, q2)).
    { clear - A N. induction n as [|n IH]; intros i H; [lia|]. cbn [pop_nb]. rewrite <- app_assoc, <- added_S.
      rewrite A by lia. cbn [negb]. unfold pop1. destruct (q ++ added a (S i)) as [|x q2] eqn:Q; [|eauto].
      destruct (Nat.eq_dec i k) as [->|]; [congruence|]. rewrite <- Q. apply IH. lia. }
    destruct (G retry 0) as (x & q2 & G'); [lia|]. unfold added in G'. cbn [seq map concat] in G'.
    rewrite app_nil_r, E in G'. discriminate.
  - destruct (K k) as (_ & K2); [lia|]. contradiction.
Qed.

(** Finding: after [retry] attempts on an empty channel Pop returns true, takes nothing, and leaves the caller's
    variable as it was. *)
Theorem Pop_exhausted_returns_true : forall act a retry fuel,
  (forall k, k < retry -> act k = true /\ added a (S k) = []) ->
  Pop false act a retry fuel (@nil X) = Some (true, Kept, []).
Proof.
  intros act a retry fuel H. unfold Pop. pose proof (pop_nb_spec act a retry 0 (@nil X)) as S.
  change ([] ++ added a 0) with (added a 0) in S. unfold added at 1 in S. cbn [seq map concat] in S.
  destruct (pop_nb act a retry 0 []) as [[r c] q'].
  destruct S as [(j & y & Lj & _ & _ & K)|[(j & Lj & Aj & _)|(-> & -> & K & _)]].
  - destruct (H j) as (_ & Z); [lia|]. rewrite Z in K. discriminate.
  - destruct (H j) as (Z & _); [lia|]. congruence.
  - rewrite K. change (0 + retry) with retry. change ([] ++ added a retry) with (added a retry). destruct retry as [|m]; [reflexivity|]. destruct (H m) as (_ & Z); [lia|]. rewrite Z. reflexivity.
Qed.
End Props.

Theorem Pop_true_refuted : ~ Pop_true_claim nat false.
Proof.
  intros C. destruct (C (fun _ => true) (fun _ => []) 3 0 [] Kept [] eq_refl) as (x & E). discriminate.
Qed.

(** The room appears at the third attempt. *)
Example Push_waits : Push false (Some 2) (fun i => if i =? 2 then 1 else 0) 5 0 [7; 8] 9 = Some (true, [8; 9]).
Proof. reflexivity. Qed.
Example Push_gives_up : Push false (Some 2) (fun i => if i =? 2 then 1 else 0) 2 0 [7; 8] 9 = Some (false, [7; 8]).
Proof. reflexivity. Qed.
Example Push_waits_blocking : Push true (Some 2) (fun i => if i =? 2 then 1 else 0) 0 5 [7; 8] 9 = Some (true, [8; 9]).
Proof. reflexivity. Qed.
Example Pop_waits : Pop false (fun _ => true) (fun i => if i =? 2 then [5; 6] else []) 5 0 [] = Some (true, Got 5, [6]).
Proof. reflexivity. Qed.
Example Pop_stops : Pop false (fun i => i <? 2) (fun i => if i =? 2 then [5; 6] else []) 5 0 [] = Some (false, Null, [5; 6]).
Proof. reflexivity. Qed.
Example Pop_waits_blocking : Pop true (fun i => i <? 1) (fun i => if i =? 2 then [5; 6] else []) 0 5 [] = Some (true, Got 5, [6]).
Proof. reflexivity. Qed.

Print Assumptions Push_true_enqueued.
Print Assumptions Push_false_not_enqueued.
Print Assumptions Push_succeeds_when_room.
Print Assumptions Push_blocks_while_full.
Print Assumptions Pop_item_is_oldest.
Print Assumptions Pop_false_inactive.
Print Assumptions Pop_true_delivers_blocking.
Print Assumptions Pop_true_delivers_partial.
Print Assumptions Pop_exhausted_returns_true.
Print Assumptions Pop_true_refuted.
