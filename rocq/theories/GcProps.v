(** C60: a combination of nodes behind several channels. *)
From Coq Require Import List Arith Bool Lia.
From Verif Require Import CombModel CombSpec CombProofs CombProps GcModel GcSpec GcProofs.
Import ListNotations.

(** ** The property *)

(** The combination outputs what its nodes would output in a row: the first node receives all items
    and the end of each channel, each later node is given one stream and told its end once, after
    its last item; then one mark is sent.  [ms] is any sequence of items and ends of channels, one
    less than there are channels; then the last channel ends.
    Missing: when the first node is not multi-input (a farm's collector) the combination must not
    have a combination as its left part ([comb_gather_refuted]); nodes that return EOS early. *)
Theorem comb_gather_partial : forall T (mi : bool) (l r : @tree T) ms s,
  Forall plain (leaves (Comb l r)) -> Forall endless (leaves (Comb l r)) ->
  mi = true \/ (exists n, l = Leaf n) ->
  gather mi (S (ends ms)) (Comb l r) (ms ++ [GEnd]) 0 s (ctr0 (Comb l r)) (mkC [] false) =
    (fst (gchain (Comb l r) s (ms ++ [GEnd])),
     mkC (map Item (snd (gchain (Comb l r) s (ms ++ [GEnd]))) ++ [Eos]) false, true).
Proof.
  intros T mi l r ms s P E M.
  assert (A : all_counted mi (Comb l r)).
  { destruct M as [->|[n ->]].
    - clear. cbn [all_counted]. split; [reflexivity|]. induction l; cbn; auto.
    - cbn. unfold counted. cbn. rewrite orb_true_r. auto. }
  rewrite (gather_ok mi (S (ends ms)) l r P E A ms 0 s) by (try apply ctr0_is; lia).
  rewrite gchain_steps by assumption. destruct (gsteps (Comb l r) s ms) as [s1 o1].
  destruct (fin (Comb l r) s1) as [s2 o2]. reflexivity.
Qed.

(** A single node behind several channels: everything its svc sends or returns, and everything it
    sends when told the end of a channel, in order, then one mark.
    Missing: nodes that return EOS early. *)
Theorem node_gather_partial : forall T (mi : bool) (nd : @node T) ms s,
  plain nd -> endless nd ->
  gather mi (S (ends ms)) (Leaf nd) (ms ++ [GEnd]) 0 s tt (mkC [] false) =
    (fst (head_run nd s (ms ++ [GEnd])),
     mkC (map Item (snd (head_run nd s (ms ++ [GEnd]))) ++ [Eos]) false, true).
Proof.
  intros T mi nd ms s P E. rewrite gather_leaf by auto.
  destruct (head_run nd s (ms ++ [GEnd])) as [s1 o1]. reflexivity.
Qed.

(** In particular what reaches the output does not depend on the grouping of the nodes. *)
Theorem comb_gather_grouping_partial : forall T (a b c : @tree T) ms sa sb sc,
  Forall plain (leaves a ++ leaves b ++ leaves c) -> Forall endless (leaves a ++ leaves b ++ leaves c) ->
  let '(_, o1, e1) := gather true (S (ends ms)) (Comb (Comb a b) c) (ms ++ [GEnd]) 0 ((sa, sb), sc) (ctr0 _) (mkC [] false) in
  let '(_, o2, e2) := gather true (S (ends ms)) (Comb a (Comb b c)) (ms ++ [GEnd]) 0 (sa, (sb, sc)) (ctr0 _) (mkC [] false) in
  o1 = o2 /\ e1 = e2.
Proof.
  intros T a b c ms sa sb sc P E.
  rewrite comb_gather_partial by (cbn [leaves]; rewrite <- ?app_assoc; auto).
  rewrite comb_gather_partial by (cbn [leaves]; auto).
  cbn [gchain chain fst snd]. destruct (gchain a sa (ms ++ [GEnd])) as [a' oa]. cbn [fst snd].
  destruct (chain b sb oa) as [b' ob]. cbn [fst snd]. destruct (chain c sc ob) as [c' oc]. auto.
Qed.

(** ** The full claim, and the finding *)
Definition comb_gather_claim : Prop := forall (mi : bool) (l r : @tree nat) ms s,
  Forall plain (leaves (Comb l r)) -> Forall endless (leaves (Comb l r)) ->
  snd (fst (gather mi (S (ends ms)) (Comb l r) (ms ++ [GEnd]) 0 s (ctr0 (Comb l r)) (mkC [] false))) =
    mkC (map Item (snd (gchain (Comb l r) s (ms ++ [GEnd]))) ++ [Eos]) false.

(** Collector of a farm with two workers: combine_nodes(combine_nodes(even, total), total).  The
    last node is told the end of the stream when the first worker ends, and again when the second
    does: it outputs its sum twice, once before its input is complete. *)
Definition left3 : @tree nat := Comb (Comb (Leaf even) (Leaf total)) (Leaf total).
Definition ms2 : list (gmsg nat) := [GItem 2; GEnd; GItem 4].
Example left3_output :
  out (snd (fst (gather false 2 left3 (ms2 ++ [GEnd]) 0 ((tt, 0), 0) (ctr0 left3) (mkC [] false))))
  = [Item 2; Item 2; Item 8; Item 14; Item 14; Eos].
Proof. vm_compute. reflexivity. Qed.
Example left3_expected : snd (gchain left3 ((tt, 0), 0) (ms2 ++ [GEnd])) = [2; 8; 14; 14].
Proof. vm_compute. reflexivity. Qed.

Lemma left3_ok : Forall plain (leaves left3) /\ Forall endless (leaves left3).
Proof.
  cbn [leaves left3 app]. split.
  - apply Forall_cons; [apply even_plain|]. apply Forall_cons; [apply total_plain|]. apply Forall_cons; [apply total_plain|constructor].
  - apply Forall_cons; [apply even_endless|]. apply Forall_cons; [apply total_endless|]. apply Forall_cons; [apply total_endless|constructor].
Qed.

Theorem comb_gather_refuted : ~ comb_gather_claim.
Proof.
  intro C. specialize (C false (Comb (Leaf even) (Leaf total)) (Leaf total) ms2 ((tt, 0), 0)).
  destruct left3_ok as [P E]. specialize (C P E). vm_compute in C. discriminate.
Qed.

(** ** The hypotheses are met *)
Definition right3 : @tree nat := Comb (Leaf even) (Comb (Leaf total) (Leaf total)).
Example right3_output :
  out (snd (fst (gather false 2 right3 (ms2 ++ [GEnd]) 0 (tt, (0, 0)) (ctr0 right3) (mkC [] false))))
  = [Item 2; Item 8; Item 14; Item 14; Eos].
Proof. vm_compute. reflexivity. Qed.
Example left3_mi_output :
  out (snd (fst (gather true 2 left3 (ms2 ++ [GEnd]) 0 ((tt, 0), 0) (ctr0 left3) (mkC [] false))))
  = [Item 2; Item 8; Item 14; Item 14; Eos].
Proof. vm_compute. reflexivity. Qed.

Example node_output :
  out (snd (fst (gather false 2 (Leaf total) (ms2 ++ [GEnd]) 0 0 tt (mkC [] false)))) =
    map Item (snd (head_run total 0 (ms2 ++ [GEnd]))) ++ [Eos] /\
  snd (head_run even tt (ms2 ++ [GEnd])) = [2; 4].
Proof. vm_compute. auto. Qed.

Print Assumptions comb_gather_partial.
Print Assumptions node_gather_partial.
Print Assumptions comb_gather_grouping_partial.
Print Assumptions comb_gather_refuted.
