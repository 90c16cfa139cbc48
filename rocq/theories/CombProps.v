(** C41: a combination of nodes computes the sequential composition of their streams. *)
From Coq Require Import List Arith.
From Verif Require Import CombModel CombSpec CombProofs.
Import ListNotations.

(** ** Example nodes on numbers *)
(** Emits every input twice, drops 0, ends the stream at 9, flushes its count at the end. *)
Definition dup : @node nat := mkN nat
  (fun s v => match v with
     | Item 0 => (s, [], GoOn)
     | Item 9 => (s, [Item 9], Eos)
     | Item x => (S s, [Item x], Item x)
     | _ => (s, [], GoOn) end)
  (fun s => (s, [Item (100 + s)])).
(** Running sum; sends the sum at the end of the stream as well. *)
Definition total : @node nat := mkN nat
  (fun s v => match v with Item x => (s + x, [], Item (s + x)) | _ => (s, [], GoOn) end)
  (fun s => (s, [Item s])).
(** Passes only even items, as a further stage. *)
Definition even : @node nat := mkN unit
  (fun s v => match v with Item x => if Nat.even x then (s, [], Item x) else (s, [], GoOn) | _ => (s, [], GoOn) end)
  (fun s => (s, [])).
(** Ends the stream at 5. *)
Definition until5 : @node nat := mkN unit
  (fun s v => match v with Item 5 => (s, [], Eos) | Item x => (s, [], Item x) | _ => (s, [], GoOn) end)
  (fun s => (s, [])).
(** Returns the null pointer at 5. *)
Definition null5 : @node nat := mkN unit
  (fun s v => match v with Item 5 => (s, [], Null) | Item x => (s, [], Item x) | _ => (s, [], GoOn) end)
  (fun s => (s, [])).

Lemma dup_plain : plain dup.
Proof.
  split; cbn.
  - intros s x s' vs r H.
    assert (C : (vs = [] /\ r = GoOn) \/ (vs = [Item x] /\ r = Eos) \/ (vs = [Item x] /\ r = Item x)).
    { destruct x as [|[|[|[|[|[|[|[|[|[|x]]]]]]]]]]; injection H as <- <- <-; auto. }
    destruct C as [[-> ->]|[[-> ->]|[-> ->]]]; split; auto; try (repeat constructor; unfold is_item; eauto).
  - intros s s' vs H. injection H as <- <-. repeat constructor; unfold is_item; eauto.
Qed.
Lemma total_plain : plain total.
Proof.
  split; cbn.
  - intros s x s' vs r H. injection H as <- <- <-. split; [constructor|left]; unfold is_item; eauto.
  - intros s s' vs H. injection H as <- <-. repeat constructor; unfold is_item; eauto.
Qed.
Lemma total_endless : endless total.
Proof. intros s x; cbn; discriminate. Qed.
Lemma even_plain : plain even.
Proof.
  split; cbn.
  - intros s x s' vs r H. destruct (Nat.even x); injection H as <- <- <-; split; unfold is_item; eauto.
  - intros s s' vs H. injection H as <- <-. constructor.
Qed.
Lemma even_endless : endless even.
Proof. intros s x; cbn; destruct (Nat.even x); discriminate. Qed.
Lemma until5_plain : plain until5.
Proof.
  split; cbn.
  - intros s x s' vs r H.
    assert (C : vs = [] /\ (r = Eos \/ r = Item x)).
    { destruct x as [|[|[|[|[|[|x]]]]]]; injection H as <- <- <-; auto. }
    destruct C as [-> [->| ->]]; split; auto. left; unfold is_item; eauto.
  - intros s s' vs H. injection H as <- <-. constructor.
Qed.

(** ** The property *)

(** One node run by its own thread does what [alone] says: this is what the nodes of the
    combination would do as separate stages. *)
Theorem node_alone : forall T (n : @node T) ins s, plain n ->
  thread (Leaf n) (map Item ins ++ [Eos]) s (mkC [] false) =
    (fst (alone n s ins), mkC (map Item (snd (alone n s ins)) ++ [Eos]) false, true).
Proof. intros T n ins s P. rewrite thread_leaf by auto. destruct (alone n s ins). reflexivity. Qed.

(** The combination, run by one thread on a stream of items, outputs exactly the stream
    obtained by feeding the first's outputs to the second, then one end-of-stream mark;
    the nodes end in the same states; the thread ends.  It covers nested combinations,
    dropped items, several outputs per input, items sent at the end of the stream, and a
    first node that ends the stream early.  Missing: the other nodes must not return
    EOS (see [comb_later_eos_refuted]), and no node returns a null pointer
    (see [comb_null_refuted]). *)
Theorem comb_is_chain_partial : forall T (l r : @tree T) ins s,
  Forall plain (leaves (Comb l r)) ->
  Forall endless (tl (leaves (Comb l r))) ->
  thread (Comb l r) (map Item ins ++ [Eos]) s (mkC [] false) =
    (fst (chain (Comb l r) s ins), mkC (map Item (snd (chain (Comb l r) s ins)) ++ [Eos]) false, true).
Proof.
  intros T l r ins s P E.
  assert (F : forall t : @tree T, Forall endless (tl (leaves t)) -> first_only t).
  { clear. induction t as [n|l IHl r IHr]; cbn [leaves first_only]; auto. intros H.
    assert (exists n L, leaves l = n :: L) as (n & L & El).
    { clear. induction l as [n|a IHa b IHb]; cbn; eauto. destruct IHa as (n & L & ->). cbn. eauto. }
    rewrite El in H. cbn [tl app] in H. apply Forall_app in H as [H1 H2].
    split; auto. apply IHl. rewrite El. auto. }
  rewrite thread_comb by (auto; apply F; auto). rewrite chain_run by (apply F; auto).
  destruct (run (Comb l r) s ins). reflexivity.
Qed.

(** How the nodes are grouped into combinations makes no difference. *)
Theorem comb_grouping_partial : forall T (a b c : @tree T) ins sa sb sc,
  Forall plain (leaves a ++ leaves b ++ leaves c) ->
  Forall endless (tl (leaves a ++ leaves b ++ leaves c)) ->
  let '(_, c1, e1) := thread (Comb (Comb a b) c) (map Item ins ++ [Eos]) ((sa, sb), sc) (mkC [] false) in
  let '(_, c2, e2) := thread (Comb a (Comb b c)) (map Item ins ++ [Eos]) (sa, (sb, sc)) (mkC [] false) in
  c1 = c2 /\ e1 = e2.
Proof.
  intros T a b c ins sa sb sc P E.
  rewrite comb_is_chain_partial by (cbn [leaves]; rewrite <- app_assoc; auto).
  rewrite comb_is_chain_partial by (cbn [leaves]; auto).
  cbn [chain fst snd]. destruct (chain a sa ins) as [a' oa]. cbn [fst snd].
  destruct (chain b sb oa) as [b' ob]. cbn [fst snd]. destruct (chain c sc ob) as [c' oc]. auto.
Qed.

(** Every node but the last is connected to exactly one combination: the one whose left
    part it ends.  The last node of the whole keeps its own output channel. *)
Theorem comb_wiring : forall T (t : @tree T) q n, at_path t q = Some (Leaf n) ->
  (q = last_path t /\ forall p, ~ In (q, p) (connect t)) \/
  (exists p l r, at_path t p = Some (Comb l r) /\ q = p ++ L :: last_path l /\
     forall p', In (q, p') (connect t) <-> p' = p).
Proof.
  intros T t q n A. destruct (last_or_left t q n A) as [->|(p & l & r & H & ->)].
  - left. split; auto. intros p H. apply connect_spec in H as (l & r & _ & E).
    pose proof (last_rs t) as F. rewrite E in F. apply Forall_app in F as [_ F]. inversion F; discriminate.
  - right. exists p, l, r. split; auto. split; auto. intros p'. rewrite connect_spec. split.
    + intros (l' & r' & _ & E). apply left_unique in E; auto using last_rs.
    + intros ->. eauto.
Qed.

(** ** Non-vacuity *)
Definition three : @tree nat := Comb (Comb (Leaf dup) (Leaf total)) (Leaf even).
Example three_plain : Forall plain (leaves three) /\ Forall endless (tl (leaves three)).
Proof.
  split; unfold three; cbn [leaves app tl].
  - apply Forall_cons; [apply dup_plain|]. apply Forall_cons; [apply total_plain|].
    apply Forall_cons; [apply even_plain|constructor].
  - apply Forall_cons; [apply total_endless|]. apply Forall_cons; [apply even_endless|constructor].
Qed.
(** Two items dropped, an early end of stream by the first node. *)
Example three_runs :
  thread three (map Item [1; 0; 2; 9; 7] ++ [Eos]) ((0, 0), tt) (mkC [] false) =
    ((2, 15, tt), mkC [Item 2; Item 4; Item 6; Eos] false, true).
Proof. reflexivity. Qed.
Example three_chain : chain three ((0, 0), tt) [1; 0; 2; 9; 7] = ((2, 15, tt), [2; 4; 6]).
Proof. reflexivity. Qed.
(** And one that reaches the end of the input, with items sent by eosnotify. *)
Example three_eos :
  snd (chain three ((0, 0), tt) [1; 0; 2]) = [2; 4; 6; 108; 108].
Proof. reflexivity. Qed.

(** ** What fails *)
(** The full statement: any node may end the stream. *)
Definition comb_is_chain_claim : Prop := forall T (l r : @tree T) ins s,
  Forall plain (leaves (Comb l r)) ->
  let '(_, c, _) := thread (Comb l r) (map Item ins ++ [Eos]) s (mkC [] false) in
  c = mkC (map Item (snd (chain (Comb l r) s ins)) ++ [Eos]) false.

(** When a node that is not the first returns EOS the mark is sent, but the combination
    goes on: items follow the end-of-stream mark, and a second mark is sent. *)
Theorem comb_later_eos_refuted : ~ comb_is_chain_claim.
Proof.
  intros H. specialize (H nat (Leaf total) (Leaf until5) [2; 3; 4] (0, tt)).
  cbv beta iota zeta in H.
  assert (P : Forall plain (leaves (Comb (Leaf total) (Leaf until5)))).
  { apply Forall_cons; [apply total_plain|]. apply Forall_cons; [apply until5_plain|constructor]. }
  specialize (H P). vm_compute in H. discriminate.
Qed.

Example comb_later_eos_output :
  thread (Comb (Leaf total) (Leaf until5)) (map Item [2; 3; 4] ++ [Eos]) (0, tt) (mkC [] false) =
    ((9, tt), mkC [Item 2; Eos; Item 9; Item 9; Eos] false, true) /\
  snd (chain (Comb (Leaf total) (Leaf until5)) (0, tt) [2; 3; 4]) = [2].
Proof. split; reflexivity. Qed.

(** A node run alone that returns the null pointer ends its stream; the last node of a
    combination that does so makes the thread push the null pointer on its output
    channel, which the channel forbids. *)
Definition comb_null_claim : Prop := forall T (m n : @node T) ins sm sn,
  Forall plain [m] ->
  snd (thread (Leaf n) (map Item ins) sn (mkC [] false)) = true ->
  broken (snd (fst (thread (Comb (Leaf m) (Leaf n)) (map Item ins) (sm, sn) (mkC [] false)))) = false.

Theorem comb_null_refuted : ~ comb_null_claim.
Proof.
  intros H. specialize (H nat total null5 [5] 0 tt).
  assert (P : Forall plain [total]) by (constructor; auto using total_plain).
  specialize (H P eq_refl). vm_compute in H. discriminate.
Qed.

Print Assumptions node_alone.
Print Assumptions comb_is_chain_partial.
Print Assumptions comb_grouping_partial.
Print Assumptions comb_wiring.
Print Assumptions comb_later_eos_refuted.
Print Assumptions comb_null_refuted.
