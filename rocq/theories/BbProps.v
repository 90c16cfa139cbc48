(** Finding the block a node belongs to (getBB): C73. *)
From Coq Require Import List Arith Bool Lia.
From Verif Require Import BbModel BbSpec BbProofs.
Import ListNotations.

(** Whatever the graph: the pointer returned is that of a block of the graph that contains the node
    or is the node itself. *)
Theorem bb_sound : forall n s p, getBB n s = Found p ->
  exists b x, within s b /\ id b = p /\ within b x /\ id x = n.
Proof. exact sound. Qed.

(** In a graph with no ordered farm and no composed emitter or collector, for a node that is not a
    composition inside a composition, the answer is the innermost block that contains the node, the
    node itself if the search starts there, null if it is not in the graph. *)
Theorem bb_innermost_partial : forall n s,
  distinct s -> well_built s -> simple_farms s -> not_nested n s -> innermost n s (getBB n s).
Proof.
  intros n s D W S N. split; [apply here|split].
  - intros b x Wb I E. eapply present; eauto.
  - intros A. apply absent; auto. intros C. apply ids_within in C. destruct C as (x & Wx & E). exact (A x Wx E).
Qed.

(** Finding: without these conditions the promise is not kept. *)
Definition bb_innermost_claim : Prop := forall n s, distinct s -> well_built s -> innermost n s (getBB n s).

(** A node of a composed emitter (or collector) is not found. *)
Theorem bb_composed_emitter : forall i j a b c w,
  distinct (Farm i false (Some (Comb j (Node a) (Node b))) c w) ->
  (forall x, In x w -> simple_farms x) ->
  getBB a (Farm i false (Some (Comb j (Node a) (Node b))) c w) = Null.
Proof.
  intros i j a b c w D S. unfold distinct in D. simpl in D. inversion D as [|? ? N1 D1]; subst. inversion D1 as [|? ? N2 D2]; subst. inversion D2 as [|? ? N3 D3]; subst.
  simpl in N1, N2, N3. assert (Ai : i <> a) by (intros E; apply N1; auto). assert (Aj : j <> a) by (intros E; apply N2; auto).
  apply Nat.eqb_neq in Ai, Aj. simpl. rewrite Ai, Aj.
  assert (C : is c a = false).
  { destruct c as [x|]; auto. simpl. apply Nat.eqb_neq. intros E. apply N3. right. apply in_or_app. left. rewrite <- E. apply id_in. }
  rewrite C. apply loop_null. intros x I. apply absent.
  - apply S, I.
  - intros A. apply N3. right. apply in_or_app. right. apply in_flat_map. eauto.
Qed.

(** A composition inside a composition is reported as its own container. *)
Theorem bb_nested_comb : forall i j a b c,
  distinct (Comb i (Comb j a b) c) -> getBB j (Comb i (Comb j a b) c) = Found j.
Proof.
  intros i j a b c D. unfold distinct in D. simpl in D. inversion D as [|? ? N _]; subst. simpl in N.
  assert (E : i <> j) by (intros E; apply N; auto). apply Nat.eqb_neq in E. simpl. rewrite E, Nat.eqb_refl. simpl. rewrite Nat.eqb_refl. reflexivity.
Qed.

(** A search that comes to an ordered farm ends the program, even if the node is elsewhere. *)
Theorem bb_ordered_aborts : forall i j e c w l n,
  n <> i -> n <> j -> getBB n (Pipe i (Farm j true e c w :: l)) = Abort.
Proof.
  intros i j e c w l n Hi Hj. apply not_eq_sym in Hi, Hj. apply Nat.eqb_neq in Hi, Hj. simpl. rewrite Hi, Hj. reflexivity.
Qed.

Theorem bb_innermost_refuted : ~ bb_innermost_claim.
Proof.
  intros H. destruct (H 1 (Comb 0 (Comb 1 (Node 2) (Node 3)) (Node 4))) as (_ & P & _).
  - repeat (constructor; [simpl; intuition discriminate|]). constructor.
  - intros b W. assert (X : In b [Comb 0 (Comb 1 (Node 2) (Node 3)) (Node 4); Comb 1 (Node 2) (Node 3); Node 2; Node 3; Node 4]).
    { inversion W as [|? ? ? I W1]; subst; [simpl; auto|]. simpl in I. destruct I as [<-|[<-|[]]].
      - inversion W1 as [|? ? ? I W2]; subst; [simpl; auto|]. simpl in I. destruct I as [<-|[<-|[]]]; inversion W2 as [|? ? ? I W3]; subst; simpl; auto; destruct I.
      - inversion W1 as [|? ? ? I W2]; subst; [simpl; auto 6|]. destruct I. }
    simpl in X. destruct X as [<-|[<-|[<-|[<-|[<-|[]]]]]]; simpl; auto.
  - specialize (P (Comb 0 (Comb 1 (Node 2) (Node 3)) (Node 4)) (Comb 1 (Node 2) (Node 3)) (w_here _) ltac:(simpl; auto) eq_refl). discriminate.
Qed.

(** ** The hypotheses are met: a pipeline of a source, a farm of pipelines whose last stages are
    compositions, an all-to-all; the node 9 is inside a composition inside a worker. *)
Definition worker (i : nat) : bb := Pipe i [Node (i + 1); Comb (i + 2) (Comb (i + 3) (Node (i + 4)) (Node (i + 5))) (Node (i + 6))].
Definition graph : bb := Pipe 0 [Node 1; Farm 2 false (Some (Node 3)) (Some (Node 4)) [worker 5; worker 12]; A2a 20 [Node 21; Node 22] [Node 23; Comb 24 (Node 25) (Node 26)]].

(** Everything within a graph, to check properties of a concrete one. *)
Fixpoint all (b : bb) : list bb :=
  b :: match b with
       | Node _ => []
       | Pipe _ st => flat_map all st
       | A2a _ l r => flat_map all l ++ flat_map all r
       | Farm _ _ e c w => match e with Some x => all x | None => [] end ++ match c with Some x => all x | None => [] end ++ flat_map all w
       | Comb _ l r => all l ++ all r
       end.
Lemma all_within : forall s b, within s b -> In b (all s).
Proof.
  induction 1 as [b|s x b I W IH]; [destruct b; left; reflexivity|].
  destruct s as [i|i st|i l r|i o e c w|i l r]; simpl in *; right.
  - exact I.
  - apply in_flat_map. eauto.
  - apply in_app_or in I. apply in_or_app. rewrite !in_flat_map. destruct I; eauto.
  - rewrite !in_app_iff in I. rewrite !in_app_iff, in_flat_map. destruct I as [I|[I|I]]; [|right|right; right; eauto];
    [destruct e|left; destruct c]; simpl in I; try tauto; destruct I as [->|[]]; auto.
  - apply in_or_app. destruct I as [->|[->|[]]]; auto.
Qed.

Example graph_distinct : distinct graph.
Proof. unfold distinct. vm_compute. repeat (constructor; [simpl; intuition discriminate|]). constructor. Qed.
Example graph_built : well_built graph.
Proof.
  intros b W. apply all_within in W. revert b W. apply Forall_forall. vm_compute.
  repeat (constructor; [intuition (subst; auto)|]). constructor.
Qed.
Example graph_farms : simple_farms graph.
Proof.
  assert (F : Forall (fun b => match b with Farm _ o e c _ => o = false /\ Forall (fun x => isComp x = false) (opt e ++ opt c) | _ => True end) (all graph)).
  { vm_compute. repeat constructor. }
  intros i o e c w W. apply all_within in W. rewrite Forall_forall in F. specialize (F _ W). simpl in F. rewrite Forall_forall in F. exact F.
Qed.
Example graph_not_nested : not_nested 9 graph.
Proof.
  assert (F : Forall (fun b => match b with Comb _ l r => Forall (fun x => (id x =? 9) && isComp x = false) [l; r] | _ => True end) (all graph)).
  { vm_compute. repeat constructor. }
  intros i l r x W D E. apply all_within in W. rewrite Forall_forall in F. specialize (F _ W). simpl in F. rewrite Forall_forall in F.
  specialize (F x). rewrite E in F. simpl in F. apply F. destruct D; auto.
Qed.
Example graph_search : getBB 9 graph = Found 8 /\ getBB 25 graph = Found 24 /\ getBB 4 graph = Found 2 /\ getBB 7 graph = Found 5 /\ getBB 40 graph = Null.
Proof. vm_compute. auto. Qed.
Example emitter_missed : getBB 3 (Farm 0 false (Some (Comb 2 (Node 3) (Node 4))) None [Node 1]) = Null.
Proof.
  apply bb_composed_emitter.
  - unfold distinct; simpl. repeat (constructor; [simpl; intuition discriminate|]). constructor.
  - intros x [<-|[]] i o e c w W. apply all_within in W. destruct W as [W|[]]. discriminate.
Qed.
Example ordered_met : getBB 9 (Pipe 0 [Farm 1 true None None [Node 2]; Node 9]) = Abort.
Proof. reflexivity. Qed.

Print Assumptions bb_sound.
Print Assumptions bb_innermost_partial.
Print Assumptions bb_composed_emitter.
Print Assumptions bb_nested_comb.
Print Assumptions bb_ordered_aborts.
Print Assumptions bb_innermost_refuted.
