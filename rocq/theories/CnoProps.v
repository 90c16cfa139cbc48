(** C80: ownership of the stages given to combine_nodes_in_pipeline. *)
From Coq Require Import List Arith Bool Lia Permutation.
From Verif Require Import CfoModel CfoSpec CfoProps CnoModel CnoSpec.
Import ListNotations.
Local Arguments count_occ : simpl never.

(** The full claim. *)
Definition pipeline_owner_claim : Prop := forall x cl1 y cl2 l,
  nodes_in_pipeline x cl1 y cl2 = Some l -> as_owned x cl1 y cl2 l.

(** Every stage given with cleanup and every node the farms own is deleted once, and nothing else,
    but for a node given with cleanup to a farm without an emitter, and for ordered farms given with
    cleanup. *)
Theorem pipeline_owner_partial : forall x cl1 y cl2 l, tidy x -> tidy y -> ~ lost_node x cl1 y -> ~ ordered_cleanup x cl1 y cl2 ->
  nodes_in_pipeline x cl1 y cl2 = Some l -> as_owned x cl1 y cl2 l.
Proof.
  intros x cl1 y cl2 l Tx Ty Ln Oc E. unfold as_owned. destruct x as [n|i f], y as [m|j g]; simpl in *.
  - injection E as <-. apply Permutation_refl.
  - injection E as <-. unfold node_farm, dels. destruct g as [o e a c b w d]. unfold flags_match in Ty. simpl in *. destruct e as [e|].
    + destruct cl1, a; simpl; counts.
    + destruct Ty as (Fe & _). rewrite (Fe eq_refl). destruct cl1; [destruct Ln; auto|]. simpl. counts.
  - destruct (ord f); [discriminate|]. injection E as <-. unfold farm_node, dels. destruct f as [o e a c b w d]. simpl in *. destruct c as [c|].
    + destruct cl2, b; simpl; counts.
    + destruct Tx as (_ & Fc). rewrite (Fc eq_refl). destruct cl2; simpl; counts.
  - destruct (ord f) eqn:O.
    + destruct (ord g && (length (wk f) =? length (wk g))); [discriminate|]. injection E as <-.
      destruct cl1; [destruct Oc; auto|]. destruct cl2; [destruct Oc; auto|]. simpl. rewrite !app_nil_r.
      apply (ofarm_same f g). intros X. apply Oc. auto.
    + unfold farm_farm in E. destruct f as [o1 e1 a1 c1 b1 w1 d1], g as [o2 e2 a2 c2 b2 w2 d2]. simpl in *. unfold dels in *. simpl in *.
      destruct c1 as [c1|]; [destruct e2 as [e2|]; [|discriminate]|]; injection E as <-; [|apply Permutation_refl].
      simpl opt. counts.
Qed.

(** Findings.  A node given with cleanup before a farm that has no emitter is never deleted. *)
Theorem pipeline_owner_leak : forall n id f cl2 l, em f = None -> clE f = false -> n <> id -> ~ In n (opt (co f) ++ wk f) ->
  nodes_in_pipeline (N n) true (F id f) cl2 = Some l -> In n (owned (N n) true) /\ ~ In n l.
Proof.
  intros n id f cl2 l M C D I E. simpl in E. injection E as <-. split; [left; reflexivity|]. unfold node_farm, dels. rewrite M. simpl. rewrite C. simpl.
  intros X. apply I. rewrite !in_app_iff in *. destruct (clC f), (clW f), cl2; simpl in *; intuition congruence.
Qed.
(** A node of the caller, given without cleanup, is deleted by a farm that has the flag of a filter it
    does not have. *)
Theorem pipeline_owner_node : forall n id f cl l,
  (em f = None -> clE f = true -> nodes_in_pipeline (N n) false (F id f) cl = Some l -> In n l)
  /\ (co f = None -> clC f = true -> nodes_in_pipeline (F id f) cl (N n) false = Some l -> In n l).
Proof.
  intros n id f cl l. split; intros M C E; simpl in E.
  - injection E as <-. unfold node_farm, dels. rewrite M. simpl. rewrite C. left. reflexivity.
  - destruct (ord f); [discriminate|]. injection E as <-. unfold farm_node, dels. rewrite M. simpl. rewrite C. simpl.
    rewrite !in_app_iff. left. right. left. reflexivity.
Qed.
(** An ordered farm given with cleanup: the pipeline deletes its workers, owned or not. *)
Theorem pipeline_owner_ordered : forall id1 f id2 g cl2 l x, ord f = true -> In x (wk f) ->
  nodes_in_pipeline (F id1 f) true (F id2 g) cl2 = Some l -> In x l.
Proof.
  intros id1 f id2 g cl2 l x O I E. simpl in E. rewrite O in E. destruct (ord g && (length (wk f) =? length (wk g))); [discriminate|].
  injection E as <-. unfold ofarm, ofarm_farm. simpl. rewrite !in_app_iff. tauto.
Qed.
Theorem pipeline_owner_refuted : ~ pipeline_owner_claim.
Proof.
  intros H. specialize (H (N 1) true (F 2 (mkFarm false None false None false [3] false)) false _ eq_refl).
  apply Permutation_length in H. discriminate.
Qed.

(** Farms with all their filters, everything given with cleanup. *)
Definition h1 := mkFarm false (Some 1) true (Some 2) true [3; 4] true.
Definition h2 := mkFarm false (Some 5) true None false [7; 8; 9] true.
Example ex_farms : exists l, nodes_in_pipeline (F 20 h1) true (F 21 h2) true = Some l /\ l = [1; 3; 4; 20; 2; 5; 7; 8; 9; 21]
  /\ tidy (F 20 h1) /\ tidy (F 21 h2) /\ ~ lost_node (F 20 h1) true (F 21 h2) /\ ~ ordered_cleanup (F 20 h1) true (F 21 h2) true.
Proof. eexists. repeat split; try discriminate; simpl; intuition discriminate. Qed.
Example ex_node_farm : nodes_in_pipeline (N 30) true (F 20 h1) true = Some [30; 1; 2; 3; 4; 20].
Proof. reflexivity. Qed.
Example ex_farm_node : nodes_in_pipeline (F 21 h2) false (N 30) true = Some [5; 30; 7; 8; 9].
Proof. reflexivity. Qed.

Print Assumptions pipeline_owner_partial.
Print Assumptions pipeline_owner_leak.
Print Assumptions pipeline_owner_node.
Print Assumptions pipeline_owner_ordered.
Print Assumptions pipeline_owner_refuted.
