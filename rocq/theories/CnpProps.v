(** C78: combine_nodes_in_pipeline. *)
From Coq Require Import List Arith Bool Lia.
From Verif Require Import CwsModel CwsSpec CwsProofs CfmModel CfmSpec CfmProofs CnpModel CnpSpec CnpProofs.
Import ListNotations.

(** The full claim: every pair of stages the documentation lists is accepted or refused with an
    error, and the result is the two stages in sequence. *)
Definition nodes_in_pipeline_claim : Prop := forall mo x y, listed x y ->
  nodes_in_pipeline mo x y = Err \/ exists st, nodes_in_pipeline mo x y = Ok st /\ sequence x y st.

(** The result is the two stages in sequence whenever a pipeline is given back. *)
Theorem nodes_in_pipeline_sequence : forall mo x y st, listed x y -> nodes_in_pipeline mo x y = Ok st -> sequence x y st.
Proof. exact ok_sequence. Qed.

(** One is given back for all suited stages. *)
Theorem nodes_in_pipeline_partial : forall mo x y, listed x y -> suited mo x y ->
  exists st, nodes_in_pipeline mo x y = Ok st /\ sequence x y st.
Proof. intros mo x y L S. destruct (suited_ok mo x y L S) as (st & E). exists st. split; [exact E|]. exact (ok_sequence mo x y st L E). Qed.

(** An all-to-all is refused. *)
Theorem nodes_in_pipeline_a2a : forall mo x y, (exists l r, x = B (A2a l r)) \/ (exists l r, y = B (A2a l r)) ->
  nodes_in_pipeline mo x y = Err.
Proof.
  intros mo x y [(l & r & ->)|(l & r & ->)]; unfold nodes_in_pipeline; [reflexivity|]. simpl. rewrite orb_true_r. reflexivity.
Qed.

(** Finding: a farm with a collector of its own, not ordered, followed by a farm with no emitter of
    its own: a composition with a null pointer. *)
Theorem nodes_in_pipeline_null : forall mo f g c, ord f = false -> co f = Some (Some c) -> em g = None ->
  nodes_in_pipeline mo (F f) (F g) = Ub.
Proof. intros mo f g c O C E. unfold nodes_in_pipeline. simpl. rewrite O. unfold farm_farm. rewrite C, E. reflexivity. Qed.
(** And with an emitter that is a standard node, the program is aborted. *)
Theorem nodes_in_pipeline_standard_emitter : forall mo f g c e, ord f = false -> co f = Some (Some c) -> em g = Some e -> mo e = false ->
  nodes_in_pipeline mo (F f) (F g) = Ub.
Proof. intros mo f g c e O C E M. unfold nodes_in_pipeline. simpl. rewrite O. unfold farm_farm. rewrite C, E, M. reflexivity. Qed.
Theorem nodes_in_pipeline_refuted : ~ nodes_in_pipeline_claim.
Proof.
  intros H. set (f := mkFarm false None (Some (Some (Node 2))) [Node 1]). set (g := mkFarm false None None [Node 3]).
  destruct (H (fun _ => true) (F f) (F g) Logic.I) as [E|(st & E & _)];
    rewrite (nodes_in_pipeline_null _ f g (Node 2) eq_refl eq_refl eq_refl) in E; discriminate.
Qed.
(** Finding: a pipeline given as a stage next to a farm with no filter in that place is left out of
    the result, and nothing tells the caller. *)
Theorem nodes_in_pipeline_pipe_lost : forall mo st g,
  (em g = None -> nodes_in_pipeline mo (B (Pipe st)) (F g) = Ok [block (F g)])
  /\ (ord g = false -> own (co g) = None -> nodes_in_pipeline mo (F g) (B (Pipe st)) = Ok [block (F g)]).
Proof.
  intros mo st g. unfold nodes_in_pipeline. simpl. split.
  - intros E. unfold seq_farm. rewrite E. reflexivity.
  - intros O E. rewrite O. unfold farm_seq. destruct (co g) as [[c|]|]; simpl in E; [discriminate|reflexivity|reflexivity].
Qed.

(** All the shapes: two nodes, a node and a farm, a farm and a node, two farms, an ordered farm. *)
Definition g1 := mkFarm false (Some (Node 1)) (Some (Some (Node 4))) [Node 2; Node 3].
Definition g2 := mkFarm false (Some (Node 5)) (Some None) [Node 6; Node 7; Node 8].
Definition g3 := mkFarm true (Some (Node 1)) (Some (Some (Node 4))) [Node 2; Node 3].
Definition yes (_ : bb) := true.
Example ex_farms : listed (F g1) (F g2) /\ suited yes (F g1) (F g2) /\ exists st, nodes_in_pipeline yes (F g1) (F g2) = Ok st
  /\ paths (Pipe st) = [[1; 2; 4; 5; 6]; [1; 2; 4; 5; 7]; [1; 2; 4; 5; 8]; [1; 3; 4; 5; 6]; [1; 3; 4; 5; 7]; [1; 3; 4; 5; 8]].
Proof. split; [exact Logic.I|]. split; [intros c _; exists (Node 5); split; reflexivity|]. eexists. split; reflexivity. Qed.
Example ex_ordered : listed (F g3) (F g2) /\ suited yes (F g3) (F g2) /\ exists st, nodes_in_pipeline yes (F g3) (F g2) = Ok st.
Proof. split; [exact Logic.I|]. split; [repeat split; discriminate|]. eexists. reflexivity. Qed.
Example ex_node_farm : listed (B (Comb (Node 9) (Node 10))) (F g1) /\ suited yes (B (Comb (Node 9) (Node 10))) (F g1)
  /\ exists st, nodes_in_pipeline yes (B (Comb (Node 9) (Node 10))) (F g1) = Ok st /\ paths (Pipe st) = [[9; 10; 1; 2; 4]; [9; 10; 1; 3; 4]].
Proof. split; [exact Logic.I|]. split; [discriminate|]. eexists. split; reflexivity. Qed.
Example ex_farm_node : listed (F g2) (B (Node 9)) /\ suited yes (F g2) (B (Node 9))
  /\ exists st, nodes_in_pipeline yes (F g2) (B (Node 9)) = Ok st /\ paths (Pipe st) = [[5; 6; 9]; [5; 7; 9]; [5; 8; 9]].
Proof. split; [split; [reflexivity|exact Logic.I]|]. split; [exact Logic.I|]. eexists. split; reflexivity. Qed.

Print Assumptions nodes_in_pipeline_sequence.
Print Assumptions nodes_in_pipeline_partial.
Print Assumptions nodes_in_pipeline_a2a.
Print Assumptions nodes_in_pipeline_null.
Print Assumptions nodes_in_pipeline_standard_emitter.
Print Assumptions nodes_in_pipeline_refuted.
Print Assumptions nodes_in_pipeline_pipe_lost.
