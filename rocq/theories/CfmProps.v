(** C77: two farms combined into one, or connected without a collector. *)
From Coq Require Import List Arith Bool Lia.
From Verif Require Import CwsModel CwsSpec CwsProofs CfmModel CfmSpec CfmProofs.
Import ListNotations.

(** The full claim: combine_farms does what its documentation says, for all the cases it lists. *)
Definition combine_farms_claim : Prop := forall mi mo f1 n1 f2 n2 merge st,
  (ord f1 || ord f2 = true -> open_farms f1 f2) ->
  combine_farms mi mo f1 n1 f2 n2 merge = Ok st -> as_documented f1 n1 f2 n2 merge st.

(** It does, but for the case with node2 only and mergeCE: every item goes through the emitter of
    the first farm, a worker of it, node1, node2, a worker of the second farm and its collector. *)
Theorem combine_farms_partial : forall mi mo f1 n1 f2 n2 merge st,
  (ord f1 || ord f2 = true -> open_farms f1 f2) ->
  ~ (merge = true /\ n1 = None /\ n2 <> None) ->
  combine_farms mi mo f1 n1 f2 n2 merge = Ok st -> as_documented f1 n1 f2 n2 merge st.
Proof. exact documented. Qed.

(** Calls on farms of sequential workers of the expected kinds are accepted. *)
Theorem combine_farms_accepted : forall mi mo f1 n1 f2 n2 merge, acceptable mi mo f1 n1 f2 n2 merge ->
  exists st, combine_farms mi mo f1 n1 f2 n2 merge = Ok st.
Proof. exact accepted. Qed.

(** When the first farm is ordered, its own collector and the emitter of the second are kept. *)
Theorem combine_farms_ordered_first : forall mi mo f1 f2 st, ord f1 = true -> combine_farms mi mo f1 None f2 None true = Ok st ->
  paths (Pipe st) = prod (opath (em f1)) (prod (flat_map paths (wk f1)) (prod (opath (own (co f1))) (prod (opath (em f2)) (prod (flat_map paths (wk f2)) (opath (own (co f2))))))).
Proof. exact ordered_first. Qed.

(** It is accepted when the last of the two nodes is multi-output; when it is not, the program is
    aborted. *)
Theorem combine_farms_ordered_accepted : forall mi mo f1 f2, ord f1 = true -> length (wk f1) <> length (wk f2) ->
  (em f2 = None -> forall c, own (co f1) = Some c -> mo c = true) -> (forall e, em f2 = Some e -> mo e = true) ->
  exists st, combine_farms mi mo f1 None f2 None true = Ok st.
Proof. exact ordered_accepted. Qed.
Theorem combine_farms_ordered_aborts : forall mi mo f1 f2 x, ord f1 = true -> length (wk f1) <> length (wk f2) ->
  em f2 = Some x \/ em f2 = None /\ co f1 = Some (Some x) -> mo x = false ->
  combine_farms mi mo f1 None f2 None true = Ub.
Proof.
  intros mi mo f1 f2 x O L E M. apply Nat.eqb_neq in L. unfold combine_farms. rewrite O. simpl. rewrite L. unfold ofarm_farm.
  rewrite L, andb_false_r. destruct E as [E|(E & C)]; rewrite E, ?C, M; [|reflexivity]. destruct (co f1) as [[c|]|]; reflexivity.
Qed.

(** Ordered farms: nodes, mergeCE = false, and as many workers in both farms are refused. *)
Theorem combine_farms_ordered_refused : forall mi mo f1 n1 f2 n2 merge, ord f1 || ord f2 = true ->
  (n1 <> None \/ n2 <> None \/ merge = false \/ length (wk f1) = length (wk f2)) ->
  combine_farms mi mo f1 n1 f2 n2 merge = Err.
Proof.
  intros mi mo f1 n1 f2 n2 merge O H. unfold combine_farms. rewrite O. destruct merge; [|reflexivity].
  destruct n1; [reflexivity|]. destruct n2; [reflexivity|]. destruct H as [H|[H|[H|H]]]; try congruence.
  rewrite H, Nat.eqb_refl. reflexivity.
Qed.

(** Finding: with mergeCE, node1 null and node2 given, the node is not used: whatever node2 is, the
    result is the same, and no item goes through it. *)
Theorem combine_farms_node2_lost : forall mi mo f1 f2 b st, ord f1 || ord f2 = false ->
  combine_farms mi mo f1 None f2 (Some b) true = Ok st -> paths (Pipe st) = in_sequence f1 None f2 None.
Proof.
  intros mi mo f1 f2 b st O E. unfold combine_farms in E. rewrite O in E. injection E as <-.
  rewrite two_path. unfold in_sequence. simpl npath. simpl opath at 2. rewrite !prod_1_l. reflexivity.
Qed.
Theorem combine_farms_refuted : ~ combine_farms_claim.
Proof.
  intros H. specialize (H (fun _ => false) (fun _ => false) (mkFarm false None None [Node 1; Node 2]) None (mkFarm false None None [Node 3]) (Some 9) true _
    ltac:(discriminate) eq_refl). destruct H as (_ & H). assert (X : normal_form (mkFarm false None None [Node 1; Node 2]) None (mkFarm false None None [Node 3]) (Some 9) true -> False).
  { intros (_ & _ & A & _). discriminate. }
  specialize (H X). vm_compute in H. discriminate.
Qed.

(** Farms of two and three workers, with an emitter and a collector. *)
Definition f1 := mkFarm false (Some (Node 1)) (Some (Some (Node 20))) [Node 2; Comb (Node 3) (Node 4)].
Definition f2 := mkFarm false (Some (Node 21)) (Some (Some (Node 8))) [Node 5; Node 6; Node 7].
Definition f3 := mkFarm false None None [Node 5; Node 6].
Definition no (_ : bb) := false.
Example ex_both : exists st, combine_farms no no f1 (Some 9) f2 (Some 10) false = Ok st
  /\ paths (Pipe st) = [[1; 2; 9; 10; 5; 8]; [1; 2; 9; 10; 6; 8]; [1; 2; 9; 10; 7; 8]; [1; 3; 4; 9; 10; 5; 8]; [1; 3; 4; 9; 10; 6; 8]; [1; 3; 4; 9; 10; 7; 8]].
Proof. eexists. split; reflexivity. Qed.
Example ex_merge : exists st, combine_farms no no f1 (Some 9) f2 (Some 10) true = Ok st
  /\ paths (Pipe st) = [[1; 2; 9; 10; 5; 8]; [1; 2; 9; 10; 6; 8]; [1; 2; 9; 10; 7; 8]; [1; 3; 4; 9; 10; 5; 8]; [1; 3; 4; 9; 10; 6; 8]; [1; 3; 4; 9; 10; 7; 8]].
Proof. eexists. split; reflexivity. Qed.
Example ex_nf : exists st, combine_farms no no f1 None f3 None true = Ok st /\ paths (Pipe st) = [[1; 2; 5]; [1; 3; 4; 6]].
Proof. eexists. split; reflexivity. Qed.
Example ex_acceptable : forall merge, acceptable no no f1 (Some 9) f2 (Some 10) merge.
Proof. intros. repeat split; try discriminate; repeat (apply Forall_cons; [split; [exact I || (split; exact I)|reflexivity]|]); apply Forall_nil. Qed.
Example ex_ordered : exists st, combine_farms no (fun _ => true) (mkFarm true (Some (Node 1)) (Some (Some (Node 4))) [Node 2; Node 3]) None f2 None true = Ok st
  /\ paths (Pipe st) = [[1; 2; 4; 21; 5; 8]; [1; 2; 4; 21; 6; 8]; [1; 2; 4; 21; 7; 8]; [1; 3; 4; 21; 5; 8]; [1; 3; 4; 21; 6; 8]; [1; 3; 4; 21; 7; 8]].
Proof. eexists. split; reflexivity. Qed.
Example ex_aborts : combine_farms no no (mkFarm true None (Some (Some (Node 4))) [Node 2; Node 3]) None (mkFarm false None None [Node 5]) None true = Ub.
Proof. reflexivity. Qed.
Example ex_lost : exists st, combine_farms no no f1 None f2 (Some 9) true = Ok st /\ paths (Pipe st) = in_sequence f1 None f2 None.
Proof. eexists. split; reflexivity. Qed.

Print Assumptions combine_farms_partial.
Print Assumptions combine_farms_accepted.
Print Assumptions combine_farms_ordered_first.
Print Assumptions combine_farms_ordered_accepted.
Print Assumptions combine_farms_ordered_aborts.
Print Assumptions combine_farms_ordered_refused.
Print Assumptions combine_farms_node2_lost.
Print Assumptions combine_farms_refuted.
