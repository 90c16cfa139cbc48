(** C76: adding a node at an end of a pipeline without a stage of its own. *)
From Coq Require Import List Arith Bool Lia.
From Verif Require Import CwsModel CwsSpec CwsProofs.
Import ListNotations.

(** The full claim: a call that returns 0 leaves a pipeline equivalent to pipe(old, n) or
    pipe(n, old). *)
Definition laststage_claim : Prop := forall st n b', combine_with_laststage st n = R true b' -> followed_by n (Pipe st) b'.

(** combine_with_laststage accepts every suited pipeline, and every item then goes through the old
    nodes and n. *)
Theorem laststage_partial : forall st n, ends (Pipe st) ->
  exists b', combine_with_laststage st n = R true b' /\ followed_by n (Pipe st) b'.
Proof.
  intros st n E. destruct (right_ok (size (Pipe st)) n (Pipe st)) as (b' & A & B); auto. exists b'. split; [exact A|].
  unfold followed_by. rewrite snoc_prod. exact B.
Qed.

(** combine_with_firststage: n, then the old nodes. *)
Theorem firststage_partial : forall st n, starts (Pipe st) ->
  exists b', combine_with_firststage st n = R true b' /\ preceded_by n (Pipe st) b'.
Proof.
  intros st n E. destruct (left_ok (size (Pipe st)) n (Pipe st)) as (b' & A & B); auto. exists b'. split; [exact A|].
  unfold preceded_by. rewrite cons_prod. exact B.
Qed.

(** A call that returns -1 changes no path, for every pipeline. *)
Theorem combine_refused : forall st n b',
  (combine_with_laststage st n = R false b' -> paths b' = paths (Pipe st))
  /\ (combine_with_firststage st n = R false b' -> paths b' = paths (Pipe st)).
Proof. intros st n b'. split; intros E; [eapply right_refused|eapply left_refused]; exact E. Qed.

(** A farm with the default collector at the end is refused. *)
Theorem laststage_default_collector : forall ini e w n, exists b',
  combine_with_laststage (ini ++ [Farm e (Some None) w]) n = R false b'.
Proof.
  intros ini e w n. unfold combine_with_laststage. set (k := size (Pipe (ini ++ [Farm e (Some None) w]))).
  assert (K : 2 <= k). { unfold k. simpl. rewrite map_app, list_sum_app. simpl. lia. }
  destruct k as [|[|k]]; [lia|lia|]. simpl right. rewrite flat_map_app. simpl flat_map at 2. rewrite rev_app_distr. simpl. eauto.
Qed.

(** Finding: the result of the calls for the second and the following workers is lost (a sum of
    values that are never positive is compared with zero).  A farm of two pipelines, the second one
    ended by a farm with its default collector: 0 is returned and only the first has the node. *)
Definition lost : list bb := [Farm None None [Pipe [Node 1]; Pipe [Node 2; Farm None (Some None) [Node 3]]]].
Theorem laststage_refuted : ~ laststage_claim.
Proof.
  intros H. specialize (H lost 9 (Pipe [Farm None None [Pipe [Comb (Node 1) (Node 9)]; Pipe [Node 2; Farm None (Some None) [Node 3]]]]) eq_refl).
  vm_compute in H. discriminate.
Qed.

(** Suited pipelines: nested, ended by a farm of pipelines, by an all-to-all, by a collector. *)
Definition p1 : list bb := [Node 1; Pipe [Farm (Some (Node 2)) None [Pipe [Node 3; Node 4]; Pipe [A2a [Node 5] [Node 6; Comb (Node 7) (Node 8)]]]]].
Example ex_ends : ends (Pipe p1).
Proof.
  apply (e_pipe [Node 1]). apply (e_pipe []). apply e_nested; [discriminate|left; repeat constructor|].
  constructor; [apply (e_pipe [Node 3]); apply e_seq; exact I|]. constructor; [|constructor].
  apply (e_pipe []). apply e_set; [discriminate|repeat constructor].
Qed.
Example ex_paths : paths (Pipe p1) = [[1; 2; 3; 4]; [1; 2; 5; 6]; [1; 2; 5; 7; 8]].
Proof. reflexivity. Qed.
Example ex_last : exists b', combine_with_laststage p1 9 = R true b' /\ paths b' = [[1; 2; 3; 4; 9]; [1; 2; 5; 6; 9]; [1; 2; 5; 7; 8; 9]].
Proof. eexists. split; reflexivity. Qed.
Definition p2 : list bb := [Pipe [A2a [Pipe [Node 1]; Pipe [Farm None (Some None) [Node 2; Node 3]]] [Node 4]]; Node 5].
Example ex_starts : starts (Pipe p2).
Proof.
  apply s_pipe. apply s_pipe. apply s_pipes; [discriminate|repeat constructor|].
  constructor; [apply s_pipe; apply s_seq; exact I|]. constructor; [|constructor]. apply s_pipe. apply s_farm.
Qed.
Example ex_first : exists b', combine_with_firststage p2 9 = R true b' /\ paths b' = [[9; 1; 4; 5]; [9; 2; 4; 5]; [9; 3; 4; 5]].
Proof. eexists. split; reflexivity. Qed.
Example ex_refused : exists b', combine_with_laststage [Farm None None [Farm None (Some None) [Node 1]]] 9 = R false b'.
Proof. eexists. reflexivity. Qed.

Print Assumptions laststage_partial.
Print Assumptions firststage_partial.
Print Assumptions combine_refused.
Print Assumptions laststage_default_collector.
Print Assumptions laststage_refuted.
