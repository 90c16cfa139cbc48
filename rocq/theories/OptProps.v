(** C50: the static optimiser does not change what a pipeline computes. *)
From Coq Require Import List Arith Bool Lia.
From Verif Require Import Base OptModel OptSpec OptProofs OptProofs2 OptProofs3 OptProofs4.
Import ListNotations.

(** Level 1 always ends with a result, and the optimised pipeline can deliver exactly the output
    streams the original can deliver. *)
Theorem opt_level1_exact : forall A (p : list (skel A)), wf (Pipe p) = true ->
  exists p', (exists n, forall fuel, n <= fuel -> opt_pipe fuel level1 p = Ok p') /\
    forall xs ys, behaviour p' xs ys <-> behaviour p xs ys.
Proof.
  intros A p Hw.
  destruct (proj1 (level1_total (S (hmax p))) p (le_n _)) as (p' & E & _).
  exists p'. split.
  - exists (S (hmax p)). intros fuel Hf. eapply (proj1 (level1_mono A (S (hmax p)))); eauto.
  - intros xs ys. eapply opt_exact; eauto; reflexivity.
Qed.

(** Level 2, and every other setting of the options that does not turn farms into all-to-alls:
    whatever the optimised pipeline delivers, the original could have delivered.  Missing for
    level 2: that the optimiser ends with a result (see the refutations) and that the optimised
    pipeline runs (see [opt_ordered_merge_refuted]); missing for introduce_a2a: everything. *)
Theorem opt_level2_partial : forall A fuel (p p' : list (skel A)) xs ys, wf (Pipe p) = true ->
  opt_pipe fuel level2 p = Ok p' -> behaviour p' xs ys -> behaviour p xs ys.
Proof. intros A fuel p p' xs ys. now apply opt_preserves. Qed.
Theorem opt_options_partial : forall A fuel rm em mg (p p' : list (skel A)) xs ys, wf (Pipe p) = true ->
  opt_pipe fuel (mkOpts mg false rm em) p = Ok p' ->
  (behaviour p' xs ys -> behaviour p xs ys) /\ (mg = false -> behaviour p xs ys -> behaviour p' xs ys).
Proof.
  intros A fuel rm em mg p p' xs ys Hw H. split; [now apply opt_preserves with fuel (mkOpts mg false rm em)|].
  intros ->. eapply opt_exact; eauto; reflexivity.
Qed.

(** ** Example pipelines *)
Definition idn : node nat := mkNode false false false (fun _ x => [(None, x)]) (fun _ => []).
Definition inc : node nat := mkNode false false false (fun _ x => [(None, S x)]) (fun _ => []).
(** The number of inputs received so far, and at the end their number again. *)
Definition count : node nat := mkNode true false false (fun h _ => [(None, length h)]) (fun h => [(None, 100 + length h)]).

(** A farm of pipelines with the default collector, followed by a node. *)
Definition ex1 : list (skel nat) :=
  [Seq inc; Pipe [Farm false None [Pipe [Seq inc; Farm false None [Seq idn; Seq inc] DefColl]; Seq idn] DefColl; Seq idn]; Seq count].
Example ex1_wf : wf (Pipe ex1) = true. Proof. reflexivity. Qed.
Example ex1_opt : opt_pipe 5 level1 ex1 =
  Ok [Seq inc; Farm false None [Pipe [Seq inc; Farm false None [Seq idn; Seq inc] NoColl]; Seq idn] NoColl;
      Seq (to_mi idn); Seq count].
Proof. reflexivity. Qed.
(** Two farms merged, their last collector removed, the first stage made the emitter. *)
Definition ex2 : list (skel nat) :=
  [Seq inc; Farm false None [Seq inc; Seq idn] DefColl; Farm false None [Seq idn; Seq count] DefColl].
Example ex2_wf : wf (Pipe ex2) = true. Proof. reflexivity. Qed.
Example ex2_opt : opt_pipe 5 level2 ex2 =
  Ok [Farm false (Some inc) [Seq (comb inc idn); Seq (comb idn count)] NoColl].
Proof. reflexivity. Qed.
Lemma merge_self : forall T (l : list T), merge [l] l.
Proof. intros. now apply merge_single. Qed.
Lemma route_step : forall A ws x (l : list (out A)) parts i d p j,
  locate ws j = Some (i, d) -> route ws l parts -> nth_error parts i = Some p ->
  route ws ((None, x) :: l) (lupd parts i ((Some d, x) :: p)).
Proof. intros. eapply route_cons; eauto. discriminate. Qed.
(** The optimised pipeline runs: two inputs to the second worker, one to the first. *)
Example ex2_runs : behaviour [Farm false (Some inc) [Seq (comb inc idn); Seq (comb idn count)] NoColl] [5; 6; 7] [8; 0; 1; 102].
Proof.
  exists [[(None, 8)]; [(None, 0); (None, 1); (None, 102)]], [(None, 8); (None, 0); (None, 1); (None, 102)].
  split; [|split; [|reflexivity]].
  - apply runs_one.
    apply run_farm with (l := [(None, 5); (None, 6); (None, 7)]) (parts := [[(Some 0, 7)]; [(Some 0, 6); (Some 0, 8)]])
      (oss := [[[(None, 8)]]; [[(None, 0); (None, 1); (None, 102)]]]).
    + apply merge_self.
    + cbn. apply (route_step nat [1; 1] 6 _ [[(Some 0, 7)]; [(Some 0, 8)]] 1 0 [(Some 0, 8)] 1); try reflexivity.
      apply (route_step nat [1; 1] 7 _ [[]; [(Some 0, 8)]] 0 0 [] 0); try reflexivity.
      apply (route_step nat [1; 1] 8 _ [[]; []] 1 0 [] 1); try reflexivity. apply (route_nil [1; 1]).
    + constructor; [apply (run_seq (comb inc idn) _ [(Some 0, 7)]), merge_self|].
      constructor; [apply (run_seq (comb idn count) _ [(Some 0, 6); (Some 0, 8)]), merge_self|constructor].
    + reflexivity.
  - apply (merge_cons _ 0 _ []); [reflexivity|].
    apply (merge_cons _ 1 _ [(None, 1); (None, 102)]); [reflexivity|].
    apply (merge_cons _ 1 _ [(None, 102)]); [reflexivity|].
    apply (merge_cons _ 1 _ []); [reflexivity|]. constructor. repeat constructor.
Qed.

(** ** Findings *)

(** Level 2 should end with a result on every well-formed pipeline. *)
Definition opt_level2_total_claim : Prop := forall (p : list (skel nat)), wf (Pipe p) = true ->
  exists fuel p', opt_pipe fuel level2 p = Ok p'.

(** Two farms with a node between them: the node is cast to a farm (ff/optimize.hpp:541-547). *)
Definition between : list (skel nat) :=
  [Farm false None [Seq inc; Seq inc] NoColl; Seq count; Farm false None [Seq idn; Seq idn] NoColl].
Theorem opt_node_between_refuted : wf (Pipe between) = true /\
  (forall fuel, opt_pipe (S (S fuel)) level2 between = Undef) /\ ~ opt_level2_total_claim.
Proof.
  assert (E : forall fuel, opt_pipe (S fuel) level2 between = Undef) by (intros [|fuel]; reflexivity).
  split; [reflexivity|]. split; [intros; apply E|].
  intros H. destruct (H between eq_refl) as ([|fuel] & p' & G); [discriminate|]. rewrite E in G. discriminate.
Qed.

(** Two farms of pipelines: the combined workers are empty (ff/combine.hpp:340-357). *)
Definition farms_of_pipes : list (skel nat) :=
  [Farm false None [Pipe [Seq inc; Seq idn]; Seq inc] NoColl; Farm false None [Seq idn; Seq idn] NoColl].
Theorem opt_merge_pipes_refuted : wf (Pipe farms_of_pipes) = true /\
  forall fuel, opt_pipe (S (S fuel)) level2 farms_of_pipes = Undef.
Proof. split; [reflexivity|]. intros [|fuel]; reflexivity. Qed.

(** An ordered farm with its default collector before a farm: the collector, a null pointer, is
    asked whether it is multi-input (ff/optimize.hpp:741-746). *)
Definition ordered_first : list (skel nat) :=
  [Farm true (Some inc) [Seq inc; Seq inc] DefColl; Farm false None [Seq idn; Seq idn] NoColl].
Theorem opt_null_collector_refuted : wf (Pipe ordered_first) = true /\
  forall fuel, opt_pipe (S (S fuel)) level2 ordered_first = Undef.
Proof. split; [reflexivity|]. intros [|fuel]; reflexivity. Qed.

(** A combination of nodes before a farm: add_emitter aborts the program (ff/farm.hpp:954-988). *)
Definition comb_first : list (skel nat) := [Seq (comb inc idn); Farm false None [Seq idn; Seq idn] NoColl].
Theorem opt_comb_emitter_refuted : wf (Pipe comb_first) = true /\
  forall fuel, opt_pipe (S (S fuel)) level2 comb_first = Abort.
Proof. split; [reflexivity|]. intros [|fuel]; reflexivity. Qed.

(** With introduce_a2a, a farm with an emitter after a farm: the loop never ends
    (ff/optimize.hpp:635-665). *)
Definition farm_with_emitter : list (skel nat) :=
  [Farm false None [Seq inc; Seq inc] NoColl; Farm false (Some idn) [Seq idn; Seq idn] NoColl].
Theorem opt_a2a_loop_refuted : wf (Pipe farm_with_emitter) = true /\
  forall rm em fuel, opt_pipe fuel (mkOpts false true rm em) farm_with_emitter = NoFuel.
Proof.
  split; [reflexivity|]. intros rm em [|fuel]; [reflexivity|]. rewrite opt_pipe_S. cbv zeta.
  cbn [farm_with_emitter flat_map flat app mapM inner_of bind merge_farms introduce_a2a].
  assert (E : forall k, a2a_loop k farm_with_emitter (Some 0) = NoFuel).
  { induction k; [reflexivity|]. exact IHk. }
  change (find_null_coll _ 0 0) with (Some 0). unfold farm_with_emitter in E. rewrite E. reflexivity.
Qed.

(** Two ordered farms are merged into an ordered farm of combinations, which refuses to start
    (ff/farm.hpp:243-248): the optimised pipeline delivers nothing at all. *)
Definition opt_runs_claim : Prop := forall fuel (p p' : list (skel nat)) xs, wf (Pipe p) = true ->
  opt_pipe fuel level2 p = Ok p' -> (exists ys, behaviour p xs ys) -> exists ys, behaviour p' xs ys.
Definition two_ordered : list (skel nat) :=
  [Farm true None [Seq inc; Seq inc] NoColl; Farm true None [Seq inc; Seq inc] NoColl].
Theorem opt_ordered_merge_refuted : wf (Pipe two_ordered) = true /\
  (exists p', (forall fuel, opt_pipe (S (S fuel)) level2 two_ordered = Ok p') /\ forall xs ys, ~ behaviour p' xs ys) /\
  behaviour two_ordered [1; 2] [3; 4] /\ ~ opt_runs_claim.
Proof.
  assert (B : behaviour two_ordered [1; 2] [3; 4]).
  { exists [[(None, 3); (None, 4)]], [(None, 3); (None, 4)]. split; [|split; [apply merge_self|reflexivity]].
    assert (O : forall h x y, ordered_run [Seq inc; Seq inc] h [x; y] [S x; S y]).
    { intros h x y. apply or_cons with (i := 0) (n := inc) (t := None); [reflexivity|reflexivity|].
      apply or_cons with (i := 1) (n := inc) (t := None); [reflexivity|reflexivity|].
      constructor. intros [|[|i]] n Hn; try (injection Hn as <-; reflexivity). destruct i; discriminate. }
    eapply runs_cons.
    - apply run_ofarm with (l := [(None, 1); (None, 2)]) (ys := [2; 3]) (outs := [[(None, 2); (None, 3)]]);
        [discriminate|reflexivity|apply merge_self|apply O|].
      exists [(None, 2); (None, 3)]. split; [apply merge_self|reflexivity].
    - apply runs_one.
      apply run_ofarm with (l := [(None, 2); (None, 3)]) (ys := [3; 4]);
        [discriminate|reflexivity|apply merge_self|apply O|].
      exists [(None, 3); (None, 4)]. split; [apply merge_self|reflexivity]. }
  assert (E : exists p', (forall fuel, opt_pipe (S (S fuel)) level2 two_ordered = Ok p') /\ forall xs ys, ~ behaviour p' xs ys).
  { exists [Farm true None (map Seq [comb inc inc; comb inc inc]) DefColl].
    split; [intros [|fuel]; reflexivity|]. intros xs ys (outs & l & R & _). apply runs_one in R.
    eapply comb_no_run; [|exact R]. reflexivity. }
  split; [reflexivity|]. split; [exact E|]. split; [exact B|].
  intros C. destruct E as (p' & E & N).
  destruct (C 2 two_ordered p' [1; 2] eq_refl (E 0) (ex_intro _ _ B)) as (ys & G). exact (N _ _ G).
Qed.

(** The condition on nodes that choose their channel, after a farm with the default collector,
    is needed: the node becomes one that does not (ff/optimize.hpp:701-710,
    ff/multinode.hpp:1163-1189). *)
Definition to1 : node nat := mkNode false true false (fun _ x => [(Some 1, x)]) (fun _ => []).
Definition chooser : list (skel nat) :=
  [Farm false None [Seq idn] DefColl; Seq to1; A2A [Seq idn; Seq inc] [Seq idn]].
Theorem opt_chooser_refuted :
  wf (Pipe chooser) = false /\
  (forall fuel, opt_pipe (S (S fuel)) level1 chooser =
     Ok [Farm false None [Seq idn] NoColl; Seq (to_mi to1); A2A [Seq idn; Seq inc] [Seq idn]]) /\
  behaviour [Farm false None [Seq idn] NoColl; Seq (to_mi to1); A2A [Seq idn; Seq inc] [Seq idn]] [5] [5] /\
  ~ behaviour chooser [5] [5].
Proof.
  assert (Ra : forall t d, (forall k, t = Some k -> 0 = k) -> d = Some 0 ->
    route [1] [(t, 5)] [[(d, 5)]]).
  { intros t d Ht ->. apply (route_cons [1] t 5 [] [[]] 0 0 0 []); auto. apply (route_nil [1]). }
  split; [reflexivity|]. split; [intros [|fuel]; reflexivity|]. split.
  - exists [[(None, 5)]], [(None, 5)]. split; [|split; [apply merge_self|reflexivity]].
    eapply runs_cons.
    { apply run_farm with (l := [(None, 5)]) (parts := [[(Some 0, 5)]]) (oss := [[[(None, 5)]]]).
      - apply merge_self.
      - apply Ra; auto. discriminate.
      - constructor; [apply (run_seq idn _ [(Some 0, 5)]), merge_self|constructor].
      - reflexivity. }
    eapply runs_cons; [apply (run_seq (to_mi to1) _ [(None, 5)]), merge_self|].
    apply runs_one. match goal with |- run _ ?i ?o => change (run (A2A [Seq idn; Seq inc] [Seq idn]) i (concat [[[(@None nat, 5)]]])) end.
    apply run_a2a with (pss := [[[(Some 0, 5)]; []]]) (mid := [[[(None, 5)]]; [[]]]) (pss' := [[[(Some 0, 5)]]; [[]]]).
    + constructor; [|constructor]. apply (route_step nat [1; 1] 5 _ [[]; []] 0 0 [] 0); try reflexivity. apply (route_nil [1; 1]).
    + constructor; [apply (run_seq idn _ [(Some 0, 5)]), merge_self|].
      constructor; [apply (run_seq inc _ []), merge_self|constructor].
    + constructor; [apply Ra; auto; discriminate|]. constructor; [|constructor]. apply (route_nil [1]).
    + constructor; [|constructor]. apply (run_seq idn _ [(Some 0, 5)]).
      apply (merge_cons _ 0 _ []); [reflexivity|]. constructor. repeat constructor.
  - intros (outs & l & R & M & E).
    apply runs_cons_inv in R. destruct R as (m1 & R1 & R). apply runs_cons_inv in R. destruct R as (m2 & R2 & R3).
    apply runs_one in R3.
    assert (E1 : m1 = [[(None, 5)]]).
    { inversion R1 as [| |? ? ? ? l0 parts oss ? Hm Hro Hra Hco| |]; subst. clear R1.
      apply merge_single in Hm. subst l0. cbn in Hro. destruct Hco as (l1 & Hl1 & ->).
      inversion Hro as [|? ? ? ps j i d p Hj Hl Hr Hn]; subst. inversion Hr; subst.
      destruct j; [|destruct j; discriminate]. simpl in Hl. injection Hl as <- <-. simpl in Hn. injection Hn as <-.
      cbn in Hra. apply (run_all_seq [idn] [[(Some 0, 5)]]) in Hra. destruct Hra as (_ & ->).
      apply merge_single in Hl1. subst l1. reflexivity. }
    subst m1. inversion R2; subst. match goal with X : merge [_] _ |- _ => apply merge_single in X; subst end.
    inversion R3 as [| | | |? ? ? pss mid pss' oss H1 H2 H3 H4]; subst. clear R1 R2 R3.
    inversion H1 as [|? ps ? ? Hr Hx]; subst. inversion Hx; subst. clear H1 Hx.
    inversion Hr as [|? ? ? ps0 j i d p Hj Hl Hr0 Hn]; subst. inversion Hr0; subst.
    specialize (Hj 1 eq_refl). subst j. simpl in Hl. injection Hl as <- <-. simpl in Hn. injection Hn as <-.
    cbn in H2. apply (run_all_seq [idn; inc] [[]; [(Some 0, 5)]]) in H2. destruct H2 as (_ & ->).
    cbn in H3. inversion H3 as [|? p1 ? ? Hp1 Hx]; subst. inversion Hx as [|? p2 ? ? Hp2 Hy]; subst. inversion Hy; subst.
    clear H3 Hx Hy. inversion Hp1; subst.
    inversion Hp2 as [|? ? ? ps1 j i d p Hj Hl Hr1 Hn]; subst. inversion Hr1; subst.
    destruct j; [|destruct j; discriminate]. simpl in Hl. injection Hl as <- <-. simpl in Hn. injection Hn as <-.
    cbn in H4. inversion H4 as [|? ? ? ? o os Ho Hos]; subst. inversion Hos; subst.
    inversion Ho as [? ? l0 Hl0| | | |]; subst. cbn in M. apply merge_single in M. subst l.
    assert (L0 : l0 = [(Some 0, 6)]).
    { inversion Hl0 as [? F|? i0 x0 r0 l1 Hn0 Hl1]; subst.
      - inversion F as [|? ? _ F2]; subst. inversion F2; subst. discriminate.
      - destruct i0 as [|[|i0]]; try discriminate; [|destruct i0; discriminate].
        simpl in Hn0. injection Hn0 as <- <-. simpl in Hl1. inversion Hl1 as [|? i1 x1 r1 l2 Hn1 Hl2]; subst; auto.
        destruct i1 as [|[|i1]]; try discriminate; destruct i1; discriminate. }
    subst l0. discriminate E.
Qed.

Print Assumptions opt_level1_exact.
Print Assumptions opt_level2_partial.
Print Assumptions opt_options_partial.
Print Assumptions opt_node_between_refuted.
Print Assumptions opt_merge_pipes_refuted.
Print Assumptions opt_null_collector_refuted.
Print Assumptions opt_comb_emitter_refuted.
Print Assumptions opt_a2a_loop_refuted.
Print Assumptions opt_ordered_merge_refuted.
Print Assumptions opt_chooser_refuted.
