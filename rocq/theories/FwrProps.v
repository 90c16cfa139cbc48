(** wrap_around() on a farm (C70): who sends to the emitter, for every sequence of configuration
    calls. *)
From Coq Require Import List Arith Bool.
From Verif Require Import FwrModel FwrSpec FwrProofs.
Import ListNotations.

(** ** The full claim: after wrap_around() the emitter hears exactly the threads it should, whatever
    is called before and after. *)
Definition farm_feedback_claim : Prop :=
  forall mo pre post s, no_wrap pre -> no_wrap post -> tidy (pre ++ WrapAround :: post) ->
    run mo (pre ++ WrapAround :: post) = Some s -> feeds_back s (promised pre post).

(** It holds exactly when: with no collector at the call, no setlb() and no set_ordered() follows;
    with a collector at the call, the farm ends up with the same collector or the default one. *)
Theorem farm_feedback_iff : forall mo pre post s,
  no_wrap pre -> no_wrap post -> tidy (pre ++ WrapAround :: post) ->
  run mo (pre ++ WrapAround :: post) = Some s ->
  (feeds_back s (promised pre post) <->
   match collector_after pre with
   | None => ~ In SetLb post /\ ~ In SetOrdered post
   | Some k => collector_after (pre ++ WrapAround :: post) = Some Gt
               \/ collector_after (pre ++ WrapAround :: post) = Some k
   end).
Proof.
  intros mo pre post s N1 N2 T R. unfold promised. destruct (collector_after pre) as [k|] eqn:C.
  - now apply (promise_collector mo).
  - now apply (promise_workers mo).
Qed.

Lemma collector_of_app : forall a b o c, collector_of (a ++ b) o c = collector_of b (o || is_ordered a) (collector_of a o c).
Proof.
  intros a; induction a as [|x a IH]; intros b o c; simpl; [now rewrite orb_false_r|].
  destruct x as [w|[y|]| | | |]; simpl; rewrite IH; try reflexivity. now rewrite orb_true_r.
Qed.

(** The part that holds without looking at the details: when wrap_around() is called after all the
    other configuration calls, more workers excepted. *)
Theorem farm_feedback_partial : forall mo pre post s,
  no_wrap pre -> tidy pre -> (forall a, In a post -> exists w, a = AddWorkers w) ->
  run mo (pre ++ WrapAround :: post) = Some s -> feeds_back s (promised pre post).
Proof.
  intros mo pre post s N T P R.
  assert (N2 : no_wrap post) by (intros I; apply P in I; destruct I; discriminate).
  assert (T2 : tidy (pre ++ WrapAround :: post)).
  { intros a b E I. apply in_split in I. destruct I as (x & y & ->).
    assert (Q : exists z, pre = (x ++ RemoveCollector :: y) ++ SetOrdered :: z).
    { clear R N N2. apply app_eq_app in E. destruct E as (l & [(E1 & E2)|(E1 & E2)]).
      - destruct l as [|c l]; [simpl in E2; discriminate|]. simpl in E2; inversion E2 as [[Ea Eb]]. exists l. rewrite E1, Ea. reflexivity.
      - destruct l as [|c l].
        + simpl in E2; inversion E2.
        + simpl in E2. inversion E2 as [[Ec Ep]]. assert (I : In SetOrdered post) by (rewrite Ep; apply in_elt).
          apply P in I; destruct I; discriminate. }
    destruct Q as (z & Q). apply (T _ _ Q). apply in_elt. }
  apply (farm_feedback_iff mo pre post s N N2 T2 R).
  assert (C : forall o c, collector_of post o c = c).
  { clear - P. induction post as [|a post IH]; intros o c; [reflexivity|].
    destruct (P a (or_introl eq_refl)) as (w & ->). simpl. apply IH. intros a I; apply P; now right. }
  unfold collector_after at 1. destruct (collector_of pre false None) as [k|] eqn:K.
  - right. unfold collector_after. rewrite collector_of_app. simpl. rewrite C. exact K.
  - split; intros I; apply P in I; destruct I; discriminate.
Qed.

(** A user collector that replaces the one the farm had when wrap_around() was called: a standard
    one pushes its first output through a null pointer; what a multi-output one sends goes
    nowhere, while the emitter waits on a channel that nobody writes. *)
Theorem farm_replaced_collector : forall mo pre post s k c,
  no_wrap pre -> no_wrap post -> tidy (pre ++ WrapAround :: post) ->
  run mo (pre ++ WrapAround :: post) = Some s ->
  collector_after pre = Some k -> collector_after (pre ++ WrapAround :: post) = Some (Usr c) -> k <> Usr c ->
  collector_out s = (if mo c then Some [] else None)
  /\ exists b, emitter_in s = [b] /\ forall t, ~ In b (writes s t).
Proof.
  intros mo pre post s k c N1 N2 T R C1 C2 D.
  destruct (coll_out_cases _ _ _ _ _ N1 N2 T R C1) as (E & W & _ & _ & O). rewrite C2 in O.
  assert (O' : collector_out s = if mo c then Some [] else None).
  { rewrite O. destruct k as [|y]; [reflexivity|]. destruct (c =? y) eqn:X; [|reflexivity].
    apply Nat.eqb_eq in X; subst; contradiction. }
  split; [exact O'|]. exists 0; split; [exact E|]. intros t I. destruct t as [i|].
  - apply W in I; inversion I.
  - simpl in I. rewrite O' in I. destruct (mo c); exact I.
Qed.

(** The claim fails: a farm in a master-worker configuration that is then given its own scheduler,
    and a wrapped farm whose default collector is then replaced. *)
Definition two_workers : call := AddWorkers [false; false].

Theorem farm_feedback_refuted : ~ farm_feedback_claim.
Proof.
  intros C.
  assert (F : feeds_back (mkNet [mkW false 0 None []; mkW false 1 None []] [] [] (Some [])) (promised [two_workers] [SetLb])).
  { apply (C (fun _ => false)).
    - intros [X|[]]; discriminate.
    - intros [X|[]]; discriminate.
    - intros a b E. destruct a as [|? [|? [|? [|? ?]]]]; simpl in E; inversion E.
    - reflexivity. }
  destruct F as (_ & F). inversion F.
Qed.

(** ** Which configurations are accepted

    Without wrap_around(): run() succeeds exactly when every call is correct at its place, there is
    a worker, and an ordered farm has standard workers only. *)
Theorem farm_accepts : forall mo l, no_wrap l -> tidy l ->
  ((exists s, run mo l = Some s) <->
   correct_calls l /\ workers_of l <> [] /\ (In SetOrdered l -> forall w, In w (workers_of l) -> w = false)).
Proof. exact accepts. Qed.

(** A second wrap_around() is refused: with a collector at both calls, and with none at both unless
    setlb() comes in between. *)
Theorem farm_wrap_twice : forall mo pre mid post, no_wrap pre -> no_wrap mid -> tidy (pre ++ WrapAround :: mid) ->
  match collector_after pre, collector_after (pre ++ WrapAround :: mid) with
  | Some _, Some _ => True
  | None, None => ~ In SetLb mid
  | _, _ => False
  end -> run mo (pre ++ WrapAround :: mid ++ WrapAround :: post) = None.
Proof. exact twice. Qed.

(** ** Non-vacuity *)
Lemma tidy_by : forall l, is_ordered l = false -> tidy l.
Proof.
  intros l H a b E. exfalso. assert (I : In SetOrdered l) by (rewrite E; apply in_elt).
  apply in_ordered in I. rewrite I in H. discriminate.
Qed.

(** A master-worker farm: two standard workers, then a third. *)
Example mw_run : run (fun _ => false) ([two_workers] ++ WrapAround :: [AddWorkers [false]]) =
  Some (mkNet [mkW false 0 (Some 1) []; mkW false 2 (Some 3) []; mkW false 4 (Some 5) []] [1; 3; 5] [] (Some [])).
Proof. reflexivity. Qed.
Example mw_feeds : feeds_back (mkNet [mkW false 0 (Some 1) []; mkW false 2 (Some 3) []; mkW false 4 (Some 5) []] [1; 3; 5] [] (Some []))
  [Worker 0; Worker 1; Worker 2].
Proof.
  apply (farm_feedback_partial (fun _ => false) [two_workers] [AddWorkers [false]]).
  - intros [X|[]]; discriminate.
  - now apply tidy_by.
  - intros a [<-|[]]; eauto.
  - exact mw_run.
Qed.
(** Multi-output workers, with feedback to the emitter and a collector added later. *)
Example mo_run : run (fun _ => false) ([AddWorkers [true; true]] ++ WrapAround :: [AddCollector (Some 7)]) =
  Some (mkNet [mkW true 0 (Some 1) [1; 2]; mkW true 3 (Some 4) [4; 5]] [1; 4] [2; 5] (Some [])).
Proof. reflexivity. Qed.
Example mo_feeds : feeds_back (mkNet [mkW true 0 (Some 1) [1; 2]; mkW true 3 (Some 4) [4; 5]] [1; 4] [2; 5] (Some []))
  [Worker 0; Worker 1].
Proof.
  apply (farm_feedback_iff (fun _ => false) [AddWorkers [true; true]] [AddCollector (Some 7)]).
  - intros [X|[]]; discriminate.
  - intros [X|[]]; discriminate.
  - now apply tidy_by.
  - exact mo_run.
  - simpl. split; intros [X|[]]; discriminate.
Qed.
(** Feedback from a multi-output collector. *)
Example coll_run : run (fun _ => true) ([two_workers; AddCollector (Some 7)] ++ WrapAround :: []) =
  Some (mkNet [mkW false 1 (Some 2) []; mkW false 3 (Some 4) []] [0] [2; 4] (Some [0])).
Proof. reflexivity. Qed.
(** The replaced collector: null pointer, or output lost. *)
Example replaced_run : exists s,
  run (fun _ => false) ([two_workers; AddCollector None] ++ WrapAround :: [AddCollector (Some 7)]) = Some s
  /\ collector_out s = None /\ emitter_in s = [0].
Proof. eexists; split; [vm_compute; reflexivity | split; reflexivity]. Qed.
Example replaced_mo_run : exists s,
  run (fun _ => true) ([two_workers; AddCollector None] ++ WrapAround :: [AddCollector (Some 7)]) = Some s
  /\ collector_out s = Some [] /\ emitter_in s = [0].
Proof. eexists; split; [vm_compute; reflexivity | split; reflexivity]. Qed.
(** A master-worker farm made ordered afterwards: nobody is heard. *)
Example ordered_run : exists s,
  run (fun _ => false) ([two_workers] ++ WrapAround :: [AddCollector None; SetOrdered]) = Some s /\ emitter_in s = [].
Proof. eexists; split; [vm_compute; reflexivity | reflexivity]. Qed.
(** Standard workers cannot send to both the emitter and a collector. *)
Example both_refused : run (fun _ => false) ([two_workers] ++ WrapAround :: [AddCollector None]) = None.
Proof. reflexivity. Qed.

Example accepted_run : exists s, run (fun _ => false) [two_workers; AddCollector None; AddCollector (Some 3); RemoveCollector; AddCollector (Some 4)] = Some s.
Proof. eexists; vm_compute; reflexivity. Qed.
Example second_collector : run (fun _ => false) [two_workers; AddCollector (Some 3); AddCollector (Some 4)] = None.
Proof. reflexivity. Qed.
Example wrapped_twice : run (fun _ => false) ([two_workers] ++ WrapAround :: [SetLb] ++ WrapAround :: []) <> None
  /\ run (fun _ => false) ([two_workers] ++ WrapAround :: [] ++ WrapAround :: []) = None
  /\ run (fun _ => false) ([two_workers; AddCollector None] ++ WrapAround :: [] ++ WrapAround :: []) = None.
Proof. repeat split; vm_compute; congruence. Qed.

Print Assumptions farm_accepts.
Print Assumptions farm_wrap_twice.
Print Assumptions farm_feedback_iff.
Print Assumptions farm_feedback_partial.
Print Assumptions farm_replaced_collector.
Print Assumptions farm_feedback_refuted.
