(** Property C15: an ordered farm preserves the input order. *)
From Coq Require Import List Arith Lia ZArith.
From Verif Require Import Base PipeModel PipeSpec FarmModel OFarmModel OFarmSpec.
From Verif Require FarmProofs OFarmProofs.
Import ListNotations.

Definition usable (c : option nat) : Prop := match c with Some m => 1 <= m | None => True end.
(** A worker that applies [f] to each task. *)
Definition applies {A St : Type} (f : A -> A) (n : node A St) : Prop :=
  (forall s x, exists s', svc n s x = (s', [], RTask (f x))) /\ (forall s, eosn n s = []).

(** C15, safety: for any number of workers, any capacities and any schedule, what the farm has
    emitted at any moment is a prefix of the map of the input, in the input order; an
    end-of-stream is emitted only after all of it. *)
Theorem ofarm_in_order : forall (A St : Type) (f : A -> A) (wn : list (node A St * St * option nat * option nat)) (input : list A) acts s,
  wn <> [] -> Forall (fun c => applies f (fst (fst (fst c)))) wn ->
  exec ostep (ostart wn input) acts = Some s ->
  exists outs, prefix outs (map f input) /\ (oout s = map Task outs \/ oout s = stream (map f input)).
Proof. intros A St f wn input acts s N F E. exact (OFarmProofs.main_map_order f wn input acts s N F E). Qed.

(** C15, the same for workers with a state, each giving one output per input: position [i] of
    the output is what worker [i mod n] computes at its [i / n]-th task. *)
Theorem ofarm_stateful_order : forall (A St : Type) (wn : list (node A St * St * option nat * option nat)) (input : list A) acts s,
  1 <= length wn -> Forall (fun c => one_one (fst (fst (fst c)))) wn ->
  exec ostep (ostart wn input) acts = Some s ->
  exists outs, round_robin_result wn input outs /\ (oout s = map Task outs \/ (oout s = stream outs /\ length outs = length input)).
Proof. intros A St wn input acts s N F E. exact (OFarmProofs.main_order wn input N F acts s E). Qed.

(** C15, completeness: an execution that cannot continue has emitted the map of the input in
    order, then end-of-stream.  No deadlock, with channels of any capacity. *)
Theorem ofarm_complete : forall (A St : Type) (f : A -> A) (wn : list (node A St * St * option nat * option nat)) (input : list A) acts s,
  wn <> [] -> Forall (fun c => applies f (fst (fst (fst c))) /\ usable (snd (fst c)) /\ usable (snd c)) wn ->
  exec ostep (ostart wn input) acts = Some s -> (forall a, ostep s a = None) ->
  oout s = stream (map f input).
Proof. intros A St f wn input acts s N F E H. exact (OFarmProofs.main_map_complete f wn input acts s N F E H). Qed.

(** C15, termination. *)
Theorem ofarm_terminates : forall (A St : Type) (f : nat -> ost A St), ~ (forall i, exists a, ostep (f i) a = Some (f (S i))).
Proof. intros A St f. exact (OFarmProofs.ono_infinite f). Qed.

(** Further runs.  With the default argument of thaw each run is like the first. *)
Theorem ofarm_default_rerun : forall (A St : Type) (f : A -> A) (s1 : ost A St) (input : list A) acts s,
  ows s1 <> [] -> Forall (fun k => applies f (nd (wc k)) /\ usable (cap (wc k)) /\ usable (ocap k)) (ows s1) ->
  exec ostep (othaw (-1) s1 input) acts = Some s -> (forall a, ostep s a = None) ->
  oout s = stream (map f input).
Proof.
  intros A St f s1 input acts s N F E H.
  assert (R : forall v, thaw_victim (-1) v = 0). { intros v. unfold thaw_victim. destruct (Z.ltb_spec (-1) (Z.of_nat v)); auto. lia. }
  unfold othaw in E. rewrite !R in E. eapply (ofarm_complete A St f); [| |exact E|exact H].
  - destruct (ows s1); [congruence|discriminate].
  - rewrite Forall_map. exact F.
Qed.

(** With an explicit number of workers the order is not kept on the second run... *)
Definition ofarm_rerun_claim : Prop :=
  forall (A St : Type) (f : A -> A) (wn : list (node A St * St * option nat * option nat)) (input1 input2 : list A) acts1 s1 acts2 s2,
  wn <> [] -> Forall (fun c => applies f (fst (fst (fst c)))) wn ->
  exec ostep (ostart wn input1) acts1 = Some s1 -> (forall a, ostep s1 a = None) ->
  exec ostep (othaw (Z.of_nat (length wn)) s1 input2) acts2 = Some s2 -> (forall a, ostep s2 a = None) ->
  oout s2 = stream (map f input2).

(** ... because the emitter and the collector do not end a run on the same worker: after [k]
    tasks the emitter's next is [k mod n], the collector's [(k + n - 1) mod n]. *)
Definition dbl : node nat unit := mkNode (fun s x => (s, [], RTask (2 * x))) (fun _ => []).
Definition wn2 := [(dbl, tt, Some 2, Some 2); (dbl, tt, Some 2, Some 2)].
Definition run1 : list oact := [OSend; OSendEos; OSendEos; OPop 0; OPush 0; OPop 0; OPush 0; OPop 1; OPush 1; OCollect; OCollect; OCollect; OFinish].
Definition run2 : list oact :=
  [OSend; OSend; OSendEos; OSendEos; OPop 0; OPush 0; OPop 0; OPush 0; OPop 1; OPush 1; OPop 1; OPush 1; OCollect; OCollect; OCollect; OCollect; OFinish].

Theorem ofarm_rerun_refuted : ~ ofarm_rerun_claim.
Proof.
  intros C.
  destruct (exec ostep (ostart wn2 [7]) run1) as [s1|] eqn:E1; [|vm_compute in E1; discriminate].
  destruct (exec ostep (othaw (Z.of_nat (length wn2)) s1 [1; 2]) run2) as [s2|] eqn:E2.
  2:{ vm_compute in E1. injection E1 as <-. vm_compute in E2. discriminate. }
  specialize (C nat unit (fun x => 2 * x) wn2 [7] [1; 2] run1 s1 run2 s2).
  assert (H : oout s2 = stream (map (fun x => 2 * x) [1; 2])).
  { refine (C _ _ E1 _ E2 _).
    - discriminate.
    - repeat constructor; intros; eexists; reflexivity.
    - vm_compute in E1. injection E1 as <-. intros [| |w|w| |]; try (vm_compute; reflexivity); destruct w as [|[|[|w]]]; vm_compute; reflexivity.
    - vm_compute in E1. injection E1 as <-. vm_compute in E2. injection E2 as <-.
      intros [| |w|w| |]; try (vm_compute; reflexivity); destruct w as [|[|[|w]]]; vm_compute; reflexivity. }
  vm_compute in E1. injection E1 as <-. vm_compute in E2. injection E2 as <-. vm_compute in H. discriminate.
Qed.

(** Workers that filter (GO_ON): the order and termination are lost. *)
Definition ofarm_filter_claim : Prop :=
  forall (A St : Type) (wn : list (node A St * St * option nat * option nat)) (input : list A) acts s,
  wn <> [] -> Forall (fun c => total (fst (fst (fst c))) /\ usable (snd (fst c)) /\ usable (snd c)) wn ->
  exec ostep (ostart wn input) acts = Some s -> (forall a, ostep s a = None) -> odone s = true.

(** Worker 0 filters all its tasks: the collector waits for it, worker 1 cannot push, the
    emitter cannot send: deadlock. *)
Definition evens : node nat unit := mkNode (fun s x => (s, [], if Nat.even x then RGoOn else RTask x)) (fun _ => []).
Definition wn1 := [(evens, tt, Some 1, Some 1); (evens, tt, Some 1, Some 1)].
Definition dead_run : list oact := [OSend; OSend; OPop 0; OPop 1; OPush 1; OSend; OPop 0; OSend; OPop 1; OSend; OPop 0; OSend; OSend; OPop 0].
Theorem ofarm_filter_refuted : ~ ofarm_filter_claim.
Proof.
  intros C. destruct (exec ostep (ostart wn1 [0; 1; 2; 3; 4; 5; 6; 7; 8]) dead_run) as [s|] eqn:E; [|vm_compute in E; discriminate].
  assert (H : odone s = true).
  { refine (C nat unit wn1 [0; 1; 2; 3; 4; 5; 6; 7; 8] dead_run s _ _ E _).
    - discriminate.
    - assert (T : total evens) by (intros u x; cbn; destruct (Nat.even x); exact I). repeat constructor; auto.
    - vm_compute in E. injection E as <-. intros [| |w|w| |]; try (vm_compute; reflexivity); destruct w as [|[|[|w]]]; vm_compute; reflexivity. }
  vm_compute in E. injection E as <-. discriminate.
Qed.

(** Non-vacuity: the second worker finishes first, the output is in order. *)
Definition run3 : list oact :=
  [OSend; OSend; OPop 1; OPush 1; OPop 0; OSend; OPush 0; OCollect; OCollect; OSendEos; OPop 1; OPush 1; OPop 0; OSendEos; OPush 0; OCollect; OPop 0; OPush 0; OCollect; OCollect; OFinish].
Example ofarm_nonvacuous :
  wn2 <> [] /\ Forall (fun c => applies (fun x => 2 * x) (fst (fst (fst c))) /\ usable (snd (fst c)) /\ usable (snd c)) wn2 /\
  Forall (fun c => one_one (fst (fst (fst c)))) wn2 /\
  option_map (fun s => (oout s, forallb (fun a => match ostep s a with None => true | _ => false end) [OSend; OSendEos; OPop 0; OPop 1; OPush 0; OPush 1; OCollect; OFinish]))
    (exec ostep (ostart wn2 [1; 2; 3]) run3) = Some ([Task 2; Task 4; Task 6; End EOS], true).
Proof.
  split; [discriminate|]. split; [repeat constructor; intros; eexists; reflexivity|].
  split; [repeat constructor; intros; do 2 eexists; reflexivity|]. vm_compute. reflexivity.
Qed.

Print Assumptions ofarm_in_order.
Print Assumptions ofarm_stateful_order.
Print Assumptions ofarm_complete.
Print Assumptions ofarm_terminates.
Print Assumptions ofarm_default_rerun.
Print Assumptions ofarm_rerun_refuted.
Print Assumptions ofarm_filter_refuted.
