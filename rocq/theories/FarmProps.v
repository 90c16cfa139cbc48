(** Property C17: a farm processes every task exactly once and ends the stream last. *)
From Coq Require Import List Arith Lia Permutation.
From Verif Require Import Base PipeModel PipeSpec FarmModel FarmSpec.
From Verif Require FarmProofs.
Import ListNotations.

Definition usable (c : option nat) : Prop := match c with Some m => 1 <= m | None => True end.

(** C17, safety, at any moment of any execution.  The tasks dispatched so far are a prefix of the
    input, dealt to the workers with each task going to exactly one of them.  What the farm has
    emitted is a merge of sequences [got], each a prefix of what the worker computes from its
    share; an end-of-stream is emitted at most once, as the last token, and only after every
    result of every worker.  Workers may be stateful, filter, emit several values or stop early. *)
Theorem farm_exactly_once : forall (A St : Type) (wn : list (node A St * St * option nat * option nat)) (input : list A) acts s,
  Forall (fun '(n, _, _, _) => ends_with_eos n) wn ->
  exec fstep (fstart wn input) acts = Some s ->
  exists consumed parts got outs,
    prefix consumed input /\ interleaving parts consumed /\ length parts = length wn /\
    interleaving got outs /\ Forall2 prefix got (results wn parts) /\
    (fout s = map Task outs \/ (fout s = stream outs /\ got = results wn parts)).
Proof. intros A St wn input acts s F E. exact (FarmProofs.main_safe wn input acts s F E). Qed.

(** C17, termination: there is no infinite execution, whatever the workers and the choices of
    emitter and collector. *)
Theorem farm_terminates : forall (A St : Type) (f : nat -> fst_ A St),
  ~ (forall i, exists a, fstep (f i) a = Some (f (S i))).
Proof. intros A St f. exact (FarmProofs.no_infinite f). Qed.

(** C17, completeness: with workers that handle all their input, an execution that cannot
    continue has dealt the whole input, emitted a merge of all the results of the workers, then
    end-of-stream; all the workers have terminated and all the channels are empty. *)
Theorem farm_complete_partial : forall (A St : Type) (wn : list (node A St * St * option nat * option nat)) (input : list A) acts s,
  wn <> [] -> Forall (fun '(n, _, ci, co) => total n /\ usable ci /\ usable co) wn ->
  exec fstep (fstart wn input) acts = Some s -> (forall a, fstep s a = None) ->
  exists parts outs, interleaving parts input /\ length parts = length wn /\ interleaving (results wn parts) outs /\ fout s = stream outs /\
    Forall (fun k => fin (wc k) = true /\ inq (wc k) = [] /\ pend (wc k) = [] /\ outq k = []) (ws s).
Proof. intros A St wn input acts s N F E H. exact (FarmProofs.main_complete wn input acts s N F E H). Qed.

(** A worker that applies [f] to each task. *)
Definition applies {A St : Type} (f : A -> A) (n : node A St) : Prop :=
  (forall s x, exists s', svc n s x = (s', [], RTask (f x))) /\ (forall s, eosn n s = []).

(** C17 for workers that apply one function: the output is a permutation of the map of the input,
    then end-of-stream. *)
Theorem farm_map_permutation : forall (A St : Type) (f : A -> A) (wn : list (node A St * St * option nat * option nat)) (input : list A) acts s,
  wn <> [] -> Forall (fun '(n, _, ci, co) => applies f n /\ usable ci /\ usable co) wn ->
  exec fstep (fstart wn input) acts = Some s -> (forall a, fstep s a = None) ->
  exists outs, fout s = stream outs /\ Permutation outs (map f input).
Proof. intros A St f wn input acts s N F E H. exact (FarmProofs.main_map f wn input acts s N F E H). Qed.

(** The full claim, for workers that may stop early with end-of-stream and bounded channels... *)
Definition farm_no_deadlock_claim : Prop :=
  forall (A St : Type) (wn : list (node A St * St * option nat * option nat)) (input : list A) acts s,
  wn <> [] -> Forall (fun '(n, _, ci, co) => ends_with_eos n /\ usable ci /\ usable co) wn ->
  exec fstep (fstart wn input) acts = Some s -> (forall a, fstep s a = None) -> cdone s = true /\ fsrc s = [].

(** ... is false: once every worker has returned EOS and its input channel is full the emitter
    waits for ever in schedule_task. *)
Definition dbl : node nat unit := mkNode (fun s x => (s, [], RTask (2 * x))) (fun _ => []).
Definition stopper : node nat unit := mkNode (fun s _ => (s, [], REnd EOS)) (fun _ => []).
Definition dead_run : list fact := [Send 0; WPop 0; WPush 0; Send 0; Collect 0; Finish].

Theorem farm_early_stop_deadlock_refuted : ~ farm_no_deadlock_claim.
Proof.
  intros C. destruct (exec fstep (fstart [(stopper, tt, Some 1, Some 1)] [1; 2; 3]) dead_run) as [s|] eqn:E; [|vm_compute in E; discriminate].
  destruct (C nat unit [(stopper, tt, Some 1, Some 1)] [1; 2; 3] dead_run s) as (_ & H).
  - discriminate.
  - constructor; [|constructor]. split; [|cbn; lia]. intros st x. cbn. exact I.
  - exact E.
  - vm_compute in E. injection E as <-. intros a.
    destruct a as [w|w|w|w|w|]; try (destruct w as [|[|w]]; vm_compute; reflexivity). vm_compute. reflexivity.
  - vm_compute in E. injection E as <-. discriminate.
Qed.

(** Non-vacuity: two doubling workers with one-place channels, both used, results out of order. *)
Definition two := [(dbl, tt, Some 1, Some 1); (dbl, tt, Some 1, Some 1)].
Definition run2 : list fact :=
  [Send 0; Send 1; WPop 1; WPush 1; Collect 1; WPop 0; Send 0; WPush 0; Collect 0; WPop 0; WPush 0; Collect 0;
   SendEos 1; WPop 1; WPush 1; Collect 1; SendEos 0; WPop 0; WPush 0; Collect 0; Finish].
Example farm_nonvacuous :
  two <> [] /\ Forall (fun '(n, _, ci, co) => applies (fun x => 2 * x) n /\ usable ci /\ usable co) two /\
  Forall (fun '(n, _, ci, co) => total n /\ usable ci /\ usable co) two /\
  option_map (fun s => fout s) (exec fstep (fstart two [1; 2; 3]) run2) = Some [Task 4; Task 2; Task 6; End EOS] /\
  option_map (fun s => forallb (fun a => match fstep s a with None => true | _ => false end)
      [Send 0; Send 1; SendEos 0; SendEos 1; WPop 0; WPop 1; WPush 0; WPush 1; Collect 0; Collect 1; Finish])
    (exec fstep (fstart two [1; 2; 3]) run2) = Some true.
Proof.
  split; [discriminate|]. split; [repeat constructor; intros; eexists; reflexivity|].
  split; [repeat constructor; intros|]. split; vm_compute; reflexivity.
Qed.

Print Assumptions farm_exactly_once.
Print Assumptions farm_terminates.
Print Assumptions farm_complete_partial.
Print Assumptions farm_map_permutation.
Print Assumptions farm_early_stop_deadlock_refuted.
