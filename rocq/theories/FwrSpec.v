(** What a user expects of wrap_around() on a farm. *)
From Coq Require Import List Arith Bool.
From Verif Require Import FwrModel.
Import ListNotations.

(** The threads that can send something back to the emitter. *)
Inductive thread := Worker (i : nat) | Collector.

Definition writes (s : net) (t : thread) : list nat :=
  match t with
  | Worker i => match nth_error (workers s) i with Some w => worker_out w | None => [] end
  | Collector => match collector_out s with Some l => l | None => [] end
  end.

(** The emitter listens to one channel for each of the threads [src], in that order, and to nothing
    else; each of these channels is written by that thread only, as its first one, and read by no
    one else. *)
Definition feeds_back (s : net) (src : list thread) : Prop :=
  NoDup (emitter_in s) /\
  Forall2 (fun b t => (forall t', In b (writes s t') <-> t' = t) /\ (exists r, writes s t = b :: r)
                      /\ ~ In b (collector_in s) /\ (forall w, In w (workers s) -> w_in w <> b)) (emitter_in s) src.

(** The collector that a farm has after some calls: the last one added, unless it was removed; an
    ordered farm keeps a default collector when its collector is removed. *)
Definition is_ordered (l : list call) : bool := existsb (fun a => match a with SetOrdered => true | _ => false end) l.
Fixpoint collector_of (l : list call) (ord : bool) (c : option coll) : option coll :=
  match l with
  | [] => c
  | AddCollector None :: r => collector_of r ord (Some Gt)
  | AddCollector (Some x) :: r => collector_of r ord (Some (Usr x))
  | RemoveCollector :: r => collector_of r ord (if ord then Some Gt else None)
  | SetOrdered :: r => collector_of r true c
  | _ :: r => collector_of r ord c
  end.
Definition collector_after (l : list call) : option coll := collector_of l false None.

(** The number of workers. *)
Definition count (l : list call) : nat :=
  fold_right (fun a n => match a with AddWorkers w => length w | _ => 0 end + n) 0 l.

(** wrap_around() is called once, after the calls [pre] and before the calls [post]. *)
Definition no_wrap (l : list call) : Prop := ~ In WrapAround l.

(** The feedback should come from the collector if there is one when wrap_around() is called,
    otherwise from each of the workers. *)
Definition promised (pre post : list call) : list thread :=
  match collector_after pre with
  | Some _ => [Collector]
  | None => map Worker (seq 0 (count (pre ++ post)))
  end.

(** set_ordered() is not called after a remove_collector(). *)
Definition tidy (l : list call) : Prop := forall a b, l = a ++ SetOrdered :: b -> ~ In RemoveCollector a.

(** The workers, in the order in which they were added. *)
Definition workers_of (l : list call) : list bool := flat_map (fun a => match a with AddWorkers w => w | _ => [] end) l.

(** Every call is correct at its place: no empty list of workers, no collector added to a farm that
    has one of the user already. *)
Definition correct_calls (l : list call) : Prop :=
  ~ In (AddWorkers []) l /\ forall a c b x, l = a ++ AddCollector c :: b -> collector_after a <> Some (Usr x).
