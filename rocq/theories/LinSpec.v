(** Specification of a concurrent FIFO queue: linearizability with explicit linearization
    points.  A trace lists, in real-time order, calls, returns, and for each operation the
    moment it takes effect ([LinPush], [LinPop]).  The specification is an abstract queue plus,
    for each thread, how far its current operation has got; it never mentions the
    implementation. *)
From Coq Require Import List Arith.
From Verif Require Import Base.
Import ListNotations.

Inductive ev (A : Type) : Type :=
| CallPush (t : nat) (x : A)          (* thread t calls push(x) *)
| LinPush (t : nat)                   (* its push takes effect *)
| RetPush (t : nat) (ok : bool)       (* it returns *)
| CallPop (t : nat)
| LinPop (t : nat)
| RetPop (t : nat) (r : option A)     (* Some v: returned true with v; None: returned false *)
| SeeEmpty (t : nat).                 (* a moment at which a pop that may fail finds the queue empty *)
Arguments CallPush {A} _ _.
Arguments LinPush {A} _.
Arguments RetPush {A} _ _.
Arguments CallPop {A} _.
Arguments LinPop {A} _.
Arguments RetPop {A} _ _.
Arguments SeeEmpty {A} _.

(** Progress of a thread's current operation. *)
Inductive status (A : Type) : Type :=
| Idle | WantPush (x : A) | DidPush | WantPop | DidPop (v : A)
| SawEmpty.   (* a pop in progress during which the queue has been empty at some moment *)
Arguments Idle {A}.
Arguments WantPush {A} _.
Arguments DidPush {A}.
Arguments WantPop {A}.
Arguments DidPop {A} _.
Arguments SawEmpty {A}.

Section Spec.
  Context {A : Type}.
  (** [cap]: None = unbounded.  [relaxed] = true allows an operation to report failure while
      an operation of the other kind has taken effect but not yet returned. *)
  Variables (cap : option nat) (relaxed : bool).

  Definition has_room (q : list A) : Prop :=
    match cap with None => True | Some n => length q < n end.

  Inductive lin : list A -> (nat -> status A) -> ev A -> list A -> (nat -> status A) -> Prop :=
  | lin_call_push : forall q th t x, th t = Idle ->
      lin q th (CallPush t x) q (fupd th t (WantPush x))
  | lin_push : forall q th t x, th t = WantPush x -> has_room q ->
      lin q th (LinPush t) (q ++ [x]) (fupd th t DidPush)
  | lin_ret_push : forall q th t, th t = DidPush ->
      lin q th (RetPush t true) q (fupd th t Idle)
  | lin_fail_push : forall q th t x, th t = WantPush x ->
      (~ has_room q \/ (relaxed = true /\ exists t' v, th t' = DidPop v)) ->
      lin q th (RetPush t false) q (fupd th t Idle)
  | lin_call_pop : forall q th t, th t = Idle ->
      lin q th (CallPop t) q (fupd th t WantPop)
  | lin_pop : forall q th t v, th t = WantPop ->
      lin (v :: q) th (LinPop t) q (fupd th t (DidPop v))
  | lin_ret_pop : forall q th t v, th t = DidPop v ->
      lin q th (RetPop t (Some v)) q (fupd th t Idle)
  | lin_fail_pop : forall q th t, th t = WantPop ->
      (q = [] \/ (relaxed = true /\ exists t', th t' = DidPush)) ->
      lin q th (RetPop t None) q (fupd th t Idle)
  | lin_see_empty : forall th t, th t = WantPop \/ th t = SawEmpty ->
      lin [] th (SeeEmpty t) [] (fupd th t SawEmpty)
  | lin_fail_seen : forall q th t, th t = SawEmpty ->
      lin q th (RetPop t None) q (fupd th t Idle)
  | lin_pop_seen : forall q th t v, th t = SawEmpty ->
      lin (v :: q) th (LinPop t) q (fupd th t (DidPop v)).

  Inductive lins : list A -> (nat -> status A) -> list (ev A) -> list A -> (nat -> status A) -> Prop :=
  | lins_nil : forall q th, lins q th [] q th
  | lins_snoc : forall q th l q1 th1 e q2 th2,
      lins q th l q1 th1 -> lin q1 th1 e q2 th2 -> lins q th (l ++ [e]) q2 th2.

  (** The trace is a linearizable history of the queue, currently holding [q]. *)
  Definition linearizable (tr : list (ev A)) (q : list A) : Prop :=
    exists th, lins [] (fun _ => Idle) tr q th.
End Spec.

(** What the trace shows from outside: values whose push took effect, and values popped, in the
    order in which the operations took effect. *)
Section Values.
  Context {A : Type}.
  (** Replays the trace: the argument each thread last called push with, and the values of the
      pushes that have taken effect. *)
  Definition pstep (c : (nat -> option A) * list A) (e : ev A) : (nat -> option A) * list A :=
    match e with
    | CallPush t x => (fupd (fst c) t (Some x), snd c)
    | LinPush t => (fst c, snd c ++ match fst c t with Some x => [x] | None => [] end)
    | _ => c
    end.
  (** Values of the pushes that took effect, in that order. *)
  Definition pushed (tr : list (ev A)) : list A := snd (fold_left pstep tr (fun _ => None, [])).

  (** Values returned by completed pops, in order of return. *)
  Definition returned (tr : list (ev A)) : list A :=
    flat_map (fun e => match e with RetPop _ (Some v) => [v] | _ => [] end) tr.
End Values.
