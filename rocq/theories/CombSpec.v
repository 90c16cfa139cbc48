(** Specification for C41: what one node does with a stream, and what "feed the first
    node's outputs to the second" means.  No combination machinery here. *)
From Coq Require Import List.
From Verif Require Import CombModel.
Import ListNotations.

Section Spec.
Context {T : Type}.

(** The items among the values sent. *)
Fixpoint items (vs : list (val T)) : list T :=
  match vs with [] => [] | Item x :: r => x :: items r | _ :: r => items r end.

(** A node running alone on a whole stream (the items before the end-of-stream mark):
    its final state and the items it puts on its output before its own end-of-stream
    mark.  It ends early when svc returns EOS. *)
Fixpoint alone (n : @node T) (s : St n) (ins : list T) : St n * list T :=
  match ins with
  | [] => let (s', vs) := neos n s in (s', items vs)
  | x :: rest =>
    match nsvc n s (Item x) with
    | (s', vs, Eos) => (s', items vs)
    | (s', vs, r) => let (s'', o) := alone n s' rest in (s'', items (vs ++ [r]) ++ o)
    end
  end.

(** The second's input stream is the first's output stream. *)
Fixpoint chain (t : @tree T) : st t -> list T -> st t * list T :=
  match t return st t -> list T -> st t * list T with
  | Leaf n => alone n
  | Comb l r => fun s ins =>
    let (sl', mid) := chain l (fst s) ins in
    let (sr', o) := chain r (snd s) mid in
    ((sl', sr'), o)
  end.

Definition is_item (v : val T) : Prop := exists x, v = Item x.

(** The node sends items only, and svc returns an item, GO_ON or EOS. *)
Definition plain (n : @node T) : Prop :=
  (forall s x s' vs r, nsvc n s (Item x) = (s', vs, r) ->
     Forall is_item vs /\ (is_item r \/ r = GoOn \/ r = Eos)) /\
  (forall s s' vs, neos n s = (s', vs) -> Forall is_item vs).

(** svc never returns EOS. *)
Definition endless (n : @node T) : Prop := forall s x, snd (nsvc n s (Item x)) <> Eos.

Fixpoint leaves (t : @tree T) : list (@node T) :=
  match t with Leaf n => [n] | Comb l r => leaves l ++ leaves r end.
End Spec.
