(** What a combination behind several channels should do: the first node receives the items and is
    told the end of each channel; each later node receives the previous node's output as one
    stream, and is told its end once, after the last item. *)
From Coq Require Import List Arith.
From Verif Require Import CombModel CombSpec GcModel.
Import ListNotations.

Section Spec.
Context {T : Type}.

(** The first node, message by message. *)
Fixpoint head_run (n : @node T) (s : St n) (ms : list (gmsg T)) : St n * list T :=
  match ms with
  | [] => (s, [])
  | GItem x :: r =>
    let '(s', vs, ret) := nsvc n s (Item x) in
    let (s'', o) := head_run n s' r in (s'', items (vs ++ [ret]) ++ o)
  | GEnd :: r =>
    let (s', vs) := neos n s in
    let (s'', o) := head_run n s' r in (s'', items vs ++ o)
  end.

Fixpoint gchain (t : @tree T) : st t -> list (gmsg T) -> st t * list T :=
  match t return st t -> list (gmsg T) -> st t * list T with
  | Leaf n => head_run n
  | Comb l r => fun s ms =>
    let (sl', mid) := gchain l (fst s) ms in
    let (sr', o) := chain r (snd s) mid in
    ((sl', sr'), o)
  end.

Fixpoint ends (ms : list (gmsg T)) : nat :=
  match ms with [] => 0 | GEnd :: r => S (ends r) | _ :: r => ends r end.
End Spec.
