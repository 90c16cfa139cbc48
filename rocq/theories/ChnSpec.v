(** What a user of change_node(old, n, cleanup, remove_from_cleanuplist) expects. *)
From Coq Require Import List Arith Bool.
From Verif Require Import ChnModel.
Import ListNotations.

(** The nodes of a block, in order. *)
Definition parts (b : block) : list nat :=
  match b with
  | BPipe p => nodes p
  | BA2a a => w1 a ++ w2 a
  | BFarm f => opt (em f) ++ opt (co f) ++ wk f
  | BComb c => [c0 c; c1 c]
  end.
(** n in the place of the (first) old. *)
Fixpoint put (old n : nat) (l : list nat) : list nat :=
  match l with [] => [] | y :: r => if y =? old then n :: r else y :: put old n r end.

(** How many times a node is deleted. *)
Definition times (x : nat) (l : list nat) : nat := count_occ Nat.eq_dec l x.

(** n takes the place of old and nothing else moves.  During the call and when the block is
    destroyed: n is deleted if it was given with cleanup, and only then; old is deleted as it would
    have been without the call, unless the caller took it back; for the other nodes nothing
    changes. *)
Definition replaced (b : block) (old n : nat) (cl rm : bool) (r : result) : Prop :=
  ok r = true
  /\ parts (after r) = put old n (parts b)
  /\ forall x, times x (now r ++ destroy (after r)) =
       (if x =? n then if cl then 1 else 0
        else if x =? old then if rm then 0 else times old (destroy b)
        else times x (destroy b)).

(** Every node is deleted at most once, and n is new. *)
Definition sane (b : block) (n : nat) : Prop :=
  NoDup (parts b) /\ NoDup (destroy b) /\ ~ In n (parts b) /\ ~ In n (destroy b).

(** When it holds: the pipeline or farm was not told to delete all its stages or workers
    (cleanup_nodes(), cleanup_workers()); an emitter or collector is replaced by a sequential node
    and, if the farm owns it, not taken back; a composition is not replaced inside a composition. *)
Definition regular (kd : nat -> kind) (b : block) (old n : nat) (rm : bool) : Prop :=
  match b with
  | BPipe p => ncl p = false
  | BA2a _ => True
  | BFarm f =>
      (In old (wk f) -> wcl f = false)
      /\ (em f = Some old -> kd n <> Par /\ (ecl f = false \/ rm = false))
      /\ (co f = Some old -> kd n <> Par /\ (ccl f = false \/ rm = false))
      /\ (In old (fsup f) -> In old (wk f))
  | BComb _ => kd old <> Comp
  end.
