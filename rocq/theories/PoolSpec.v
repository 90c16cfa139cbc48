(** What the pool evolution pattern must compute: the sequential algorithm of the documentation
    (poolEvolution.hpp lines 70-77), without threads.

    [n] elements are dealt to [nw] workers in contiguous blocks, the first [n mod nw] of which have
    one element more. *)
From Coq Require Import List Arith.
Import ListNotations.

Definition block_size (n nw w : nat) : nat := n / nw + (if w <? n mod nw then 1 else 0).
Definition owners (n nw : nat) : list nat :=
  flat_map (fun w => repeat w (block_size n nw w)) (seq 0 nw).

(** The evolution of the selected elements, each by the worker its position belongs to. *)
Definition evolved {T} (f : T -> nat -> T) (nw : nat) (l : list T) : list T :=
  map (fun p => f (fst p) (snd p)) (combine l (owners (length l) nw)).

(** while not t(P): N = e(s(P)); f(P, N); P = N.   [fuel] rounds; [None]: not finished yet. *)
Section Seq.
  Context {T env : Type}.
  Variables (sel : list T -> list T -> env -> list T * list T * env)
            (evo : env -> list T -> list T)
            (fil : list T -> list T -> env -> list T * list T * env)
            (term : list T -> env -> bool * env).
  Fixpoint pool_seq (fuel : nat) (P : list T) (e : env) : option (list T * env) :=
    let (stop, e1) := term P e in
    if stop then Some (P, e1)
    else match fuel with
         | O => None
         | S k => let '(P1, N, e2) := sel P [] e1 in
                  let '(_, N', e3) := fil P1 (evo e2 N) e2 in
                  pool_seq k N' e3
         end.
End Seq.
