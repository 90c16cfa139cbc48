(** Specification vocabulary for parallel_for: the sequential loop it must be equivalent to. *)
From Coq Require Import List ZArith Lia.
Import ListNotations.
Local Open Scope Z_scope.

(** [for (long idx = a; idx < b; idx += s)]: the indices visited, in order. *)
Fixpoint loop_fuel (f : nat) (a b s : Z) : list Z :=
  match f with
  | O => []
  | S f' => if a <? b then a :: loop_fuel f' (a + s) b s else []
  end.
Definition loop (a b s : Z) : list Z := loop_fuel (Z.to_nat (b - a)) a b s.

(** Left-to-right reduction. *)
Definition reduce_seq {T} (op : T -> T -> T) (g : Z -> T) (v : T) (l : list Z) : T :=
  fold_left (fun acc i => op acc (g i)) l v.

(** A log lists (worker, index) in execution order; the indices worker [w] ran: *)
Definition ran_by (w : nat) (lg : list (nat * Z)) : list Z :=
  map snd (filter (fun e => Nat.eqb (fst e) w) lg).

(** Every index of the sequential loop was run exactly once, and nothing else was run. *)
Definition ran_exactly_once (lg : list (nat * Z)) (first last step : Z) : Prop :=
  forall i, count_occ Z.eq_dec (map snd lg) i = count_occ Z.eq_dec (loop first last step) i.
