(** Specification of divide and conquer: the sequential recursion. *)
From Coq Require Import List Arith.
Import ListNotations.

Fixpoint all_some {A} (l : list (option A)) : option (list A) :=
  match l with
  | [] => Some []
  | None :: _ => None
  | Some x :: r => match all_some r with Some y => Some (x :: y) | None => None end
  end.

Section Spec.
Context {Op Res : Type}.
Variable cond : Op -> bool.
Variable divide : Op -> list Op.
Variable seqf : Op -> Res.
Variable combine : list Res -> Res.

(** The sequential recursion, at most [n] levels deep: a base case is solved directly;
    otherwise the operand is divided, the parts are solved one by one and their results
    combined in order.  No result: more than [n] levels, or a division into no parts. *)
Fixpoint solve (n : nat) (op : Op) : option Res :=
  match n with
  | 0 => None
  | S m =>
    if cond op then Some (seqf op)
    else match divide op with
         | [] => None
         | l => option_map combine (all_some (map (solve m) l))
         end
  end.

(** The sequential recursion on [op] ends with result [v]. *)
Definition solves (op : Op) (v : Res) : Prop := exists n, solve n op = Some v.
End Spec.
