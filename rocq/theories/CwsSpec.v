(** Which nodes an item goes through, in order. *)
From Coq Require Import List Arith Bool.
From Verif Require Import CwsModel.
Import ListNotations.

Definition path := list nat.
(** Every path of A followed by every path of B. *)
Definition prod (A B : list path) : list path := flat_map (fun x => map (app x) B) A.

(** A composition and a pipeline: all parts in order.  A farm: the emitter, one of the workers, the
    collector.  An all-to-all: one node of each set. *)
Fixpoint paths (b : bb) : list path :=
  match b with
  | Node i => [[i]]
  | Comb l r => prod (paths l) (paths r)
  | Pipe st => fold_right prod [[]] (map paths st)
  | Farm e c w =>
      prod (match e with Some x => paths x | None => [[]] end)
        (prod (flat_map paths w) (match c with Some (Some x) => paths x | _ => [[]] end))
  | A2a l r => prod (flat_map paths l) (flat_map paths r)
  end.

(** Equivalent to pipe(b, n) and to pipe(n, b): every path goes on with n, or begins with n. *)
Definition followed_by (n : nat) (b b' : bb) : Prop := paths b' = map (fun p => p ++ [n]) (paths b).
Definition preceded_by (n : nat) (b b' : bb) : Prop := paths b' = map (cons n) (paths b).

Definition seq (b : bb) : Prop := match b with Node _ => True | Comb _ _ => True | _ => False end.
Definition is_pipe (b : bb) : Prop := match b with Pipe _ => True | _ => False end.
Definition is_farm (b : bb) : Prop := match b with Farm _ _ _ => True | _ => False end.
Definition is_a2a (b : bb) : Prop := match b with A2a _ _ => True | _ => False end.

(** Where a node can be added at the end: no default collector at the end; the last workers all
    sequential, or all of the same kind and each suited in turn; in an all-to-all all sequential or
    all pipelines. *)
Inductive ends : bb -> Prop :=
| e_seq : forall b, seq b -> ends b
| e_pipe : forall ini x, ends x -> ends (Pipe (ini ++ [x]))
| e_coll : forall e c w, ends (Farm e (Some (Some c)) w)
| e_workers : forall e w, w <> [] -> Forall seq w -> ends (Farm e None w)
| e_nested : forall e w, w <> [] -> Forall is_pipe w \/ Forall is_farm w \/ Forall is_a2a w -> Forall ends w -> ends (Farm e None w)
| e_set : forall l r, r <> [] -> Forall seq r -> ends (A2a l r)
| e_pipes : forall l r, r <> [] -> Forall is_pipe r -> Forall ends r -> ends (A2a l r).
(** The same at the beginning; every farm is suited. *)
Inductive starts : bb -> Prop :=
| s_seq : forall b, seq b -> starts b
| s_pipe : forall x t, starts x -> starts (Pipe (x :: t))
| s_farm : forall e c w, starts (Farm e c w)
| s_set : forall l r, l <> [] -> Forall seq l -> starts (A2a l r)
| s_pipes : forall l r, l <> [] -> Forall is_pipe l -> Forall starts l -> starts (A2a l r).
