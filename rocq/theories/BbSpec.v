(** What the comment above getBB promises (ff/graph_utils.hpp:96-99): the innermost block that
    contains the node, null if there is none, the node itself if the search starts there. *)
From Coq Require Import List Arith Bool.
From Verif Require Import BbModel.
Import ListNotations.

Definition opt (o : option bb) : list bb := match o with Some b => [b] | None => [] end.
(** The nodes a block is made of. *)
Definition parts (b : bb) : list bb :=
  match b with
  | Node _ => []
  | Pipe _ st => st
  | A2a _ l r => l ++ r
  | Farm _ _ e c w => opt e ++ opt c ++ w
  | Comb _ l r => [l; r]
  end.
(** [within s b]: b is s, or a part of s, or a part of a part, ... *)
Inductive within : bb -> bb -> Prop :=
| w_here : forall b, within b b
| w_part : forall s x b, In x (parts s) -> within x b -> within s b.

(** Every node occurs once in the graph. *)
Fixpoint ids (b : bb) : list nat :=
  match b with
  | Node i => [i]
  | Pipe i st => i :: flat_map ids st
  | A2a i l r => i :: flat_map ids l ++ flat_map ids r
  | Farm i _ e c w => i :: match e with Some b => ids b | None => [] end ++ match c with Some b => ids b | None => [] end ++ flat_map ids w
  | Comb i l r => i :: ids l ++ ids r
  end.
Definition distinct (s : bb) : Prop := NoDup (ids s).

(** What the library lets one build: the parts of a composition, the emitter and the collector are
    nodes or compositions (ff/combine.hpp:340-347, ff/farm.hpp:954-975). *)
Definition seqn (b : bb) : Prop := match b with Node _ | Comb _ _ _ => True | _ => False end.
Definition legal (b : bb) : Prop :=
  match b with
  | Comb _ l r => seqn l /\ seqn r
  | Farm _ _ e c _ => forall x, In x (opt e ++ opt c) -> seqn x
  | _ => True
  end.
Definition well_built (s : bb) : Prop := forall b, within s b -> legal b.

(** The promise. *)
Definition innermost (n : nat) (s : bb) (r : res) : Prop :=
  (id s = n -> r = Found n)
  /\ (forall b x, within s b -> In x (parts b) -> id x = n -> r = Found (id b))
  /\ ((forall x, within s x -> id x <> n) -> r = Null).

(** What it needs: no ordered farm; no composition as emitter or collector. *)
Definition simple_farms (s : bb) : Prop :=
  forall i o e c w, within s (Farm i o e c w) -> o = false /\ forall x, In x (opt e ++ opt c) -> isComp x = false.
(** The node looked for is not a composition that is a part of a composition. *)
Definition not_nested (n : nat) (s : bb) : Prop :=
  forall i l r x, within s (Comb i l r) -> (x = l \/ x = r) -> id x = n -> isComp x = false.
