(** What the user of the allocator relies on (allocator.hpp), stated over the blocks
    in the hands of the user and the memory words. *)
From Coq Require Import List ZArith Bool.
From Verif Require Import Base AllocModel.
Import ListNotations.
Open Scope Z_scope.

(** The bytes of a block. *)
Definition byte_of (x : blk) (w : Z) : Prop := bptr x <= w < bptr x + breq x.

(** No byte belongs to two blocks of the list. *)
Definition all_disjoint (l : list blk) : Prop :=
  ForallOrdPairs (fun x y => forall w, byte_of x w -> byte_of y w -> False) l.

(** The rules a program must follow, beyond freeing and reallocating only pointers it
    holds and storing only into blocks it holds (built into [step]):
    - no zero-byte request, no request whose size wraps around 2^64;
    - an aligned request small enough to be served by a slab (see the refutation for
      the others);
    - it does not store into a block the address of the segment the block was cut
      from, and new memory does not already contain it (see the refutation);
    - realloc only on pointers that come from malloc or realloc. *)
Definition clean_src (o : src) : Prop :=
  match o with SNew b f => forall w, f w <> b | SQueue _ => True end.

Definition proper (ns : nat -> Z) (s : st) (a : act) : Prop :=
  match a with
  | AMalloc al req o =>
      0 < req /\ 0 <= al /\ req + al + 8 < W64 /\ clean_src o /\
      (al <> 0 -> req + al <= 8192 /\ forall c, getslabs (req + al) = Some c -> ns c <> 0)
  | ARealloc p n o =>
      0 <= n /\ n + 8 < W64 /\ clean_src o /\
      forall x, In x (live s) -> bptr x = p -> bal x = 0
  | AWrite w v =>
      forall b c, In (b, c) (segs s) -> b <= w < b + seglen ns c -> v <> b
  | APrealloc c b f => forall w, f w <> b
  | AFree _ _ | APush _ | ADereg | ADrain _ _ | ADiscard _ _ => True
  end.

(** Every action of the history [l] from state [s] follows the rule [P]. *)
Fixpoint obeys (ns : nat -> Z) (P : st -> act -> Prop) (s : st) (l : list act) : Prop :=
  match l with
  | [] => True
  | a :: l' => P s a /\
               match step ns s a with Some s' => obeys ns P s' l' | None => True end
  end.

Definition well_used (ns : nat -> Z) : st -> list act -> Prop := obeys ns (proper ns).

(** The states some rule-abiding history leads to. *)
Definition reach (ns : nat -> Z) (s : st) : Prop :=
  exists l, well_used ns init l /\ exec (step ns) init l = Some s.

(** Nine classes; the number of blocks per segment of each is set at initialisation. *)
Definition classes (ns : nat -> Z) : Prop :=
  (forall c, 0 <= ns c) /\ forall c, (9 <= c)%nat -> ns c = 0.

(** The action does not concern block [x]: it does not free or reallocate it and does
    not store into it. *)
Definition leaves_alone (a : act) (x : blk) : Prop :=
  match a with
  | AWrite w _ => holds_word x w = false
  | AFree _ p | ARealloc p _ _ => bptr x <> p
  | _ => True
  end.

(** The area of memory obtained from the system that contains address [w]. *)
Definition in_area (ns : nat -> Z) (s : st) (w : Z) : Prop :=
  exists a len, In (a, len) (areas ns s) /\ a <= w < a + len.
