(** Row-major X by Y matrices and the iteration a stencil computes. *)
From Coq Require Import List ZArith.
Import ListNotations.
Local Open Scope Z_scope.

(** Position of cell (i, j) in an array of rows of length [Y]. *)
Definition at_ (Y i j : Z) : Z := i * Y + j.

(** One synchronous update of all cells. *)
Definition update {T} (Y : Z) (f : Z -> Z -> (Z -> T) -> T) (m : Z -> T) : Z -> T :=
  fun p => f (p / Y) (p mod Y) m.

(** The user function reads cells of the matrix only. *)
Definition reads_inside {T} (X Y : Z) (f : Z -> Z -> (Z -> T) -> T) : Prop :=
  forall i j m m', (forall p, 0 <= p < X * Y -> m p = m' p) -> f i j m = f i j m'.
