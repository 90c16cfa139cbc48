(** ff/stencilReduce.hpp: stencil2D::svc with computeFunc (lines 290-321).

    A matrix is a map from positions (index in the array) to values.  The user function is pure:
    it reads the input matrix.  The rows are distributed by parallel_reduce (files ParFor...):
    here a log gives the rows in the order in which they were run.  The reduction variable, the
    pre/post functions and integer overflow are not modelled. *)
From Coq Require Import List ZArith.
From Verif Require Import Outcome ParForSpec.
Import ListNotations.
Local Open Scope Z_scope.

Section Model.
  Context {T : Type}.
  Variables (X Y : Z).                                (* Task.X_size(), Task.Y_size() *)
  Variables (x0 x1 xs y0 y1 ys : Z).                  (* Xstart Xstop Xstep Ystart Ystop Ystep *)
  Variable f : Z -> Z -> (Z -> T) -> T.               (* computeFReduce1(i, j, Min, ...) *)

  (** Line 314: the position written for cell (i, j). *)
  Definition pos (i j : Z) : Z := i * X + j.
  (** Lines 313-315: the cells of row i, in order. *)
  Definition row (i : Z) : list (Z * Z) := map (fun j => (i, j)) (loop y0 y1 ys).
  Definition cells (lg : list (nat * Z)) : list (Z * Z) := flat_map (fun e => row (snd e)) lg.
  Definition positions (lg : list (nat * Z)) : list Z := map (fun c => pos (fst c) (snd c)) (cells lg).
  Definition write (min mout : Z -> T) (c : Z * Z) : Z -> T := zupd mout (pos (fst c) (snd c)) (f (fst c) (snd c) min).
  Definition sweep (min mout : Z -> T) (lg : list (nat * Z)) : Z -> T := fold_left (write min) (cells lg) mout.

  (** Lines 304-321: [lgs] gives one row log per iteration; the buffers are swapped between
      iterations (line 305 cancels the first swap of line 308).  Result: final input and output
      buffers (Task.getInPtr(), Task.getOutPtr()). *)
  Fixpoint iterate (min mout : Z -> T) (lgs : list (list (nat * Z))) : (Z -> T) * (Z -> T) :=
    match lgs with
    | [] => (min, mout)
    | [lg] => (min, sweep min mout lg)
    | lg :: lgs' => iterate (sweep min mout lg) min lgs'
    end.

  (** Lines 261-268: row i of the initialisation of the input matrix. *)
  Definition init_positions : list Z := flat_map (fun i => map (fun j => pos i j) (loop 0 Y 1)) (loop 0 X 1).
End Model.
