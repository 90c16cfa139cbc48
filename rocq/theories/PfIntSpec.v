(** When the indices of a parallel_for fit the machine's numbers: [first, last) has fewer than 2^53
    numbers (so that the number of iterations is an exact double), [first - step] is a long, and so
    is the end of the range (0 if negative) plus the length of the range plus 2*grain+4 steps.
    The last condition is sufficient, not necessary. *)
From Coq Require Import ZArith.
Local Open Scope Z_scope.

Record fits64 (first last step grain : Z) : Prop := {
  f_range : first < last;
  f_step : 1 <= step;
  f_grain : 0 <= grain;
  f_low : - 2 ^ 63 <= first - step;
  f_size : last - first < 2 ^ 53;
  f_high : Z.max last 0 + (last - first) + (2 * grain + 4) * step < 2 ^ 63 }.
