(** Size helpers of ff/utils.hpp and ff/allocator.hpp, and the thread-to-core mapper of
    ff/mapper.hpp.  Machine words are integers taken modulo 2^32 or 2^64. *)
From Coq Require Import ZArith List Bool.
Import ListNotations.
Local Open Scope Z_scope.

Definition w32 (x : Z) : Z := x mod 2 ^ 32.
Definition w64 (x : Z) : Z := x mod 2 ^ 64.

(** utils.hpp:206-208.  The parameter is [unsigned]: a [size_t] argument is truncated to 32 bits. *)
Definition isPowerOf2 (x0 : Z) : bool :=
  let x := w32 x0 in negb (x =? 0) && (Z.land x (w32 (x - 1)) =? 0).

(** utils.hpp:213, the loop [while (x>p) p <<= 1] on [unsigned long]; [None]: out of fuel. *)
Fixpoint np2_loop (fuel : nat) (x p : Z) : option Z :=
  match fuel with
  | O => None
  | S f => if x >? p then np2_loop f x (w64 (2 * p)) else Some p
  end.

Inductive out := Ret (z : Z) | AssertFails | Diverges.

(** utils.hpp:210-215.  Fuel 66 is enough for every terminating call (see [np2_loop_fuel]). *)
Definition nextPowerOf2 (x : Z) : out :=
  if isPowerOf2 x then AssertFails
  else match np2_loop 66 x 1 with Some p => Ret p | None => Diverges end.

(** The idiom used by every caller, e.g. mapper.hpp:126-127, MPMCqueues.hpp:163. *)
Definition roundPow2 (x : Z) : out := if isPowerOf2 x then Ret x else nextPowerOf2 x.

(** utils.hpp:226-229 ([unsigned] arithmetic); [None]: remainder by zero. *)
Definition nextMultipleOfIf (x m : Z) : option Z :=
  if m =? 0 then None
  else let r := x mod m in Some (if r =? 0 then x else w32 (x - r + m)).

(** allocator.hpp:225-227 ([size_t] arithmetic). *)
Definition isPowerOfTwoMultiple (alignment multiple : Z) : bool :=
  negb (alignment =? 0) && (Z.land alignment (w64 (alignment - multiple)) =? 0).

(** ** threadMapper, mapper.hpp.  [mask], [num_cores], [rrcnt], [CList] are the fields of the class.
    String parsing (mapper.hpp:222-239) is not modelled: the model starts from the parsed ids. *)
Record mapper := Mapper { num_cores : Z; mask : Z; rrcnt : Z; clist : list Z }.

(** mapper.hpp:244-251 and 273-280 (same code) and 149-153: extend the list to [size] entries with
    [List.push_back(List[j])], j = 0, 1, ....  A read past the end cannot happen as size < 2*length. *)
Fixpoint pad (k j : nat) (l : list Z) : list Z :=
  match k with
  | O => l
  | S k' => pad k' (S j) (l ++ [nth j l 0])
  end.

Definition padded (l : list Z) : option (Z * list Z) :=
  match roundPow2 (Z.of_nat (length l)) with
  | Ret size => Some (size, pad (Z.to_nat size - length l) 0 l)
  | _ => None
  end.

(** mapper.hpp:104-155, constructor with empty FF_MAPPING_STRING and [nc] > 0 cores. *)
Definition mk_mapper (nc : nat) : option mapper :=
  match padded (map Z.of_nat (seq 0 nc)) with
  | Some (size, l) => Some (Mapper (Z.of_nat nc) (size - 1) 0 l)
  | None => None
  end.

(** The test [cpuid > num_cores - 1] of mapper.hpp:230 and 265 on [unsigned]. *)
Definition bad_cpu (m : mapper) (c : Z) : bool := c >? w32 (num_cores m - 1).

(** mapper.hpp:217-253 on the parsed list; returns the -1/number-of-elements result. *)
Definition set_str (m : mapper) (ids : list Z) : mapper * Z :=
  let m0 := Mapper (num_cores m) (mask m) 0 (clist m) in
  match ids with
  | [] => (m0, -1)
  | _ => if existsb (bad_cpu m) ids then (m0, -1)
         else match padded ids with
              | Some (size, l) => (Mapper (num_cores m) (size - 1) 0 l, Z.of_nat (length ids))
              | None => (m0, -1)
              end
  end.

(** mapper.hpp:255-281. *)
Definition set_vec (m : mapper) (ids : list Z) : mapper :=
  let m0 := Mapper (num_cores m) (mask m) 0 (clist m) in
  if (Z.of_nat (length ids) >? mask m + 1) || (Z.of_nat (length ids) =? 0) then m0
  else if existsb (bad_cpu m) ids then m0
       else match padded ids with
            | Some (size, l) => Mapper (num_cores m) (size - 1) 0 l
            | None => m0
            end.

(** mapper.hpp:319-324.  [None]: index outside the list. *)
Definition core_of (m : mapper) (tid : Z) : option Z :=
  nth_error (clist m) (Z.to_nat (Z.land tid (mask m))).

(** mapper.hpp:289-294. *)
Definition next_core (m : mapper) : mapper * option Z :=
  (Mapper (num_cores m) (mask m) (Z.land (rrcnt m + 1) (mask m)) (clist m),
   nth_error (clist m) (Z.to_nat (rrcnt m))).

(** Client histories. *)
Inductive mop := SetStr (ids : list Z) | SetVec (ids : list Z) | Next | CoreOf (tid : Z).
Definition mstep (m : mapper) (o : mop) : mapper * option (option Z) :=
  match o with
  | SetStr ids => (fst (set_str m ids), None)
  | SetVec ids => (set_vec m ids, None)
  | Next => let (m', c) := next_core m in (m', Some c)
  | CoreOf t => (m, Some (core_of m t))
  end.
Fixpoint mrun (m : mapper) (l : list mop) : mapper * list (option Z) :=
  match l with
  | [] => (m, [])
  | o :: l' =>
      let (m1, c) := mstep m o in
      let (m2, cs) := mrun m1 l' in
      (m2, match c with Some x => x :: cs | None => cs end)
  end.
