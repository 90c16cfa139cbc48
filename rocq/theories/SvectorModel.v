(** ff/svector.hpp: growable vector on malloc/realloc. *)
From Coq Require Import List Arith Bool.
From Verif Require Import Base Outcome.
Import ListNotations.

Section Svector.
  Context {T : Type}.
  (** svector.hpp:323-326.  [mem i] is the object in slot i ([None]: raw memory); [null] says that
      [first] is NULL.  The block has [cap] slots. *)
  Record vec := Vec { null : bool; mem : nat -> option T; len : nat; cap : nat; chunk : nat }.

  (** svector.hpp:163-170.  malloc/realloc are assumed to succeed; realloc keeps the contents. *)
  Definition reserve (v : vec) (n : nat) : vec :=
    if n <=? cap v then v else Vec false (mem v) (len v) n (chunk v).

  (** svector.hpp:75-77. *)
  Definition mk (ck : nat) : vec := reserve (Vec true (fun _ => None) 0 0 (if ck =? 0 then 1 else ck)) ck.

  (** A store to slot i of the block. *)
  Definition store (v : vec) (i : nat) (x : option T) : outc vec :=
    if negb (null v) && (i <? cap v) then Done (Vec (null v) (fupd (mem v) i x) (len v) (cap v) (chunk v)) else Undef.
  Definition load (v : vec) (i : nat) : outc T :=
    if negb (null v) && (i <? cap v) then match mem v i with Some x => Done x | None => Undef end else Undef.
  Definition with_len (v : vec) (n : nat) : vec := Vec (null v) (mem v) n (cap v) (chunk v).

  (** svector.hpp:188-191. *)
  Definition push_back (v : vec) (x : T) : outc vec :=
    let v1 := if len v =? cap v then reserve v (cap v + chunk v) else v in
    obind (store v1 (len v1) (Some x)) (fun v2 => Done (with_len v2 (len v1 + 1))).

  (** svector.hpp:196-198; [--len] on an empty vector wraps around: undefined. *)
  Definition pop_back (v : vec) : outc vec :=
    match len v with
    | 0 => Undef
    | S n => obind (load v n) (fun _ => obind (store v n None) (fun v1 => Done (with_len v1 n)))
    end.

  (** svector.hpp:203-220. *)
  Definition back (v : vec) : outc T := match len v with 0 => Undef | S n => load v n end.
  Definition front (v : vec) : outc T := load v 0.

  (** svector.hpp:309 and 313-316 restricted to reading. *)
  Definition get (v : vec) (i : nat) : outc T := load (reserve v (i + 1)) i.

  (** Loop of svector.hpp:236-237: *i3 = *i1 for i3 = p, ..., i3+1 = i1 < old length. *)
  Fixpoint shift_down (n p : nat) (m : nat -> option T) : nat -> option T :=
    match n with
    | 0 => m
    | S n' => shift_down n' (p + 1) (fupd m p (m (p + 1)))
    end.
  (** svector.hpp:228-240, [where] = begin()+p.  With p = length the loop runs past the end. *)
  Definition erase (v : vec) (p : nat) : outc vec :=
    if p <? len v then
      if negb (null v) && (len v <=? cap v) then
        Done (Vec (null v) (shift_down (len v - p - 1) p (mem v)) (len v - 1) (cap v) (chunk v))
      else Undef
    else Undef.

  (** Loop of svector.hpp:258-259: n times *i3 = *i2, downwards, i3 = i2+1. *)
  Fixpoint shift_up (n i2 : nat) (m : nat -> option T) : nat -> option T :=
    match n with
    | 0 => m
    | S n' => shift_up n' (i2 - 1) (fupd m (i2 + 1) (m i2))
    end.
  (** svector.hpp:244-264, [where] = begin()+p.  If [reserve] reallocates (line 253) the iterators
      i1, i2 dangle and the loop uses them: undefined.  If the vector was full, no reallocation
      happens (the test is made after ++len) and the loop writes slot cap+1: undefined. *)
  Definition insert (v : vec) (p : nat) (x : T) : outc vec :=
    if p =? len v then push_back v x
    else if p <? len v then
      if len v + 1 =? cap v then Undef
      else if negb (null v) && (len v + 1 <? cap v) then
        Done (Vec (null v) (fupd (shift_up (len v - p + 1) (len v) (mem v)) p (Some x)) (len v + 1) (cap v) (chunk v))
      else Undef
    else Undef.

  (** svector.hpp:175-183; [d] is the value-initialised object. *)
  Fixpoint pop_n (n : nat) (v : vec) : outc vec :=
    match n with 0 => Done v | S n' => obind (pop_back v) (pop_n n') end.
  Fixpoint fill_n (d : T) (n : nat) (v : vec) : outc vec :=
    match n with
    | 0 => Done v
    | S n' => obind (store v (len v) (Some d)) (fun v1 => fill_n d n' (with_len v1 (len v + 1)))
    end.
  Definition resize (d : T) (v : vec) (n : nat) : outc vec :=
    if n <=? len v then pop_n (len v - n) v
    else fill_n d (n - len v) (reserve v n).

  (** svector.hpp:286. *)
  Definition clear (v : vec) : outc vec := pop_n (len v) v.

  (** svector.hpp:156-161 with another vector holding [l]. *)
  Fixpoint append (v : vec) (l : list T) : outc vec :=
    match l with [] => Done v | x :: l' => obind (push_back v x) (fun v1 => append v1 l') end.
  (** svector.hpp:131-139. *)
  Definition assign (v : vec) (l : list T) : outc vec := obind (clear v) (fun v1 => append v1 l).

  (** svector.hpp:156-161 on itself: the iterators i1, i2 point into the block being extended. *)
  Fixpoint append_self (n i : nat) (v : vec) : outc vec :=
    match n with
    | 0 => Done v
    | S n' =>
        obind (load v i) (fun x =>
        if len v =? cap v then Undef   (* reallocation: i1, i2 dangle *)
        else obind (push_back v x) (fun v1 => append_self n' (i + 1) v1))
    end.

  (** svector.hpp:83-92: copy constructor; the initial malloc(v.len) block is not recorded in cap. *)
  Definition copy (ck : nat) (l : list T) : outc vec :=
    match l with
    | [] => Done (reserve (Vec true (fun _ => None) 0 0 ck) ck)
    | _ => append (Vec false (fun _ => None) 0 0 ck) l
    end.

  (** svector.hpp:108-115: what the source of a move is left with. *)
  Definition moved_from (v : vec) : vec := Vec true (fun _ => None) (len v) (cap v) (chunk v).

  Inductive op := PushBack (x : T) | PopBack | Back | Front | Get (i : nat) | Erase (p : nat)
    | Insert (p : nat) (x : T) | Reserve (n : nat) | Resize (n : nat) | Clear | Size
    | Assign (l : list T) | Append (l : list T) | AppendSelf.
  Inductive ret := RUnit | RVal (x : T) | RSize (n : nat).

  Definition upd (r : outc vec) : outc (vec * ret) := obind r (fun v => Done (v, RUnit)).
  Definition val (v : vec) (r : outc T) : outc (vec * ret) := obind r (fun x => Done (v, RVal x)).
  Definition step (d : T) (v : vec) (o : op) : outc (vec * ret) :=
    match o with
    | PushBack x => upd (push_back v x)
    | PopBack => upd (pop_back v)
    | Back => val v (back v)
    | Front => val v (front v)
    | Get i => val (reserve v (i + 1)) (get v i)
    | Erase p => upd (erase v p)
    | Insert p x => upd (insert v p x)
    | Reserve n => upd (Done (reserve v n))
    | Resize n => upd (resize d v n)
    | Clear => upd (clear v)
    | Size => Done (v, RSize (len v))
    | Assign l => upd (assign v l)
    | Append l => upd (append v l)
    | AppendSelf => upd (append_self (len v) 0 v)
    end.
End Svector.
Arguments vec : clear implicits.
Arguments op : clear implicits.
Arguments ret : clear implicits.
