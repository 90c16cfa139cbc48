(** Sequential model of the bounded single-producer/single-consumer ring
    (ff/buffer.hpp, class SWSR_Ptr_Buffer, lines 94-410) and of the Lamport ring
    (class Lamport_Buffer, lines 421-539): one call at a time.
    NULL is [None].  The array is the list [buf]; an access outside it is [None] at the
    level of [nth_error] and yields the outcome [UB]. *)
From Coq Require Import List Arith Lia Bool.
From Verif Require Import Base.
Import ListNotations.

Inductive res (X : Type) := Ok (x : X) | UB.
Arguments Ok {X} _.
Arguments UB {X}.

Section Ring.
Context {A : Type}.

(** buffer.hpp:101-129, fields pread, pwrite, size, buf.  Padding and the
    pointer-to-member fields are not modelled.  [unsigned long] indices are naturals:
    every index reached stays below [size], so no 2^64 wrap-around occurs. *)
Record ring := mkRing {
  buf : list (option A);
  pread : nat;
  pwrite : nat;
  size : nat
}.

(** buffer.hpp:143-150 (constructor), 167-180 (init), 366-383 (reset).
    [longxCacheLine] is CACHE_LINE_SIZE/sizeof(long) = 64/8 (config.hpp / sysdep.h). *)
Definition longxCacheLine := 8.

Definition reset (r : ring) (startatlineend : bool) : ring :=
  let p := if startatlineend then longxCacheLine - 1 else 0 in
  mkRing (repeat None (size r)) p p (size r).

(** buffer.hpp:167-180.  Allocation failure is not modelled.  [None] = init returned false. *)
Definition init (n : nat) (startatlineend : bool) : option ring :=
  if n =? 0 then None else Some (reset (mkRing [] 0 0 n) startatlineend).

(** buffer.hpp:256 and 335: pwrite + ((pwrite+1 >= size) ? (1-size) : 1). *)
Definition wrap (n i : nat) : nat := if n <=? i + 1 then i + 1 - n else i + 1.

(** buffer.hpp:185-191 *)
Definition empty (r : ring) : res bool :=
  match nth_error (buf r) (pread r) with
  | None => UB
  | Some None => Ok true
  | Some (Some _) => Ok false
  end.

(** buffer.hpp:196-202 *)
Definition available (r : ring) : res bool :=
  match nth_error (buf r) (pwrite r) with
  | None => UB
  | Some None => Ok true
  | Some (Some _) => Ok false
  end.

(** buffer.hpp:241-260.  [assert(data != NULL)] holds by typing: [x : A] is not NULL. *)
Definition push (r : ring) (x : A) : res (ring * bool) :=
  match available r with
  | UB => UB
  | Ok false => Ok (r, false)
  | Ok true =>
      Ok (mkRing (lupd (buf r) (pwrite r) (Some x)) (pread r)
                 (wrap (size r) (pwrite r)) (size r), true)
  end.

(** buffer.hpp:333-337 *)
Definition inc (r : ring) : ring :=
  mkRing (lupd (buf r) (pread r) None) (wrap (size r) (pread r)) (pwrite r) (size r).

(** buffer.hpp:345-350.  Result [None] = returned false, [Some d] = returned true with
    *data = d ([d] itself could be NULL only by a race, not sequentially). *)
Definition pop (r : ring) : res (ring * option A) :=
  match empty r with
  | UB => UB
  | Ok true => Ok (r, None)
  | Ok false =>
      match nth_error (buf r) (pread r) with
      | None => UB
      | Some d => Ok (inc r, d)
      end
  end.

(** buffer.hpp:359 *)
Definition top (r : ring) : res (option A) :=
  match nth_error (buf r) (pread r) with None => UB | Some d => Ok d end.

(** buffer.hpp:389-396; the signed difference is expressed by comparison. *)
Definition length_ (r : ring) : res nat :=
  if pread r <? pwrite r then Ok (pwrite r - pread r)
  else if pwrite r <? pread r then Ok (size r - (pread r - pwrite r))
  else match nth_error (buf r) (pwrite r) with
       | None => UB
       | Some None => Ok 0
       | Some (Some _) => Ok (size r)
       end.

(** buffer.hpp:267-293, for [len >= 1] ([data] non-empty; for an empty batch the code
    computes with index -1 and is reported as [UB] here).  The copy loops of lines 275-283
    store data[k] in slot (pwrite+k) if that is below size, else slot pwrite+k-size: lines
    276-277 fill slots last..0 with data[len-1..r+1], lines 278-279 fill size-1..pwrite with
    data[r..0], lines 282-283 the non-wrapping case; the stores go to distinct slots so their
    order is irrelevant sequentially. *)
Fixpoint store_batch (b : list (option A)) (n w : nat) (data : list A) : list (option A) :=
  match data with
  | [] => b
  | x :: t => store_batch (lupd b (if n <=? w then w - n else w) (Some x)) n (w + 1) t
  end.

Definition multipush (r : ring) (data : list A) : res (ring * bool) :=
  let len := length data in
  if size r <=? len then Ok (r, false)
  else if len =? 0 then UB
  else
    let len1 := len - 1 in
    let last := if size r <=? pwrite r + len1 then pwrite r + len1 - size r
                else pwrite r + len1 in
    match nth_error (buf r) last with
    | None => UB
    | Some (Some _) => Ok (r, false)
    | Some None =>
        (* buffer.hpp:286 *)
        Ok (mkRing (store_batch (buf r) (size r) (pwrite r) data) (pread r)
                   (pwrite r + (if size r <=? last + 1 then 0 else last + 1)) (size r), true)
    end.

(** The calls of the interface, and their results. *)
Inductive op := OPush (x : A) | OPop | OEmpty | OAvailable | OLength | OTop | OReset (b : bool).
Inductive out := RBool (b : bool) | RVal (v : option A) | RNat (n : nat) | RUnit.

Definition step (r : ring) (o : op) : res (ring * out) :=
  match o with
  | OPush x => match push r x with Ok (r', b) => Ok (r', RBool b) | UB => UB end
  | OPop => match pop r with Ok (r', v) => Ok (r', RVal v) | UB => UB end
  | OEmpty => match empty r with Ok b => Ok (r, RBool b) | UB => UB end
  | OAvailable => match available r with Ok b => Ok (r, RBool b) | UB => UB end
  | OLength => match length_ r with Ok n => Ok (r, RNat n) | UB => UB end
  | OTop => match top r with Ok v => Ok (r, RVal v) | UB => UB end
  | OReset b => Ok (reset r b, RUnit)
  end.

Fixpoint run (r : ring) (l : list op) : res (ring * list out) :=
  match l with
  | [] => Ok (r, [])
  | o :: l' =>
      match step r o with
      | UB => UB
      | Ok (r', x) =>
          match run r' l' with
          | UB => UB
          | Ok (r'', xs) => Ok (r'', x :: xs)
          end
      end
  end.

(** * Lamport ring, buffer.hpp:421-539 (same four fields) *)

(** buffer.hpp:518-523 *)
Definition lreset (r : ring) : ring := mkRing (repeat None (size r)) 0 0 (size r).
Definition linit (n : nat) : ring := lreset (mkRing [] 0 0 n).

(** buffer.hpp:468 *)
Definition lempty (r : ring) : bool := pwrite r =? pread r.
(** buffer.hpp:473-476 *)
Definition lavailable (r : ring) : bool := negb (wrap (size r) (pwrite r) =? pread r).

(** buffer.hpp:486-501 *)
Definition lpush (r : ring) (x : A) : res (ring * bool) :=
  let next := wrap (size r) (pwrite r) in
  if negb (next =? pread r) then
    if pwrite r <? length (buf r) then
      Ok (mkRing (lupd (buf r) (pwrite r) (Some x)) (pread r) next (size r), true)
    else UB
  else Ok (r, false).

(** buffer.hpp:506-513 *)
Definition lpop (r : ring) : res (ring * option A) :=
  if lempty r then Ok (r, None)
  else match nth_error (buf r) (pread r) with
       | None => UB
       | Some d => Ok (mkRing (buf r) (wrap (size r) (pread r)) (pwrite r) (size r), d)
       end.

(** buffer.hpp:528-538 *)
Definition llength (r : ring) : res nat := length_ r.

Definition lstep (r : ring) (o : op) : res (ring * out) :=
  match o with
  | OPush x => match lpush r x with Ok (r', b) => Ok (r', RBool b) | UB => UB end
  | OPop => match lpop r with Ok (r', v) => Ok (r', RVal v) | UB => UB end
  | OEmpty => Ok (r, RBool (lempty r))
  | OAvailable => Ok (r, RBool (lavailable r))
  | OLength => match llength r with Ok n => Ok (r, RNat n) | UB => UB end
  | OTop => UB (* Lamport_Buffer has no top() *)
  | OReset _ => Ok (lreset r, RUnit)
  end.

Fixpoint lrun (r : ring) (l : list op) : res (ring * list out) :=
  match l with
  | [] => Ok (r, [])
  | o :: l' =>
      match lstep r o with
      | UB => UB
      | Ok (r', x) =>
          match lrun r' l' with
          | UB => UB
          | Ok (r'', xs) => Ok (r'', x :: xs)
          end
      end
  end.

End Ring.
Arguments ring : clear implicits.
Arguments op : clear implicits.
Arguments out : clear implicits.
