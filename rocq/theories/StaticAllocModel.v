(** ff/staticallocator.hpp: StaticAllocator, with one allocating thread per channel (the use the
    class supports: cnts[channel] and the slot headers are plain variables) and any number of
    threads calling dealloc.

    - One step = one access to a slot header.  Addresses are byte offsets in the mmap'ed segment.
    - [W] is the modulus of the size_t counters (2^64); [nslot * ssize] itself is assumed not to
      overflow.
    - T's constructor and destructor are not modelled (alloc does not check sizeof(T) <= slotsize:
      that is the caller's duty). *)
From Coq Require Import List Arith Bool.
From Verif Require Import Base.
Import ListNotations.

Section Model.
  (** Constructor arguments _nslot, slotsize, nchannels (lines 49-50). *)
  Variables (W req slotsize nch : nat).

  (** Line 54: sizeof(long) = 8 bytes of header per slot. *)
  Definition ssize : nat := slotsize + 8.
  (** Lines 57-58. *)
  Definition nslot : nat := ((req + nch - 1) / nch) * nch.
  Definition perch : nat := nslot / nch.

  (** Shared events: a block was handed out / given back (byte offset of the block). *)
  Inductive ev := Alloc (c : nat) (p : nat) | Free (p : nat).

  Inductive pc := Out | Probe | Take (mp : nat).
  Record st := mkSt {
    go : nat -> bool;             (* header at byte offset o is FF_GO_ON *)
    cnts : nat -> nat;            (* line 118 *)
    pcs : nat -> pc;              (* the allocating thread of each channel *)
    freeing : nat -> bool;        (* header offset: dealloc called, line 106 not yet executed *)
    tr : list ev }.

  (** Lines 67-82. *)
  Definition init : st := mkSt (fun _ => true) (fun _ => 0) (fun _ => Out) (fun _ => false) [].

  Inductive act :=
  | ACall (c : nat)               (* a thread calls alloc(p, c) *)
  | ARun (c : nat)                (* next step of that call *)
  | DCall (p : nat)               (* some thread calls dealloc(p) *)
  | DStore (p : nat).             (* its line 106 *)

  (** Blocks currently handed out. *)
  Definition live (t : list ev) : list nat :=
    fold_left (fun l e => match e with Alloc _ p => p :: l | Free p => filter (fun q => negb (q =? p)) l end) t [].

  Definition step (s : st) (a : act) : option st :=
    match a with
    | ACall c =>
        match pcs s c with
        | Out => if c <? nch then Some (mkSt (go s) (cnts s) (fupd (pcs s) c Probe) (freeing s) (tr s)) else None
        | _ => None
        end
    | ARun c =>
        match pcs s c with
        | Out => None
        | Probe =>                                  (* lines 89-92 *)
            let m := cnts s c mod perch in
            let mp := (c * perch + m) * ssize in
            Some (mkSt (go s) (fupd (cnts s) c ((cnts s c + 1) mod W))
                       (if go s mp then fupd (pcs s) c (Take mp) else pcs s) (freeing s) (tr s))
        | Take mp =>                                (* lines 93-95 *)
            Some (mkSt (fupd (go s) mp false) (cnts s) (fupd (pcs s) c Out) (freeing s) (tr s ++ [Alloc c (mp + 8)]))
        end
    | DCall p =>                                    (* the caller must own the block *)
        if existsb (Nat.eqb p) (live (tr s)) then
          Some (mkSt (go s) (cnts s) (pcs s) (fupd (freeing s) (p - 8) true) (tr s ++ [Free p]))
        else None
    | DStore p =>                                   (* lines 105-106 *)
        if freeing s (p - 8) then
          Some (mkSt (fupd (go s) (p - 8) true) (cnts s) (pcs s) (fupd (freeing s) (p - 8) false) (tr s))
        else None
    end.
End Model.
