(** ff/ubuffer.hpp:88-560: the unbounded single-producer/single-consumer channel (a chain of
    recycled bounded segments), as an interleaving of one producer and one consumer thread.

    - One step = one operation on a shared object.  Each inner object is used by one producer and
      one consumer and is taken as an atomic FIFO: the segments and the cache are bounded rings
      (properties C01, C03), [inuse] is a dynqueue (C09).
    - Segments are identified by addresses; malloc returns any address that is not allocated
      ([m] in the actions), so a freed address may come back.  Allocation never fails.
    - uSWSR_MULTIPUSH, changesize and the locked variants mp_push/mc_pop are not modelled. *)
From Coq Require Import List Arith Bool ZArith.
From Verif Require Import Base.
Import ListNotations.

Section Model.
  Context {A : Type}.
  Variables (n : nat) (fixedsize : bool).     (* lines 560, 562 *)

  (** Line 235. *)
  Definition cache_size : nat := 32.

  (** push, lines 344-367, with BufferPool::next_w inlined, lines 128-147. *)
  Inductive ppc :=
  | PIdle
  | PAvail (x : A)                 (* line 350: available() *)
  | PTake (x : A)                  (* line 130: bufcache.pop, or malloc *)
  | PLink (x : A) (g : nat)        (* line 145: inuse.push *)
  | PSet (x : A) (g : nat)         (* line 357: buf_w = t *)
  | PCnt (x : A)                   (* line 358: in_use_buffers++, read *)
  | PCnt2 (x : A) (r : Z)          (* line 358: write *)
  | PPut (x : A).                  (* line 365: buf_w->push(data); return true *)

  (** pop, lines 411-433, with next_r (150-153) and release (156-162) inlined. *)
  Inductive cpc :=
  | CIdle
  | CEmp1                          (* line 414 *)
  | CCmp                           (* line 415: buf_r == buf_w *)
  | CEmp2                          (* line 416 *)
  | CNext                          (* line 417: inuse.pop *)
  | CRst (g : nat)                 (* line 157: reset of the old segment; [g]: the new one *)
  | CRel (g : nat)                 (* line 158: bufcache.push, or free *)
  | CDec (g : nat)                 (* line 421: in_use_buffers--, read *)
  | CDec2 (g : nat) (r : Z)        (* line 421: write *)
  | CSet (g : nat)                 (* line 422: buf_r = tmp *)
  | CPop.                          (* line 432: return buf_r->pop(data) *)

  (** What the callers see. *)
  Inductive event :=
  | EPush (x : A)                  (* push(x) returned true *)
  | EPushFull (x : A)              (* push(x) returned false *)
  | ECallPop                       (* pop was called *)
  | EPop (x : A)                   (* ... and returned true *)
  | EPopEmpty                      (* ... and returned false *)
  | EReset.                        (* reset() *)

  Record st := mkSt {
    cont : nat -> list A;          (* content of each segment *)
    alive : nat -> bool;           (* allocated addresses *)
    bufr : nat; bufw : nat;
    inuse : list nat; cache : list nat;      (* BufferPool *)
    cnt : Z;                                 (* in_use_buffers, seen as a signed value *)
    pp : ppc; cp : cpc;
    uaf : bool;                    (* history: some access touched a freed segment *)
    tr : list event }.             (* history *)

  (** Constructor and init (lines 263-313), segment at address 0. *)
  Definition init_st : st :=
    mkSt (fun _ => []) (fun a => a =? 0) 0 0 [] [] 1 PIdle CIdle false [].

  Inductive act := CallPush (x : A) | CallPop | P (m : nat) | C | Reset.

  Definition goP (s : st) (p : ppc) : st :=
    mkSt (cont s) (alive s) (bufr s) (bufw s) (inuse s) (cache s) (cnt s) p (cp s) (uaf s) (tr s).
  Definition goC (s : st) (c : cpc) : st :=
    mkSt (cont s) (alive s) (bufr s) (bufw s) (inuse s) (cache s) (cnt s) (pp s) c (uaf s) (tr s).
  (** An access to segment [g]. *)
  Definition touch (s : st) (g : nat) : st :=
    mkSt (cont s) (alive s) (bufr s) (bufw s) (inuse s) (cache s) (cnt s) (pp s) (cp s)
         (uaf s || negb (alive s g)) (tr s).
  Definition emit (s : st) (e : event) : st :=
    mkSt (cont s) (alive s) (bufr s) (bufw s) (inuse s) (cache s) (cnt s) (pp s) (cp s) (uaf s) (tr s ++ [e]).
  Definition set_cont (s : st) (g : nat) (l : list A) : st :=
    mkSt (fupd (cont s) g l) (alive s) (bufr s) (bufw s) (inuse s) (cache s) (cnt s) (pp s) (cp s) (uaf s) (tr s).

  Definition pstep (s : st) (m : nat) : option st :=
    match pp s with
    | PIdle => None
    | PAvail x =>
        let s := touch s (bufw s) in
        if length (cont s (bufw s)) <? n then Some (goP s (PPut x))
        else if fixedsize then Some (emit (goP s PIdle) (EPushFull x))
        else Some (goP s (PTake x))
    | PTake x =>
        match cache s with
        | g :: q => Some (mkSt (cont s) (alive s) (bufr s) (bufw s) (inuse s) q (cnt s) (PLink x g) (cp s) (uaf s) (tr s))
        | [] => if alive s m then None
                else Some (mkSt (fupd (cont s) m []) (fupd (alive s) m true) (bufr s) (bufw s) (inuse s) [] (cnt s)
                                (PLink x m) (cp s) (uaf s) (tr s))
        end
    | PLink x g => Some (mkSt (cont s) (alive s) (bufr s) (bufw s) (inuse s ++ [g]) (cache s) (cnt s) (PSet x g) (cp s) (uaf s) (tr s))
    | PSet x g => Some (mkSt (cont s) (alive s) (bufr s) g (inuse s) (cache s) (cnt s) (PCnt x) (cp s) (uaf s) (tr s))
    | PCnt x => Some (goP s (PCnt2 x (cnt s)))
    | PCnt2 x r => Some (mkSt (cont s) (alive s) (bufr s) (bufw s) (inuse s) (cache s) (r + 1) (PPut x) (cp s) (uaf s) (tr s))
    | PPut x =>
        let s := touch s (bufw s) in
        Some (emit (goP (if length (cont s (bufw s)) <? n then set_cont s (bufw s) (cont s (bufw s) ++ [x]) else s) PIdle) (EPush x))
    end.

  (** BufferPool::release without the reset (lines 158-161). *)
  Definition give (s : st) (g : nat) : st :=
    if length (cache s) <? cache_size
    then mkSt (cont s) (alive s) (bufr s) (bufw s) (inuse s) (cache s ++ [g]) (cnt s) (pp s) (cp s) (uaf s) (tr s)
    else mkSt (cont s) (fupd (alive s) g false) (bufr s) (bufw s) (inuse s) (cache s) (cnt s) (pp s) (cp s) (uaf s) (tr s).

  Definition cstep (s : st) : option st :=
    match cp s with
    | CIdle => None
    | CEmp1 => let s := touch s (bufr s) in
               Some (goC s (match cont s (bufr s) with [] => CCmp | _ => CPop end))
    | CCmp => if bufr s =? bufw s then Some (emit (goC s CIdle) EPopEmpty) else Some (goC s CEmp2)
    | CEmp2 => let s := touch s (bufr s) in
               Some (goC s (match cont s (bufr s) with [] => CNext | _ => CPop end))
    | CNext => match inuse s with
               | [] => Some (goC s CPop)
               | g :: q => Some (mkSt (cont s) (alive s) (bufr s) (bufw s) q (cache s) (cnt s) (pp s) (CRst g) (uaf s) (tr s))
               end
    | CRst g => let s := touch s (bufr s) in Some (goC (set_cont s (bufr s) []) (CRel g))
    | CRel g => Some (goC (give s (bufr s)) (CDec g))
    | CDec g => Some (goC s (CDec2 g (cnt s)))
    | CDec2 g r => Some (mkSt (cont s) (alive s) (bufr s) (bufw s) (inuse s) (cache s) (r - 1) (pp s) (CSet g) (uaf s) (tr s))
    | CSet g => Some (mkSt (cont s) (alive s) g (bufw s) (inuse s) (cache s) (cnt s) (pp s) CPop (uaf s) (tr s))
    | CPop => let s := touch s (bufr s) in
              match cont s (bufr s) with
              | [] => Some (emit (goC s CIdle) EPopEmpty)
              | x :: l => Some (emit (goC (set_cont s (bufr s) l) CIdle) (EPop x))
              end
    end.

  (** BufferPool::reset (lines 181-184). *)
  Fixpoint release_all (s : st) (l : list nat) : st :=
    match l with
    | [] => s
    | g :: l' => release_all (give (set_cont (touch s g) g []) g) l'
    end.
  (** Lines 509-514. *)
  Definition reset (s : st) : st :=
    let s := set_cont (touch s (bufr s)) (bufr s) [] in
    let s := set_cont (touch s (bufw s)) (bufw s) [] in
    let l := inuse s in
    release_all (mkSt (cont s) (alive s) (bufr s) (bufr s) [] (cache s) (cnt s) (pp s) (cp s) (uaf s) (tr s)) l.

  Definition step (s : st) (a : act) : option st :=
    match a with
    | CallPush x => match pp s with PIdle => Some (goP s (PAvail x)) | _ => None end
    | CallPop => match cp s with CIdle => Some (emit (goC s CEmp1) ECallPop) | _ => None end
    | P m => pstep s m
    | C => cstep s
    | Reset => match pp s, cp s with PIdle, CIdle => Some (emit (reset s) EReset) | _, _ => None end
    end.

  (** Lines 320-323 and 500-505. *)
  Definition empty (s : st) : bool :=
    if bufr s =? bufw s then match cont s (bufr s) with [] => true | _ => false end else false.
  Definition length_ (s : st) : Z :=
    let len := Z.of_nat (length (cont s (bufr s))) in
    if bufr s =? bufw s then len
    else (len + Z.max 0 (cnt s - 2) * Z.of_nat n + Z.of_nat (length (cont s (bufw s))))%Z.
End Model.
Arguments st : clear implicits.
Arguments act : clear implicits.
Arguments event : clear implicits.
