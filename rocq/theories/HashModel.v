(** ff/icl_hash.h: chained hash table used by the macro data-flow and task schedulers. *)
From Coq Require Import List Arith Bool ZArith.
From Verif Require Import Base.
Import ListNotations.

Section Hash.
  Context {K V : Type}.
  (** icl_hash.h:38-41: hash and comparison functions; number of buckets (> 0). *)
  Variables (h : K -> nat) (cmp : K -> K -> bool) (n : nat).

  (** icl_hash.h:26-37: bucket chains as lists (first = head of chain); data may be NULL ([None]).
      [nentries] is an int; its overflow is not modelled. *)
  Definition entry := (K * option V)%type.
  Record ht := Ht { buckets : nat -> list entry; nentries : Z }.

  (** icl_hash.h:102-124. *)
  Definition create : ht := Ht (fun _ => []) 0.

  Definition idx (k : K) : nat := h k mod n.
  Definition hit (k : K) (e : entry) : bool := cmp (fst e) k.

  (** icl_hash.h:137-152, for a non-NULL key. *)
  Definition hfind (t : ht) (k : K) : option V :=
    match find (hit k) (buckets t (idx k)) with Some e => snd e | None => None end.

  (** icl_hash.h:164-192; the result says whether an entry was returned. *)
  Definition hinsert (t : ht) (k : K) (v : option V) : ht * bool :=
    if existsb (hit k) (buckets t (idx k)) then (t, false)
    else (Ht (fupd (buckets t) (idx k) ((k, v) :: buckets t (idx k))) (nentries t + 1), true).

  (** Loop of icl_hash.h:215-228.  [dead] says that [prev] is a node already unlinked, in which
      case [prev->next = curr->next] does not change the chain. *)
  Fixpoint unlink_all (k : K) (dead : bool) (l : list entry) : list entry :=
    match l with
    | [] => []
    | e :: l' => if hit k e then (if dead then e :: unlink_all k true l' else unlink_all k true l')
                 else e :: unlink_all k false l'
    end.
  (** icl_hash.h:204-244. *)
  Definition hupdate (t : ht) (k : K) (v : option V) : ht :=
    Ht (fupd (buckets t) (idx k) ((k, v) :: unlink_all k false (buckets t (idx k)))) (nentries t + 1).

  (** icl_hash.h:256-283: unlink the first match; note [ht->nentries++] on line 275. *)
  Fixpoint unlink_first (k : K) (l : list entry) : list entry :=
    match l with
    | [] => []
    | e :: l' => if hit k e then l' else e :: unlink_first k l'
    end.
  Definition hdelete (t : ht) (k : K) : ht * bool :=
    if existsb (hit k) (buckets t (idx k)) then
      (Ht (fupd (buckets t) (idx k) (unlink_first k (buckets t (idx k)))) (nentries t + 1), true)
    else (t, false).

  (** icl_hash.h:43-47, the pairs visited by icl_hash_foreach: each chain is left at the first
      entry with NULL data. *)
  Fixpoint chain_visit (l : list entry) : list (K * V) :=
    match l with
    | (k, Some v) :: l' => (k, v) :: chain_visit l'
    | _ => []
    end.
  Definition foreach (t : ht) : list (K * V) := flat_map (fun i => chain_visit (buckets t i)) (seq 0 n).

  Inductive op := Insert (k : K) (v : option V) | Update (k : K) (v : option V) | Delete (k : K) | Find (k : K) | Count.
  Inductive ret := RBool (b : bool) | RData (d : option V) | RUnit | RCount (z : Z).
  Definition step (t : ht) (o : op) : ht * ret :=
    match o with
    | Insert k v => let (t', b) := hinsert t k v in (t', RBool b)
    | Update k v => (hupdate t k v, RUnit)
    | Delete k => let (t', b) := hdelete t k in (t', RBool b)
    | Find k => (t, RData (hfind t k))
    | Count => (t, RCount (nentries t))
    end.
End Hash.
Arguments op : clear implicits.
Arguments ret : clear implicits.
Arguments ht : clear implicits.
