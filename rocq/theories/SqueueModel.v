(** ff/squeue.hpp: chunked sequential queue. *)
From Coq Require Import ZArith List Bool.
From Verif Require Import Outcome.
Import ListNotations.
Local Open Scope Z_scope.

Section Squeue.
  Context {T : Type}.
  (** [chunk] of squeue.hpp:80, number of elements per chunk. *)
  Variable c : Z.

  (** squeue.hpp:174-179.  [data[i]] is split in [hs i], [ts i], [ent i]; a chunk is a map from
      slot number to live object; [ent i = None] is a NULL entry (or a data[i] never written). *)
  Record sq := Sq { hs : Z -> Z; ts : Z -> Z; ent : Z -> option (Z -> option T);
                    datacap : Z; nel : Z; head : Z; tail : Z }.

  Definition fresh : Z -> option T := fun _ => None.

  (** squeue.hpp:80-85, DATA_CHUNK = 1024 (line 67). *)
  Definition mk : sq := Sq (fun _ => 0) (fun _ => -1) (zupd (fun _ => None) 0 (Some fresh)) 1024 0 0 0.

  (** Element access in a chunk: inside the allocation and holding a live object. *)
  Definition rd (s : sq) (k i : Z) : outc T :=
    match ent s k with
    | Some f => if (0 <=? i) && (i <? c) then match f i with Some x => Done x | None => Undef end else Undef
    | None => Undef
    end.

  (** squeue.hpp:96-112.  Simplification: the assignment into raw memory counts as construction. *)
  Definition push_back (s : sq) (x : T) : outc sq :=
    let ct := ts s (tail s) in
    if ct =? c - 1 then
      let dc := if tail s =? datacap s - 1 then datacap s + 1024 else datacap s in
      let k := tail s + 1 in
      if k <? dc then
        Done (Sq (zupd (hs s) k 0) (zupd (zupd (ts s) (tail s) (ct + 1)) k 0)
                 (zupd (ent s) k (Some (zupd fresh 0 (Some x)))) dc (nel s + 1) (head s) k)
      else Undef
    else match ent s (tail s) with
         | Some f => if (0 <=? ct + 1) && (ct + 1 <? c) then
             Done (Sq (hs s) (zupd (ts s) (tail s) (ct + 1))
                      (zupd (ent s) (tail s) (Some (zupd f (ct + 1) (Some x))))
                      (datacap s) (nel s + 1) (head s) (tail s))
             else Undef
         | None => Undef
         end.

  (** squeue.hpp:115-130. *)
  Definition pop_back (s : sq) : outc sq :=
    if nel s =? 0 then Done s else
    let k := tail s in let ct := ts s k in
    obind (rd s k ct) (fun _ =>
      let e := match ent s k with Some f => Some (zupd f ct None) | None => None end in
      if (ct =? 0) && (k >? 0) then
        Done (Sq (hs s) (zupd (zupd (ts s) k (ct - 1)) (k - 1) (c - 1)) (zupd (ent s) k None)
                 (datacap s) (nel s - 1) (head s) (k - 1))
      else Done (Sq (hs s) (zupd (ts s) k (ct - 1)) (zupd (ent s) k e) (datacap s) (nel s - 1) (head s) k)).

  (** squeue.hpp:132-138. *)
  Definition back (s : sq) : outc T :=
    if nel s =? 0 then Undef else rd s (tail s) (ts s (tail s)).

  (** squeue.hpp:141-154. *)
  Definition pop_front (s : sq) : outc sq :=
    if nel s =? 0 then Done s else
    let k := head s in let ch := hs s k in
    obind (rd s k ch) (fun _ =>
      let e := match ent s k with Some f => Some (zupd f ch None) | None => None end in
      if (ch =? c - 1) && (tail s >? k) then
        Done (Sq (zupd (hs s) k (ch + 1)) (ts s) (zupd (ent s) k None) (datacap s) (nel s - 1) (k + 1) (tail s))
      else Done (Sq (zupd (hs s) k (ch + 1)) (ts s) (zupd (ent s) k e) (datacap s) (nel s - 1) k (tail s))).

  (** squeue.hpp:157-163. *)
  Definition front (s : sq) : outc T :=
    if nel s =? 0 then Undef else rd s (head s) (hs s (head s)).

  (** squeue.hpp:166-172. *)
  Definition at_ (s : sq) (i : Z) : outc T :=
    if (nel s =? 0) || (i >? nel s) then Undef else rd s (head s) (hs s (head s) + i).

  (** squeue.hpp:175. *)
  Definition size (s : sq) : Z := nel s.

  (** Histories of calls. *)
  Inductive op := PushBack (x : T) | PopBack | PopFront | Back | Front | At (i : nat) | Size.
  Inductive ret := RUnit | RVal (x : T) | RSize (n : Z).
  Definition step (s : sq) (o : op) : outc (sq * ret) :=
    match o with
    | PushBack x => obind (push_back s x) (fun s' => Done (s', RUnit))
    | PopBack => obind (pop_back s) (fun s' => Done (s', RUnit))
    | PopFront => obind (pop_front s) (fun s' => Done (s', RUnit))
    | Back => obind (back s) (fun x => Done (s, RVal x))
    | Front => obind (front s) (fun x => Done (s, RVal x))
    | At i => obind (at_ s (Z.of_nat i)) (fun x => Done (s, RVal x))
    | Size => Done (s, RSize (size s))
    end.
End Squeue.
Arguments sq : clear implicits.
Arguments op : clear implicits.
Arguments ret : clear implicits.
