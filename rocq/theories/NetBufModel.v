(** Buffers of the distributed runtime: reuse of send buffers (ff_dsenderMTCL.hpp:60-117, 394-498)
    and receive buffers with two outstanding receives (ff_dreceiverMTCL.hpp:66-292). *)
From Coq Require Import List ZArith Bool Arith.
From Verif Require Import Base Outcome FrameModel.
Import ListNotations.

(** ** Sender.  Buffers are numbered; isend makes a buffer busy until the transport completes the
    request.  Only the buffer accesses of push and flush are kept. *)
Record sb := Sb {
  cur : option nat;          (* uBuffer::buffers *)
  held : nat;                (* uBuffer::actualSize *)
  pool : list nat;           (* uBufferAllocator::q *)
  fresh : nat;               (* next buffer to malloc *)
  busy : list nat;           (* buffers with an incomplete isend *)
  clash : bool }.            (* a busy buffer was written *)

(** ff_dsenderMTCL.hpp:71-82: [k] preallocated buffers. *)
Definition sb0 (k : nat) : sb := Sb None 0 (seq 0 k) k [] false.

Definition is_busy (s : sb) (b : nat) : bool := existsb (Nat.eqb b) (busy s).
Definition write (s : sb) (b : nat) : sb := Sb (cur s) (held s) (pool s) (fresh s) (busy s) (clash s || is_busy s b).
Definition isend (s : sb) (b : nat) : sb := Sb (cur s) (held s) (pool s) (fresh s) (b :: busy s) (clash s).
(** Lines 84-100: a new buffer if the pool is empty, else the first one whose request is
    complete ([None]: all are busy, the call spins). *)
Definition alloc (s : sb) : option (sb * nat) :=
  match cur s with
  | Some b => Some (s, b)
  | None =>
      match pool s with
      | [] => Some (Sb (Some (fresh s)) (held s) [] (S (fresh s)) (busy s) (clash s), fresh s)
      | q => match find (fun b => negb (is_busy s b)) q with
             | Some b => Some (Sb (Some b) (held s) (filter (fun x => negb (x =? b)) q) (fresh s) (busy s) (clash s), b)
             | None => None
             end
      end
  end.
(** Lines 102-104, and the reset of the uBuffer. *)
Definition dealloc (s : sb) (b : nat) : sb := Sb None 0 (b :: pool s) (fresh s) (busy s) (clash s).

Inductive sact :=
| SBatch (flush : bool)      (* push of a message that goes into the batch (lines 443-455) *)
| SDirect                    (* push of a message sent directly (lines 400-441) *)
| SFlush                     (* flush() *)
| SComplete (b : nat).       (* the transport completes the sends of buffer b *)

Definition sstep (s : sb) (a : sact) : option sb :=
  match a with
  | SBatch f =>
      match alloc s with
      | Some (s, b) =>
          let s := write s b in
          let s := Sb (cur s) (S (held s)) (pool s) (fresh s) (busy s) (clash s) in
          Some (if f then dealloc (isend (write s b) b) b else s)
      | None => None
      end
  | SDirect =>
      match alloc s with
      | Some (s, b) =>
          let s := if (held s =? 0)%nat then s else isend (write s b) b in       (* flush(true) *)
          Some (dealloc (isend (write s b) b) b)
      | None => None
      end
  | SFlush =>
      match cur s with
      | Some b => if (held s =? 0)%nat then Some s else Some (dealloc (isend (write s b) b) b)
      | None => Some s
      end
  | SComplete b => Some (Sb (cur s) (held s) (pool s) (fresh s) (filter (fun x => negb (x =? b)) (busy s)) (clash s))
  end.

(** ** Receiver.  One receive slot: size of the allocation, recorded size (buffSizes), size of the
    pending message. *)
Record slot := Slot { cap : Z; recorded : Z; pend : option (list Z) }.
Definition slot0 : slot := Slot 0 0 None.
Record rb := Rb { slots : nat -> slot; over : bool }.
Definition rb0 : rb := Rb (fun _ => slot0) false.

(** ff_dreceiverMTCL.hpp:76-103: the receive buffer itself becomes the payload of the message
    delivered, and a new one of [size] bytes is allocated. *)
Definition hands_off (T : Z) (b : list Z) : bool :=
  match handle T b with Items [Item _] => Z.eqb (signed 32 (dec (skipn (length b - 4) b))) 1 | _ => false end.

Inductive ract := RStart (i : nat) (b : list Z) | RHandle (i : nat).

Definition rstep (T : Z) (s : rb) (a : ract) : option rb :=
  match a with
  | RStart i b =>                                        (* lines 236-257 *)
      let sl := slots s i in
      match pend sl with
      | Some _ => None
      | None =>
          let sz := zlen b in
          let sl' := if (recorded sl <? sz)%Z then Slot sz sz (Some b) else Slot (cap sl) (recorded sl) (Some b) in
          Some (Rb (fupd (slots s) i sl') (over s || (cap sl' <? sz)%Z))
      end
  | RHandle i =>                                         (* handleBatch *)
      let sl := slots s i in
      match pend sl with
      | None => None
      | Some b => Some (Rb (fupd (slots s) i (Slot (if hands_off T b then zlen b else cap sl) (recorded sl) None)) (over s))
      end
  end.

(** ** Two outstanding receives on one connection (lines 180-286): wire messages are posted in
    order, at most two are outstanding and the oldest is handled first (lines 264-277). *)
Record q2 := Q2 { queue : list (list Z); posted : list (list Z); out : list item; bad : bool }.
Inductive qact := Post | Process.
Definition qstep (T : Z) (s : q2) (a : qact) : option q2 :=
  match a with
  | Post => match queue s with
            | b :: w => if (length (posted s) <? 2)%nat then Some (Q2 w (posted s ++ [b]) (out s) (bad s)) else None
            | [] => None
            end
  | Process =>
      match posted s with
      | [] => None
      | b :: ps =>
          match handle T b with
          | Items l => Some (Q2 (queue s) ps (out s ++ l) (bad s))
          | Bad => Some (Q2 (queue s) ps (out s) true)
          | Big h => match queue s with                    (* line 87: h.receive of the next message *)
                     | [] => None                           (* blocked *)
                     | p :: w => Some (Q2 w ps (out s ++ [Item (Msg (h_dest h) (h_src h) (h_type h) p)])
                                          (bad s || negb (Z.eqb (zlen p) (h_size h))))
                     end
          end
      end
  end.
