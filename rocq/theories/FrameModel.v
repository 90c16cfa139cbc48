(** ff/distributed/ff_dsenderMTCL.hpp (uBuffer) and ff_dreceiverMTCL.hpp (handleBatch): framing of
    messages into batches on one connection.

    - Bytes are integers 0..255; one wire message = one MTCL send (isend/send), delivered in order
      and unchanged.  Acks, errors of the transport and the reuse of a buffer whose isend is still
      in flight are not modelled here (see NetBufModel for the buffers).
    - [T] is SINGLE_SEND_SIZE_THRESHOLD; [limit] = batchSize, [bytes] = batchByteSize. *)
From Coq Require Import List ZArith Bool.
From Verif Require Import Outcome.
Import ListNotations.
Local Open Scope Z_scope.

(** ff_ddefines.hpp:76-86.  [m_data] = [] stands for size 0. *)
Record msg := Msg { m_dest : Z; m_src : Z; m_type : Z; m_data : list Z }.

(** htons/htonl/htobe64: [n] bytes, most significant first. *)
Fixpoint be (n : nat) (z : Z) : list Z :=
  match n with
  | O => []
  | S n' => (z / 256 ^ Z.of_nat n') mod 256 :: be n' z
  end.
Definition dec (l : list Z) : Z := fold_left (fun a b => a * 256 + b) l 0.
(** Conversion of an unsigned value to a signed type of [bits] bits (addr_t = short, int). *)
Definition signed (bits z : Z) : Z := if z <? 2 ^ (bits - 1) then z else z - 2 ^ bits.

(** ff_ddefines.hpp:125: 2 + 2 + 1 + 8. *)
Definition headerSize : nat := 13.
(** ff_dsenderMTCL.hpp:145-150 (dest and src are truncated to 16 bits). *)
Definition header (dest src type size : Z) : list Z := be 2 dest ++ be 2 src ++ [type mod 256] ++ be 8 size.

Section Sender.
  Variables (T bytes : Z) (limit : nat).
  (** ff_dsenderMTCL.hpp:299 and 73: capacity of the payload and header areas. *)
  Definition paycap : Z := 2 * Z.max bytes T + Z.of_nat limit * 13 + 4.
  Definition hdrcap : Z := Z.of_nat limit * 13.

  Record sender := Sender { pay : list Z; hdrs : list Z; actual : nat; wire : list (list Z) }.
  Definition sender0 : sender := Sender [] [] 0 [].

  Definition zlen (l : list Z) : Z := Z.of_nat (length l).

  (** ff_dsenderMTCL.hpp:461-498.  [Undef]: write past the end of the payload area. *)
  Definition flush (s : sender) : outc sender :=
    if (actual s =? 0)%nat then Done s
    else let b := pay s ++ hdrs s ++ be 4 (Z.of_nat (actual s)) in
         if zlen b <=? paycap then Done (Sender [] [] 0 (wire s ++ [b])) else Undef.

  (** ff_dsenderMTCL.hpp:394-459. *)
  Definition push (s : sender) (m : msg) : outc sender :=
    let size := zlen (m_data m) in
    if (limit =? 1)%nat || (bytes <=? size) then
      obind (if (actual s =? 0)%nat then Done s else flush s) (fun s =>
      let inl := if T <? size then [] else m_data m in
      let b := inl ++ header (m_dest m) (m_src m) (m_type m) size ++ be 4 1 in
      if zlen b <=? paycap then
        Done (Sender [] [] 0 (wire s ++ b :: (if T <? size then [m_data m] else [])))
      else Undef)
    else
      let s := Sender (pay s ++ m_data m) (hdrs s ++ header (m_dest m) (m_src m) (m_type m) size) (S (actual s)) (wire s) in
      if (zlen (pay s) <=? paycap) && (zlen (hdrs s) <=? hdrcap) then
        if (actual s =? limit)%nat || (bytes <=? zlen (pay s)) || (size =? 0) || (m_type m =? 1) then flush s else Done s
      else Undef.

  Inductive cmd := Push (m : msg) | Flush.
  Fixpoint send (s : sender) (l : list cmd) : outc sender :=
    match l with
    | [] => Done s
    | Push m :: l' => obind (push s m) (fun s => send s l')
    | Flush :: l' => obind (flush s) (fun s => send s l')
    end.
End Sender.

(** What the receiver hands to the next node: a message or a logical end-of-stream of [src]. *)
Inductive item := Item (m : msg) | Eos (src : Z).

Record hdr := Hdr { h_dest : Z; h_src : Z; h_type : Z; h_size : Z }.
Definition parse_header (h : list Z) : hdr :=
  Hdr (signed 16 (dec (firstn 2 h))) (signed 16 (dec (firstn 2 (skipn 2 h)))) (nth 4 h 0) (dec (firstn 8 (skipn 5 h))).

(** ff_dreceiverMTCL.hpp:112-140: the loop over a batch of several elements. *)
Fixpoint unbatch (k : nat) (p hs : list Z) : outc (list item) :=
  match k with
  | O => Done []
  | S k' =>
      let h := parse_header (firstn headerSize hs) in
      if h_size h =? 0 then
        obind (unbatch k' p (skipn headerSize hs)) (fun o =>
          Done (if h_src h =? -1 then o else Eos (h_src h) :: o))
      else if Z.of_nat (length p) <? h_size h then Undef
      else obind (unbatch k' (skipn (Z.to_nat (h_size h)) p) (skipn headerSize hs)) (fun o =>
             Done (Item (Msg (h_dest h) (h_src h) (h_type h) (firstn (Z.to_nat (h_size h)) p)) :: o))
  end.

Inductive batch := Items (l : list item) | Big (h : hdr) | Bad.
(** ff_dreceiverMTCL.hpp:66-145.  [Bad]: read outside the buffer.  [Big]: line 87, the payload is
    read from the next wire message. *)
Definition handle (T : Z) (b : list Z) : batch :=
  let size := length b in
  if (size <? 4)%nat then Bad
  else
    let n := signed 32 (dec (skipn (size - 4) b)) in
    if n =? 1 then
      if (size <? 17)%nat then Bad
      else let h := parse_header (firstn headerSize (skipn (size - 17) b)) in
           if h_size h =? 0 then (if h_src h =? -1 then Items [] else Items [Eos (h_src h)])
           else if T <? h_size h then Big h
           else if Z.of_nat size <? h_size h then Bad
           else Items [Item (Msg (h_dest h) (h_src h) (h_type h) (firstn (Z.to_nat (h_size h)) b))]
    else if n <? 0 then Items []
    else if (size <? Z.to_nat n * 13 + 4)%nat then Bad
    else match unbatch (Z.to_nat n) (firstn (size - (Z.to_nat n * 13 + 4)) b) (skipn (size - (Z.to_nat n * 13 + 4)) b) with
         | Done l => Items l | Undef => Bad end.

(** Successive wire messages of a connection, each batch handled before the next is received
    (the effect of two outstanding receives is in NetBufModel). *)
Fixpoint recv (T : Z) (w : list (list Z)) : outc (list item) :=
  match w with
  | [] => Done []
  | b :: w' =>
      match handle T b with
      | Bad => Undef
      | Items l => obind (recv T w') (fun o => Done (l ++ o))
      | Big h =>
          match w' with
          | [] => Done []                               (* still waiting for the payload *)
          | p :: w'' => if zlen p =? h_size h then
                          obind (recv T w'') (fun o => Done (Item (Msg (h_dest h) (h_src h) (h_type h) p) :: o))
                        else Undef
          end
      end
  end.
