(** The growing buffer that serialised values are written to (ff/distributed/ff_serializationBuffer.hpp:8-70,
    used by serializeF, ff/node.hpp:1671-1679, ff/multinode.hpp:913-920, 1024-1031) and the reader
    over a received one (:72-78).

    Simplifications: allocation does not fail.  The base class hands bytes over one at a time
    (sputn copies what fits and calls overflow for the next byte: the same).  The memory beyond
    what was copied is unspecified ([None]). *)
From Coq Require Import List ZArith Bool.
Import ListNotations.
Open Scope Z_scope.

Section Ser.
  Context {B : Type}.

  (** int, ff/distributed/ff_serializationBuffer.hpp:45: static_cast<int>(currentSize). *)
  Definition to_int (z : Z) : Z := (z + 2 ^ 31) mod 2 ^ 32 - 2 ^ 31.
  (** :9 sizeof(int)+sizeof(int)+sizeof(ChannelType)+sizeof(size_t). *)
  Definition header : Z := 17.

  Record sbuf := mkS {
    blk : nat;                    (* m_buffer: which block *)
    mem : list (option B);        (* its bytes *)
    cap : Z;                      (* m_capacity *)
    pos : Z }.                    (* pptr() - pbase() *)

  Definition garbage (n : Z) : list (option B) := repeat None (Z.to_nat n).

  (** A write through a pointer: None if it is outside the block (undefined behaviour). *)
  Definition store (m : list (option B)) (p : Z) (c : B) : option (list (option B)) :=
    if (0 <=? p) && (p <? Z.of_nat (length m))
    then Some (firstn (Z.to_nat p) m ++ Some c :: skipn (S (Z.to_nat p)) m)
    else None.

  (** resizeBuffer, :31-47: realloc keeps the old bytes; setp(m_buffer, ..) and pbump(int). *)
  Definition resize (n : Z) (s : sbuf) : sbuf :=
    if n <=? cap s then s
    else mkS (blk s) (firstn (Z.to_nat (cap s + header)) (mem s) ++ garbage (n - (Z.of_nat (length (mem s)) - header))) n (to_int (pos s)).
  (** The constructor, :11-14. *)
  Definition ser_new (b : nat) (n : Z) : sbuf := resize n (mkS b [] 0 0).

  (** overflow, :57-65: *pptr() = ch without further checks. *)
  Definition overflow (c : B) (s : sbuf) : option sbuf :=
    let s' := resize (cap s * 2) s in
    option_map (fun m => mkS (blk s') m (cap s') (pos s' + 1)) (store (mem s') (pos s') c).
  (** std::streambuf::sputc: room if pptr() < epptr(). *)
  Definition sputc (c : B) (s : sbuf) : option sbuf :=
    if pos s <? cap s then option_map (fun m => mkS (blk s) m (cap s) (pos s + 1)) (store (mem s) (pos s) c)
    else overflow c s.
  Fixpoint sputn (l : list B) (s : sbuf) : option sbuf :=
    match l with
    | [] => Some s
    | c :: r => match sputc c s with Some s' => sputn r s' | None => None end
    end.

  (** getBufferAndReset, :49-54: the block, its size, and a fresh block [b]. *)
  Definition get_reset (b : nat) (s : sbuf) : (nat * list (option B) * Z) * sbuf :=
    ((blk s, mem s, pos s), mkS b (garbage (cap s + header)) (cap s) 0).

  (** serializeF on a sequence of values, each given by the bytes its serialisation writes
      (ff/node.hpp:1671-1679); blocks are numbered as malloc hands them out. *)
  Fixpoint ser_all (ms : list (list B)) (s : sbuf) : option (list (nat * list (option B) * Z) * sbuf) :=
    match ms with
    | [] => Some ([], s)
    | m :: r =>
        match sputn m s with
        | None => None
        | Some s1 =>
            let (o, s2) := get_reset (S (blk s1)) s1 in
            option_map (fun p => (o :: fst p, snd p)) (ser_all r s2)
        end
    end.

  (** deserBuff::setBuffer, :75-77: reads [len] bytes from the start. *)
  Definition deser (p : list (option B)) (len : Z) : list (option B) := firstn (Z.to_nat len) p.
End Ser.
Arguments sbuf : clear implicits.
