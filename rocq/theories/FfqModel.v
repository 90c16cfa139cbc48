(** Model of ff/ff_queue.hpp: a single-producer/single-consumer queue of variable-size messages, stored in
    place in a chain of buckets, on a TSO machine (stores of each thread go through its FIFO store buffer;
    atomic_addr_store_release and atomic_addr_load_acquire, lines 73-85, are compiler barriers).

    - An address is a bucket and an offset in words of 8 bytes.  Sizes are in bytes.  Lines 115, 136 assert
      that the positions are aligned: here they are so by construction.
    - head_pos_ (line 170) is the only field accessed by both threads.  The consumer sees its own stores, so it
      uses the register [hreg]; the producer loads [hmem].  The other fields, and next and size of the buckets
      (lines 162-164), are only accessed by the producer: [chain] is the list last_bucket_ .. tail_bucket_ linked
      by next, with the sizes.
    - malloc and free change [alive] at once; memory that is not allocated is changed at will by other threads
      ([Env]).  posix_memalign does not fail (lines 60-61, 188-189).
    - The user fills the message word by word between enqueue_prepare and enqueue_commit and reads it word by
      word between dequeue_prepare and dequeue_commit.
    - size_t does not overflow: sz + 16 < 2^64.  Destructor: not modelled. *)
From Coq Require Import List Arith Bool.
From Verif Require Import Base.
Import ListNotations.

Definition pos := (nat * nat)%type.

(** A word of memory: user data, the value 1 (line 128), an address (line 129), an address with the lowest bit
    set (line 221). *)
Inductive word := Data (v : nat) | One | Ptr (p : pos) | Link (g : nat).

Definition memory := nat -> nat -> word.
Definition set (m : memory) (p : pos) (w : word) : memory := fupd m (fst p) (fupd (m (fst p)) (snd p) w).
Definition get (m : memory) (p : pos) : word := m (fst p) (snd p).

(** Words of a message of [sz] bytes; line 116 without the leading word. *)
Definition words (sz : nat) : nat := (sz + 7) / 8.

(** What the users see.  [EVis] is history: the store that publishes the oldest message still in the store
    buffer reaches memory. *)
Inductive event :=
| ECommit (l : list (option nat))    (* enqueue_commit returned; the words the user wrote *)
| EVis
| EGot                               (* dequeue_prepare returned a message *)
| EEmpty                             (* dequeue_prepare returned 0 *)
| ERead (i : nat) (w : word)         (* the user read word [i] of the message *)
| ETake.                             (* dequeue_commit returned *)

Inductive ppc :=
| PIdle
| PTry (sz : nat)                        (* enqueue_prepare, lines 113-126 *)
| PSlow (sz : nat)                       (* line 203: load of head_pos_ *)
| PScan (sz : nat) (h : pos)             (* lines 204-219 *)
| PInit (sz g : nat)                     (* line 220 *)
| PLink (sz g : nat)                     (* lines 221-225 *)
| PReady (l : list (option nat))         (* enqueue_prepare returned; the words written so far *)
| PPub (l : list (option nat)).          (* between lines 130 and 131 *)
Inductive cpc := CIdle | CLoad (* dequeue_prepare *) | CHold (* a message is in the user's hands *).

Record st := mkSt {
  mem : memory;
  alive : nat -> bool; bsz : nat -> nat;      (* the allocated buckets and their sizes *)
  hmem : pos;                                 (* head_pos_ in memory *)
  pbuf : list (pos * word);                   (* store buffer of the producer *)
  cbuf : list pos;                            (* store buffer of the consumer: stores to head_pos_ *)
  tail : pos; tlen : nat;                     (* tail_pos_; tail_end_ - start of its bucket *)
  chain : list (nat * nat); nalloc : nat;     (* buckets from last_bucket_; bucket_count_ *)
  hreg : pos; pp : ppc; cp : cpc;
  bad : bool;                                 (* history: some access was outside an allocated bucket *)
  tr : list event }.

Section Model.
  Variable B : nat.      (* bucket_size_ *)
  Variable maxb : nat.   (* max_bucket_count_ *)
  Variable m0 : memory.  (* what the memory contains before *)

  (** Constructor, lines 90-105; the bucket is at address 0. *)
  Definition init : st :=
    mkSt (set m0 (0, 0) One) (fun g => g =? 0) (fun _ => B) (0, 0) [] [] (0, 0) B [(0, B)] 1 (0, 0) PIdle CIdle
         (B <? 8) [].

  (** Is the word outside every allocated bucket? *)
  Definition wild (s : st) (p : pos) : bool := negb (alive s (fst p) && (8 * (snd p + 1) <=? bsz s (fst p))).

  Definition setP (s : st) (p : ppc) : st :=
    mkSt (mem s) (alive s) (bsz s) (hmem s) (pbuf s) (cbuf s) (tail s) (tlen s) (chain s) (nalloc s) (hreg s) p (cp s)
         (bad s) (tr s).
  Definition setC (s : st) (c : cpc) : st :=
    mkSt (mem s) (alive s) (bsz s) (hmem s) (pbuf s) (cbuf s) (tail s) (tlen s) (chain s) (nalloc s) (hreg s) (pp s) c
         (bad s) (tr s).
  Definition emit (s : st) (e : event) : st :=
    mkSt (mem s) (alive s) (bsz s) (hmem s) (pbuf s) (cbuf s) (tail s) (tlen s) (chain s) (nalloc s) (hreg s) (pp s) (cp s)
         (bad s) (tr s ++ [e]).
  (** An access to the word at [p]. *)
  Definition touch (s : st) (p : pos) : st :=
    mkSt (mem s) (alive s) (bsz s) (hmem s) (pbuf s) (cbuf s) (tail s) (tlen s) (chain s) (nalloc s) (hreg s) (pp s) (cp s)
         (bad s || wild s p) (tr s).
  Definition crash (s : st) : st :=
    mkSt (mem s) (alive s) (bsz s) (hmem s) (pbuf s) (cbuf s) (tail s) (tlen s) (chain s) (nalloc s) (hreg s) (pp s) (cp s)
         true (tr s).
  (** A store of the producer. *)
  Definition store (s : st) (p : pos) (w : word) : st :=
    mkSt (mem s) (alive s) (bsz s) (hmem s) (pbuf s ++ [(p, w)]) (cbuf s) (tail s) (tlen s) (chain s) (nalloc s) (hreg s)
         (pp s) (cp s) (bad s || wild s p) (tr s).
  (** A store of the consumer to head_pos_. *)
  Definition sethead (s : st) (p : pos) : st :=
    mkSt (mem s) (alive s) (bsz s) (hmem s) (pbuf s) (cbuf s ++ [p]) (tail s) (tlen s) (chain s) (nalloc s) p (pp s) (cp s)
         (bad s) (tr s).
  Definition settail (s : st) (p : pos) (len : nat) (ch : list (nat * nat)) : st :=
    mkSt (mem s) (alive s) (bsz s) (hmem s) (pbuf s) (cbuf s) p len ch (nalloc s) (hreg s) (pp s) (cp s) (bad s) (tr s).
  Definition setheap (s : st) (al : nat -> bool) (bz : nat -> nat) (ch : list (nat * nat)) (k : nat) : st :=
    mkSt (mem s) al bz (hmem s) (pbuf s) (cbuf s) (tail s) (tlen s) ch k (hreg s) (pp s) (cp s) (bad s) (tr s).

  (** Lines 117: is there room for the message and the next word? *)
  Definition room (s : st) (sz : nat) : bool := 8 * (words sz + 1) + 8 <=? tlen s - 8 * snd (tail s).
  (** Lines 198-200. *)
  Definition need (sz : nat) : nat := if B <? sz + 16 then sz + 16 else B.

  (** Lines 204, 213: head_pos is outside the bucket. *)
  Definition outside (h : pos) (b : nat * nat) : bool := negb ((fst h =? fst b) && (8 * snd h <? snd b)).
  (** The loop, lines 204-219.  The result: the bucket to use again, the chain, the buckets freed; [None]:
      last_bucket_ is NULL (line 209). *)
  Fixpoint scan (h : pos) (nd cnt : nat) (ch : list (nat * nat)) (fr : list nat) : option (option nat * list (nat * nat) * list nat) :=
    match ch with
    | [] => None
    | b :: ch' =>
        if outside h b then
          match ch' with
          | [] => None
          | b' :: _ =>
              if (snd b <? nd) || ((maxb <? cnt) && outside h b')
              then scan h nd cnt ch' (fst b :: fr)
              else Some (Some (fst b), ch', fr)
          end
        else Some (None, ch, fr)
    end.
  Definition release (al : nat -> bool) (fr : list nat) : nat -> bool :=
    fun g => if existsb (Nat.eqb g) fr then false else al g.

  (** A step of the producer; [m] is the address returned by malloc, if it is called. *)
  Definition stepP (s : st) (m : nat) : option st :=
    match pp s with
    | PTry sz =>
        if room s sz then Some (setP s (PReady (repeat None (words sz))))   (* lines 119-120 *)
        else Some (setP s (PSlow sz))                                       (* line 124 *)
    | PSlow sz => Some (setP s (PScan sz (hmem s)))
    | PScan sz h =>
        match scan h (need sz) (nalloc s) (chain s) [] with
        | None => Some (crash s)
        | Some (r, ch, fr) =>
            let al := release (alive s) fr in
            match r with
            | Some g => Some (setP (setheap s al (bsz s) ch (nalloc s)) (PInit sz g))
            | None =>                                                       (* line 219; 185-193 *)
                if al m then None
                else Some (setP (setheap s (fupd al m true) (fupd (bsz s) m (need sz)) ch (S (nalloc s))) (PInit sz m))
            end
        end
    | PInit sz g => Some (setP (store s (g, 0) One) (PLink sz g))
    | PLink sz g =>
        Some (setP (settail (store s (tail s) (Link g)) (g, 0) (need sz) (chain s ++ [(g, bsz s g)])) (PTry sz))
    | PPub l =>                                                             (* lines 131-132 *)
        let n := (fst (tail s), snd (tail s) + 1 + length l) in
        Some (emit (setP (settail (store s (tail s) (Ptr n)) n (tlen s) (chain s)) PIdle) (ECommit l))
    | _ => None
    end.

  (** A step of the consumer in dequeue_prepare, lines 137-152. *)
  Definition stepC (s : st) : option st :=
    match cp s with
    | CLoad =>
        let s' := touch s (hreg s) in
        match get (mem s) (hreg s) with
        | Ptr _ => Some (emit (setC s' CHold) EGot)
        | One => Some (emit (setC s' CIdle) EEmpty)
        | Link g => Some (sethead s' (g, 0))
        | Data _ => Some (crash s)
        end
    | _ => None
    end.

  Inductive act :=
  | CallPrep (sz : nat)          (* enqueue_prepare(sz); allowed again before the commit *)
  | Write (i v : nat)            (* the user writes a word of the message *)
  | Commit                       (* enqueue_commit, called after enqueue_prepare *)
  | P (m : nat)
  | CallDeq                      (* dequeue_prepare; allowed again before the commit *)
  | C
  | Read (i : nat)               (* the user reads a word of the message *)
  | Take                         (* dequeue_commit, called after a dequeue_prepare that returned a message *)
  | DrainP | DrainC
  | Env (p : pos) (w : word).    (* another thread writes to memory that is not allocated to the queue *)

  Definition step (s : st) (a : act) : option st :=
    match a with
    | CallPrep sz => match pp s with PIdle | PReady _ => Some (setP s (PTry sz)) | _ => None end
    | Write i v =>
        match pp s with
        | PReady l =>
            if i <? length l then
              Some (setP (store s (fst (tail s), snd (tail s) + 1 + i) (Data v)) (PReady (lupd l i (Some v))))
            else None
        | _ => None
        end
    | Commit =>                                                             (* line 130 *)
        match pp s with
        | PReady l => Some (setP (store s (fst (tail s), snd (tail s) + 1 + length l) One) (PPub l))
        | _ => None
        end
    | P m => stepP s m
    | CallDeq => match cp s with CIdle | CHold => Some (setC s CLoad) | _ => None end
    | C => stepC s
    | Read i =>
        match cp s, get (mem s) (hreg s) with
        | CHold, Ptr n =>
            if i <? snd n - snd (hreg s) - 1 then
              let p := (fst (hreg s), snd (hreg s) + 1 + i) in
              Some (emit (touch s p) (ERead i (get (mem s) p)))
            else None
        | _, _ => None
        end
    | Take =>                                                               (* lines 156-158 *)
        match cp s with
        | CHold =>
            match get (mem s) (hreg s) with
            | Ptr n => Some (emit (setC (sethead (touch s (hreg s)) n) CIdle) ETake)
            | _ => Some (crash s)
            end
        | _ => None
        end
    | DrainP =>
        match pbuf s with
        | (p, w) :: b =>
            let s' := mkSt (set (mem s) p w) (alive s) (bsz s) (hmem s) b (cbuf s) (tail s) (tlen s) (chain s) (nalloc s) (hreg s)
                           (pp s) (cp s) (bad s) (tr s) in
            Some (match w with Ptr _ => emit s' EVis | _ => s' end)
        | [] => None
        end
    | DrainC =>
        match cbuf s with
        | p :: b =>
            Some (mkSt (mem s) (alive s) (bsz s) p (pbuf s) b (tail s) (tlen s) (chain s) (nalloc s) (hreg s)
                       (pp s) (cp s) (bad s) (tr s))
        | [] => None
        end
    | Env p w =>
        if alive s (fst p) then None
        else Some (mkSt (set (mem s) p w) (alive s) (bsz s) (hmem s) (pbuf s) (cbuf s) (tail s) (tlen s) (chain s) (nalloc s)
                        (hreg s) (pp s) (cp s) (bad s) (tr s))
    end.
End Model.
