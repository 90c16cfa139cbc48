(** Model of the memory allocator of ff/allocator.hpp: the slab caches
    (lines 388-880), malloc, posix_memalign, free and realloc (lines 890-1320).

    Memory is a map from addresses to 8-byte words; the headers, the back pointers
    written by posix_memalign and the per-segment counters live in that memory and
    are read back by free() and realloc(), as in the code.

    Simplifications, all stated where they occur:
    - [SlabCache::getitem] runs in the single owner thread and is one step; the
      scan over the leak queues is replaced by an oracle that may pick any
      non-empty queue or none, so every scan order, and every race with the
      pushing threads, is covered;
    - a leak queue (uSWSR_Ptr_Buffer, verified separately) is a FIFO list;
    - the system allocator is an oracle that answers with any memory disjoint from
      the memory in use, with arbitrary contents; it never fails;
    - non-debug build: Seg_ctl is three words, Buf_ctl is one word. *)
From Coq Require Import List ZArith Lia Bool.
Import ListNotations.
Open Scope Z_scope.

Definition W64 : Z := 2 ^ 64.

(** Words of memory.  *)
Definition memory := Z -> Z.
Definition wr (m : memory) (a v : Z) : memory := fun x => if x =? a then v else m x.

(** buffersize[c], allocator.hpp 143-144: 32, 64, ..., 8192. *)
Definition csize (c : nat) : Z := 32 * 2 ^ Z.of_nat c.

(** ff_allocator::getslabs(size_t), allocator.hpp 897-912.  [e] counts the shifts of
    [while(sz >>= 1) ++e] starting from 1, that is log2(size-1)+1.  [None] is -1. *)
Definition getslabs (size : Z) : option nat :=
  if size =? 0 then None
  else let e := Z.log2 (size - 1) + 1 in
       if e <? 5 then Some 0%nat
       else if 13 <? e then None
       else Some (Z.to_nat (e - 5)).

(** isPowerOfTwoMultiple, allocator.hpp 225-227; size_t subtraction wraps. *)
Definition pow2_multiple (al m : Z) : bool :=
  negb (al =? 0) && (Z.land al ((al - m) mod W64) =? 0).

(** (long)(buf) + alignment & ~(alignment-1), allocator.hpp 1194 and 1178. *)
Definition align_up (buf al : Z) : Z :=
  Z.land ((buf + al) mod W64) (W64 - 1 - (al - 1)).

(** for(p=buf; p!=ptraligned; p++) p->ptr = backptr->ptr, allocator.hpp 1196-1198.
    The fuel is never exhausted when [q] lies a multiple of 8 above [p]. *)
Fixpoint fill (n : nat) (m : memory) (p q v : Z) : memory :=
  match n with
  | O => m
  | S n' => if p =? q then m else fill n' (wr m p v) (p + 8) q v
  end.

(** What ff_allocator::free(void* ) (allocator.hpp 1224-1239) finds for a pointer:
    a block of the system allocator, or the header of a slab block. *)
Inductive found := FSys (a : Z) | FSlab (h : Z) | FLost.

(** while(buf->ptr == buf2->ptr) ..., allocator.hpp 1233-1237. *)
Fixpoint walk (n : nat) (m : memory) (buf : Z) : found :=
  match n with
  | O => FLost
  | S n' => if m buf =? m (buf - 8) then walk n' m (buf - 8) else FSlab buf
  end.

(** 1026 words cover the largest slab block (8192 bytes) and its header. *)
Definition WALK : nat := 1026.

Definition free_finds (m : memory) (p : Z) : found :=
  if m (p - 8) =? 0 then FSys (p - 8) else walk WALK m (p - 8).

(** A block handed to the user (history only): whether it came from the system
    allocator, the address of its header, the pointer given to the user, the bytes
    asked for, the alignment asked for (0 for malloc). *)
Record blk := mkB { bsys : bool; bh : Z; bptr : Z; breq : Z; bal : Z }.

Record st := mkS {
  mem : memory;
  segs : list (Z * nat);          (* seglist of every cache: address, class *)
  regs : list (Z * Z);            (* blocks of the system allocator: address, length *)
  bp : nat -> Z;                  (* SlabCache::buffptr of each class *)
  avail : nat -> Z;               (* SlabCache::availbuffers of each class *)
  lq : list (nat * nat * Z);      (* leak queues: class, thread, header; oldest first *)
  nomore : bool;                  (* SlabCache::nomoremalloc *)
  pend : list (nat * Z);          (* threads of putitem past the test of nomoremalloc *)
  live : list blk;                (* blocks in the hands of the user *)
  bad : bool }.                   (* the code passed a wrong pointer or index on *)

Definition cupd {B} (f : nat -> B) (i : nat) (v : B) : nat -> B :=
  fun j => if Nat.eqb j i then v else f j.

Section Alloc.
  (** nslabs of each class: SlabCache::getnslabs; 0 means the class is not used. *)
  Variable ns : nat -> Z.

  (** size*nslabs + sizeof(Seg_ctl) + nslabs*BUFFER_OVERHEAD, allocator.hpp 459-460. *)
  Definition seglen (c : nat) : Z := csize c * ns c + 24 + ns c * 8.

  (** The header of the k-th block of a segment: buffptr starts behind the Seg_ctl
      (475-477) and advances by BUFFER_OVERHEAD + size (752-757). *)
  Definition hdr (b : Z) (c : nat) (k : Z) : Z := b + 24 + k * (csize c + 8).

  (** Memory in use: segments and system blocks. *)
  Definition areas (s : st) : list (Z * Z) :=
    map (fun x => (fst x, seglen (snd x))) (segs s) ++ regs s.

  Definition apart (x y : Z * Z) : bool :=
    (fst x + snd x <=? fst y) || (fst y + snd y <=? fst x).

  (** What the system may answer to a request of [len] bytes. *)
  Definition os_fresh (used : list (Z * Z)) (b len : Z) : bool :=
    (b mod 8 =? 0) && (0 <? b) && (b + len <? W64) &&
    forallb (apart (b, len)) used.

  (** Where a block comes from when the cache has no fresh block: the leak queue of
      thread [t], a new segment at [b] with contents [f], or (system path) a system
      block at [b] with contents [f]. *)
  Inductive src := SQueue (t : nat) | SNew (b : Z) (f : memory).

  (** New memory has arbitrary contents. *)
  Definition fresh_mem (m : memory) (b len : Z) (f : memory) : memory :=
    fun w => if (b <=? w) && (w <? b + len) then f w else m w.

  (** SlabCache::newslab, allocator.hpp 451-484.  The segment address exceeds the
      number of blocks in a segment (part of what the system guarantees). *)
  Definition newslab (s : st) (c : nat) (b : Z) (f : memory) : option st :=
    if os_fresh (areas s) b (seglen c) && (ns c <? b) then
      let m1 := fresh_mem (mem s) b (seglen c) f in
      let m2 := wr m1 (b + 16) (ns c) in
      let m3 := wr m2 (b + 24) b in
      Some (mkS m3 (segs s ++ [(b, c)]) (regs s) (cupd (bp s) c (b + 24))
                (cupd (avail s) c (avail s c + ns c)) (lq s) (nomore s) (pend s) (live s) (bad s))
    else None.

  (** The label avail of SlabCache::getitem, allocator.hpp 743-762. *)
  Definition carve (s : st) (c : nat) : st * Z :=
    let h := bp s c in
    let seg := mem s h in
    let m1 := wr (mem s) (seg + 16) (mem s (seg + 16) - 1) in
    let item := h + 8 in
    let a := avail s c - 1 in
    let '(m2, nb) := if a =? 0 then (m1, 0)
                     else (wr m1 (item + csize c) seg, item + csize c) in
    (mkS m2 (segs s) (regs s) (cupd (bp s) c nb) (cupd (avail s) c a) (lq s)
         (nomore s) (pend s) (live s) (bad s), h).

  (** Oldest entry of the leak queue of class [c] and thread [t]: its header and the
      remaining entries (xThreadData::leak->pop). *)
  Fixpoint pop (q : list (nat * nat * Z)) (c t : nat) : option (Z * list (nat * nat * Z)) :=
    match q with
    | [] => None
    | (c', t', h) :: q' =>
        if Nat.eqb c' c && Nat.eqb t' t then Some (h, q')
        else match pop q' c t with
             | Some (h', r) => Some (h', (c', t', h) :: r)
             | None => None
             end
    end.

  (** The call of putitem that thread [t] has under way. *)
  Fixpoint pop_pend (q : list (nat * Z)) (t : nat) : option (Z * list (nat * Z)) :=
    match q with
    | [] => None
    | (t', h) :: q' =>
        if Nat.eqb t' t then Some (h, q')
        else match pop_pend q' t with
             | Some (h', r) => Some (h', (t', h) :: r)
             | None => None
             end
    end.

  Definition set_lq (s : st) (q : list (nat * nat * Z)) : st :=
    mkS (mem s) (segs s) (regs s) (bp s) (avail s) q (nomore s) (pend s) (live s) (bad s).

  (** SlabCache::getitem, allocator.hpp 738-780, with getfrom_fb (567-580) replaced by
      the oracle: the header of the block handed out. *)
  Definition getitem (s : st) (c : nat) (o : src) : option (st * Z) :=
    if 0 <? avail s c then Some (carve s c)
    else match o with
         | SQueue t => match pop (lq s) c t with
                       | Some (h, q) => Some (set_lq s q, h)
                       | None => None
                       end
         | SNew b f => match newslab s c b f with
                       | Some s1 => Some (carve s1 c)
                       | None => None
                       end
         end.

  Definition set_bad (s : st) : st :=
    mkS (mem s) (segs s) (regs s) (bp s) (avail s) (lq s) (nomore s) (pend s) (live s) true.

  Definition set_live (s : st) (l : list blk) : st :=
    mkS (mem s) (segs s) (regs s) (bp s) (avail s) (lq s) (nomore s) (pend s) l (bad s).

  Definition set_mem (s : st) (m : memory) : st :=
    mkS m (segs s) (regs s) (bp s) (avail s) (lq s) (nomore s) (pend s) (live s) (bad s).

  (** The system allocator: a block of [len] bytes at [b]. *)
  Definition sysalloc (s : st) (b len : Z) (f : memory) : option st :=
    if os_fresh (areas s) b len then
      Some (mkS (fresh_mem (mem s) b len f) (segs s) (regs s ++ [(b, len)]) (bp s)
                (avail s) (lq s) (nomore s) (pend s) (live s) (bad s))
    else None.

  (** ff_allocator::malloc (1126-1146) when [al = 0], otherwise
      ff_allocator::posix_memalign (1163-1202).  size_t arithmetic wraps.  A rejected
      alignment leaves the state as it is; an index of -1 into slabcache is [bad]. *)
  Definition do_malloc (s : st) (al req : Z) (o : src) : option st :=
    if negb (al =? 0) && negb (pow2_multiple al 8) then Some s
    else
      let total := (req + al) mod W64 in
      let sys := 8192 <? total in
      match (if sys then None else getslabs total), sys with
      | None, false => Some (set_bad s)
      | oc, _ =>
        if sys || match oc with Some c => ns c =? 0 | None => true end then
          match o with
          | SQueue _ => None
          | SNew b f =>
            match sysalloc s b ((total + 8) mod W64) f with
            | None => None
            | Some s1 =>
              let m1 := wr (mem s1) b 0 in
              let p := if al =? 0 then b + 8 else align_up (b + 8) al in
              let m2 := wr m1 (p - 8) 0 in
              Some (set_live (set_mem s1 m2) (mkB true b p req al :: live s1))
            end
          end
        else
          match oc with
          | None => None
          | Some c =>
            match getitem s c o with
            | None => None
            | Some (s1, h) =>
              let buf := h + 8 in
              let p := if al =? 0 then buf else align_up buf al in
              let m1 := if al =? 0 then mem s1 else fill WALK (mem s1) buf p (mem s1 (buf - 8)) in
              Some (set_live (set_mem s1 m1) (mkB false h p req al :: live s1))
            end
          end
      end.

  Definition seg_class (s : st) (b : Z) : option nat :=
    option_map snd (find (fun x => fst x =? b) (segs s)).

  (** SlabCache::checkReclaim, allocator.hpp 522-532 (under the cache lock), with
      freeslab (498-510). *)
  Definition check_reclaim (s : st) (h : Z) : st :=
    let seg := mem s h in
    match seg_class s seg with
    | None => set_bad s
    | Some c =>
      let a := mem s (seg + 16) + 1 in
      let m1 := wr (mem s) (seg + 16) a in
      mkS m1 (if a =? ns c then filter (fun x => negb (fst x =? seg)) (segs s) else segs s)
          (regs s) (bp s) (avail s) (lq s) (nomore s) (pend s) (live s) (bad s)
    end.

  (** SlabCache::putitem, allocator.hpp 788-813, up to the test of nomoremalloc; the
      push itself is [APush]. *)
  Definition putitem (s : st) (t : nat) (h : Z) : option st :=
    match seg_class s (mem s h) with
    | None => Some (set_bad s)
    | Some _ =>
      if nomore s then Some (check_reclaim s h)
      else if existsb (fun x => Nat.eqb (fst x) t) (pend s) then None
      else Some (mkS (mem s) (segs s) (regs s) (bp s) (avail s) (lq s) (nomore s)
                     (pend s ++ [(t, h)]) (live s) (bad s))
    end.

  Definition find_live (l : list blk) (p : Z) : option blk := find (fun x => bptr x =? p) l.
  Definition drop_live (l : list blk) (p : Z) : list blk := filter (fun x => negb (bptr x =? p)) l.

  (** ::free of the system allocator: the address must be one it returned. *)
  Definition sysfree (s : st) (a : Z) : st :=
    if existsb (fun x => fst x =? a) (regs s) then
      mkS (mem s) (segs s) (filter (fun x => negb (fst x =? a)) (regs s)) (bp s) (avail s)
          (lq s) (nomore s) (pend s) (live s) (bad s)
    else set_bad s.

  (** ff_allocator::free(void* ), allocator.hpp 1224-1239 and 930-935, called by
      thread [t] with a pointer it holds. *)
  Definition do_free (s : st) (t : nat) (p : Z) : option st :=
    match find_live (live s) p with
    | None => None
    | Some _ =>
      let s1 := set_live s (drop_live (live s) p) in
      match free_finds (mem s) p with
      | FSys a => Some (sysfree s1 a)
      | FSlab h => putitem s1 t h
      | FLost => Some (set_bad s1)
      end
    end.

  (** memcpy of [n] words. *)
  Fixpoint copy (n : nat) (m : memory) (dst src : Z) : memory :=
    match n with
    | O => m
    | S n' => wr (copy n' m dst src) (dst + 8 * Z.of_nat n') (m (src + 8 * Z.of_nat n'))
    end.

  (** ff_allocator::realloc, allocator.hpp 1266-1292, called by the owner (thread 0)
      with a pointer it holds.  The block handed back to the user replaces the old
      one in [live].  ::realloc of the system keeps the old contents. *)
  Definition do_realloc (s : st) (p n : Z) (o : src) : option st :=
    match find_live (live s) p with
    | None => None
    | Some x =>
      if mem s (p - 8) =? 0 then
        match find (fun y => fst y =? p - 8) (regs s), o with
        | None, _ => Some (set_bad s)
        | Some _, SQueue _ => None
        | Some (a, len), SNew b f =>
          let len' := (n + 8) mod W64 in
          let s1 := sysfree (set_live s (drop_live (live s) p)) (p - 8) in
          match sysalloc s1 b len' f with
          | None => None
          | Some s2 =>
            let m1 := fun w => if (b <=? w) && (w <? b + Z.min len len') then mem s (a + (w - b))
                               else mem s2 w in
            Some (set_live (set_mem s2 (wr m1 b 0)) (mkB true b (b + 8) n 0 :: live s2))
          end
        end
      else
        match seg_class s (mem s (p - 8)) with
        | None => Some (set_bad s)
        | Some c =>
          if n <=? csize c then
            Some (set_live s (mkB (bsys x) (bh x) p n (bal x) :: drop_live (live s) p))
          else
            match do_malloc s 0 n o with
            | None => None
            | Some s1 =>
              match live s1 with
              | [] => None
              | y :: l =>
                let s2 := set_mem s1 (copy (Z.to_nat (csize c / 8)) (mem s1) (bptr y) p) in
                putitem (set_live s2 (y :: drop_live l p)) 0 (p - 8)
              end
            end
        end
    end.

  Inductive act :=
  | AMalloc (al req : Z) (o : src)       (* owner *)
  | AFree (t : nat) (p : Z)
  | APush (t : nat)                      (* the push of putitem by thread t *)
  | ARealloc (p n : Z) (o : src)         (* owner *)
  | AWrite (w v : Z)                     (* the user of a live block stores a word *)
  | APrealloc (c : nat) (b : Z) (f : memory)   (* init with prealloc, line 658 *)
  | ADereg                               (* deregisterAllocator, line 719 *)
  | ADrain (c t : nat)                   (* one turn of its loop, lines 726-728 *)
  | ADiscard (c t : nat).                (* one turn of getfrom_fb_delayed, 556-560 *)

  (** [AWrite]: a store changes a word that overlaps the bytes of a live block. *)
  Definition holds_word (x : blk) (w : Z) : bool :=
    (w mod 8 =? 0) && (bptr x <? w + 8) && (w <? bptr x + breq x).

  Definition step (s : st) (a : act) : option st :=
    match a with
    | AMalloc al req o => if nomore s then None else do_malloc s al req o
    | AFree t p => do_free s t p
    | APush t =>
        match pop_pend (pend s) t with
        | None => None
        | Some (h, r) =>
          match seg_class s (mem s h) with
          | None => Some (set_bad s)
          | Some c =>
            Some (mkS (mem s) (segs s) (regs s) (bp s) (avail s) (lq s ++ [(c, t, h)])
                      (nomore s) r (live s) (bad s))
          end
        end
    | ARealloc p n o => if nomore s then None else do_realloc s p n o
    | AWrite w v =>
        if existsb (fun x => holds_word x w) (live s) then Some (set_mem s (wr (mem s) w v))
        else None
    | APrealloc c b f =>
        if negb (nomore s) && (avail s c =? 0) && (0 <? ns c) then newslab s c b f else None
    | ADereg =>
        Some (mkS (mem s) (segs s) (regs s) (bp s) (avail s) (lq s) true (pend s) (live s) (bad s))
    | ADrain c t =>
        if nomore s then
          match pop (lq s) c t with
          | Some (h, q) => Some (check_reclaim (set_lq s q) h)
          | None => None
          end
        else None
    | ADiscard c t =>
        (* checkReclaimD (534-538) is checkReclaim without the lock; the owner runs it
           only when the cache has no fresh block (766) *)
        if negb (nomore s) && (avail s c =? 0) then
          match pop (lq s) c t with
          | Some (h, q) => Some (check_reclaim (set_lq s q) h)
          | None => None
          end
        else None
    end.

  Definition init : st :=
    mkS (fun _ => 0) [] [] (fun _ => 0) (fun _ => 0) [] false [] [] false.
End Alloc.

(** SlabCache::getfrom_fb (567-580) without concurrency: the scan over the leak
    queues, starting from the queue used last.  [qs] lists the queues fb[0..fb_size-1]. *)
Fixpoint scan_from {A} (n : nat) (qs : list (list A)) (last i : nat) : option (nat * A) :=
  match n with
  | O => None
  | S n' => let k := Nat.modulo (last + i) (length qs) in
            match nth k qs [] with
            | x :: _ => Some (k, x)
            | [] => scan_from n' qs last (S i)
            end
  end.
Definition scan {A} (qs : list (list A)) (last : nat) : option (nat * A) :=
  scan_from (length qs) qs last 0.
