(** ff/ubuffer.hpp:88-433: the unbounded single-producer/single-consumer channel on a TSO
    machine.  Each thread has a FIFO store buffer: a store enters the thread's buffer and reaches
    memory at an arbitrary later drain step; a load sees the thread's own buffered stores, else
    memory.  The code has no fence (WMB is a compiler barrier on TSO machines, ff/sysdep.h), and
    [buf_w] is a plain variable written by the producer and read by the consumer.

    - One step = one operation on a shared object.  The inner queues are taken at the level of
      their publishing stores.  A segment (bounded ring, ff/buffer.hpp:241-260, 333-350; C01, C02)
      is in memory the list of its non-NULL slots; push appends when its slot store is drained,
      pop removes when its clearing store is drained.  [bufcache] is such a ring, filled by the
      consumer and emptied by the producer.  [inuse] is a dynqueue (ff/dynqueue.hpp:165-200; C09);
      its publishing store is [tail->next = n], its pop moves [head], which only the consumer uses.
    - The indices pread/pwrite of a ring, [buf_r], and the head and tail of the dynqueue are only
      read by their owner, and are registers; reset of a segment by the consumer is one store.
    - malloc and free use the allocator's own locks: an address is available again when the store
      of free is drained.  A fresh segment holds garbage until its initialising store is drained.
    - The user writes an object before pushing its address and the consumer reads it after pop;
      a pushed address is not written again (ownership passes with the reference, as in C02).
    - Not modelled: fixedsize (then this is the ring of C02), reset(), the segment counter used by
      length(), uSWSR_MULTIPUSH, changesize, mp_push/mc_pop. *)
From Coq Require Import List Arith Bool.
From Verif Require Import Base.
Import ListNotations.

Section Model.
Variable n : nat.    (* ubuffer.hpp:557, size: capacity of a segment *)

(** A pushed address; the second component is history: the content the user wrote to the object
    before the push.  No step reads it. *)
Definition item := (nat * nat)%type.

(** Stores of the producer. *)
Inductive pstore :=
| SPay (a v : nat)           (* user code: object [a] := [v] *)
| SEnq (g : nat) (x : item)  (* buffer.hpp:255: slot of segment [g] := x *)
| STake                      (* buffer.hpp:334: bufcache.pop clears the slot (ubuffer.hpp:130) *)
| SNew (g : nat)             (* ubuffer.hpp:135-139: construction of a new segment *)
| SLink (g : nat)            (* dynqueue.hpp:172: inuse.push (ubuffer.hpp:145) *)
| SBufw (g : nat).           (* ubuffer.hpp:357: buf_w = t *)

(** Stores of the consumer. *)
Inductive cstore :=
| SDeq (g : nat)             (* buffer.hpp:334: pop clears the slot *)
| SRst (g : nat)             (* ubuffer.hpp:157: buf->reset() *)
| SGive (g : nat)            (* ubuffer.hpp:158: bufcache.push *)
| SFree (g : nat).           (* ubuffer.hpp:160: free *)

(** push, ubuffer.hpp:344-367, with next_w inlined (128-147). *)
Inductive ppc :=
| PIdle
| PPay (x : item)            (* user code: write the object *)
| PAvail (x : item)          (* line 350: available() *)
| PTake (x : item)           (* line 130: bufcache.pop, or malloc *)
| PInit (x : item) (g : nat) (* lines 135-139 *)
| PLink (x : item) (g : nat) (* line 145 *)
| PSet (x : item) (g : nat)  (* line 357 *)
| PPut (x : item).           (* line 365: buf_w->push(data); return true *)

(** pop, ubuffer.hpp:411-433, with next_r (150-153) and release (156-162) inlined. *)
Inductive cpc :=
| CIdle
| CEmp1                      (* line 414 *)
| CCmp                       (* line 415: buf_r == buf_w *)
| CEmp2                      (* line 416 *)
| CNext                      (* line 417; dynqueue.hpp:178-200 *)
| CRst (g : nat)             (* line 157; [g]: the new segment *)
| CRel (g : nat)             (* lines 158-161 *)
| CSet (g : nat)             (* line 422: buf_r = tmp *)
| CPop                       (* line 432 *)
| CUse (x : item).           (* user code after pop: read the object *)

(** What the users see; [EVis]: the slot store of the oldest push still in the producer's store
    buffer reaches memory (history, not visible to the users). *)
Inductive event :=
| EPush (x : item)           (* push(x) returned true *)
| EVis
| ECallPop                   (* pop was called *)
| EPop (x : item)            (* ... returned true; the address and the content read from it *)
| EPopEmpty.                 (* ... returned false *)

Record st := mkSt {
  cont : nat -> list item;   (* memory: segments *)
  alive : nat -> bool;       (* memory: allocated addresses *)
  bufw : nat;                (* memory: buf_w *)
  inuse : list nat; cache : list nat;    (* memory: BufferPool *)
  pay : nat -> nat;          (* memory: the users' objects *)
  pbuf : list pstore; cbuf : list cstore;
  wreg : nat;                (* buf_w as its owner, the producer, sees it *)
  bufr : nat;                (* buf_r, only used by the consumer *)
  pp : ppc; cp : cpc;
  uaf : bool;                (* history: some access touched a freed segment *)
  used : list nat;           (* history: addresses given to push *)
  tr : list event }.

(** Constructor and init (lines 263-313): first segment at address 0. *)
Definition init_st : st :=
  mkSt (fun _ => []) (fun a => a =? 0) 0 [] [] (fun _ => 0) [] [] 0 0 PIdle CIdle false [] [].

(** A segment with content [l] in memory, as the producer sees it: its own stores on top. *)
Fixpoint pcont (b : list pstore) (g : nat) (l : list item) : list item :=
  match b with
  | [] => l
  | SEnq h x :: b' => pcont b' g (if h =? g then l ++ [x] else l)
  | SNew h :: b' => pcont b' g (if h =? g then [] else l)
  | _ :: b' => pcont b' g l
  end.
(** ... as the consumer sees it. *)
Fixpoint ccont (c : list cstore) (g : nat) (l : list item) : list item :=
  match c with
  | [] => l
  | SDeq h :: c' => ccont c' g (if h =? g then tl l else l)
  | SRst h :: c' => ccont c' g (if h =? g then [] else l)
  | _ :: c' => ccont c' g l
  end.
Fixpoint takes (b : list pstore) : nat :=
  match b with [] => 0 | STake :: b' => S (takes b') | _ :: b' => takes b' end.
Fixpoint gives (c : list cstore) : list nat :=
  match c with [] => [] | SGive g :: c' => g :: gives c' | _ :: c' => gives c' end.

(** Loads. *)
Definition pview (s : st) (g : nat) : list item := pcont (pbuf s) g (cont s g).
Definition cview (s : st) (g : nat) : list item := ccont (cbuf s) g (cont s g).
Definition pcache (s : st) : list nat := skipn (takes (pbuf s)) (cache s).
(** Line 235; the slot to be filled by the consumer is free. *)
Definition cache_size : nat := 32.
Definition croom (s : st) : bool := length (cache s) + length (gives (cbuf s)) <? cache_size.

Definition goP (s : st) (p : ppc) : st :=
  mkSt (cont s) (alive s) (bufw s) (inuse s) (cache s) (pay s) (pbuf s) (cbuf s) (wreg s) (bufr s) p (cp s) (uaf s) (used s) (tr s).
Definition goC (s : st) (c : cpc) : st :=
  mkSt (cont s) (alive s) (bufw s) (inuse s) (cache s) (pay s) (pbuf s) (cbuf s) (wreg s) (bufr s) (pp s) c (uaf s) (used s) (tr s).
Definition stP (s : st) (x : pstore) : st :=
  mkSt (cont s) (alive s) (bufw s) (inuse s) (cache s) (pay s) (pbuf s ++ [x]) (cbuf s) (wreg s) (bufr s) (pp s) (cp s) (uaf s) (used s) (tr s).
Definition stC (s : st) (x : cstore) : st :=
  mkSt (cont s) (alive s) (bufw s) (inuse s) (cache s) (pay s) (pbuf s) (cbuf s ++ [x]) (wreg s) (bufr s) (pp s) (cp s) (uaf s) (used s) (tr s).
Definition emit (s : st) (e : event) : st :=
  mkSt (cont s) (alive s) (bufw s) (inuse s) (cache s) (pay s) (pbuf s) (cbuf s) (wreg s) (bufr s) (pp s) (cp s) (uaf s) (used s) (tr s ++ [e]).
(** An access to segment [g]. *)
Definition touch (s : st) (g : nat) : st :=
  mkSt (cont s) (alive s) (bufw s) (inuse s) (cache s) (pay s) (pbuf s) (cbuf s) (wreg s) (bufr s) (pp s) (cp s)
       (uaf s || negb (alive s g)) (used s) (tr s).
Definition setm (s : st) (c : nat -> list item) (al : nat -> bool) (w : nat) (i k : list nat) (y : nat -> nat) : st :=
  mkSt c al w i k y (pbuf s) (cbuf s) (wreg s) (bufr s) (pp s) (cp s) (uaf s) (used s) (tr s).
Definition set_cont (s : st) (g : nat) (l : list item) : st :=
  setm s (fupd (cont s) g l) (alive s) (bufw s) (inuse s) (cache s) (pay s).
Definition set_alive (s : st) (g : nat) (b : bool) : st :=
  setm s (cont s) (fupd (alive s) g b) (bufw s) (inuse s) (cache s) (pay s).

Inductive act := CallPush (a v : nat) | CallPop | P (m : nat) | C | DrainP | DrainC.

Definition pstep (s : st) (m : nat) : option st :=
  match pp s with
  | PIdle => None
  | PPay x => Some (goP (stP s (SPay (fst x) (snd x))) (PAvail x))
  | PAvail x => let s := touch s (wreg s) in
      Some (goP s (if length (pview s (wreg s)) <? n then PPut x else PTake x))
  | PTake x =>
      match pcache s with
      | g :: _ => Some (goP (stP s STake) (PLink x g))
      | [] => if alive s m then None else Some (goP (set_alive s m true) (PInit x m))
      end
  | PInit x g => Some (goP (stP s (SNew g)) (PLink x g))
  | PLink x g => Some (goP (stP s (SLink g)) (PSet x g))
  | PSet x g => let s := stP s (SBufw g) in
      Some (mkSt (cont s) (alive s) (bufw s) (inuse s) (cache s) (pay s) (pbuf s) (cbuf s) g (bufr s) (PPut x) (cp s) (uaf s) (used s) (tr s))
  | PPut x => let s := touch s (wreg s) in
      Some (emit (goP (if length (pview s (wreg s)) <? n then stP s (SEnq (wreg s) x) else s) PIdle) (EPush x))
  end.

Definition cstep (s : st) : option st :=
  match cp s with
  | CIdle => None
  | CEmp1 => let s := touch s (bufr s) in Some (goC s (match cview s (bufr s) with [] => CCmp | _ => CPop end))
  | CCmp => if bufr s =? bufw s then Some (emit (goC s CIdle) EPopEmpty) else Some (goC s CEmp2)
  | CEmp2 => let s := touch s (bufr s) in Some (goC s (match cview s (bufr s) with [] => CNext | _ => CPop end))
  | CNext => match inuse s with
             | [] => Some (goC s CPop)
             | g :: q => Some (goC (setm s (cont s) (alive s) (bufw s) q (cache s) (pay s)) (CRst g))
             end
  | CRst g => let s := touch s (bufr s) in Some (goC (stC s (SRst (bufr s))) (CRel g))
  | CRel g => Some (goC (stC s (if croom s then SGive (bufr s) else SFree (bufr s))) (CSet g))
  | CSet g => Some (mkSt (cont s) (alive s) (bufw s) (inuse s) (cache s) (pay s) (pbuf s) (cbuf s) (wreg s) g (pp s) CPop (uaf s) (used s) (tr s))
  | CPop => let s := touch s (bufr s) in
      match cview s (bufr s) with
      | [] => Some (emit (goC s CIdle) EPopEmpty)
      | x :: _ => Some (goC (stC s (SDeq (bufr s))) (CUse x))
      end
  | CUse x => Some (emit (goC s CIdle) (EPop (fst x, pay s (fst x))))
  end.

(** The oldest store of a buffer reaches memory. *)
Definition drainP (s : st) : option st :=
  match pbuf s with
  | [] => None
  | x :: b =>
      let s := mkSt (cont s) (alive s) (bufw s) (inuse s) (cache s) (pay s) b (cbuf s) (wreg s) (bufr s) (pp s) (cp s) (uaf s) (used s) (tr s) in
      Some (match x with
      | SPay a v => setm s (cont s) (alive s) (bufw s) (inuse s) (cache s) (fupd (pay s) a v)
      | SEnq g y => (* the ring has [n] slots: with all of them in use the store overwrites the oldest *)
          emit (set_cont (touch s g) g (if length (cont s g) <? n then cont s g ++ [y] else y :: tl (cont s g))) EVis
      | STake => setm s (cont s) (alive s) (bufw s) (inuse s) (tl (cache s)) (pay s)
      | SNew g => set_cont (touch s g) g []
      | SLink g => setm s (cont s) (alive s) (bufw s) (inuse s ++ [g]) (cache s) (pay s)
      | SBufw g => setm s (cont s) (alive s) g (inuse s) (cache s) (pay s)
      end)
  end.
Definition drainC (s : st) : option st :=
  match cbuf s with
  | [] => None
  | x :: c =>
      let s := mkSt (cont s) (alive s) (bufw s) (inuse s) (cache s) (pay s) (pbuf s) c (wreg s) (bufr s) (pp s) (cp s) (uaf s) (used s) (tr s) in
      Some (match x with
      | SDeq g => set_cont (touch s g) g (tl (cont s g))
      | SRst g => set_cont (touch s g) g []
      | SGive g => (* as SEnq *)
          setm s (cont s) (alive s) (bufw s) (inuse s) (if length (cache s) <? cache_size then cache s ++ [g] else g :: tl (cache s)) (pay s)
      | SFree g => set_alive (touch s g) g false
      end)
  end.

Definition step (s : st) (a : act) : option st :=
  match a with
  | CallPush a v =>
      match pp s with
      | PIdle => if existsb (Nat.eqb a) (used s) then None
                 else Some (mkSt (cont s) (alive s) (bufw s) (inuse s) (cache s) (pay s) (pbuf s) (cbuf s) (wreg s) (bufr s)
                                 (PPay (a, v)) (cp s) (uaf s) (a :: used s) (tr s))
      | _ => None end
  | CallPop => match cp s with CIdle => Some (emit (goC s CEmp1) ECallPop) | _ => None end
  | P m => pstep s m
  | C => cstep s
  | DrainP => drainP s
  | DrainC => drainC s
  end.
End Model.
