(** Model of MPMC_Ptr_Queue (ff/mpmc/MPMCqueues.hpp:125-266), the bounded multi-producer
    multi-consumer queue, on the TSO memory of x86.

    - Same program as [VyukovModel]; here every thread has a FIFO store buffer.  A store goes
      into the buffer; it reaches memory later, by a separate [Drain] step.  A load sees the
      thread's own buffered stores, then memory.
    - memory_order_acquire loads and memory_order_release stores compile to plain loads and
      stores on x86; compare_exchange_weak is a locked instruction: it executes only with the
      thread's own buffer empty, and acts on memory.
    - pwrite and pread are changed by compare_exchange only, so they never sit in a buffer.
    - Any number of threads: total maps from thread ids.
    - [n] is the array size (init, lines 160-183: at least 2, a power of two, so [k & mask] is
      [k mod n]).  The counters are unbounded naturals: wrap-around at 2^64 is not modelled.
    - compare_exchange_weak may fail spuriously ([ok] = false); backing off is a no-op. *)
From Coq Require Import List Arith Lia Bool.
From Verif Require Import Base LinSpec VtsoSpec.
Import ListNotations.

Section Model.
  Context {A : Type}.
  Variable n : nat.

  Inductive pc : Type :=
  | Rest                                  (* outside the queue *)
  | PLoad (x : A)                         (* line 197: pw = pwrite.load *)
  | PSeq (x : A) (pw : nat)               (* line 199: seq = node->seq.load *)
  | PCas (x : A) (pw : nat)               (* line 206: pwrite CAS; here pw == seq *)
  | PData (x : A) (pw : nat)              (* line 216: node->data = data *)
  | PPub (pw : nat)                       (* line 217: node->seq.store(seq+1), seq == pw *)
  | QLoad                                 (* line 233: pr = pread.load *)
  | QSeq (pr : nat)                       (* line 235 *)
  | QCas (pr : nat)                       (* line 239; here seq == pr+1 *)
  | QData (pr : nat)                      (* line 250: *data = node->data *)
  | QRel (pr : nat) (v : option A).       (* line 251: node->seq.store(pr+mask+1) *)

  (** A store waiting in a buffer. *)
  Inductive store : Type :=
  | WData (k : nat) (x : A)               (* line 216: buf[k & mask].data := x *)
  | WPub (k : nat)                        (* line 217: buf[k & mask].seq := k+1 *)
  | WRel (k : nat).                       (* line 251: buf[k & mask].seq := k+mask+1 *)

  (** The array (lines 128-131): seq and data of each slot; None = NULL of init. *)
  Record memory := mkMem { seqs : nat -> nat; data : nat -> option A }.

  (** A store reaches memory. *)
  Definition apply (w : store) (m : memory) : memory :=
    match w with
    | WData k x => mkMem (seqs m) (fupd (data m) (k mod n) (Some x))
    | WPub k => mkMem (fupd (seqs m) (k mod n) (k + 1)) (data m)
    | WRel k => mkMem (fupd (seqs m) (k mod n) (k + (n - 1) + 1)) (data m)
    end.

  (** What a thread with buffer [b] sees: memory as if its own stores had reached it. *)
  Fixpoint view (b : list store) (m : memory) {struct b} : memory :=
    match b with [] => m | w :: r => view r (apply w m) end.

  Record st := mkSt {
    pwrite : nat; pread : nat;
    mem : memory;
    thr : nat -> pc;
    buf : nat -> list store;              (* store buffers, oldest store first *)
    tr : list (tev A) }.                  (* trace, never read by the steps *)

  (** init (lines 160-183): slot i has seq i. *)
  Definition init_st : st :=
    mkSt 0 0 (mkMem (fun i => i) (fun _ => None)) (fun _ => Rest) (fun _ => []) [].

  Inductive act :=
  | DoPush (t : nat) (x : A)              (* thread t calls push *)
  | DoPop (t : nat)
  | Run (t : nat) (ok : bool)             (* next step of thread t *)
  | Drain (t : nat).                      (* the oldest store of thread t reaches memory *)

  Definition goto (s : st) (t : nat) (p : pc) : st :=
    mkSt (pwrite s) (pread s) (mem s) (fupd (thr s) t p) (buf s) (tr s).
  Definition emit (s : st) (e : tev A) : st :=
    mkSt (pwrite s) (pread s) (mem s) (thr s) (buf s) (tr s ++ [e]).
  (** Thread [t] executes a store. *)
  Definition issue (s : st) (t : nat) (w : store) : st :=
    mkSt (pwrite s) (pread s) (mem s) (thr s) (fupd (buf s) t (buf s t ++ [w])) (tr s).

  (** push (lines 192-219), pop (lines 227-253), and the hardware's store buffers. *)
  Definition step (s : st) (a : act) : option st :=
    match a with
    | DoPush t x =>
        match thr s t with Rest => Some (emit (goto s t (PLoad x)) (Ev (CallPush t x))) | _ => None end
    | DoPop t =>
        match thr s t with Rest => Some (emit (goto s t QLoad) (Ev (CallPop t))) | _ => None end
    | Run t ok =>
        let v := view (buf s t) (mem s) in
        match thr s t with
        | Rest => None
        | PLoad x => Some (goto s t (PSeq x (pwrite s)))
        | PSeq x pw =>
            let q := seqs v (pw mod n) in
            if pw =? q then Some (goto s t (PCas x pw))
            else if q <? pw then Some (emit (goto s t Rest) (Ev (RetPush t false)))
            else Some (goto s t (PLoad x))
        | PCas x pw =>
            match buf s t with
            | _ :: _ => None
            | [] =>
                if ok && (pwrite s =? pw) then
                  Some (mkSt (pw + 1) (pread s) (mem s) (fupd (thr s) t (PData x pw)) (buf s)
                             (tr s ++ [Ev (LinPush t)]))
                else Some (goto s t (PLoad x))
            end
        | PData x pw => Some (goto (issue s t (WData pw x)) t (PPub pw))
        | PPub pw => Some (emit (goto (issue s t (WPub pw)) t Rest) (Ev (RetPush t true)))
        | QLoad => Some (goto s t (QSeq (pread s)))
        | QSeq pr =>
            let q := seqs v (pr mod n) in
            if q =? pr + 1 then Some (goto s t (QCas pr))
            else if q <? pr + 1 then Some (emit (goto s t Rest) (Ev (RetPop t None)))
            else Some (goto s t QLoad)
        | QCas pr =>
            match buf s t with
            | _ :: _ => None
            | [] =>
                if ok && (pread s =? pr) then
                  Some (mkSt (pwrite s) (pr + 1) (mem s) (fupd (thr s) t (QData pr)) (buf s)
                             (tr s ++ [Ev (LinPop t)]))
                else Some (goto s t QLoad)
            end
        | QData pr => Some (goto s t (QRel pr (data v (pr mod n))))
        | QRel pr o => Some (emit (goto (issue s t (WRel pr)) t Rest) (Ev (RetPop t o)))
        end
    | Drain t =>
        match buf s t with
        | [] => None
        | w :: r =>
            let s' := mkSt (pwrite s) (pread s) (apply w (mem s)) (thr s) (fupd (buf s) t r) (tr s) in
            Some (match w with WData _ _ => s' | _ => emit s' (Vis t) end)
        end
    end.
End Model.
Arguments st : clear implicits.
Arguments pc : clear implicits.
Arguments act : clear implicits.
Arguments store : clear implicits.
Arguments memory : clear implicits.
