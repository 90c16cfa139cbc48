(** Model of MPMC_Ptr_Queue (ff/mpmc/MPMCqueues.hpp:125-266), the bounded multi-producer
    multi-consumer queue.

    - One step of a thread = one access to shared memory (pwrite, pread, a slot's seq, a slot's
      data), executed sequentially consistently (the code uses acquire/release on seq).
    - Any number of threads: a total map from thread ids to program counters.
    - [n] is the array size (init, lines 160-183: at least 2, a power of two, so [k & mask] is
      [k mod n]).
    - The counters are unbounded naturals: their wrap-around at 2^64 is not modelled.
    - compare_exchange_weak may fail spuriously ([ok] = false); backing off is a no-op. *)
From Coq Require Import List Arith Lia Bool.
From Verif Require Import Base LinSpec.
Import ListNotations.

Section Model.
  Context {A : Type}.
  Variable n : nat.

  Inductive pc : Type :=
  | Rest                                  (* outside the queue *)
  | PLoad (x : A)                         (* line 197: pw = pwrite.load *)
  | PSeq (x : A) (pw : nat)               (* line 199: seq = node->seq.load *)
  | PCas (x : A) (pw : nat)               (* line 206: pwrite CAS; here pw == seq *)
  | PData (x : A) (pw : nat)              (* line 216: node->data = data *)
  | PPub (pw : nat)                       (* line 217: node->seq.store(seq+1), seq == pw *)
  | QLoad                                 (* line 233: pr = pread.load *)
  | QSeq (pr : nat)                       (* line 235 *)
  | QCas (pr : nat)                       (* line 239; here seq == pr+1 *)
  | QData (pr : nat)                      (* line 250: *data = node->data *)
  | QRel (pr : nat) (v : option A).       (* line 251: node->seq.store(pr+mask+1) *)

  Record st := mkSt {
    pwrite : nat; pread : nat;
    seqs : nat -> nat;                    (* buf[i].seq *)
    data : nat -> option A;               (* buf[i].data; None = NULL of init *)
    thr : nat -> pc;
    tr : list (ev A) }.                   (* trace, never read by the steps *)

  (** init (lines 160-183). *)
  Definition init_st : st :=
    mkSt 0 0 (fun i => i) (fun _ => None) (fun _ => Rest) [].

  Inductive act :=
  | DoPush (t : nat) (x : A)              (* thread t calls push *)
  | DoPop (t : nat)
  | Run (t : nat) (ok : bool).            (* next step of thread t *)

  Definition goto (s : st) (t : nat) (p : pc) : st :=
    mkSt (pwrite s) (pread s) (seqs s) (data s) (fupd (thr s) t p) (tr s).
  Definition emit (s : st) (e : ev A) : st :=
    mkSt (pwrite s) (pread s) (seqs s) (data s) (thr s) (tr s ++ [e]).

  (** push (lines 192-219), pop (lines 227-253). *)
  Definition step (s : st) (a : act) : option st :=
    match a with
    | DoPush t x =>
        match thr s t with Rest => Some (emit (goto s t (PLoad x)) (CallPush t x)) | _ => None end
    | DoPop t =>
        match thr s t with Rest => Some (emit (goto s t QLoad) (CallPop t)) | _ => None end
    | Run t ok =>
        match thr s t with
        | Rest => None
        | PLoad x => Some (goto s t (PSeq x (pwrite s)))
        | PSeq x pw =>
            let q := seqs s (pw mod n) in
            if pw =? q then Some (goto s t (PCas x pw))
            else if q <? pw then Some (emit (goto s t Rest) (RetPush t false))
            else Some (goto s t (PLoad x))
        | PCas x pw =>
            if ok && (pwrite s =? pw) then
              Some (mkSt (pw + 1) (pread s) (seqs s) (data s) (fupd (thr s) t (PData x pw))
                         (tr s ++ [LinPush t]))
            else Some (goto s t (PLoad x))
        | PData x pw =>
            Some (mkSt (pwrite s) (pread s) (seqs s) (fupd (data s) (pw mod n) (Some x))
                       (fupd (thr s) t (PPub pw)) (tr s))
        | PPub pw =>
            Some (mkSt (pwrite s) (pread s) (fupd (seqs s) (pw mod n) (pw + 1)) (data s)
                       (fupd (thr s) t Rest) (tr s ++ [RetPush t true]))
        | QLoad => Some (goto s t (QSeq (pread s)))
        | QSeq pr =>
            let q := seqs s (pr mod n) in
            if q =? pr + 1 then Some (goto s t (QCas pr))
            else if q <? pr + 1 then Some (emit (goto s t Rest) (RetPop t None))
            else Some (goto s t QLoad)
        | QCas pr =>
            if ok && (pread s =? pr) then
              Some (mkSt (pwrite s) (pr + 1) (seqs s) (data s) (fupd (thr s) t (QData pr))
                         (tr s ++ [LinPop t]))
            else Some (goto s t QLoad)
        | QData pr => Some (goto s t (QRel pr (data s (pr mod n))))
        | QRel pr v =>
            Some (mkSt (pwrite s) (pread s) (fupd (seqs s) (pr mod n) (pr + (n - 1) + 1)) (data s)
                       (fupd (thr s) t Rest) (tr s ++ [RetPop t v]))
        end
    end.
End Model.
Arguments st : clear implicits.
Arguments pc : clear implicits.
Arguments act : clear implicits.
