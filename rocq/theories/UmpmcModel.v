(** Model of uMPMC_Ptr_Queue (ff/mpmc/MPMCqueues.hpp:427-550), the unbounded multi-producer
    multi-consumer queue built from an array of unbounded single-producer single-consumer queues.

    - One step of a thread = one access to shared memory (preadP, preadC, an entry of seqP or
      seqC, or one operation on a sub-queue), executed sequentially consistently.
    - Any number of threads: a total map from thread ids to program counters.
    - [n] is the number of sub-queues (init, lines 460-463: at least 2, a power of two, so
      [k & mask] is [k mod n] and [k + mask + 1] is [k + (n - 1) + 1]).
    - A sub-queue (uSWSR_Ptr_Buffer) is a list, its push and pop are one step each.  This is the
      single-producer single-consumer queue of properties C07 and C08; that at any moment at
      most one thread pushes to and at most one pops from each sub-queue is proved
      (UmpmcProps.umpmc_one_producer, umpmc_one_consumer), not assumed.
    - The counters are unbounded naturals: wrap-around at 2^64 and the comparison of a long with
      an unsigned long (line 520) are not modelled.
    - Backing off after a failed CAS (lines 495-498, 524-527) is a no-op.  abstraction_cas is a
      strong compare-and-swap: no spurious failure. *)
From Coq Require Import List Arith Lia Bool.
From Verif Require Import Base LinSpec.
Import ListNotations.

Section Model.
  Context {A : Type}.
  Variable n : nat.

  Inductive pc : Type :=
  | Rest                                  (* outside the queue *)
  | PLoad (x : A)                         (* line 488: pw = preadP *)
  | PSeq (x : A) (pw : nat)               (* lines 489-491: seq = seqP[idx]; pw == seq ? *)
  | PCas (x : A) (pw : nat)               (* line 492: CAS on preadP *)
  | PPush (x : A) (pw : nat)              (* line 501: buf[idx]->push(data) *)
  | PPub (pw : nat)                       (* line 502: seqP[idx] = pw+mask+1 *)
  | QLoad                                 (* line 516: pr = preadC *)
  | QSeq (pr : nat)                       (* lines 517-519: seq = seqC[idx]; pr == seq ? *)
  | QChk (pr : nat)                       (* line 520: seqP[idx] <= seq ?  (here seq == pr) *)
  | QCas (pr : nat)                       (* line 521: CAS on preadC *)
  | QPop (pr : nat)                       (* line 530: buf[idx]->pop(data) *)
  | QRel (pr : nat) (v : option A).       (* line 531: seqC[idx] = pr+mask+1; None: *data not written *)

  Record st := mkSt {
    preadP : nat; preadC : nat;
    seqP : nat -> nat; seqC : nat -> nat;
    buf : nat -> list A;                  (* contents of buf[i] *)
    thr : nat -> pc;
    tr : list (ev A) }.                   (* trace, never read by the steps *)

  (** init (lines 460-479). *)
  Definition init_st : st :=
    mkSt 0 0 (fun i => i) (fun i => i) (fun _ => []) (fun _ => Rest) [].

  Inductive act :=
  | DoPush (t : nat) (x : A)              (* thread t calls push *)
  | DoPop (t : nat)
  | Run (t : nat).                        (* next step of thread t *)

  Definition goto (s : st) (t : nat) (p : pc) : st :=
    mkSt (preadP s) (preadC s) (seqP s) (seqC s) (buf s) (fupd (thr s) t p) (tr s).
  Definition emit (s : st) (e : ev A) : st :=
    mkSt (preadP s) (preadC s) (seqP s) (seqC s) (buf s) (thr s) (tr s ++ [e]).

  (** push (lines 484-504), pop (lines 510-533). *)
  Definition step (s : st) (a : act) : option st :=
    match a with
    | DoPush t x =>
        match thr s t with Rest => Some (emit (goto s t (PLoad x)) (CallPush t x)) | _ => None end
    | DoPop t =>
        match thr s t with Rest => Some (emit (goto s t QLoad) (CallPop t)) | _ => None end
    | Run t =>
        match thr s t with
        | Rest => None
        | PLoad x => Some (goto s t (PSeq x (preadP s)))
        | PSeq x pw =>
            if pw =? seqP s (pw mod n) then Some (goto s t (PCas x pw))
            else Some (goto s t (PLoad x))
        | PCas x pw =>
            if preadP s =? pw then
              Some (mkSt (pw + 1) (preadC s) (seqP s) (seqC s) (buf s) (fupd (thr s) t (PPush x pw))
                         (tr s ++ [LinPush t]))
            else Some (goto s t (PLoad x))
        | PPush x pw =>
            Some (mkSt (preadP s) (preadC s) (seqP s) (seqC s)
                       (fupd (buf s) (pw mod n) (buf s (pw mod n) ++ [x]))
                       (fupd (thr s) t (PPub pw)) (tr s))
        | PPub pw =>
            Some (mkSt (preadP s) (preadC s) (fupd (seqP s) (pw mod n) (pw + (n - 1) + 1)) (seqC s) (buf s)
                       (fupd (thr s) t Rest) (tr s ++ [RetPush t true]))
        | QLoad => Some (goto s t (QSeq (preadC s)))
        | QSeq pr =>
            if pr =? seqC s (pr mod n) then Some (goto s t (QChk pr)) else Some (goto s t QLoad)
        | QChk pr =>
            if seqP s (pr mod n) <=? pr then Some (emit (goto s t Rest) (RetPop t None))
            else Some (goto s t (QCas pr))
        | QCas pr =>
            if preadC s =? pr then
              Some (mkSt (preadP s) (pr + 1) (seqP s) (seqC s) (buf s) (fupd (thr s) t (QPop pr))
                         (tr s ++ [LinPop t]))
            else Some (goto s t QLoad)
        | QPop pr =>
            match buf s (pr mod n) with
            | [] => Some (goto s t (QRel pr None))
            | v :: b =>
                Some (mkSt (preadP s) (preadC s) (seqP s) (seqC s) (fupd (buf s) (pr mod n) b)
                           (fupd (thr s) t (QRel pr (Some v))) (tr s))
            end
        | QRel pr v =>
            Some (mkSt (preadP s) (preadC s) (seqP s) (fupd (seqC s) (pr mod n) (pr + (n - 1) + 1)) (buf s)
                       (fupd (thr s) t Rest) (tr s ++ [RetPop t v]))
        end
    end.
End Model.
Arguments st : clear implicits.
Arguments pc : clear implicits.
Arguments act : clear implicits.
