(** The parallel graph search, ff/gsearch.hpp: a farm without collector whose workers send what
    they return back to the emitter.  One search is one run of the farm:
    - Emitter::svc, ff/gsearch.hpp:126-161, and Worker::svc, ff/gsearch.hpp:88-97;
    - the loop of the emitter's thread, ff/lb.hpp:995-1103 (master_worker, no input channel), with
      push_eos (ff/lb.hpp:134-143) and absorb_eos (ff/lb.hpp:446-452);
    - the loop of a worker's thread, ff/node.hpp:1434-1514 (thWorker::svc);
    - search, ff/gsearch.hpp:210-230 (one result) and 233-253 (all results): the flag and the
      results are cleared, the queues are emptied, the farm runs until every thread is frozen, and
      the results of the workers are put together.

    Simplifications:
    - a channel is an unbounded FIFO (properties C07, C57): ff_farm ignores its argument
      [fixedsize], ff/farm.hpp:791-798;
    - the worker that gets the next node is arbitrary (the code takes them in round-robin order),
      and the feedback channel the emitter reads next is arbitrary (collect_task,
      ff/lb.hpp:300-360, polls them in order);
    - the counter of the emitter is an unbounded integer (the code: unsigned long; it never
      exceeds the number of nodes sent);
    - a channel whose mark was read is not polled any more (ff/lb.hpp:1036-1051 keeps polling
      channel 0 and those of frozen workers: nothing more arrives on them). *)
From Coq Require Import List Arith ZArith Bool.
From Verif Require Import Base.
Import ListNotations.
Open Scope Z_scope.

Inductive msg := Item (n : nat) | Eos.

(** The emitter: before its first svc(NULL); sending the successors of the start node;
    waiting; sending the successors of a node that came back ([k]: nodes since the flag was last
    read); in absorb_eos, at worker [i]; ended; stopped by a failed assertion or an exception. *)
Inductive epc :=
| EBoot | EFirst (rest : list nat) | EIdle | ESend (t : nat) (rest : list nat) (k : nat)
| EAbsorb (i : nat) | EEnd | EAbort.

(** A worker: waiting; with a node, before svc reads the flag; after found.push_back; ended. *)
Inductive wpc := WIdle | WHave (t : nat) | WHit (t : nat) | WDone.

Record gst := mkG {
  emt : epc;
  mask : nat -> bool;          (* std::bitset<N>, ff/gsearch.hpp:168 *)
  cnt : Z;                     (* counter, ff/gsearch.hpp:166 *)
  left : nat;                  (* nw, ff/lb.hpp:996: channels that did not end *)
  inq : nat -> list msg;       (* emitter to worker *)
  fbq : nat -> list msg;       (* worker to emitter *)
  wrk : nat -> wpc;
  fnd : nat -> list nat;       (* found, ff/gsearch.hpp:102 *)
  flag : bool;                 (* foundflag, ff/gsearch.hpp:93, 103, 163 *)
  hsent : list nat;            (* history: nodes sent to the workers *)
  hexp : list nat }.           (* history: nodes whose successors were all looked at *)

Section Search.
  Variable out : nat -> list nat.       (* out_nodes, ff/gsearch.hpp:55-57 *)
  Variable ident : nat -> nat.          (* getId, ff/gsearch.hpp:64 *)
  Variable hit : nat -> bool.           (* operator== with the node to search, ff/gsearch.hpp:50-52 *)
  Variable bits : nat.                  (* the template argument N *)
  Variable all : bool.
  Variable nw : nat.

  Definition g_init : gst :=
    mkG EBoot (fun _ => false) 0 nw (fun _ => []) (fun _ => []) (fun _ => WIdle) (fun _ => []) false [] [].

  Definition set_emt (s : gst) (e : epc) : gst :=
    mkG e (mask s) (cnt s) (left s) (inq s) (fbq s) (wrk s) (fnd s) (flag s) (hsent s) (hexp s).

  (** ff_send_out with the counter and the mask, ff/gsearch.hpp:129-131, 135-137, 154-156;
      mask.set and mask.test throw std::out_of_range for an identifier beyond the mask. *)
  Definition send (s : gst) (n w : nat) (e : epc) : gst :=
    mkG e (fupd (mask s) (ident n) true) (cnt s + 1) (left s)
        (fupd (inq s) w (inq s w ++ [Item n])) (fbq s) (wrk s) (fnd s) (flag s) (hsent s ++ [n]) (hexp s).

  (** The emitter returns NULL: push_eos, then absorb_eos (the thread is to be frozen, so
      isfrozen() holds), ff/lb.hpp:1083-1095. *)
  Definition finish (s : gst) : gst :=
    mkG (EAbsorb 0) (mask s) (cnt s) (left s)
        (fun w => if (w <? nw)%nat then inq s w ++ [Eos] else inq s w) (fbq s) (wrk s) (fnd s) (flag s)
        (hsent s) (hexp s).

  Definition expanded (s : gst) (t : nat) : gst :=
    mkG (emt s) (mask s) (cnt s) (left s) (inq s) (fbq s) (wrk s) (fnd s) (flag s) (hsent s) (hexp s ++ [t]).

  Inductive act :=
  | Start (w : nat)   (* svc(NULL) up to the send of the start node *)
  | Emit (w : nat)                      (* the emitter looks at one successor (sent to worker w) *)
  | Back (w : nat)                      (* the emitter reads the feedback channel of w *)
  | Absorb
  | Take (w : nat)                      (* worker w reads its channel *)
  | Test (w : nat)                      (* worker w: the flag and the comparison *)
  | Mark (w : nat).                     (* worker w sets the flag and returns *)

  Definition to_emitter (s : gst) (w : nat) (m : msg) (p : wpc) (f : bool) : gst :=
    mkG (emt s) (mask s) (cnt s) (left s) (inq s) (fupd (fbq s) w (fbq s w ++ [m])) (fupd (wrk s) w p)
        (fnd s) f (hsent s) (hexp s).

  Definition gstep (st : option nat) (s : gst) (a : act) : option gst :=
    match a with
    | Start w =>
        match emt s with
        | EBoot =>
            match st with
            | None => Some (finish s)                                    (* ff/gsearch.hpp:128 *)
            | Some n =>
                if (w <? nw)%nat then
                  if (ident n <? bits)%nat then Some (send s n w (EFirst (out n)))
                  else Some (set_emt s EAbort)
                else None
            end
        | _ => None
        end
    | Emit w =>
        match emt s with
        | EFirst [] => Some (set_emt s EIdle)
        | EFirst (n :: r) =>
            if (w <? nw)%nat then
              if (ident n <? bits)%nat then Some (send s n w (EFirst r)) else Some (set_emt s EAbort)
            else None
        | ESend t [] k =>
            if cnt s =? 0 then Some (finish (expanded s t))              (* ff/gsearch.hpp:159 *)
            else if negb all && flag s then Some (finish (expanded s t)) (* ff/gsearch.hpp:160 *)
            else Some (set_emt (expanded s t) EIdle)
        | ESend t (n :: r) k =>
            if (w <? nw)%nat then
              if negb all && (S k =? 256)%nat && flag s then Some (finish s)
              else let k' := if all then k else if (S k =? 256)%nat then O else S k in
                   if (ident n <? bits)%nat then
                     if mask s (ident n) then Some (set_emt s (ESend t r k'))
                     else Some (send s n w (ESend t r k'))
                   else Some (set_emt s EAbort)
            else None
        | _ => None
        end
    | Back w =>
        match emt s, fbq s w with
        | EIdle, m :: q =>
            if (w <? nw)%nat then
              let s' e c l := mkG e (mask s) c l (inq s) (fupd (fbq s) w q) (wrk s) (fnd s) (flag s)
                                  (hsent s) (hexp s) in
              match m with
              | Item t =>
                  if negb all && flag s then Some (finish (s' EIdle (cnt s - 1) (left s)))
                  else Some (s' (ESend t (out t) 0%nat) (cnt s - 1) (left s))
              | Eos => Some (s' (if (left s =? 1)%nat then EEnd else EIdle) (cnt s) (left s - 1)%nat)
              end
            else None
        | _, _ => None
        end
    | Absorb =>
        match emt s with
        | EAbsorb i =>
            match fbq s i with
            | [] => None
            | m :: q =>
                let s' e := mkG e (mask s) (cnt s) (left s) (inq s) (fupd (fbq s) i q) (wrk s) (fnd s)
                                (flag s) (hsent s) (hexp s) in
                match m with
                | Item _ => Some (s' EAbort)                             (* the assertion, ff/lb.hpp:450 *)
                | Eos => Some (s' (if (S i =? nw)%nat then EEnd else EAbsorb (S i)))
                end
            end
        | _ => None
        end
    | Take w =>
        match wrk s w, inq s w with
        | WIdle, m :: q =>
            if (w <? nw)%nat then
              let s' := mkG (emt s) (mask s) (cnt s) (left s) (fupd (inq s) w q) (fbq s) (wrk s) (fnd s)
                            (flag s) (hsent s) (hexp s) in
              match m with
              | Item t => Some (mkG (emt s) (mask s) (cnt s) (left s) (fupd (inq s) w q) (fbq s)
                                    (fupd (wrk s) w (WHave t)) (fnd s) (flag s) (hsent s) (hexp s))
              | Eos => Some (to_emitter s' w Eos WDone (flag s))
              end
            else None
        | _, _ => None
        end
    | Test w =>
        match wrk s w with
        | WHave t =>
            if negb all && flag s then Some (to_emitter s w Eos WDone (flag s))   (* ff/gsearch.hpp:89 *)
            else if hit t then
              Some (mkG (emt s) (mask s) (cnt s) (left s) (inq s) (fbq s) (fupd (wrk s) w (WHit t))
                        (fupd (fnd s) w (fnd s w ++ [t])) (flag s) (hsent s) (hexp s))
            else Some (to_emitter s w (Item t) WIdle (flag s))
        | _ => None
        end
    | Mark w =>
        match wrk s w with
        | WHit t => if all then Some (to_emitter s w (Item t) WIdle true)
                    else Some (to_emitter s w Eos WDone true)                     (* ff/gsearch.hpp:93-94 *)
        | _ => None
        end
    end.

  (** farm->wait_freezing() returned: every thread ended its run. *)
  Definition returned (s : gst) : Prop := emt s = EEnd /\ forall w, (w < nw)%nat -> wrk s w = WDone.

  (** What search puts into [result], ff/gsearch.hpp:243-251 (all results), and what it returns. *)
  Definition results (s : gst) : list nat := flat_map (fnd s) (seq 0 nw).
  (** One result: the last one of the first worker that has one, ff/gsearch.hpp:220-228. *)
  Definition one_result (s : gst) : option nat :=
    match filter (fun l => negb (length l =? 0)%nat) (map (fnd s) (seq 0 nw)) with
    | l :: _ => Some (last l 0%nat)
    | [] => None
    end.
End Search.
