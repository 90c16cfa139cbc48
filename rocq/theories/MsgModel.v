(** Who releases what when values travel between distributed groups: the messages and their pool
    (ff/distributed/ff_ddefines.hpp:54-116, ff_messageAllocator.hpp:8-50), the senders' side
    (EmitterAdapter2::forward, ff_dadapters.hpp:132-213; WrapperINOUT::serialize,
    ff_wrappers.hpp:64-105; uBuffer::push, ff_dsenderMTCL.hpp:394-459) and the receivers'
    (handleBatch, ff_dreceiverMTCL.hpp:66-144; CollectorAdapter2::svc, ff_dadapters.hpp:276-325;
    WrapperINOUT::svc, ff_wrappers.hpp:143-197).

    One process.  Every action is what one thread does to one message between two queue operations;
    any interleaving of actions of any number of threads is an execution.  Where messages go is in
    DgrModel; here a message is in the pool, on its way to the sender thread, on its way to a node,
    in a node, or kept for reuse.

    Simplifications: the answers of the user's serialize (ff/node.hpp:1656-1680) and deserialize
    (:1684-1700) are part of the action; a copied payload is a new block.  A task given to
    ff_send_out is not sent again.  The pool may or may not have a message or room. *)
From Coq Require Import List Arith Bool.
From Verif Require Import Base.
Import ListNotations.

(** Memory: a block holding a payload, or a task of the user (with the bytes it lends). *)
Inductive res := Blk (b : nat) | Task (t : nat).

(** What happens to memory, in order.  [Born r o cb sz]: r comes into being, or into the hands of
    the runtime; the user asked for its release with the hook (cb) on owner o and size sz. *)
Inductive how := Free | Hook (owner : option nat) (sz : nat) | Delete | Given.
Inductive ev :=
| Born (r : res) (owner : option nat) (cb : bool) (sz : nat)
| Use (r : res)
| Done (r : res) (h : how).

(** message2_t, ff_ddefines.hpp:76-93. *)
Record msg := mkM { data : option res; size : nat; cleanup : bool; owner : option nat; cb : bool }.
Definition blank : msg := mkM None 0 false None false.

Inductive loc := Unborn | Pool | ToSender | ToNode | Held (zc : bool) | Slot | Gone.

Record st := mkSt {
  fields : nat -> msg;           (* the messages *)
  at_ : nat -> loc;              (* where each is *)
  slot : nat -> option nat;      (* reusableMsg of each wrapper *)
  nextm : nat; nextb : nat; nextt : nat;
  log : list ev }.
Definition init : st := mkSt (fun _ => blank) (fun _ => Unborn) (fun _ => None) 0 0 0 [].

(** serializedBuffer_t, ff_ddefines.hpp:63-74 (cereal: copied, no hook, ff_ddefines.hpp:95-100). *)
Record ser := mkSer { s_size : nat; s_copied : bool; s_owner : option nat; s_cb : bool }.

Section Model.
  Variable T : nat.              (* SINGLE_SEND_SIZE_THRESHOLD *)
  Variable limit : nat.          (* sizeLimit of the batch buffers *)
  Variable batch1 : bool.        (* batchingLimit == 1 *)

  Definition emit (s : st) (l : list ev) : st :=
    mkSt (fields s) (at_ s) (slot s) (nextm s) (nextb s) (nextt s) (log s ++ l).
  Definition put (s : st) (m : nat) (c : msg) (p : loc) : st :=
    mkSt (fupd (fields s) m c) (fupd (at_ s) m p) (slot s) (nextm s) (nextb s) (nextt s) (log s).
  Definition set_slot (s : st) (w : nat) (o : option nat) : st :=
    mkSt (fields s) (at_ s) (fupd (slot s) w o) (nextm s) (nextb s) (nextt s) (log s).
  Definition new_block (s : st) : st := mkSt (fields s) (at_ s) (slot s) (nextm s) (S (nextb s)) (nextt s) (log s).
  Definition new_task (s : st) : st := mkSt (fields s) (at_ s) (slot s) (nextm s) (nextb s) (S (nextt s)) (log s).

  (** allocateMessage, ff_messageAllocator.hpp:24-28: one from the pool, or a new one. *)
  Definition alloc (s : st) (p : option nat) : option (nat * st) :=
    match p with
    | Some m => match at_ s m with Pool => Some (m, s) | _ => None end
    | None => Some (nextm s, mkSt (fupd (fields s) (nextm s) blank) (at_ s) (slot s) (S (nextm s)) (nextb s) (nextt s) (log s))
    end.
  (** cleanContent, ff_ddefines.hpp:102-114. *)
  Definition clean_ev (c : msg) : list ev :=
    match data c with
    | Some r => if cleanup c then [Done r (if cb c then Hook (owner c) (size c) else Free)] else []
    | None => []
    end.
  Definition clean (c : msg) : msg := blank.
  (** releaseMessage, ff_messageAllocator.hpp:30-34; [full]: the pool took no more; a delete
      (~message2_t, ff_ddefines.hpp:93) is the same with [full]. *)
  Definition release (s : st) (m : nat) (full : bool) : st :=
    emit (put s m (clean (fields s m)) (if full then Gone else Pool)) (clean_ev (fields s m)).

  (** serializeF, ff/node.hpp:1657-1680, and cleanup = true next to it: the message's fields, and
      what happened. *)
  Definition ser_data (s : st) (a : ser) : res := if s_copied a then Blk (nextb s) else Task (nextt s).
  Definition ser_msg (s : st) (a : ser) (c : msg) : msg := mkM (Some (ser_data s a)) (s_size a) true (s_owner a) (s_cb a).
  Definition ser_ev (s : st) (a : ser) : list ev :=
    Use (Task (nextt s)) :: (if s_copied a then [Born (Blk (nextb s)) (s_owner a) (s_cb a) (s_size a)] else []).
  (** The task as the runtime gets it. *)
  Definition task_born (s : st) (a : ser) : ev :=
    if s_copied a then Born (Task (nextt s)) None false 0 else Born (Task (nextt s)) (s_owner a) (s_cb a) (s_size a).

  (** Hand m to the routing worker; freetaskF if the payload was copied, ff_dadapters.hpp:209-210,
      180-182, ff_wrappers.hpp:96-100.  (The message leaves before the task is freed; the two share
      nothing.) *)
  Definition ship (s : st) (m : nat) (a : ser) : st :=
    emit (put s m (fields s m) ToSender) (if s_copied a then [Done (Task (nextt s)) Delete] else []).
  Definition serialize (s : st) (m : nat) (a : ser) : st :=
    emit (put s m (ser_msg s a (fields s m)) (at_ s m)) (ser_ev s a).
  (** The identifiers this call used up. *)
  Definition finish_send (s : st) : st := new_task (new_block s).

  (** The loop of forward without destination, ff_dadapters.hpp:155-187.  Each round: did a local
      queue take the task; if not, did the queue of the routing worker take the message.  [have]:
      msg is set. *)
  Fixpoint any_loop (s : st) (m : nat) (a : ser) (have full : bool) (rounds : list (bool * bool)) : option st :=
    match rounds with
    | [] => None
    | (true, _) :: _ =>
        let s1 := emit s [Done (Task (nextt s)) Given] in
        Some (if have
              then let c := fields s1 m in
                   release (put s1 m (if s_copied a then c else mkM (data c) (size c) false (owner c) (cb c)) (at_ s1 m)) m full
              else s1)
    | (false, r) :: rest =>
        let s1 := if have then s else serialize s m a in
        if r then Some (ship s1 m a) else any_loop s1 m a true full rest
    end.

  Inductive act :=
  | SendTo (p : option nat) (a : ser)
  | SendLocal
  | SendAny (p : option nat) (a : ser) (full : bool) (rounds : list (bool * bool))
  | SendW (w : nat) (p : option nat) (a : ser)
  | Ctl (p : option nat) (out : bool)
  | Xmit (m : nat) (full : bool)
  | Arrive (p : option nat) (sz : nat)
  | Deser (m : nat) (copied : bool)
  | Fin (m : nat) (w : option nat) (full : bool)
  | Eat (m : nat) (full : bool)
  | Lost (m : nat) (full : bool)
  | Quit (w : nat).

  (** uBuffer::push, ff_dsenderMTCL.hpp:400-456: the payload is copied or sent, then the message is
      released; a payload above the threshold is sent on its own, after m->size was set to 0
      (:405-408).  A logical end of stream and a flush carry nothing (:343-352). *)
  Definition sent_size (c : msg) : nat :=
    if (batch1 || (limit <=? size c)) && (T <? size c) then 0 else size c.
  Definition xmit_use (c : msg) : list ev :=
    match data c with Some r => if 0 <? size c then [Use r] else [] | None => [] end.

  Definition step (s : st) (x : act) : option st :=
    match x with
    | SendTo p a =>                              (* ff_dadapters.hpp:202-211 *)
        match alloc s p with
        | Some (m, s1) => Some (finish_send (ship (serialize (emit s1 [task_born s1 a]) m a) m a))
        | None => None
        end
    | SendLocal =>                               (* ff_dadapters.hpp:189-193 *)
        Some (new_task (emit s [Born (Task (nextt s)) None false 0; Done (Task (nextt s)) Given]))
    | SendAny p a full rounds =>                 (* ff_dadapters.hpp:152-187 *)
        match alloc s p with
        | Some (m, s1) => 
            (* the message is only taken when the first round finds no local queue *)
            match rounds with
            | (true, _) :: _ => option_map finish_send (any_loop (emit s [task_born s a]) m a false full rounds)
            | _ => option_map finish_send (any_loop (emit s1 [task_born s1 a]) m a false full rounds)
            end
        | None => None
        end
    | SendW w p a =>                             (* ff_wrappers.hpp:77-102 *)
        match slot s w with
        | Some m => let s1 := set_slot s w None in
                    Some (finish_send (ship (serialize (emit s1 [task_born s1 a]) m a) m a))
        | None =>
            match alloc s p with
            | Some (m, s1) => Some (finish_send (ship (serialize (emit s1 [task_born s1 a]) m a) m a))
            | None => None
            end
        end
    | Ctl p out =>                               (* make_logical_EOS, make_flush, ff_messageAllocator.hpp:36-48 *)
        match alloc s p with
        | Some (m, s1) => Some (put s1 m (fields s1 m) (if out then ToSender else ToNode))
        | None => None
        end
    | Xmit m full =>
        match at_ s m with
        | ToSender => let c := fields s m in
                 Some (release (put (emit s (xmit_use c)) m (mkM (data c) (sent_size c) (cleanup c) (owner c) (cb c)) ToSender) m full)
        | _ => None
        end
    | Arrive p sz =>                             (* ff_dreceiverMTCL.hpp:80-97, 116-131: size, data, cleanup *)
        if 0 <? sz then
          match alloc s p with
          | Some (m, s1) =>
              let c := fields s1 m in
              Some (new_block (put (emit s1 [Born (Blk (nextb s1)) None false sz]) m
                                   (mkM (Some (Blk (nextb s1))) sz true (owner c) (cb c)) ToNode))
          | None => None
          end
        else None
    | Deser m copied =>                          (* ff_dadapters.hpp:305-306, ff_wrappers.hpp:174-178 *)
        match at_ s m with
        | ToNode => let c := fields s m in
                if 0 <? size c then
                  match data c with
                  | Some r => Some (emit (put s m c (Held (negb copied))) (Use r :: if copied then [] else [Done r Given]))
                  | None => None
                  end
                else None
        | _ => None
        end
    | Fin m w full =>                            (* ff_dadapters.hpp:307-308, ff_wrappers.hpp:179-187 *)
        match at_ s m with
        | Held zc =>
            let c := fields s m in
            let s1 := put s m (mkM (data c) (size c) (if zc then false else cleanup c) (owner c) (cb c)) (at_ s m) in
            match w with
            | None => Some (release s1 m full)
            | Some w =>
                match slot s w with
                | Some _ => Some (release s1 m full)
                | None => Some (set_slot (emit (put s1 m (clean (fields s1 m)) Slot) (clean_ev (fields s1 m))) w (Some m))
                end
            end
        | _ => None
        end
    | Eat m full =>                              (* ff_dadapters.hpp:290-301, ff_wrappers.hpp:149-171 *)
        match at_ s m with
        | ToNode => if size (fields s m) =? 0 then Some (release s m full) else None
        | _ => None
        end
    | Lost m full =>                             (* ff_dadapters.hpp:385-388 *)
        match at_ s m with ToNode => Some (release s m full) | _ => None end
    | Quit w =>                                  (* ~WrapperINOUT, ff_wrappers.hpp:199-201 *)
        match slot s w with Some m => Some (set_slot (release s m true) w None) | None => None end
    end.
End Model.
