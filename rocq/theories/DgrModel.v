(** The distributed runtime at message level: groups (processes) of one level, each with a
    receiver, a router (SquareBox), the wrapped nodes and a sender (ff/distributed/ff_dgroup.hpp:
    228-298, 392-400).

    - ff/distributed/ff_wrappers.hpp:43-211, WrapperINOUT: what a node sends becomes messages on
      the queue to the sender, logical end-of-stream marks are counted per source;
    - ff/distributed/ff_dsenderMTCL.hpp:119-159, 162-392, 394-498: choice of the connection,
      batching (uBuffer::push, flush), flow control with acknowledgements (build flag DFF_ACK);
    - ff/distributed/ff_dreceiverMTCL.hpp:66-140 (handleBatch);
    - ff/distributed/ff_dadapters.hpp:331-426, SquareBox.

    Simplifications:
    - user nodes are arbitrary: at any moment a running node may send a value to one of its
      outputs or to any of them, ask for a flush, or end;
    - the byte format of batches is property C37's, a batch is here the list of its messages; a
      connection delivers the batches in order, reliably; queues inside a group are unbounded
      (the default);
    - which of the possible connections the sender chooses for a message without destination
      (round robin, or the fullest buffer), and which local node the router chooses, is arbitrary;
    - the receiver takes a batch when it has routed the previous one (in the code a second one
      may be in reception, batches of one connection are handled in order, lines 252-262);
    - no group sends to itself, no feedback channels other than through [urgent]. *)
From Coq Require Import List Arith Bool.
From Verif Require Import Base.
Import ListNotations.

Section Model.
  Context {X : Type}.

  (** message2_t, ff/distributed/ff_ddefines.hpp:76-122: source, destination (None is -1) and
      content.  [Eos]: made by make_logical_EOS, size 0.  [Flush]: made by make_flush, dest -2. *)
  Inductive body := Data (x : X) | Eos | Flush.
  Record msg := mkMsg { src : nat; dest : option nat; cont : body }.

  (** [n] nodes; the logical channels between them, in order (channelsDictionary); the group of
      each node; the size of a serialized value; messages of feedback channels; batch size and
      byte limit; acknowledgements compiled in?; messageOTF. *)
  Variables (n : nat) (edges : list (nat * nat)) (grp : nat -> nat) (size : X -> nat)
            (urgent : msg -> bool) (batch limit : nat) (ack : bool) (otf : nat).

  Definition mem (x : nat) (l : list nat) : bool := existsb (Nat.eqb x) l.
  (** Egress and ingress channels of a node. *)
  Definition succ (u : nat) : list nat := map snd (filter (fun e => fst e =? u) edges).
  Definition pred (v : nat) : list nat := map fst (filter (fun e => snd e =? v) edges).
  (** The nodes of group h, in order (bucketsDistribution). *)
  Definition members (h : nat) : list nat := filter (fun v => grp v =? h) (seq 0 n).
  (** src2PossibleDestConnID, ff_dsenderMTCL.hpp:321-325; a connection is named by its group. *)
  Definition conns (u : nat) : list nat := nodup Nat.eq_dec (map grp (succ u)).
  (** dest2ConnID, lines 317-318: is node d a destination of group g? *)
  Definition known (g d : nat) : bool := existsb (fun e => (grp (fst e) =? g) && (snd e =? d)) edges.
  (** localLBMap, ff_dadapters.hpp:355-368: the nodes of group h that have u as a source. *)
  Definition targets (h u : nat) : list nat := filter (fun v => mem u (pred v)) (members h).

  Definition bsize (b : body) : nat := match b with Data x => size x | _ => 0 end.

  Record st := mkSt {
    outq : nat -> list msg;                  (* wrapped node -> sender of its group *)
    closed : nat -> bool;                    (* the node has ended its output *)
    alive : nat -> bool;                     (* the thread of the wrapper still reads its input *)
    buf : nat -> nat -> list msg;            (* sender g: batch in preparation for connection h *)
    pend : nat -> list (nat * list msg);     (* sender g: batches of the current call still to be sent *)
    choosing : nat -> option msg;            (* sender g: in waitAckFromAny with this message *)
    net : nat -> nat -> list (list msg);     (* batches on the connection from g to h *)
    credit : nat -> nat -> nat;              (* handlerCounters *)
    acks : nat -> nat -> nat;                (* acknowledgements on their way back to g from h *)
    rb : nat -> list msg;                    (* receiver h: messages of the current batch *)
    lq : nat -> list msg;                    (* input queue of a wrapped node *)
    ended : nat -> list nat;                 (* wrapper: sources with eos_received *)
    aborted : bool;                          (* some process called abort() *)
    lost : nat;                              (* "LOST MESSAGE!!!!!", ff_dadapters.hpp:386 *)
    sent : nat -> list (option nat * X);     (* history: what a node sent before its end *)
    recv : nat -> list (nat * option X) }.   (* history: values and ends of stream handed to a node *)

  Definition init_st : st :=
    mkSt (fun _ => []) (fun _ => false) (fun _ => true) (fun _ _ => []) (fun _ => []) (fun _ => None)
         (fun _ _ => []) (fun _ _ => otf) (fun _ _ => 0) (fun _ => []) (fun _ => []) (fun _ => [])
         false 0 (fun _ => []) (fun _ => []).

  Inductive act :=
  | SendTo (u j : nat) (x : X)               (* ff_send_out_to(x, j) *)
  | SendAny (u : nat) (x : X)                (* ff_send_out(x), or a value returned by svc *)
  | AskFlush (u : nat)                       (* ff_send_out(FLUSH) *)
  | End (u : nat)                            (* svc returns EOS *)
  | EosTo (u j : nat)                        (* ff_send_out_to(EOS, j) *)
  | Take (u c : nat)                         (* the sender of u's group takes a message of u *)
  | Emit (g : nat)                           (* sender g sends its next batch *)
  | AckRead (g h : nat)                      (* waitAckFrom reads an acknowledgement of h *)
  | AckAny (g h : nat)                       (* waitAckFromAny *)
  | Deliver (g h : nat)                      (* receiver h takes a batch of group g *)
  | Route (h v : nat)                        (* router h handles its next message *)
  | Recv (v : nat).                          (* wrapper v handles its next message *)

  Definition fupd2 {B} (f : nat -> nat -> B) (i j : nat) (b : B) : nat -> nat -> B := fupd f i (fupd (f i) j b).

  Definition with_outq (s : st) (u : nat) (m : msg) : st :=
    mkSt (fupd (outq s) u (outq s u ++ [m])) (closed s) (alive s) (buf s) (pend s) (choosing s) (net s)
         (credit s) (acks s) (rb s) (lq s) (ended s) (aborted s) (lost s) (sent s) (recv s).
  Definition with_sent (s : st) (u : nat) (p : option nat * X) : st :=
    mkSt (outq s) (closed s) (alive s) (buf s) (pend s) (choosing s) (net s) (credit s) (acks s) (rb s) (lq s)
         (ended s) (aborted s) (lost s) (fupd (sent s) u (sent s u ++ [p])) (recv s).
  Definition with_closed (s : st) (u : nat) : st :=
    mkSt (outq s) (fupd (closed s) u true) (alive s) (buf s) (pend s) (choosing s) (net s) (credit s) (acks s)
         (rb s) (lq s) (ended s) (aborted s) (lost s) (sent s) (recv s).

  (** uBuffer::push, ff_dsenderMTCL.hpp:394-459, with flush, 461-498: the new content of the buffer
      and the batches to send. *)
  Definition push (b : list msg) (m : msg) : list msg * list (list msg) :=
    if (batch =? 1) || (limit <=? bsize (cont m)) then
      ([], match b with [] => [[m]] | _ => [b; [m]] end)
    else
      let b' := b ++ [m] in
      if (length b' =? batch) || (limit <=? list_sum (map (fun m => bsize (cont m)) b')) ||
         (bsize (cont m) =? 0) || urgent m
      then ([], [b']) else (b', []).

  (** Sender g pushes m to the connections hs. *)
  Definition push_all (s : st) (g : nat) (hs : list nat) (m : msg) : st :=
    fold_left (fun s h =>
      let (b, bs) := push (buf s g h) m in
      mkSt (outq s) (closed s) (alive s) (fupd2 (buf s) g h b)
           (fupd (pend s) g (pend s g ++ map (pair h) bs)) (choosing s) (net s) (credit s) (acks s) (rb s) (lq s)
           (ended s) (aborted s) (lost s) (sent s) (recv s)) hs s.
  Definition flush_all (s : st) (g : nat) (hs : list nat) : st :=
    fold_left (fun s h =>
      match buf s g h with
      | [] => s
      | b => mkSt (outq s) (closed s) (alive s) (fupd2 (buf s) g h [])
                  (fupd (pend s) g (pend s g ++ [(h, b)])) (choosing s) (net s) (credit s) (acks s) (rb s) (lq s)
                  (ended s) (aborted s) (lost s) (sent s) (recv s)
      end) hs s.

  (** handleBatch, ff_dreceiverMTCL.hpp:75-137: a message of size 0 becomes a logical
      end-of-stream without destination. *)
  Definition unpack (m : msg) : msg :=
    if bsize (cont m) =? 0 then mkMsg (src m) None Eos else m.

  Definition is_flush (m : msg) : bool := match cont m with Flush => true | _ => false end.

  Definition step (s : st) (a : act) : option st :=
    if aborted s then None else
    match a with
    (* WrapperINOUT::serialize, ff_wrappers.hpp:65-110; nothing is sent by a sink (line 66); what
       is sent after the end (line 69) is never read by the sender *)
    | SendTo u j x =>
        match nth_error (succ u) j with
        | Some v =>
            if alive s u then
              if closed s u then Some s
              else Some (with_sent (with_outq s u (mkMsg u (Some v) (Data x))) u (Some v, x))
            else None
        | None => None
        end
    | SendAny u x =>
        if alive s u then
          match succ u with
          | [] => Some s
          | _ => if closed s u then Some s
                 else Some (with_sent (with_outq s u (mkMsg u None (Data x))) u (None, x))
          end
        else None
    | AskFlush u =>
        if alive s u then
          match succ u with
          | [] => Some s
          | _ => if closed s u then Some s else Some (with_outq s u (mkMsg u None Flush))
          end
        else None
    | End u =>
        if alive s u && negb (closed s u) then
          match succ u with
          | [] => Some s
          | _ => Some (with_closed (with_outq s u (mkMsg u None Eos)) u)
          end
        else None
    | EosTo u j =>
        if alive s u && (j <? length (succ u)) then
          if closed s u then Some s else Some (with_outq s u (mkMsg u (Some j) Eos))
        else None
    (* ff_dsenderMTCL2::svc, ff_dsenderMTCL.hpp:333-355; c: the connection chosen *)
    | Take u c =>
        let g := grp u in
        match outq s u, pend s g, choosing s g with
        | m :: r, [], None =>
            let s' := mkSt (fupd (outq s) u r) (closed s) (alive s) (buf s) (pend s) (choosing s) (net s)
                           (credit s) (acks s) (rb s) (lq s) (ended s) (aborted s) (lost s) (sent s) (recv s) in
            if is_flush m then Some (flush_all s' g (conns u))
            else
              match dest m with
              | Some d =>
                  if known g d then Some (push_all s' g [grp d] m)
                  else Some (mkSt (outq s) (closed s) (alive s) (buf s) (pend s) (choosing s) (net s) (credit s)
                                  (acks s) (rb s) (lq s) (ended s) true (lost s) (sent s) (recv s))
              | None =>
                  if bsize (cont m) =? 0 then Some (push_all s' g (conns u) (mkMsg u None Eos))
                  else if mem c (conns u) then
                    (* getMostFilledBuffer, lines 256-286 *)
                    if ack && (credit s g c =? 0) && match buf s g c with [] => true | _ => false end
                    then Some (mkSt (outq s') (closed s) (alive s) (buf s) (pend s) (fupd (choosing s) g (Some m))
                                    (net s) (credit s) (acks s) (rb s) (lq s) (ended s) (aborted s) (lost s)
                                    (sent s) (recv s))
                    else Some (push_all s' g [c] m)
                  else None
              end
        | _, _, _ => None
        end
    (* lines 418-446, 473-489 *)
    | Emit g =>
        match pend s g with
        | (h, b) :: r =>
            if ack && (credit s g h =? 0) then None else
            Some (mkSt (outq s) (closed s) (alive s) (buf s) (fupd (pend s) g r) (choosing s)
                       (fupd2 (net s) g h (net s g h ++ [b]))
                       (if ack then fupd2 (credit s) g h (credit s g h - 1) else credit s)
                       (acks s) (rb s) (lq s) (ended s) (aborted s) (lost s) (sent s) (recv s))
        | [] => None
        end
    (* lines 230-254 *)
    | AckRead g h =>
        match pend s g with
        | (h', _) :: _ =>
            if (credit s g h' =? 0) && (0 <? acks s g h) then
              Some (mkSt (outq s) (closed s) (alive s) (buf s) (pend s) (choosing s) (net s)
                         (fupd2 (credit s) g h (S (credit s g h))) (fupd2 (acks s) g h (acks s g h - 1))
                         (rb s) (lq s) (ended s) (aborted s) (lost s) (sent s) (recv s))
            else None
        | [] => None
        end
    (* lines 203-228, 283-284: whichever connection acknowledges gets the message *)
    | AckAny g h =>
        match choosing s g with
        | Some m =>
            if 0 <? acks s g h then
              Some (push_all (mkSt (outq s) (closed s) (alive s) (buf s) (pend s) (fupd (choosing s) g None) (net s)
                                   (fupd2 (credit s) g h (S (credit s g h))) (fupd2 (acks s) g h (acks s g h - 1))
                                   (rb s) (lq s) (ended s) (aborted s) (lost s) (sent s) (recv s)) g [h] m)
            else None
        | None => None
        end
    (* ff_dreceiverMTCL.hpp:66-140 *)
    | Deliver g h =>
        match net s g h, rb s h with
        | b :: r, [] =>
            Some (mkSt (outq s) (closed s) (alive s) (buf s) (pend s) (choosing s) (fupd2 (net s) g h r) (credit s)
                       (if ack then fupd2 (acks s) g h (S (acks s g h)) else acks s)
                       (fupd (rb s) h (map unpack b)) (lq s) (ended s) (aborted s) (lost s) (sent s) (recv s))
        | _, _ => None
        end
    (* SquareBox::svc, ff_dadapters.hpp:377-425; v: the local node chosen *)
    | Route h v =>
        match rb s h with
        | m :: r =>
            let put q k := mkSt (outq s) (closed s) (alive s) (buf s) (pend s) (choosing s) (net s) (credit s) (acks s)
                                (fupd (rb s) h r) q (ended s) (aborted s) k (sent s) (recv s) in
            match dest m with
            | None =>
                match targets h (src m) with
                | [] => Some (put (lq s) (S (lost s)))
                | ts =>
                    if bsize (cont m) =? 0
                    then Some (put (fold_left (fun q v => fupd q v (q v ++ [mkMsg (src m) None Eos])) ts (lq s)) (lost s))
                    else if mem v ts then Some (put (fupd (lq s) v (lq s v ++ [m])) (lost s)) else None
                end
            | Some d =>
                let w := if mem d (members h) then d else last (members h) d in
                Some (put (fupd (lq s) w (lq s w ++ [m])) (lost s))
            end
        | [] => None
        end
    (* WrapperINOUT::svc, ff_wrappers.hpp:146-194 *)
    | Recv v =>
        match lq s v with
        | m :: r =>
            if alive s v then
              let s' o c a e p := mkSt o c a (buf s) (pend s) (choosing s) (net s) (credit s) (acks s) (rb s)
                                       (fupd (lq s) v r) e (aborted s) (lost s) (sent s)
                                       (fupd (recv s) v (recv s v ++ p)) in
              match (if bsize (cont m) =? 0 then None else match cont m with Data x => Some x | _ => None end) with
              | Some x => Some (s' (outq s) (closed s) (alive s) (ended s) [(src m, Some x)])
              | None =>
                  if mem (src m) (ended s v) then Some (s' (outq s) (closed s) (alive s) (ended s) [])
                  else
                    let e := src m :: ended s v in
                    if length (pred v) <=? length e then
                      match succ v, closed s v with
                      | _ :: _, false =>
                          Some (s' (fupd (outq s) v (outq s v ++ [mkMsg v None Eos])) (fupd (closed s) v true)
                                   (fupd (alive s) v false) (fupd (ended s) v e) [(src m, None)])
                      | _, _ => Some (s' (outq s) (closed s) (fupd (alive s) v false) (fupd (ended s) v e) [(src m, None)])
                      end
                    else Some (s' (outq s) (closed s) (alive s) (fupd (ended s) v e) [(src m, None)])
              end
            else None
        | [] => None
        end
    end.
End Model.
Arguments body : clear implicits.
Arguments msg : clear implicits.
Arguments st : clear implicits.
Arguments act : clear implicits.
