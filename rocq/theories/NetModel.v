(** A network of node threads connected by channels, in any topology: what pipelines, farms,
    all-to-alls and their nestings become once their threads run.  It models
    - the loop of a standard node, ff/node.hpp:1438-1514 (thWorker::svc);
    - the loop of a node with several output channels, ff/lb.hpp:899-1005 (ff_loadbalancer::svc,
      with one input channel, with several, and with feedback channels), its scheduling
      functions schedule_task (ff/lb.hpp:237-293), ff_send_out_to (ff/lb.hpp:734-773),
      broadcast_task (ff/lb.hpp:780-817) and push_eos (ff/lb.hpp:134-143);
    - the loop of a node with several input channels, ff/gt.hpp:563-660 (ff_gatherer::svc) and
      gather_task (ff/gt.hpp:201-217).

    Simplifications:
    - a channel is an atomic FIFO, with a capacity or unbounded (properties C01, C03, C07, C08);
      a send that finds it full waits (the default number of retries is 2^64-1);
    - one call of svc (or of eosnotify) is one step; the values it sends are then pushed one by
      one, in order, before the node reads its next input;
    - which non-empty input channel a node reads next is arbitrary (the code polls them in some
      order); which of the output channels with room the load balancer chooses for a value is
      arbitrary (the code tries them in round-robin order); the order in which a broadcast
      reaches the channels is arbitrary (the code retries the full ones later);
    - the only end-of-stream mark is FF_EOS; FF_EOSW, FF_EOS_NOFREEZE and FF_GO_OUT are not
      modelled here, nor is freezing: a node that ends does not start again.  A node
      with feedback channels that has read the marks of all its inputs does not send marks in the
      code (ff/lb.hpp:1051-1057); here a closing node always sends one mark on each output
      channel.  A node that stops early with feedback channels may read and drop the marks that
      come back to it (absorb_eos, ff/lb.hpp:1086-1090); here they stay in the channel. *)
From Coq Require Import List Arith Bool.
From Verif Require Import Base.
Import ListNotations.

Section Model.
  Context {X St : Type}.

  Inductive msg := Item (x : X) | Eos.

  (** One value handed to the runtime by a node: for its output channel number [j]
      (ff_send_out_to; a node with one output: j = 0), or for any output channel (ff_send_out of
      a node with several outputs, or a value returned by svc). *)
  Inductive req := To (j : nat) (m : msg) | Any (x : X).

  (** A channel: producer, consumer, capacity (None: unbounded).  The output (input) channels of
      a node are numbered in the order of this list. *)
  Record chan := mkChan { src : nat; dst : nat; cap : option nat }.

  (** User code.  A call sends a list of groups; the values of one group may reach their channels
      in any order (a broadcast is one group, an ordinary send is a group of one).
      [boot v]: what node v sends before it reads anything (a source: its whole output; a node
      started with skipfirstpop: what its first call svc(NULL) sends).
      [svc v s c x]: new state, what is sent, and whether svc returned EOS, for input x from
      channel c.  [eosn v s c]: eosnotify for the end of channel c. *)
  Record net := mkNet {
    nodes : nat;
    chans : list chan;
    start : nat -> St;
    boot : nat -> list (list req);
    svc : nat -> St -> nat -> X -> St * list (list req) * bool;
    eosn : nat -> St -> nat -> St * list (list req) }.

  Variable N : net.

  Definition chan_of (c : nat) : option chan := nth_error (chans N) c.
  (** Ids of the output and input channels of node v, in order. *)
  Definition outs (v : nat) : list nat :=
    filter (fun c => match chan_of c with Some k => src k =? v | None => false end) (seq 0 (length (chans N))).
  Definition ins (v : nat) : list nat :=
    filter (fun c => match chan_of c with Some k => dst k =? v | None => false end) (seq 0 (length (chans N))).

  (** push_eos, ff/lb.hpp:134-143 (node with several outputs); push(FF_EOS), ff/node.hpp:1471,
      ff/gt.hpp:649: one mark on every output channel. *)
  Definition eos_group (v : nat) : list req := map (fun j => To j Eos) (seq 0 (length (outs v))).

  Inductive phase := Running | Closing | Done.

  Record node := mkNode {
    ust : St;                     (* the user's state *)
    pend : list (list req);       (* groups still to be pushed *)
    ended : list nat;             (* input channels that delivered their mark (offline, ff/gt.hpp:609) *)
    ph : phase }.

  Record st := mkSt {
    q : nat -> list msg;          (* contents of each channel, oldest first *)
    nd : nat -> node;
    hs : nat -> list msg;         (* history: what was pushed on each channel *)
    hl : nat -> list (nat * msg); (* history: what each node read, with the channel *)
    hp : nat -> list (nat * msg)  (* history: what each node pushed, with the channel *)
  }.

  (** A node without input channels closes after its boot. *)
  Definition init_node (v : nat) : node :=
    match ins v with
    | [] => mkNode (start N v) (boot N v ++ [eos_group v]) [] Closing
    | _ => mkNode (start N v) (boot N v) [] Running
    end.
  Definition init_st : st :=
    mkSt (fun _ => []) init_node (fun _ => []) (fun _ => []) (fun _ => []).

  Inductive act :=
  | Get (v c : nat)               (* node v reads its input channel c *)
  | Put (v k j : nat)             (* node v pushes the k-th value of its current group; for [Any], on output number j *)
  | Next (v : nat)                (* current group finished *)
  | Fin (v : nat).                (* thread ends *)

  Definition room (s : st) (c : nat) : bool :=
    match chan_of c with
    | Some k => match cap k with None => true | Some b => length (q s c) <? b end
    | None => false
    end.

  Definition remove_nth {T} (k : nat) (l : list T) : list T := firstn k l ++ skipn (S k) l.

  (** The channel and message of a request of node v; [j]: the choice for [Any]. *)
  Definition resolve (v : nat) (r : req) (j : nat) : option (nat * msg) :=
    match r with
    | To i m => option_map (fun c => (c, m)) (nth_error (outs v) i)
    | Any x => option_map (fun c => (c, Item x)) (nth_error (outs v) j)
    end.

  Definition memb (c : nat) (l : list nat) : bool := existsb (Nat.eqb c) l.

  (** What reading message m from channel c does to node v: ff/node.hpp:1459-1506,
      ff/lb.hpp:926-1005, ff/gt.hpp:590-640. *)
  Definition react (v : nat) (n : node) (c : nat) (m : msg) : node :=
    match m with
    | Item x =>
        match svc N v (ust n) c x with
        | (u, o, false) => mkNode u o (ended n) Running
        | (u, o, true) => mkNode u (o ++ [eos_group v]) (ended n) Closing
        end
    | Eos =>
        let (u, o) := eosn N v (ust n) c in
        let e := c :: ended n in
        if forallb (fun c' => memb c' e) (ins v)
        then mkNode u (o ++ [eos_group v]) e Closing
        else mkNode u o e Running
    end.

  Definition step (s : st) (a : act) : option st :=
    match a with
    | Get v c =>
        let n := nd s v in
        match ph n, pend n, q s c with
        | Running, [], m :: r =>
            if (v <? nodes N) && memb c (ins v) && negb (memb c (ended n)) then
              Some (mkSt (fupd (q s) c r) (fupd (nd s) v (react v n c m)) (hs s)
                         (fupd (hl s) v (hl s v ++ [(c, m)])) (hp s))
            else None
        | _, _, _ => None
        end
    | Put v k j =>
        let n := nd s v in
        match pend n with
        | g :: p =>
            match nth_error g k with
            | Some r =>
                match resolve v r j with
                | Some (c, m) =>
                    if (v <? nodes N) && room s c then
                      Some (mkSt (fupd (q s) c (q s c ++ [m]))
                                 (fupd (nd s) v (mkNode (ust n) (remove_nth k g :: p) (ended n) (ph n)))
                                 (fupd (hs s) c (hs s c ++ [m])) (hl s)
                                 (fupd (hp s) v (hp s v ++ [(c, m)])))
                    else None
                | None => None
                end
            | None => None
            end
        | [] => None
        end
    | Next v =>
        let n := nd s v in
        match pend n with
        | [] :: p =>
            if v <? nodes N then
              Some (mkSt (q s) (fupd (nd s) v (mkNode (ust n) p (ended n) (ph n))) (hs s) (hl s) (hp s))
            else None
        | _ => None
        end
    | Fin v =>
        let n := nd s v in
        match ph n, pend n with
        | Closing, [] =>
            if v <? nodes N then
              Some (mkSt (q s) (fupd (nd s) v (mkNode (ust n) [] (ended n) Done)) (hs s) (hl s) (hp s))
            else None
        | _, _ => None
        end
    end.
End Model.
Arguments msg : clear implicits.
Arguments req : clear implicits.
Arguments net : clear implicits.
Arguments node : clear implicits.
Arguments st : clear implicits.
