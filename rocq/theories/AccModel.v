(** Accelerator mode: the calling thread gives values to a running pipeline or farm and takes
    results back.  It models offload, load_result and load_result_nb of ff_pipeline
    (ff/pipeline.hpp:1405-1500) and of ff_farm (ff/farm.hpp:1546-1625), and the two channels
    created for them (ff/pipeline.hpp:750-767, ff/farm.hpp:274-284; "the last buffer is forced to
    be unbounded").

    The threads of the accelerator are the internal nodes 1..n of a network (NetModel.v).  The two
    ends of the calling thread are node 0 (it writes the input channel) and node n+1 (it reads the
    output channel): these two are not threads here, only the calls below move them.

    Simplifications: non-blocking mode (an attempt that fails is repeated, at most [retry] times);
    one stream: nothing is offloaded after offload(EOS) and load_result is not called again after
    EOS was loaded (with frozen threads the same accelerator can be run again, see C13). *)
From Coq Require Import List Arith Bool.
From Verif Require Import Base NetModel.
Import ListNotations.

Section Acc.
  Context {X St : Type}.
  (** Internal nodes, channels, and the code of the internal nodes. *)
  Variables (n : nat) (chs : list chan) (st0 : nat -> St) (boot0 : nat -> list (list (req X)))
            (svc0 : nat -> St -> nat -> X -> St * list (list (req X)) * bool)
            (eosn0 : nat -> St -> nat -> St * list (list (req X))).

  Definition host_out : nat := 0.
  Definition host_in : nat := S n.

  (** The same network used as a stream: a source that sends [xs] and a last node that only reads. *)
  Definition stream (xs : list X) : net X St :=
    mkNet (S (S n)) chs st0
      (fun v => if v =? host_out then map (fun x => [To 0 (Item x)]) xs else if v =? host_in then [] else boot0 v)
      (fun v u c x => if v =? host_in then (u, [], false) else svc0 v u c x)
      (fun v u c => if v =? host_in then (u, []) else eosn0 v u c).

  (** The threads of the accelerator take the steps of the network. *)
  Definition N : net X St := stream [].
  Definition node_of (a : act) : nat := match a with Get v _ | Put v _ _ | Next v | Fin v => v end.

  (** Calls: [Off m r]: offload of a value or of EOS; [Load r]; [r]: number of attempts left, None: no limit
      (the default, (unsigned long)-1).  [LoadNb]. *)
  Inductive call := Off (m : msg X) (r : option nat) | Load (r : option nat) | LoadNb.
  (** What a call returned: false, or true; with the value read, if any. *)
  Record ret := mkRet { ok : bool; got : option (msg X) }.

  Record ast := mkA {
    net : st X St;
    cur : option call;            (* the call in progress *)
    hist : list (call * ret) }.   (* calls that returned *)

  Inductive aact :=
  | Thr (a : act)                 (* a thread of the accelerator *)
  | Call (c : call)               (* the calling thread makes a call *)
  | Try.                          (* one attempt of the call in progress *)

  Definition tick (r : option nat) : option nat := match r with Some k => Some (k - 1) | None => None end.
  Definition over (r : option nat) : bool := match r with Some 0 => true | _ => false end.

  (** inbuffer->push(task) and outbuffer->pop(task). *)
  Definition push_in (c : nat) (m : msg X) (s : st X St) : st X St :=
    mkSt (fupd (q s) c (q s c ++ [m])) (nd s) (fupd (hs s) c (hs s c ++ [m])) (hl s)
         (fupd (hp s) host_out (hp s host_out ++ [(c, m)])).
  Definition pop_out (c : nat) (m : msg X) (r : list (msg X)) (s : st X St) : st X St :=
    mkSt (fupd (q s) c r) (nd s) (hs s) (fupd (hl s) host_in (hl s host_in ++ [(c, m)])) (hp s).
  Definition is_item (m : msg X) : bool := match m with Item _ => true | Eos => false end.

  (** The input and output channel of the accelerator. *)
  Definition in_chan : nat := hd 0 (outs N host_out).
  Definition out_chan : nat := hd 0 (ins N host_in).

  (** The stream was closed by offload(EOS); EOS was read. *)
  Definition closed (s : ast) : bool := existsb (fun cm => negb (is_item (snd cm))) (hp (net s) host_out).
  Definition drained (s : ast) : bool := existsb (fun cm => negb (is_item (snd cm))) (hl (net s) host_in).

  Definition returns (s : ast) (t : st X St) (c : call) (b : bool) (m : option (msg X)) : ast :=
    mkA t None (hist s ++ [(c, mkRet b m)]).

  Definition astep (s : ast) (a : aact) : option ast :=
    match a with
    | Thr b =>
        if (node_of b =? host_out) || (node_of b =? host_in) then None
        else option_map (fun t => mkA t (cur s) (hist s)) (step N (net s) b)
    | Call c =>
        match cur s with
        | Some _ => None
        | None =>
            if match c with Off _ _ => closed s | _ => drained s end then None
            else Some (mkA (net s) (Some c) (hist s))
        end
    | Try =>
        match cur s with
        (* ff/pipeline.hpp:1422-1426, ff/farm.hpp:1563-1567 *)
        | Some (Off m r) =>
            if over r then Some (returns s (net s) (Off m r) false None)
            else if room N (net s) in_chan then Some (returns s (push_in in_chan m (net s)) (Off m r) true None)
            else Some (mkA (net s) (Some (Off m (tick r))) (hist s))
        (* ff/pipeline.hpp:1471-1478, ff/farm.hpp:1603-1609 *)
        | Some (Load r) =>
            if over r then Some (returns s (net s) (Load r) false None)
            else match q (net s) out_chan with
                 | m :: q' => Some (returns s (pop_out out_chan m q' (net s)) (Load r) (is_item m) (Some m))
                 | [] => Some (mkA (net s) (Some (Load (tick r))) (hist s))
                 end
        (* ff/pipeline.hpp:1488-1493, ff/farm.hpp:1621-1627 *)
        | Some LoadNb =>
            match q (net s) out_chan with
            | m :: q' => Some (returns s (pop_out out_chan m q' (net s)) LoadNb true (Some m))
            | [] => Some (returns s (net s) LoadNb false None)
            end
        | None => None
        end
    end.

  Definition a_init : ast := mkA (init_st N) None [].
End Acc.
Arguments ast : clear implicits. Arguments aact : clear implicits. Arguments call : clear implicits. Arguments ret : clear implicits.
