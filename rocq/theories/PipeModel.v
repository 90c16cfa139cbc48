(** A pipeline of single-input single-output nodes: ff/node.hpp:1438-1514 (thWorker::svc, the
    loop every node thread runs), ff/node.hpp:572-621 (push/Push, pop/Pop with the default
    infinite retry), ff/pipeline.hpp (one channel between consecutive stages).

    Simplifications:
    - a channel is an atomic FIFO of a given capacity (properties C01, C03, C07, C08); a Push that
      finds it full and a Pop that finds it empty wait (the default retry count is 2^64-1);
    - one call of svc, with the values it sends by ff_send_out, is one step; the values and the
      returned one are then pushed one by one;
    - the first stage is represented by the stream it emits;
    - no feedback channel (neos = 1), no freezing: the threads exit after one run. *)
From Coq Require Import List Arith Bool.
Import ListNotations.

Section Model.
  Context {A St : Type}.

  (** The end-of-stream marks, ff/node.hpp:73-75. *)
  Inductive eos := EOS | EOS_NOFREEZE | EOSW.

  (** What travels on a channel. *)
  Inductive tok := Task (x : A) | End (k : eos).

  (** What svc may return: a task; FF_GO_ON or FF_FLUSH; an end-of-stream mark (NULL is turned
      into FF_EOS, line 1493); FF_GO_OUT. *)
  Inductive ret := RTask (x : A) | RGoOn | REnd (k : eos) | RGoOut.

  (** A node: its svc on state and input task, giving the new state, the values passed to
      ff_send_out, and the returned value; the values eosnotify passes to ff_send_out. *)
  Record node := mkNode { svc : St -> A -> St * list A * ret; eosn : St -> list A }.

  (** Lines 1469-1471: only EOS and EOSW are propagated. *)
  Definition propagated (k : eos) : bool := match k with EOS_NOFREEZE => false | _ => true end.
  Definition mark (k : eos) : list tok := if propagated k then [End k] else [].

  (** The body of the loop for one input, lines 1457-1506: new state, tokens to push, and whether
      the loop is left. *)
  Definition body (nd : node) (s : St) (t : tok) : St * list tok * bool :=
    match t with
    | End k => (s, map Task (eosn nd s) ++ mark k, true)          (* lines 1461-1474 *)
    | Task x =>
        let '(s', sent, r) := svc nd s x in                          (* line 1486 *)
        match r with
        | RTask y => (s', map Task sent ++ [Task y], false)          (* line 1501 *)
        | RGoOn => (s', map Task sent, false)                        (* line 1500 *)
        | REnd k => (s', map Task sent ++ mark k, true)              (* lines 1494-1503 *)
        | RGoOut => (s', map Task sent, true)                        (* line 1493 *)
        end
    end.

  (** A stage: the node, its state, its input channel, the tokens it still has to push and
      whether its thread has left the loop; [None] for the capacity is the unbounded channel. *)
  Record cell := mkCell { nd : node; cap : option nat; cst : St; inq : list tok; pend : list tok; fin : bool }.

  Definition room (c : cell) : bool := match cap c with None => true | Some m => length (inq c) <? m end.

  (** [src]: what the first stage has still to push; [out]: what left the last stage. *)
  Record st := mkSt { src : list tok; cells : list cell; out : list tok }.

  Inductive act := SrcPush | Pop (i : nat) | Push (i : nat).

  (** Push on the channel towards [cs]. *)
  Definition push_into (t : tok) (cs : list cell) (o : list tok) : option (list cell * list tok) :=
    match cs with
    | [] => Some ([], o ++ [t])
    | c :: cs' => if room c then Some (mkCell (nd c) (cap c) (cst c) (inq c ++ [t]) (pend c) (fin c) :: cs', o) else None
    end.

  Definition pop_cell (c : cell) : option cell :=
    if fin c then None else
    match pend c, inq c with
    | [], t :: q => let '(s', p, e) := body (nd c) (cst c) t in Some (mkCell (nd c) (cap c) s' q p e)
    | _, _ => None
    end.

  Fixpoint pop_at (i : nat) (cs : list cell) : option (list cell) :=
    match cs, i with
    | [], _ => None
    | c :: cs', 0 => match pop_cell c with Some c' => Some (c' :: cs') | None => None end
    | c :: cs', S i' => match pop_at i' cs' with Some cs'' => Some (c :: cs'') | None => None end
    end.

  Fixpoint push_at (i : nat) (cs : list cell) (o : list tok) : option (list cell * list tok) :=
    match cs, i with
    | [], _ => None
    | c :: cs', 0 =>
        match pend c with
        | [] => None
        | t :: p => match push_into t cs' o with
                    | Some (cs'', o') => Some (mkCell (nd c) (cap c) (cst c) (inq c) p (fin c) :: cs'', o')
                    | None => None
                    end
        end
    | c :: cs', S i' => match push_at i' cs' o with Some (cs'', o') => Some (c :: cs'', o') | None => None end
    end.

  Definition step (s : st) (a : act) : option st :=
    match a with
    | SrcPush => match src s with
                 | [] => None
                 | t :: p => match push_into t (cells s) (out s) with
                             | Some (cs, o) => Some (mkSt p cs o)
                             | None => None
                             end
                 end
    | Pop i => match pop_at i (cells s) with Some cs => Some (mkSt (src s) cs (out s)) | None => None end
    | Push i => match push_at i (cells s) (out s) with Some (cs, o) => Some (mkSt (src s) cs o) | None => None end
    end.

  (** The pipeline before the first step: [ns] gives each stage with its initial state and the
      capacity of its input channel. *)
  Definition start (ns : list (node * St * option nat)) (input : list tok) : st :=
    mkSt input (map (fun '(n, s, c) => mkCell n c s [] [] false) ns) [].
End Model.
Arguments tok : clear implicits.
Arguments node : clear implicits.
Arguments cell : clear implicits.
Arguments st : clear implicits.
