(** Model of the gatherer (farm collector, multi-input node): /repo/ff/gt.hpp.

    The environment fills the input channels; [chans] holds what each channel will still deliver and
    [Poll v] is one iteration of the inner loop of gather_task, where [v] says whether the next message
    of the polled channel is already visible.  All theorems quantify over the list of polls, that is
    over all arrival orders.
    Not modelled: the waiting between rounds, the initial pop that is skipped for a collector in the
    first position (skip1pop), feedback channels (channelid), traces, callbacks.  An output channel is
    present.  The filter is a function of its state; ff_send_out inside the filter is not modelled. *)
From Coq Require Import List Arith Bool.
From Verif Require Import Base.
Import ListNotations.

(** The end-of-stream marks, /repo/ff/config.hpp and /repo/ff/node.hpp (FF_EOS, FF_EOSW,
    FF_EOS_NOFREEZE). *)
Inductive mark := Eos | EosW | EosNF.

(** A message of an input channel.  [GoOn] stands for FF_GO_ON and FF_FLUSH (gt.hpp L594). *)
Inductive msg (A : Type) := Task (x : A) | GoOn | Mark (k : mark).
Arguments Task {A}. Arguments GoOn {A}. Arguments Mark {A}.

(** What the filter's svc returns (gt.hpp L635-L645): a task, FF_GO_ON/FF_FLUSH, FF_GO_OUT,
    a mark, or NULL. *)
Inductive fres (B : Type) := FOut (y : B) | FGoOn | FGoOut | FMark (k : mark) | FNull.
Arguments FOut {B}. Arguments FGoOn {B}. Arguments FGoOut {B}. Arguments FMark {B}. Arguments FNull {B}.

(** The value that svc returns, L563: an end-of-stream mark or GO_OUT. *)
Inductive result := RMark (k : mark) | RGoOut.

(** Messages pushed on the output channel. *)
Inductive omsg (B : Type) := OTask (y : B) | OEos.
Arguments OTask {B}. Arguments OEos {B}.

Section Gather.
  Context {A B St : Type}.
  Variable n : nat.                       (* running *)
  Variable svc : St -> A -> St * fres B.  (* the filter; no filter: fun s x => (s, FOut x) *)

  (** Fields of ff_gatherer (L875-L890) and local variables of svc.  [stop = None]: svc is running. *)
  Record gst := mkG {
    nextr : nat; offline : list bool; neos : nat; neosnf : nat; ret : mark;
    fst_ : St; chans : list (list (msg A)); out : list (omsg B); stop : option result }.

  (** selectworker, L134-L139: the next channel, going round, that is not offline.  [None]: all the
      channels are offline, the loop of L135-L137 does not end. *)
  Fixpoint select (fuel : nat) (r : nat) (off : list bool) : option nat :=
    match fuel with
    | 0 => None
    | S fuel =>
        let r := (r + 1) mod n in
        if nth r off true then select fuel r off else Some r
    end.

  (** The end of svc, L655-L674. *)
  Definition finish (s : gst) (r : result) : gst :=
    mkG (nextr s) (offline s)
        (if n <=? neos s then 0 else neos s) (if n <=? neosnf s then 0 else neosnf s)
        (ret s) (fst_ s) (chans s)
        (match r with RMark Eos => out s ++ [OEos] | _ => out s end)
        (Some (match r with RMark EosW => RMark Eos | _ => r end)).

  (** The condition of the loop, L652. *)
  Definition loop (s : gst) : gst :=
    if (neos s <? n) && (neosnf s <? n) then s else finish s (RMark (ret s)).

  (** The body of the loop after gather_task, L593-L651, on message [m] of channel [i]; [rest] is what
      remains in the channels. *)
  Definition body (s : gst) (i : nat) (m : msg A) (rest : list (list (msg A))) : gst :=
    match m with
    | GoOn => loop (mkG i (offline s) (neos s) (neosnf s) (ret s) (fst_ s) rest (out s) None)
    | Mark EosNF =>
        loop (mkG i (lupd (offline s) i true) (neos s) (S (neosnf s)) EosNF (fst_ s) rest (out s) None)
    | Mark k =>
        loop (mkG i (lupd (offline s) i true) (S (neos s)) (neosnf s) k (fst_ s) rest (out s) None)
    | Task x =>
        let (f, r) := svc (fst_ s) x in
        let s := mkG i (offline s) (neos s) (neosnf s) (ret s) f rest (out s) None in
        match r with
        | FGoOn => loop s
        | FGoOut => finish s RGoOut
        | FMark Eos | FNull => finish s (RMark Eos)
        | FMark k => finish s (RMark k)
        | FOut y => loop (mkG i (offline s) (neos s) (neosnf s) (ret s) f rest (out s ++ [OTask y]) None)
        end
    end.

  Inductive act := Poll (visible : bool).

  (** gather_task, L197-L218, one get (L204). *)
  Definition step (s : gst) (a : act) : option gst :=
    let 'Poll v := a in
    match stop s with
    | Some _ => None
    | None =>
        match select n (nextr s) (offline s) with
        | None => None
        | Some i =>
            match v, nth i (chans s) [] with
            | true, m :: q => Some (body s i m (lupd (chans s) i q))
            | _, _ => Some (mkG i (offline s) (neos s) (neosnf s) (ret s) (fst_ s) (chans s) (out s) None)
            end
        end
    end.

  (** Start of a run: svc_init (L547 clears offline) and the first lines of svc (L564).  The counters
      are those left by the previous run (0 at construction, L323); the initial nextr = -1 (L322) is n-1 here. *)
  Definition start (r : nat) (ne nf : nat) (f : St) (cs : list (list (msg A))) : gst :=
    mkG r (repeat false n) ne nf Eos f cs [] None.
End Gather.
Arguments gst : clear implicits.
