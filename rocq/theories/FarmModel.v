(** A farm: emitter, workers, collector.  ff/lb.hpp:899-975 (emitter loop), 240-293
    (schedule_task), 135-143 and 778-817 (end-of-stream broadcast); ff/node.hpp:1438-1514 (worker
    loop); ff/gt.hpp:197-218 (gather_task), 563-675 (collector loop).

    Simplifications:
    - channels as in PipeModel;
    - the emitter may give a task to any worker whose channel has room: this covers the default
      round robin of schedule_task (see SchedModel for the loop itself), on-demand scheduling and
      ff_send_out_to.  The broadcast of end-of-stream may serve the workers in any order;
    - the collector may take from any channel that is not offline and not empty: this covers the
      round robin of gather_task;
    - the emitter's filter is represented by the stream of tasks it emits; the collector's filter is a
      stage that follows (PipeModel); without a filter the collector pushes what it gathers. *)
From Coq Require Import List Arith Bool.
From Verif Require Import Base PipeModel.
Import ListNotations.

Section Model.
  Context {A St : Type}.

  (** A worker with its two channels.  [given] and [got] are histories: the tokens pushed to it and
      those gathered from it; no step reads them. *)
  Record wk := mkWk {
    wc : cell A St;                (* node, state, input channel, tokens to push, thread ended *)
    ocap : option nat; outq : list (tok A);
    eosd : bool;                   (* end-of-stream already broadcast to it *)
    off : bool;                    (* offline[i] in the collector *)
    given : list (tok A); got : list (tok A) }.

  Record fst_ := mkF { fsrc : list A; ws : list wk; fout : list (tok A); cdone : bool }.

  Inductive fact := Send (w : nat) | SendEos (w : nat) | WPop (w : nat) | WPush (w : nat) | Collect (w : nat) | Finish.

  Definition put (k : wk) (t : tok A) : option wk :=
    if room (wc k)
    then let c := wc k in
         Some (mkWk (mkCell (nd c) (cap c) (cst c) (inq c ++ [t]) (pend c) (fin c)) (ocap k) (outq k) (eosd k) (off k) (given k ++ [t]) (got k))
    else None.

  Definition wpop (k : wk) : option wk :=
    match pop_cell (wc k) with
    | Some c => Some (mkWk c (ocap k) (outq k) (eosd k) (off k) (given k) (got k))
    | None => None
    end.

  Definition oroom (k : wk) : bool := match ocap k with None => true | Some m => length (outq k) <? m end.
  Definition wpush (k : wk) : option wk :=
    match pend (wc k) with
    | [] => None
    | t :: p => if oroom k
                then let c := wc k in
                     Some (mkWk (mkCell (nd c) (cap c) (cst c) (inq c) p (fin c)) (ocap k) (outq k ++ [t]) (eosd k) (off k) (given k) (got k))
                else None
    end.

  (** gt.hpp:600-645: a task is forwarded; EOS and EOSW put the channel offline. *)
  Definition wcollect (k : wk) : option (wk * list (tok A)) :=
    if off k then None else
    match outq k with
    | [] => None
    | t :: q => Some (mkWk (wc k) (ocap k) q (eosd k) (match t with End _ => true | Task _ => false end) (given k) (got k ++ [t]),
                      match t with Task x => [t] | End _ => [] end)
    end.

  Definition fstep (s : fst_) (a : fact) : option fst_ :=
    match a with
    | Send w =>
        match fsrc s, nth_error (ws s) w with
        | x :: l, Some k => match put k (Task x) with Some k' => Some (mkF l (lupd (ws s) w k') (fout s) (cdone s)) | None => None end
        | _, _ => None
        end
    | SendEos w =>
        match fsrc s, nth_error (ws s) w with
        | [], Some k =>
            if eosd k then None else
            match put k (End EOS) with
            | Some k' => Some (mkF [] (lupd (ws s) w (mkWk (wc k') (ocap k') (outq k') true (off k') (given k') (got k'))) (fout s) (cdone s))
            | None => None
            end
        | _, _ => None
        end
    | WPop w => match nth_error (ws s) w with
                | Some k => match wpop k with Some k' => Some (mkF (fsrc s) (lupd (ws s) w k') (fout s) (cdone s)) | None => None end
                | None => None
                end
    | WPush w => match nth_error (ws s) w with
                 | Some k => match wpush k with Some k' => Some (mkF (fsrc s) (lupd (ws s) w k') (fout s) (cdone s)) | None => None end
                 | None => None
                 end
    | Collect w => match nth_error (ws s) w with
                   | Some k => match wcollect k with
                               | Some (k', o) => Some (mkF (fsrc s) (lupd (ws s) w k') (fout s ++ o) (cdone s))
                               | None => None
                               end
                   | None => None
                   end
    | Finish => if cdone s then None
                else if forallb off (ws s) then Some (mkF (fsrc s) (ws s) (fout s ++ [End EOS]) true)   (* gt.hpp:647-662 *)
                else None
    end.

  (** [wn]: for each worker its node, initial state and the capacities of its two channels. *)
  Definition fstart (wn : list (node A St * St * option nat * option nat)) (input : list A) : fst_ :=
    mkF input (map (fun '(n, s, ci, co) => mkWk (mkCell n ci s [] [] false) co [] false false [] []) wn) [] false.
End Model.
Arguments wk : clear implicits.
Arguments fst_ : clear implicits.
