(** Model of the rings of task descriptors of the data-flow and task-farm patterns.

    /repo/ff/mdf.hpp: GD::setMaxTasks L84-L87, GD::alloc_and_send L92-L97, ff_mdf constructor L217-L242,
    ff_mdf::AddTask L249-L253, Scheduler::svc L142-L168 (only that the descriptor is read once when it arrives,
    in insertTask, /repo/ff/task_internals.hpp L233-L317, which copies what it needs).
    /repo/ff/taskf.hpp: alloc_task L55-L60, Worker::svc L64-L67, Scheduler::svc L82-L93, AddTask L151-L160.

    A descriptor (its parameter list and its closure) is an abstract value [D].  A descriptor slot is written in
    one step (the real code writes the fields P and wtask one after the other).  The channels are FIFO lists of
    pointers (slot numbers), bounded by [cap] when the library is compiled with FF_BOUNDED_BUFFER, unbounded
    otherwise (/repo/ff/config.hpp L110-L114): [cap] = None.  The counter ntasks is an unbounded integer. *)
From Coq Require Import List Arith Bool.
From Verif Require Import Base.
Import ListNotations.

Section Mdf.
  Context {D : Type}.
  Variables (M : nat) (cap : option nat).

  Definition room (q : list nat) : bool := match cap with None => true | Some c => length q <? c end.

  (** [ring]: TASKS; [nt]: ntasks; [snd_]: pointer being sent by the graph generator; [ch]: channel to the scheduler;
      [rcv]: pointer taken by the scheduler and not yet read; [subm], [got]: ghost, descriptors submitted by the
      user and descriptors the scheduler acted upon. *)
  Record mst := mkM {
    ring : nat -> option D; nt : nat; snd_ : option nat; ch : list nat; rcv : option nat;
    subm : list D; got : list (option D) }.

  Inductive mact := MAdd (d : D) | MSend | MRecv | MRead.

  Definition mstep (s : mst) (a : mact) : option mst :=
    match a with
    | MAdd d =>      (* mdf.hpp L93-L95 *)
        match snd_ s with
        | None => Some (mkM (fupd (ring s) (nt s mod M) (Some d)) (S (nt s)) (Some (nt s mod M)) (ch s) (rcv s) (subm s ++ [d]) (got s))
        | Some _ => None
        end
    | MSend =>       (* mdf.hpp L96: retried until the channel has room *)
        match snd_ s with
        | Some p => if room (ch s) then Some (mkM (ring s) (nt s) None (ch s ++ [p]) (rcv s) (subm s) (got s)) else None
        | None => None
        end
    | MRecv =>       (* the scheduler's input channel *)
        match rcv s, ch s with
        | None, p :: r => Some (mkM (ring s) (nt s) (snd_ s) r (Some p) (subm s) (got s))
        | _, _ => None
        end
    | MRead =>       (* mdf.hpp L151-L160 *)
        match rcv s with
        | Some p => Some (mkM (ring s) (nt s) (snd_ s) (ch s) None (subm s) (got s ++ [ring s p]))
        | None => None
        end
    end.

  Definition mdf_init : mst := mkM (fun _ => None) 0 None [] None [] [].
End Mdf.
Arguments mst : clear implicits. Arguments mact : clear implicits.

Section Taskf.
  Context {D : Type}.
  Variables (M : nat) (cap : option nat).

  (** As above; a pointer then travels to some worker ([work], any order), which runs the closure found in the slot
      ([ran], ghost), back to the scheduler ([back]), which deletes the closure found in the slot ([dele], ghost). *)
  Record tst := mkTF {
    tring : nat -> option D; tnt : nat; tsnd : option nat; tch : list nat; work : list nat; back : list nat;
    tsubm : list D; ran : list (option D); dele : list (option D) }.

  Inductive tact := TAdd (d : D) | TSend | TRecv | TWork (i : nat) | TBack (i : nat).

  Definition take (i : nat) (l : list nat) : option (nat * list nat) :=
    match nth_error l i with Some p => Some (p, firstn i l ++ skipn (S i) l) | None => None end.

  Definition tstep (s : tst) (a : tact) : option tst :=
    match a with
    | TAdd d =>      (* taskf.hpp L56-L58 *)
        match tsnd s with
        | None => Some (mkTF (fupd (tring s) (tnt s mod M) (Some d)) (S (tnt s)) (Some (tnt s mod M)) (tch s) (work s) (back s)
                             (tsubm s ++ [d]) (ran s) (dele s))
        | Some _ => None
        end
    | TSend =>       (* taskf.hpp L157 *)
        match tsnd s with
        | Some p => if room cap (tch s)
                    then Some (mkTF (tring s) (tnt s) None (tch s ++ [p]) (work s) (back s) (tsubm s) (ran s) (dele s)) else None
        | None => None
        end
    | TRecv =>       (* taskf.hpp L83-L86: forwarded to some worker *)
        match tch s with
        | p :: r => Some (mkTF (tring s) (tnt s) (tsnd s) r (work s ++ [p]) (back s) (tsubm s) (ran s) (dele s))
        | [] => None
        end
    | TWork i =>     (* taskf.hpp L64-L67: a worker runs the task and returns the pointer *)
        match take i (work s) with
        | Some (p, r) => Some (mkTF (tring s) (tnt s) (tsnd s) (tch s) r (back s ++ [p]) (tsubm s) (ran s ++ [tring s p]) (dele s))
        | None => None
        end
    | TBack i =>     (* taskf.hpp L87: delete task->wtask *)
        match take i (back s) with
        | Some (p, r) => Some (mkTF (tring s) (tnt s) (tsnd s) (tch s) (work s) r (tsubm s) (ran s) (dele s ++ [tring s p]))
        | None => None
        end
    end.

  Definition taskf_init : tst := mkTF (fun _ => None) 0 None [] [] [] [] [] [].
End Taskf.
Arguments tst : clear implicits. Arguments tact : clear implicits.
