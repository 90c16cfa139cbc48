(** Model of the parallel_for / parallel_reduce run time:
    ff/parallel_for_internals.hpp and ff/parallel_for.hpp.

    Simplifications common to the file:
    - [long]/[ssize_t] values are unbounded integers: the model covers runs in which no index
      computation overflows a 64-bit long;
    - [std::lrint(std::ceil(x/(double)y))] is the exact ceiling (it is, as long as the operands
      are below 2^53);
    - the queues that carry a task to a worker and back (farm channels) are FIFO and lossless
      (properties C01, C07, C17); freezing/thawing of the threads is property C21;
    - FF_PARFOR_PASSIVE_NOSTEALING and PARFOR_MULTIPLE_TASKS_STEALING are not defined (the
      default). *)
From Coq Require Import List ZArith Lia Bool.
From Verif Require Import Base ParForSpec.
Import ListNotations.
Local Open Scope Z_scope.

(** Outcome of code that contains assert()s and vector indexing. *)
Inductive out (X : Type) : Type :=
| Done : X -> out X
| Abort : out X            (* an assert() fails *)
| OutOfBounds : out X.     (* a std::vector is indexed past its size *)
Arguments Done {X} _.
Arguments Abort {X}.
Arguments OutOfBounds {X}.

(** struct dataPair (parallel_for_internals.hpp:432-445): number of tasks left, and the range
    [task.start, task.end). *)
Record cell := mkCell { nt : Z; lo : Z; hi : Z }.
Definition cell0 : cell := mkCell 0 0 0.

(** std::lrint(std::ceil(x/(double)y)), used at lines 471, 472, 517, 538, 539. *)
Definition ceil_div (x y : Z) : Z := (x + y - 1) / y.

(** std::vector::resize as used at lines 480 and 522. *)
Definition resize (n : nat) (l : list cell) : list cell :=
  firstn n l ++ repeat cell0 (n - length l).

(** PARFOR_STATIC, PARFOR_DYNAMIC (lines 408-409). *)
Definition parfor_static (x : Z) : Z := if 0 <? x then - x else x.
Definition parfor_dynamic (x : Z) : Z := if x <? 0 then - x else x.

(** The loop at lines 485-492; [k] workers left, [i] the current worker. *)
Fixpoint fill (step chunk stop ntxw r : Z) (k i : nat) (start tot : Z) (data : list cell)
  : list cell * Z :=
  match k with
  | O => (data, tot)
  | S k' =>
      if 0 <? tot then
        let t := ntxw + (if (1 <? r) && (Z.of_nat i <? r) then 1 else 0) in
        let e := start + (t * chunk - 1) * step + 1 in
        let en := if e <? stop then e else stop in
        fill step chunk stop ntxw r k' (S i) ((en - 1) + step) (tot - t)
             (lupd data i (mkCell t start en))
      else (data, tot)
  end.

(** init_data (lines 469-507): returns the table, the possibly doubled chunk and the number
    of tasks.  [data] is the table left by the previous loop.  The size_t conversion of a
    negative task count (first > last) is not modelled: that input ends in the assert at line
    495 or in the one of setloop. *)
Definition init_data (start stop step chunk : Z) (nw : nat) (data : list cell)
  : out (list cell * Z * Z) :=
  let numtasks := ceil_div (stop - start) step in
  let total := ceil_div numtasks chunk in
  let ntxw0 := total / Z.of_nat nw in
  let r0 := total mod Z.of_nat nw in
  let small := (ntxw0 =? 0) && (1 <=? r0) in
  let ntxw := if small then 1 else ntxw0 in
  let r := if small then 0 else r0 in
  let '(data1, left_) := fill step chunk stop ntxw r nw 0 start total (resize nw data) in
  if left_ =? 0 then Done (data1, chunk, total)
  else if negb (left_ =? 1) then Abort
  else
    let last := (nw - 1)%nat in
    let c := nth last data1 cell0 in
    if 1 <? ntxw
    then Done (lupd data1 last (mkCell (nt c + left_) (lo c) stop), chunk, total)
    else Done (lupd data1 last (mkCell (nt c) (lo c) stop), chunk * 2, total - 1).

(** The loop at lines 525-531. *)
Fixpoint fill_static (step chunk stop r : Z) (k i : nat) (start : Z) (data : list cell)
  : list cell :=
  match k with
  | O => data
  | S k' =>
      let e := start + (chunk - 1) * step + 1 + (if Z.of_nat i <? r then step else 0) in
      let en := if e <? stop then e else stop in
      fill_static step chunk stop r k' (S i) ((en - 1) + step)
                  (lupd data i (mkCell 1 start en))
  end.

(** init_data_static with _chunk == 0 (lines 514-534).  [numtasks % _nw] is computed in
    size_t, hence modulo 2^64 first; [numtasks / long(_nw)] truncates towards zero. *)
Definition init_data_static0 (start stop step : Z) (nw : nat) (data : list cell)
  : list cell * Z * Z :=
  let numtasks := ceil_div (stop - start) step in
  let r := (numtasks mod 2 ^ 64) mod Z.of_nat nw in
  let chunk := Z.quot numtasks (Z.of_nat nw) in
  (fill_static step chunk stop r nw 0 start (resize nw data),
   (if r =? 0 then chunk else chunk + 1), Z.of_nat nw).

(** The loop at lines 542-545; the table is *not* resized on this path. *)
Fixpoint fill_grain (chunk start stop : Z) (k i : nat) (data : list cell)
  : out (list cell) :=
  match k with
  | O => Done data
  | S k' =>
      if (i <? length data)%nat
      then fill_grain chunk start stop k' (S i)
             (lupd data i (mkCell 1 (start + Z.of_nat i * chunk) stop))
      else OutOfBounds
  end.

(** init_data_static with _chunk < 0 (lines 535-554); the third component is ntxw. *)
Definition init_data_grain (start stop step chunk : Z) (nw : nat) (data : list cell)
  : out (list cell * Z * Z) :=
  let c := - chunk in
  let numtasks := ceil_div (stop - start) step in
  let total := ceil_div numtasks c in
  let ntxw := Z.min (Z.of_nat nw) total in
  match fill_grain c start stop (Z.to_nat ntxw) 0 data with
  | Done d => Done (d, stop, ntxw)
  | Abort => Abort
  | OutOfBounds => OutOfBounds
  end.

(** What setloop leaves behind (lines 813-826): the table, the field _chunk, totaltasks, the
    number of workers to start, and the flag static_scheduling. *)
Record setup := mkSetup {
  s_data : list cell; s_chunk : Z; s_total : Z; s_nw : nat; s_static : bool }.

(** Lines 822-825: the assert and the adjustment of _nw.  [totaltasks/(double)_nw <= 1.0] is
    [totaltasks <= _nw]. *)
Definition finish_setloop (nw : nat) (st : bool) (x : list cell * Z * Z) : out setup :=
  let '(d, c, total) := x in
  if total <? 1 then Abort
  else Done (mkSetup d c total
               (if (total <=? Z.of_nat nw) || (total =? 1) then Z.to_nat total else nw) st).

(** forall_Scheduler::setloop (lines 813-826). *)
Definition setloop (start stop step chunk : Z) (nw : nat) (data : list cell) : out setup :=
  if chunk =? 0 then finish_setloop nw true (init_data_static0 start stop step nw data)
  else if chunk <? 0 then
    match init_data_grain start stop step chunk nw data with
    | Done x => finish_setloop nw true x
    | Abort => Abort
    | OutOfBounds => OutOfBounds
    end
  else
    match init_data start stop step chunk nw data with
    | Done x => finish_setloop nw false x
    | Abort => Abort
    | OutOfBounds => OutOfBounds
    end.

(** The body F of FF_PARFOR_START (lines 261-267): indices visited for the range (a,b). *)
Definition body_plain (step : Z) (a b : Z) : list Z := loop a b step.

(** The body F of FF_PARFOR_T_START_STATIC (lines 296-307), [chunk] <= 0 as passed to the
    macro and [nw] = getnw(). *)
Definition body_static (step chunk : Z) (nw : nat) (a b : Z) : list Z :=
  let jump0 := Z.of_nat nw * (- chunk * step) in
  let jump1 := - chunk * step in
  flat_map (fun x => loop x (Z.min b (x + jump1)) step) (loop a b jump0).

(** One chunk taken from a cell: the computation of [end] and of the new start shared by
    sendTask (600-605), nextTaskConcurrent (653-655) and nextTask (739-741). *)
Definition chunk_end (step chunk : Z) (c : cell) : Z :=
  Z.min (lo c + ((chunk - 1) * step + 1)) (hi c).

(** ** Workers running without scheduler thread (forallreduce_W::svc with schedRunning false,
    lines 866-892, over nextTaskConcurrent, lines 643-727).

    The choice of the victim (lines 677-681: maxid, max_element over a table other threads are
    changing) is left open: any cell may be chosen.  One step = one access to the shared table;
    running F over a range is one step. *)
Inductive pc :=
| WWait                              (* thread waiting: no task was sent to it *)
| WRun (a b : Z)                     (* about to call F(a,b,..)        line 879/885 *)
| WL1 (own : bool) (id : nat)        (* about to load ntask of [id]    line 652 *)
| WLd (own : bool) (id : nat)        (* about to load start            line 653 *)
| WCas (own : bool) (id : nat) (old : Z)         (* about to CAS start     line 657 *)
| WSub (own : bool) (id : nat) (old en : Z)      (* about to fetch_sub     line 665 *)
| WSel                               (* about to choose a victim       line 673-681 *)
| WEnd.                              (* nextTaskConcurrent returned false *)

(** The iteration log: which worker ran which index, in order. *)
Record cst := mkCst { cells : list cell; pcs : list pc; log : list (nat * Z) }.

(** A worker step: [ok = false] lets compare_exchange_weak fail spuriously, [victim] is the
    cell chosen for stealing. *)
Record act := W { w_id : nat; w_ok : bool; w_victim : nat }.

Section Conc.
  Variables (step chunk : Z) (static : bool) (F : Z -> Z -> list Z).

  Definition setpc (s : cst) (w : nat) (p : pc) : cst :=
    mkCst (cells s) (lupd (pcs s) w p) (log s).

  Definition cstep (s : cst) (a : act) : option cst :=
    let w := w_id a in
    match nth_error (pcs s) w with
    | None => None
    | Some p =>
      match p with
      | WWait => None
      | WEnd => None
      | WRun x y =>
          Some (mkCst (cells s) (lupd (pcs s) w (WL1 true w))
                      (log s ++ map (pair w) (F x y)))
      | WL1 own id =>
          match nth_error (cells s) id with
          | None => None
          | Some c => Some (setpc s w (if 0 <? nt c then WLd own id else WSel))
          end
      | WLd own id =>
          match nth_error (cells s) id with
          | None => None
          | Some c => Some (setpc s w (WCas own id (lo c)))
          end
      | WCas own id old =>
          match nth_error (cells s) id with
          | None => None
          | Some c =>
              if w_ok a && (lo c =? old) then
                let en := chunk_end step chunk c in
                Some (mkCst (lupd (cells s) id (mkCell (nt c) ((en - 1) + step) (hi c)))
                            (lupd (pcs s) w (WSub own id old en)) (log s))
              else Some (setpc s w (WL1 own id))
          end
      | WSub own id old en =>
          match nth_error (cells s) id with
          | None => None
          | Some c =>
              Some (mkCst (lupd (cells s) id (mkCell (nt c - 1) (lo c) (hi c)))
                          (lupd (pcs s) w (if old <? en then WRun old en else WSel))
                          (log s))
          end
      | WSel =>
          if static then Some (setpc s w WEnd)
          else
            match nth_error (cells s) (w_victim a) with
            | None => None
            | Some c => Some (setpc s w (if 0 <? nt c then WL1 false (w_victim a) else WEnd))
            end
      end
    end.
End Conc.

(** sendTask(true) (lines 584-620 with skipmore): one chunk for each worker with work; [k]
    workers from [i] on.  Returns the table and the range sent to each worker. *)
Fixpoint send_round (step chunk : Z) (k i : nat) (data : list cell)
  : list cell * list (option (Z * Z)) :=
  match k with
  | O => (data, [])
  | S k' =>
      let c := nth i data cell0 in
      if 0 <? nt c then
        let en := chunk_end step chunk c in
        let '(d, l) := send_round step chunk k' (S i)
                         (lupd data i (mkCell (nt c - 1) ((en - 1) + step) (hi c))) in
        (d, Some (lo c, en) :: l)
      else
        let '(d, l) := send_round step chunk k' (S i) data in (d, None :: l)
  end.

Definition pc_of_task (t : option (Z * Z)) : pc :=
  match t with Some (a, b) => WRun a b | None => WWait end.

(** run_then_freeze without scheduler (lines 1089-1100): sendTask(true), or sendWakeUp when
    the workers are spinning on the barrier. *)
Definition conc_start (step : Z) (spinwait : bool) (u : setup) : cst :=
  if spinwait
  then mkCst (s_data u) (repeat (WRun 0 0) (s_nw u)) []
  else let '(d, l) := send_round step (s_chunk u) (s_nw u) 0 (s_data u) in
       mkCst d (map pc_of_task l) [].

(** All workers have returned from svc. *)
Definition all_ended (s : cst) : Prop := forall p, In p (pcs s) -> p = WEnd.

(** ** Scheduler thread running (forall_Scheduler::svc lines 788-811, nextTask 729-786,
    sendTask 584-620; forallreduce_W::svc lines 879-880). *)
Record sst := mkSst {
  d_cells : list cell;
  d_maxid : option nat;                  (* maxid, None for -1 *)
  d_left : Z;                            (* totaltasks *)
  d_wq : list (list (Z * Z));            (* input queue of each worker *)
  d_fb : list (list (Z * Z));            (* feedback queue of each worker *)
  d_eos : list bool;                     (* eossent *)
  d_out : bool;                          (* the scheduler returned GO_OUT *)
  d_log : list (nat * Z) }.

(** std::max_element(data.begin(), data.end(), data_cmp) (lines 679, 750). *)
Fixpoint max_from (l : list cell) (i best : nat) (bv : Z) : nat :=
  match l with
  | [] => best
  | c :: l' => if bv <? nt c then max_from l' (S i) i (nt c) else max_from l' (S i) best bv
  end.
Definition max_element (l : list cell) : nat :=
  match l with [] => 0%nat | c :: l' => max_from l' 1 0 (nt c) end.

(** nextTask, label L1 (lines 739-743). *)
Definition take_from (step chunk : Z) (id : nat) (d : list cell) : list cell * (Z * Z) :=
  let c := nth id d cell0 in
  let en := chunk_end step chunk c in
  (lupd d id (mkCell (nt c - 1) ((en - 1) + step) (hi c)), (lo c, en)).

(** nextTask (lines 729-786): new table, new maxid, and the range if there is one. *)
Definition next_task (step chunk : Z) (wid : nat) (d : list cell) (maxid : option nat)
  : list cell * option nat * option (Z * Z) :=
  let from m id := let '(d', t) := take_from step chunk id d in (d', m, Some t) in
  let l2 := let m := max_element d in
            if 0 <? nt (nth m d cell0) then from (Some m) m else (d, Some m, None) in
  if negb (nt (nth wid d cell0) =? 0) then from maxid wid
  else match maxid with
       | None => l2
       | Some m => if 0 <? nt (nth m d cell0) then from maxid m else l2
       end.

(** Append the task sent by a sendTask round to the input queue of its worker. *)
Fixpoint push_round (wq : list (list (Z * Z))) (l : list (option (Z * Z)))
  : list (list (Z * Z)) :=
  match wq, l with
  | q :: wq', Some t :: l' => (q ++ [t]) :: push_round wq' l'
  | q :: wq', None :: l' => q :: push_round wq' l'
  | _, _ => wq
  end.

Definition is_none {X} (o : option X) : bool := match o with None => true | Some _ => false end.

(** sendTask (lines 584-620) in scheduler mode: [skipmore] as passed, [skip1] the field; the
    second round is the [goto more] of line 616. *)
Definition send_task (step chunk : Z) (nw : nat) (total : Z) (skipmore : bool)
    (x : list cell * list (list (Z * Z)) * bool)
  : list cell * list (list (Z * Z)) * bool :=
  let '(d, wq, skip1) := x in
  let '(d1, l1) := send_round step chunk nw 0 d in
  let wq1 := push_round wq l1 in
  let skip1' := skip1 || existsb is_none l1 in
  if negb skipmore && negb skip1' && (4 * Z.of_nat nw <=? total) then
    let '(d2, l2) := send_round step chunk nw 0 d1 in
    (d2, push_round wq1 l2, true)
  else (d1, wq1, skip1').

(** Start of a loop with the scheduler running: svc(NULL) -> sendTask(); with spin-waiting
    workers run_then_freeze (line 1086) has called sendTask(true) before. *)
Definition sched_start (step : Z) (spinwait : bool) (u : setup) : sst :=
  let x0 := (s_data u, repeat [] (s_nw u), false) in
  let x1 := if spinwait then send_task step (s_chunk u) (s_nw u) (s_total u) true x0 else x0 in
  let '(d, wq, _) := send_task step (s_chunk u) (s_nw u) (s_total u) false x1 in
  mkSst d None (s_total u) wq (repeat [] (s_nw u)) (repeat false (s_nw u)) false [].

Inductive sact :=
| Worker (w : nat)      (* worker w pops a task, runs F and returns the task to the scheduler *)
| Sched (w : nat).      (* the scheduler receives the task completed by worker w *)

Section Sched.
  Variables (step chunk : Z) (F : Z -> Z -> list Z).

  Definition sstep (s : sst) (a : sact) : option sst :=
    match a with
    | Worker w =>
        match nth_error (d_wq s) w with
        | Some ((x, y) :: q) =>
            Some (mkSst (d_cells s) (d_maxid s) (d_left s) (lupd (d_wq s) w q)
                        (lupd (d_fb s) w (nth w (d_fb s) [] ++ [(x, y)])) (d_eos s) (d_out s)
                        (d_log s ++ map (pair w) (F x y)))
        | _ => None
        end
    | Sched w =>
        if d_out s then None else
        match nth_error (d_fb s) w with
        | Some (_ :: q) =>
            let fb := lupd (d_fb s) w q in
            let n := d_left s - 1 in
            if n <=? 0
            then Some (mkSst (d_cells s) (d_maxid s) n (d_wq s) fb
                             (lupd (d_eos s) w true) true (d_log s))
            else
              let '(d, m, t) := next_task step chunk w (d_cells s) (d_maxid s) in
              match t with
              | Some r => Some (mkSst d m n (lupd (d_wq s) w (nth w (d_wq s) [] ++ [r])) fb
                                      (d_eos s) false (d_log s))
              | None => Some (mkSst d m n (d_wq s) fb (lupd (d_eos s) w true) false (d_log s))
              end
        | _ => None
        end
    end.
End Sched.

(** ** The whole call.  FF_PARFOR_START .. FF_PARFOR_STOP (lines 261-267, 317-324): with one
    worker the caller runs F over the whole range itself; otherwise startScheduler (lines
    1059-1068) decides between the two modes, and wait_freezing returns when all is over.
    [parfor_run] relates the table before the call to the number of
    workers used, the log and the table after it.  With
    the scheduler thread, wait_lb_freezing returns only after the workers' tasks have all come
    back, since the scheduler counts them. *)
Definition body_of (step chunk : Z) (u : setup) : Z -> Z -> list Z :=
  if chunk <? 0 then body_static step chunk (s_nw u) else body_plain step.

Inductive parfor_run (first last step chunk : Z) (F_of : setup -> Z -> Z -> list Z)
    (nw : nat) (data : list cell) : nat -> list (nat * Z) -> list cell -> Prop :=
| run_seq : forall u,
    setloop first last step chunk nw data = Done u -> s_nw u = 1%nat ->
    parfor_run first last step chunk F_of nw data 1
               (map (pair 0%nat) (F_of u first last)) (s_data u)
| run_conc : forall u spinwait l s,
    setloop first last step chunk nw data = Done u -> (1 < s_nw u)%nat ->
    exec (cstep step (s_chunk u) (s_static u) (F_of u)) (conc_start step spinwait u) l = Some s ->
    all_ended s ->
    parfor_run first last step chunk F_of nw data (s_nw u) (log s) (cells s)
| run_sched : forall u spinwait l s,
    setloop first last step chunk nw data = Done u -> (1 < s_nw u)%nat ->
    Z.of_nat (s_nw u) < s_total u ->
    exec (sstep step (s_chunk u) (F_of u)) (sched_start step spinwait u) l = Some s ->
    d_out s = true ->
    parfor_run first last step chunk F_of nw data (s_nw u) (d_log s) (d_cells s).

(** A ParallelFor object: forall_Scheduler(lb, nw) (lines 568-577) builds a table of [maxnw]
    default cells; every loop then starts from the table left by the previous one.  A call is
    (first, last, step, chunk, nw) and runs with the bodies the API uses (parallel_for.hpp:
    198-340).  ff_forall_farm::setloop (1208-1216) clips nw into 1..maxnw. *)
Record call := mkCall { c_first : Z; c_last : Z; c_step : Z; c_chunk : Z; c_nw : nat }.

Inductive reach_table (maxnw : nat) : list cell -> Prop :=
| rt_new : reach_table maxnw (repeat cell0 maxnw)
| rt_loop : forall d c used lg d',
    reach_table maxnw d -> (1 <= c_nw c <= maxnw)%nat -> 1 <= c_step c ->
    c_last c - c_first c < 2 ^ 64 ->        (* they are two longs *)
    parfor_run (c_first c) (c_last c) (c_step c) (c_chunk c)
               (fun u => body_of (c_step c) (c_chunk c) u) (c_nw c) d used lg d' ->
    reach_table maxnw d'.

(** ** parallel_reduce (FF_PARFORREDUCE_START 337-344, FF_PARFORREDUCE_F_STOP 385-400): worker
    w starts from the identity (setF, line 897) and folds [body] over the indices it runs; the
    caller then combines the partial results of workers 0..nw-1 into the original value.  With
    one worker the body accumulates directly into the variable. *)
Definition worker_res {T} (body : T -> Z -> T) (ident : T) (lg : list (nat * Z)) (w : nat) : T :=
  fold_left body (map snd (filter (fun e => Nat.eqb (fst e) w) lg)) ident.

Definition reduce_result {T} (body : T -> Z -> T) (final : T -> T -> T) (ident var : T)
    (nw : nat) (lg : list (nat * Z)) : T :=
  if (nw <=? 1)%nat then fold_left body (map snd lg) var
  else fold_left (fun v w => final v (worker_res body ident lg w)) (seq 0 nw) var.
