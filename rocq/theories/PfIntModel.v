(** The index arithmetic of parallel_for with the numbers the code uses: 64-bit signed long, whose
    overflow is undefined behaviour, and IEEE doubles for the numbers of iterations and chunks
    (ff/parallel_for_internals.hpp:469-507, 510-554, 598-605, 652-656, 739-741).

    ParForModel computes with unbounded integers and exact ceilings; here the same functions are
    given with each operation checked ([None]: overflow) and with the rounding of doubles (53 bits,
    to nearest, ties to even).  Subnormal and infinite doubles do not occur: operands are below 2^64.
    Not modelled: the static loop with a grain (init_data_static, _chunk < 0; its indices are wrong
    anyway, C24), ranges with first >= last. *)
From Coq Require Import List ZArith Bool.
From Verif Require Import Base ParForModel.
Import ListNotations.
Local Open Scope Z_scope.

(** p / q rounded to the nearest integer, ties to even. *)
Definition rne (p q : Z) : Z :=
  let f := p / q in
  let r := p mod q in
  if 2 * r <? q then f else if q <? 2 * r then f + 1 else if Z.even f then f else f + 1.

(** The e with 2^e <= a/b < 2^(e+1). *)
Definition fexp (a b : Z) : Z :=
  let l := Z.log2 a - Z.log2 b in
  if (if 0 <=? l then b * 2 ^ l <=? a else b <=? a * 2 ^ (- l)) then l else l - 1.

(** Conversion of a non-negative integer to double (the value is an integer). *)
Definition dbl (z : Z) : Z :=
  if z <? 2 ^ 53 then z else let s := Z.log2 z - 52 in rne z (2 ^ s) * 2 ^ s.

(** The double a/b, as m * 2^(-s). *)
Definition ddiv (a b : Z) : Z * Z :=
  if a =? 0 then (0, 0)
  else let s := 52 - fexp a b in
       (if 0 <=? s then rne (a * 2 ^ s) b else rne a (b * 2 ^ (- s)), s).

(** std::lrint(std::ceil(a/(double)b)); lines 471, 472, 517. *)
Definition lrint_ceil (a b : Z) : Z :=
  let '(m, s) := ddiv (dbl a) (dbl b) in
  if 0 <=? s then ceil_div m (2 ^ s) else m * 2 ^ (- s).

(** A result of type long. *)
Definition w64 (z : Z) : option Z := if (- 2 ^ 63 <=? z) && (z <? 2 ^ 63) then Some z else None.
Definition bind {X Y} (o : option X) (k : X -> option Y) : option Y :=
  match o with Some x => k x | None => None end.
Notation "x <- e ; k" := (bind e (fun x => k)) (at level 60, e at next level, right associativity).

(** Lines 485-492. *)
Fixpoint m_fill (step chunk stop ntxw r : Z) (k i : nat) (start tot : Z) (data : list cell)
  : option (list cell * Z) :=
  match k with
  | O => Some (data, tot)
  | S k' =>
      if 0 <? tot then
        let t := ntxw + (if (1 <? r) && (Z.of_nat i <? r) then 1 else 0) in
        a <- w64 (t * chunk);
        b <- w64 ((a - 1) * step);
        c <- w64 (start + b);
        e <- w64 (c + 1);
        let en := if e <? stop then e else stop in
        f <- w64 (en - 1);
        st <- w64 (f + step);
        tl <- w64 (tot - t);
        m_fill step chunk stop ntxw r k' (S i) st tl (lupd data i (mkCell t start en))
      else Some (data, tot)
  end.

(** init_data, lines 469-507. *)
Definition m_init_data (start stop step chunk : Z) (nw : nat) (data : list cell)
  : option (out (list cell * Z * Z)) :=
  d <- w64 (stop - start);
  numtasks <- w64 (lrint_ceil d step);
  total <- w64 (lrint_ceil numtasks chunk);
  let ntxw0 := total / Z.of_nat nw in
  let r0 := total mod Z.of_nat nw in
  let small := (ntxw0 =? 0) && (1 <=? r0) in
  let ntxw := if small then 1 else ntxw0 in
  let r := if small then 0 else r0 in
  x <- m_fill step chunk stop ntxw r nw 0 start total (resize nw data);
  let '(data1, left_) := x in
  if left_ =? 0 then Some (Done (data1, chunk, total))
  else if negb (left_ =? 1) then Some Abort
  else
    let last := (nw - 1)%nat in
    let c := nth last data1 cell0 in
    if 1 <? ntxw
    then Some (Done (lupd data1 last (mkCell (nt c + left_) (lo c) stop), chunk, total))
    else c2 <- w64 (chunk * 2);
         Some (Done (lupd data1 last (mkCell (nt c) (lo c) stop), c2, total - 1)).

(** Lines 525-531. *)
Fixpoint m_fill_static (step chunk stop r : Z) (k i : nat) (start : Z) (data : list cell)
  : option (list cell) :=
  match k with
  | O => Some data
  | S k' =>
      a <- w64 ((chunk - 1) * step);
      b <- w64 (start + a);
      c <- w64 (b + 1);
      e <- w64 (c + (if Z.of_nat i <? r then step else 0));
      let en := if e <? stop then e else stop in
      f <- w64 (en - 1);
      st <- w64 (f + step);
      m_fill_static step chunk stop r k' (S i) st (lupd data i (mkCell 1 start en))
  end.

(** init_data_static with _chunk == 0, lines 514-534. *)
Definition m_init_static0 (start stop step : Z) (nw : nat) (data : list cell)
  : option (list cell * Z * Z) :=
  d <- w64 (stop - start);
  numtasks <- w64 (lrint_ceil d step);
  let r := (numtasks mod 2 ^ 64) mod Z.of_nat nw in
  let chunk := Z.quot numtasks (Z.of_nat nw) in
  l <- m_fill_static step chunk stop r nw 0 start (resize nw data);
  Some (l, (if r =? 0 then chunk else chunk + 1), Z.of_nat nw).

(** setloop, lines 813-826, for grain >= 0. *)
Definition m_setloop (start stop step chunk : Z) (nw : nat) (data : list cell) : option (out setup) :=
  if chunk =? 0 then
    x <- m_init_static0 start stop step nw data; Some (finish_setloop nw true x)
  else
    x <- m_init_data start stop step chunk nw data;
    Some (match x with Done y => finish_setloop nw false y | Abort => Abort | OutOfBounds => OutOfBounds end).

(** endchunk = (_chunk-1)*_step + 1, lines 595, 649, 735. *)
Definition m_endchunk (step chunk : Z) : option Z :=
  a <- w64 ((chunk - 1) * step); w64 (a + 1).

(** Taking a chunk of a range starting at [start] and ending at [stop], lines 600-605, 653-655,
    739-741: its end and the new start. *)
Definition m_take (step ec start stop : Z) : option (Z * Z) :=
  d <- w64 (start + ec);
  let en := Z.min d stop in
  f <- w64 (en - 1);
  g <- w64 (f + step);
  Some (en, g).

(** The loop over the workers of sendTask, lines 597-609. *)
Fixpoint m_send_round (step ec : Z) (k i : nat) (data : list cell)
  : option (list cell * list (option (Z * Z))) :=
  match k with
  | O => Some (data, [])
  | S k' =>
      let c := nth i data cell0 in
      if 0 <? nt c then
        x <- m_take step ec (lo c) (hi c);
        y <- m_send_round step ec k' (S i) (lupd data i (mkCell (nt c - 1) (snd x) (hi c)));
        Some (fst y, Some (lo c, fst x) :: snd y)
      else
        y <- m_send_round step ec k' (S i) data; Some (fst y, None :: snd y)
  end.

(** run_then_freeze without scheduler, lines 1089-1100. *)
Definition m_conc_start (step : Z) (spinwait : bool) (u : setup) : option cst :=
  if spinwait
  then Some (mkCst (s_data u) (repeat (WRun 0 0) (s_nw u)) [])
  else ec <- m_endchunk step (s_chunk u);
       x <- m_send_round step ec (s_nw u) 0 (s_data u);
       Some (mkCst (fst x) (map pc_of_task (snd x)) []).

(** A step of a worker in nextTaskConcurrent, lines 643-727, as in ParForModel.cstep: [None] an
    overflow, [Some None] not enabled.  endchunk is computed at the entry (after F returned),
    end and newstart before the compare-and-swap, from the value loaded. *)
Definition m_cstep (step chunk : Z) (static : bool) (F : Z -> Z -> list Z) (s : cst) (a : act)
  : option (option cst) :=
  match nth_error (pcs s) (w_id a) with
  | Some (WRun _ _) => _ec <- m_endchunk step chunk; Some (cstep step chunk static F s a)
  | Some (WCas own id old) =>
      match nth_error (cells s) id with
      | None => Some None
      | Some c =>
          ec <- m_endchunk step chunk;
          x <- m_take step ec old (hi c);
          Some (Some
            (if w_ok a && (lo c =? old)
             then mkCst (lupd (cells s) id (mkCell (nt c) (snd x) (hi c)))
                        (lupd (pcs s) (w_id a) (WSub own id old (fst x))) (log s)
             else setpc s (w_id a) (WL1 own id)))
      end
  | _ => Some (cstep step chunk static F s a)
  end.

(** nextTask, label L1, lines 739-743.  ntask is a std::atomic_long: its decrement wraps around
    without being undefined. *)
Definition m_take_from (step ec : Z) (id : nat) (d : list cell) : option (list cell * (Z * Z)) :=
  let c := nth id d cell0 in
  x <- m_take step ec (lo c) (hi c);
  Some (lupd d id (mkCell (nt c - 1) (snd x) (hi c)), (lo c, fst x)).

(** nextTask, lines 729-786. *)
Definition m_next_task (step chunk : Z) (wid : nat) (d : list cell) (maxid : option nat)
  : option (list cell * option nat * option (Z * Z)) :=
  ec <- m_endchunk step chunk;
  let from m id := x <- m_take_from step ec id d; Some (fst x, m, Some (snd x)) in
  let l2 := let m := max_element d in
            if 0 <? nt (nth m d cell0) then from (Some m) m else Some (d, Some m, None) in
  if negb (nt (nth wid d cell0) =? 0) then from maxid wid
  else match maxid with
       | None => l2
       | Some m => if 0 <? nt (nth m d cell0) then from maxid m else l2
       end.

(** sendTask, lines 584-620. *)
Definition m_send_task (step chunk : Z) (nw : nat) (total : Z) (skipmore : bool)
    (x : list cell * list (list (Z * Z)) * bool)
  : option (list cell * list (list (Z * Z)) * bool) :=
  let '(d, wq, skip1) := x in
  ec <- m_endchunk step chunk;
  y <- m_send_round step ec nw 0 d;
  let '(d1, l1) := y in
  let wq1 := push_round wq l1 in
  let skip1' := skip1 || existsb is_none l1 in
  if negb skipmore && negb skip1' && (4 * Z.of_nat nw <=? total) then
    z <- m_send_round step ec nw 0 d1;
    Some (fst z, push_round wq1 (snd z), true)
  else Some (d1, wq1, skip1').

(** svc(NULL) of the scheduler, lines 788-811 and 1086. *)
Definition m_sched_start (step : Z) (spinwait : bool) (u : setup) : option sst :=
  let x0 := (s_data u, repeat [] (s_nw u), false) in
  x1 <- (if spinwait then m_send_task step (s_chunk u) (s_nw u) (s_total u) true x0 else Some x0);
  y <- m_send_task step (s_chunk u) (s_nw u) (s_total u) false x1;
  let '(d, wq, _) := y in
  Some (mkSst d None (s_total u) wq (repeat [] (s_nw u)) (repeat false (s_nw u)) false []).

(** A step with the scheduler thread, as ParForModel.sstep (lines 788-811, 879-880). *)
Definition m_sstep (step chunk : Z) (F : Z -> Z -> list Z) (s : sst) (a : sact) : option (option sst) :=
  match a with
  | Worker w => Some (sstep step chunk F s a)
  | Sched w =>
      if d_out s then Some None else
      match nth_error (d_fb s) w with
      | Some (_ :: q) =>
          let fb := lupd (d_fb s) w q in
          n <- w64 (d_left s - 1);
          if n <=? 0
          then Some (Some (mkSst (d_cells s) (d_maxid s) n (d_wq s) fb
                                 (lupd (d_eos s) w true) true (d_log s)))
          else
            x <- m_next_task step chunk w (d_cells s) (d_maxid s);
            let '(d, m, t) := x in
            Some (Some
              match t with
              | Some r => mkSst d m n (lupd (d_wq s) w (nth w (d_wq s) [] ++ [r])) fb
                                (d_eos s) false (d_log s)
              | None => mkSst d m n (d_wq s) fb (lupd (d_eos s) w true) false (d_log s)
              end)
      | _ => Some None
      end
  end.

(** The increment of the loop of F, [idx += step], line 266: after the last index too. *)
Fixpoint m_loop_fuel (f : nat) (a b s : Z) : option (list Z) :=
  match f with
  | O => Some []
  | S f' => if a <? b then n <- w64 (a + s); l <- m_loop_fuel f' n b s; Some (a :: l) else Some []
  end.
Definition m_body (step a b : Z) : option (list Z) := m_loop_fuel (Z.to_nat (b - a)) a b step.
