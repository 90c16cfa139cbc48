(** Model of the parallel divide-and-conquer pattern: ff/dc.hpp (ff_DC) on top of the
    task scheduler of ff/task_internals.hpp.

    The four user functions are pure functions of their operands.  Memory is made of the
    result slots: slot 0 is the caller's result, the other slots belong to the vectors of
    partial results, which are allocated at any addresses not in use (also at addresses
    freed before).  A vector of sub-operands is freed together with its vector of
    results, so both are one frame here.

    Simplifications: which ready task is given to which worker, and when, is left open
    (schedule_task, ff/task_internals.hpp L317-351, chooses by priority queue and load);
    the channels between scheduler and workers are unbounded queues; the function objects
    and messages are not allocated explicitly. *)
From Coq Require Import List Arith Bool.
From Verif Require Import Base.
Import ListNotations.

(** What a task does: DACFunction on sub-operand [i] of the frame at [b] with result slot
    [b + i] (ff/dc.hpp L169-222), or CombineFunction on the [n] results of the frame at
    [b] into slot [r] (L138-153, L213-215). *)
Inductive kind : Type := KDac (b i : nat) | KComb (b n r : nat).

(** What a worker has still to do or the scheduler to receive: send a new task
    (AddTaskWorker, ff/dc.hpp L252-264), the call DACFunction, the call CombineFunction,
    report a completed task (the return value of svc, L246-249). *)
Inductive ev : Type := Snd (k : kind) | Cal (b i : nat) | Cmb (b n r : nat) | Don (t : nat).

Inductive status : Type := NotReady | Ready.

(** hash_task_t, ff/task_internals.hpp L140-156.  A task that is DONE has no counter of
    outputs here (num_out stays 0 in ff/dc.hpp) and is removed at once (L373-377). *)
Record task : Type := mkT { kd : kind; stat : status; rem : nat; ids : nat -> nat; unum : nat }.

(** A worker: the tasks sent to it, the rest of the task it is executing, the messages it
    has sent and the scheduler has not yet received. *)
Record worker : Type := mkW { inq : list nat; prog : list ev; outq : list ev }.

Section DC.
Context {Op Res : Type}.
Variable cond : Op -> bool.
Variable divide : Op -> list Op.
Variable seqf : Op -> Res.
Variable combine : list Res -> Res.
(** The default value of a result. *)
Variable dflt : Res.
(** The uninitialised contents of the unblock array of a new task. *)
Variable junk : nat -> nat -> nat.

Record st : Type := mkS {
  tk : nat -> option task;       (** task_set *)
  addr : nat -> nat;             (** address_set; 0: absent *)
  nid : nat;                     (** task_id *)
  numb : nat;                    (** task_numb *)
  comp : nat;                    (** task_completed *)
  rq : list nat;                 (** the ready queues together *)
  todo : list kind;              (** tasks the first svc call has still to insert *)
  ws : list worker;
  mem : nat -> Res;
  frames : list (nat * list Op); (** the vectors not yet deleted *)
  fin : bool;                    (** svc has returned EOS *)
  bad : bool }.                  (** a deleted vector was used, or an assertion failed *)

(** icl_hash_find on task_set. *)
Definition find_task (tk : nat -> option task) (i : nat) : option task :=
  if i =? 0 then None else tk i.

(** Append to the unblock array (ff/dc.hpp L309-314, L348-353, L374-375). *)
Definition add_id (t : task) (c : nat) : task :=
  mkT (kd t) (stat t) (rem t) (fupd (ids t) (unum t) c) (S (unum t)).
Definition add_dep (t : task) : task := mkT (kd t) (stat t) (S (rem t)) (ids t) (unum t).
Definition set_id (t : task) (i v : nat) : task :=
  mkT (kd t) (stat t) (rem t) (fupd (ids t) i v) (unum t).

Definition tupd (tk : nat -> option task) (i : nat) (f : task -> task) : nat -> option task :=
  fupd tk i (option_map f (tk i)).

(** An INPUT parameter, ff/dc.hpp L298-318. *)
Definition p_in (act d : nat) (tk : nat -> option task) (ad : nat -> nat) : nat -> option task :=
  match find_task tk (ad d) with
  | None => tk
  | Some _ => tupd (tupd tk (ad d) (fun t => add_id t act)) act add_dep
  end.

(** The loop over the unblock array of the previous writer, ff/dc.hpp L340-363. *)
Fixpoint scan (act t : nat) (l : list nat) (tk : nat -> option task) (del : list nat) :
    (nat -> option task) * list nat :=
  match l with
  | [] => (tk, del)
  | ii :: l' =>
    match tk t with
    | None => (tk, del)
    | Some tv =>
      let i2 := ids tv ii in
      match find_task tk i2 with
      | Some t2 =>
        if (i2 =? act) || (match stat t2 with Ready => true | NotReady => false end)
        then scan act t l' tk del
        else scan act t l' (tupd (tupd tk act (fun a => add_id a i2)) t (fun x => set_id x ii 0)) (del ++ [ii])
      | None => scan act t l' tk del
      end
    end
  end.

(** The compaction, ff/dc.hpp L365-368: it reads the entry after the last one. *)
Definition compact (t : nat) (del : list nat) (tk : nat -> option task) : nat -> option task :=
  fold_left (fun tk x => tupd tk t (fun v =>
    mkT (kd v) (stat v) (rem v) (fupd (ids v) x (ids v (unum v))) (unum v - 1))) del tk.

(** An OUTPUT parameter, ff/dc.hpp L319-386. *)
Definition p_out (act d : nat) (tk : nat -> option task) (ad : nat -> nat) :
    (nat -> option task) * (nat -> nat) :=
  let tk' :=
    match find_task tk (ad d) with
    | None => tk
    | Some t =>
      if unum t =? 0 then tupd (tupd tk (ad d) (fun t => add_id t act)) act add_dep
      else let (tk', del) := scan act (ad d) (seq 0 (unum t)) tk [] in compact (ad d) del tk'
    end in
  (tk', fupd ad d act).

(** The parameters of a new task: ff/dc.hpp L191-193, L203-211 and L449-451, L458-466. *)
Definition ins (k : kind) : list nat := match k with KDac _ _ => [] | KComb b n _ => seq b n end.
Definition kout (k : kind) : nat := match k with KDac b i => b + i | KComb _ _ r => r end.

(** Scheduler::insertTask, ff/dc.hpp L290-396, and the increment of task_numb (L484,
    L536); createTask: ff/task_internals.hpp L223-231. *)
Definition insert (k : kind) (s : st) : st :=
  let act := nid s in
  let tk0 := fupd (tk s) act (Some (mkT k NotReady 0 (junk act) 0)) in
  let tk1 := fold_left (fun tk d => p_in act d tk (addr s)) (ins k) tk0 in
  let (tk2, ad) := p_out act (kout k) tk1 (addr s) in
  let dep := match tk2 act with Some a => rem a | None => 0 end in
  let ready := dep =? 0 in
  mkS (if ready then tupd tk2 act (fun a => mkT (kd a) Ready (rem a) (ids a) (unum a)) else tk2)
      ad (S act) (S (numb s)) (comp s)
      (if ready then rq s ++ [act] else rq s) (todo s) (ws s) (mem s) (frames s) (fin s) (bad s).

Definition set_bad (s : st) : st :=
  mkS (tk s) (addr s) (nid s) (numb s) (comp s) (rq s) (todo s) (ws s) (mem s) (frames s) (fin s) true.
Definition set_ws (s : st) (l : list worker) : st :=
  mkS (tk s) (addr s) (nid s) (numb s) (comp s) (rq s) (todo s) l (mem s) (frames s) (fin s) (bad s).
Definition set_rq (s : st) (l : list nat) : st :=
  mkS (tk s) (addr s) (nid s) (numb s) (comp s) l (todo s) (ws s) (mem s) (frames s) (fin s) (bad s).
Definition set_todo (s : st) (l : list kind) : st :=
  mkS (tk s) (addr s) (nid s) (numb s) (comp s) (rq s) l (ws s) (mem s) (frames s) (fin s) (bad s).

(** One round of the loop of handleTask, ff/task_internals.hpp L355-370. *)
Definition unblock (s : st) (c : nat) : st :=
  match find_task (tk s) c with
  | None => set_bad s                       (* assert(tmp), L357 *)
  | Some v =>
    match rem v with
    | 0 => set_bad s
    | S r =>
      let go := (r =? 0) && match stat v with NotReady => true | Ready => false end in
      mkS (fupd (tk s) c (Some (mkT (kd v) (if go then Ready else stat v) r (ids v) (unum v))))
          (addr s) (nid s) (numb s) (comp s) (if go then rq s ++ [c] else rq s)
          (todo s) (ws s) (mem s) (frames s) (fin s) (bad s)
    end
  end.

(** handleTask, ff/task_internals.hpp L354-378, and the end of Scheduler::svc, ff/dc.hpp
    L492-506: the count of completed tasks and the test for the end. *)
Definition handle (s : st) (t : nat) : st :=
  match find_task (tk s) t with
  | None => set_bad s
  | Some v =>
    let s1 := fold_left (fun s i => unblock s (match tk s t with Some v => ids v i | None => 0 end))
                (seq 0 (unum v)) s in
    mkS (fupd (tk s1) t None) (addr s1) (nid s1) (numb s1) (S (comp s1)) (rq s1) (todo s1) (ws s1)
        (mem s1) (frames s1) (numb s1 =? S (comp s1)) (bad s1)
  end.

Fixpoint frame (l : list (nat * list Op)) (b : nat) : option (list Op) :=
  match l with [] => None | (b', ops) :: r => if b' =? b then Some ops else frame r b end.
Definition drop_frame (l : list (nat * list Op)) (b : nat) : list (nat * list Op) :=
  filter (fun f => negb (fst f =? b)) l.

(** Slot [a] belongs to a vector that has not been deleted (or is the caller's). *)
Definition in_frame (a : nat) (f : nat * list Op) : bool :=
  (fst f <=? a) && (a <? fst f + length (snd f)).
Definition slot_live (l : list (nat * list Op)) (a : nat) : bool :=
  (a =? 0) || existsb (in_frame a) l.

(** The allocator returns memory in use by nobody. *)
Definition base_free (l : list (nat * list Op)) (b n : nat) : bool :=
  (0 <? b) && (0 <? n) &&
  forallb (fun f => (b + n <=? fst f) || (fst f + length (snd f) <=? b)) l.

Definition fill (m : nat -> Res) (b n : nat) : nat -> Res :=
  fun a => if (b <=? a) && (a <? b + n) then dflt else m a.

(** DACFunction, ff/dc.hpp L183-215: the calls and messages that a call on a non-base
    operand consists of, after the division. *)
Definition expand (b n r : nat) : list ev :=
  map (fun j => Snd (KDac b j)) (seq 0 (n - 1)) ++ [Cal b (n - 1); Snd (KComb b n r)].

(** A worker's next step; [b'] is the address the allocator returns if one is needed. *)
Definition work (s : st) (wi : nat) (w : worker) (b' : nat) : option st :=
  match prog w with
  | [] => None
  | Snd k :: p => Some (set_ws s (lupd (ws s) wi (mkW (inq w) p (outq w ++ [Snd k]))))
  | Don t :: p => Some (set_ws s (lupd (ws s) wi (mkW (inq w) p (outq w ++ [Don t]))))
  | Cal b i :: p =>
    match frame (frames s) b with
    | None => Some (set_bad s)
    | Some ops =>
      match nth_error ops i with
      | None => Some (set_bad s)
      | Some op =>
        if cond op then
          Some (mkS (tk s) (addr s) (nid s) (numb s) (comp s) (rq s) (todo s)
                    (lupd (ws s) wi (mkW (inq w) p (outq w)))
                    (fupd (mem s) (b + i) (seqf op)) (frames s) (fin s) (bad s))
        else
          let sub := divide op in
          let n := length sub in
          if n =? 0 then Some (set_bad s)
          else if base_free (frames s) b' n then
            Some (mkS (tk s) (addr s) (nid s) (numb s) (comp s) (rq s) (todo s)
                      (lupd (ws s) wi (mkW (inq w) (expand b' n (b + i) ++ p) (outq w)))
                      (fill (mem s) b' n) ((b', sub) :: frames s) (fin s) (bad s))
          else None
      end
    end
  | Cmb b n r :: p =>
    match frame (frames s) b with
    | None => Some (set_bad s)
    | Some _ =>
      if slot_live (frames s) r then
        Some (mkS (tk s) (addr s) (nid s) (numb s) (comp s) (rq s) (todo s)
                  (lupd (ws s) wi (mkW (inq w) p (outq w)))
                  (fupd (mem s) r (combine (map (mem s) (seq b n))))
                  (drop_frame (frames s) b) (fin s) (bad s))
      else Some (set_bad s)
    end
  end.

(** - [AInit]: the scheduler inserts the next task of the first svc call (ff/dc.hpp
      L447-468, L527-541).
    - [ASched w t]: the ready task [t] is sent to worker [w] (ff/task_internals.hpp
      L317-351).
    - [AStart w]: worker [w] takes its next task (ff/dc.hpp L231-249).
    - [AWork w b]: worker [w] goes on with its task.
    - [AMsg w]: the scheduler receives the next message of worker [w] (ff/dc.hpp
      L478-508). *)
Inductive act : Type :=
| AInit | ASched (w t : nat) | AStart (w : nat) | AWork (w b : nat) | AMsg (w : nat).

Definition step (s : st) (a : act) : option st :=
  match a with
  | AInit =>
    match todo s with
    | [] => None
    | k :: r => Some (insert k (set_todo s r))
    end
  | ASched wi t =>
    match nth_error (ws s) wi with
    | None => None
    | Some w =>
      if existsb (Nat.eqb t) (rq s) then
        Some (set_ws (set_rq s (remove Nat.eq_dec t (rq s)))
                     (lupd (ws s) wi (mkW (inq w ++ [t]) (prog w) (outq w))))
      else None
    end
  | AStart wi =>
    match nth_error (ws s) wi with
    | Some (mkW (t :: q) [] o) =>
      match find_task (tk s) t with
      | None => Some (set_bad s)
      | Some v =>
        Some (set_ws s (lupd (ws s) wi
          (mkW q [match kd v with KDac b i => Cal b i | KComb b n r => Cmb b n r end; Don t] o)))
      end
    | _ => None
    end
  | AWork wi b =>
    match nth_error (ws s) wi with
    | None => None
    | Some w => work s wi w b
    end
  | AMsg wi =>
    if fin s then None else
    match todo s with
    | _ :: _ => None
    | [] =>
      match nth_error (ws s) wi with
      | Some (mkW q p (m :: o)) =>
        let s1 := set_ws s (lupd (ws s) wi (mkW q p o)) in
        match m with
        | Snd k => Some (insert k s1)
        | Don t => Some (handle s1 t)
        | _ => Some (set_bad s1)
        end
      | _ => None
      end
    end
  end.

(** The first svc call of the scheduler with operand [op], ff/dc.hpp L428-477; [b] is the
    address of the first vectors, [nw] the number of workers; svc_init: L410-417 and
    ff/task_internals.hpp L413-427. *)
Definition start (nw : nat) (op : Op) (b : nat) : st :=
  let w := repeat (mkW [] [] []) nw in
  if cond op then
    mkS (fun _ => None) (fun _ => 0) 1 0 0 [] [] w (fun _ => seqf op) [] true false
  else
    let sub := divide op in
    mkS (fun _ => None) (fun _ => 0) 1 0 0 []
        (map (KDac b) (seq 0 (length sub)) ++ [KComb b (length sub) 0])
        w (fun _ => dflt) [(b, sub)] false false.
End DC.
