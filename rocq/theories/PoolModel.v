(** Model of the pool evolution pattern, ff/poolEvolution.hpp.

    Modelled: svc (lines 167-190) with the user's four functions, the parallel evolution phase
    down to single reads and writes of the buffer elements, the environment and the pointer to
    the population kept between calls.  Not modelled: the cost of the phases, threadPause (line
    188), the start of the thread (run_and_wait_end). *)
From Coq Require Import List ZArith Lia Bool.
From Verif Require Import Base ParForSpec ParForModel.
Import ListNotations.
Local Open Scope Z_scope.

Section Pool.
  Variables T env : Type.

  (** The user's functions (types at lines 88-91).  [u_sel] and [u_fil] take the population, the
      buffer and the environment, all by reference, and leave new values in the three.  [u_evol]
      takes one element, the environment (const) and the number of the worker; the value of the
      reference it returns is copied into the element (line 177).  [u_term] may change the
      environment.  They are functions: equal arguments give equal results. *)
  Record user := mkUser {
    u_sel : list T -> list T -> env -> list T * list T * env;
    u_evol : T -> env -> nat -> T;
    u_fil : list T -> list T -> env -> list T * list T * env;
    u_term : list T -> env -> bool * env }.

  (** One iteration of the loop body E (lines 176-178) reads buffer[i] and then writes it. *)
  Inductive ev := Rd (w i : nat) | Wr (w i : nat).
  Definition ev_w (e : ev) : nat := match e with Rd w _ => w | Wr w _ => w end.

  (** The buffer and what each worker has read; [None]: an access outside the buffer, or a write
      without a read. *)
  Definition estep (f : T -> nat -> T) (s : list T * (nat -> option T)) (e : ev)
    : option (list T * (nat -> option T)) :=
    let (b, reg) := s in
    match e with
    | Rd w i => match nth_error b i with Some x => Some (b, fupd reg w (Some x)) | None => None end
    | Wr w i => match reg w with
                | Some x => if (i <? length b)%nat then Some (lupd b i (f x w), reg) else None
                | None => None
                end
    end.

  (** The accesses of a run of the loop: each worker goes through its own iterations in order, the
      workers interleave in any way. *)
  Definition accesses_of (lg : list (nat * Z)) (tr : list ev) : Prop :=
    forall w, filter (fun e => Nat.eqb (ev_w e) w) tr =
              flat_map (fun i => [Rd w i; Wr w i]) (map Z.to_nat (ran_by w lg)).

  (** The evolution phase (lines 175-181): parallel_for_thid from 0 to the size of the buffer with
      step 1 and grain PARFOR_STATIC(0) = 0, that is, the default static scheduling
      (parallel_for.hpp:488-493).  [nw] is the degree after ff_forall_farm::setloop has clipped it
      (parallel_for_internals.hpp:1208-1216).  [data] is the table the ParallelForReduce object has
      at that moment: the user may have used the object in the selection and in the filter. *)
  Inductive evolve (u : user) (nw : nat) (e : env) (b b' : list T) : Prop :=
  | evolve_run : forall data used lg data' tr reg',
      parfor_run 0 (Z.of_nat (length b)) 1 0 (fun _ => body_plain 1) nw data used lg data' ->
      accesses_of lg tr ->
      exec (estep (fun x w => u_evol u x e w)) (b, fun _ => None) tr = Some (b', reg') ->
      evolve u nw e b b'.

  (** The loop of svc (lines 170-187), from population, buffer and environment to the same at the
      exit of the loop. *)
  Inductive pool_loop (u : user) (nw : nat) :
      list T * list T * env -> list T * list T * env -> Prop :=
  | pl_stop : forall P B e e',
      u_term u P e = (true, e') -> pool_loop u nw (P, B, e) (P, B, e')
  | pl_go : forall P B e e1 P1 B1 e2 B2 P2 B3 e3 r,
      u_term u P e = (false, e1) ->
      u_sel u P [] e1 = (P1, B1, e2) ->                (* buffer.clear(); selection(...) *)
      evolve u nw e2 B1 B2 ->
      u_fil u P1 B2 e2 = (P2, B3, e3) ->
      pool_loop u nw (B3, P2, e3) r ->                 (* input->swap(buffer) *)
      pool_loop u nw (P, B, e) r.

  (** The node: the vectors of the program, the pointer [input], the buffer and the environment
      (lines 97-102). *)
  Record node := mkNode {
    vecs : nat -> list T; input : option nat; buffer : list T; nenv : env }.

  (** svc (lines 167-190); the result is the pointer returned.  There is no rule for a null
      [input], which is dereferenced at line 170. *)
  Inductive svc (u : user) (nw : nat) (n : node) (task : option nat) : node -> option nat -> Prop :=
  | svc_run : forall p P' B' e',
      (match task with Some q => Some q | None => input n end) = Some p ->
      pool_loop u nw (vecs n p, buffer n, nenv n) (P', B', e') ->
      svc u nw n task (mkNode (fupd (vecs n) p P') (Some p) B' e')
          (match task with Some _ => Some p | None => None end).

  (** A stream of populations given one after the other to the node. *)
  Inductive stream (u : user) (nw : nat) : node -> list nat -> node -> Prop :=
  | st_nil : forall n, stream u nw n [] n
  | st_cons : forall n n1 n2 p l r,
      svc u nw n (Some p) n1 r -> stream u nw n1 l n2 -> stream u nw n (p :: l) n2.
End Pool.
Arguments mkUser {T env}. Arguments u_sel {T env}. Arguments u_evol {T env}.
Arguments u_fil {T env}. Arguments u_term {T env}.
Arguments estep {T}. Arguments evolve {T env}.
Arguments pool_loop {T env}. Arguments mkNode {T env}. Arguments vecs {T env}.
Arguments input {T env}. Arguments buffer {T env}. Arguments nenv {T env}.
Arguments svc {T env}. Arguments stream {T env}.
