(** Specification vocabulary for the data-flow scheduler: which tasks conflict, and order in an execution log. *)
From Coq Require Import List Arith Bool.
From Verif Require Import MdfModel.
Import ListNotations.

Definition reads (ps : list param) (d : nat) : Prop := In (d, INPUT) ps.
Definition writes (ps : list param) (d : nat) : Prop := In (d, OUTPUT) ps.
Definition touches (ps : list param) (d : nat) : Prop := reads ps d \/ writes ps d.

(** Both touch some datum and at least one writes it. *)
Definition conflict (pa pb : list param) : Prop :=
  exists d, (writes pa d /\ touches pb d) \/ (reads pa d /\ writes pb d).

(** A parameter list the scheduler supports: no null tag, and once a datum has been declared OUTPUT it is not
    declared again. *)
Inductive supported : list param -> Prop :=
| sup_nil : supported []
| sup_snoc : forall ps d r, supported ps ->
    (r <> VALUE -> d <> 0 /\ ~ writes ps d) -> supported (ps ++ [(d, r)]).

(** Task [a] precedes task [b] in the program. *)
Definition program_order (P : list (nat * list param)) (a b : nat * list param) : Prop :=
  exists l1 l2 l3, P = l1 ++ a :: l2 ++ b :: l3.

(** In the log, event [e] occurs before every occurrence of event [f]. *)
Definition occurs_before (l : list ev) (e f : ev) : Prop :=
  forall l1 l2, l = l1 ++ f :: l2 -> In e l1.

(** ** Memory contents
    [F x m d]: the value task [x] computes for its output [d] from memory contents [m].  A task reads memory when it
    begins and writes its outputs when it ends. *)
Section Data.
  Variables (V : Type) (F : nat -> (nat -> V) -> nat -> V).

  Definition writesb (ps : list param) (d : nat) : bool :=
    existsb (fun p => (fst p =? d) && (match snd p with OUTPUT => true | _ => false end)) ps.
  Definition put (x : nat) (ps : list param) (seen m : nat -> V) : nat -> V :=
    fun d => if writesb ps d then F x seen d else m d.

  (** The program executed one task after the other. *)
  Definition sequential (P : list (nat * list param)) (m : nat -> V) : nat -> V :=
    fold_left (fun m t => put (fst t) (snd t) m m) P m.

  (** Memory after the events of an execution log; [snd]: what each task saw when it began. *)
  Definition params_of (P : list (nat * list param)) (x : nat) : list param :=
    match find (fun t => fst t =? x) P with Some t => snd t | None => [] end.
  Definition event (P : list (nat * list param)) (c : (nat -> V) * (nat -> nat -> V)) (e : ev) :=
    match e with
    | Begin x => (fst c, fun y => if y =? x then fst c else snd c y)
    | End x => (put x (params_of P x) (snd c x) (fst c), snd c)
    end.
  Definition replay (P : list (nat * list param)) (l : list ev) (m : nat -> V) : nat -> V :=
    fst (fold_left (event P) l (m, fun _ => m)).

  (** Tasks read only what they declare as INPUT or OUTPUT. *)
  Definition local (P : list (nat * list param)) : Prop :=
    forall x ps m m', In (x, ps) P -> (forall d, touches ps d -> m d = m' d) -> forall d, writes ps d -> F x m d = F x m' d.
End Data.

(** The parameter lists of the tasks inserted in an execution, in order. *)
Fixpoint inserted (l : list act) : list (list param) :=
  match l with [] => [] | Insert ps _ :: r => ps :: inserted r | _ :: r => inserted r end.
