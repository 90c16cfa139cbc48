(** Vocabulary of the accelerator theorems. *)
From Coq Require Import List Arith Bool.
From Verif Require Import Base NetModel NetSpec AccModel.
Import ListNotations.

(** What the calling thread offloaded (calls that returned true), and what it loaded. *)
Definition offloaded {X : Type} (h : list (call X * ret X)) : list (msg X) :=
  flat_map (fun cr => match fst cr with Off m _ => if ok (snd cr) then [m] else [] | _ => [] end) h.
Definition loaded {X : Type} (h : list (call X * ret X)) : list (msg X) :=
  flat_map (fun cr => match got (snd cr) with Some m => [m] | None => [] end) h.

Section Spec.
  Context {X St : Type}.
  Variables (n : nat) (chs : list chan) (st0 : nat -> St) (boot0 : nat -> list (list (req X)))
            (svc0 : nat -> St -> nat -> X -> St * list (list (req X)) * bool)
            (eosn0 : nat -> St -> nat -> St * list (list (req X))).
  Let N := N n chs st0 boot0 svc0 eosn0.

  (** An accelerator: no cycles, one input channel, one output channel, which is unbounded, and
      the nodes fed by bounded channels read their whole input. *)
  Record acc_ok : Prop := {
    ok_wf : wf N;
    ok_acyclic : acyclic N;
    ok_patient : forall c k b, chan_of N c = Some k -> cap k = Some b -> patient N (dst k);
    ok_in : length (outs N host_out) = 1;
    ok_out : length (ins N (host_in n)) = 1;
    ok_unbounded : forall k, chan_of N (out_chan n chs st0 boot0 svc0 eosn0) = Some k -> cap k = None }.
End Spec.

(** A pipeline of stages, each a transducer: the new state and what is sent for each input. *)
Section Pipe.
  Context {X St : Type}.
  Variable f : nat -> St -> X -> St * list X.
  Fixpoint stage_out (v : nat) (u : St) (xs : list X) : list X :=
    match xs with [] => [] | x :: r => let (u', o) := f v u x in o ++ stage_out v u' r end.
  (** The output of stages 1..k on the input xs. *)
  Fixpoint through (st0 : nat -> St) (k : nat) (xs : list X) : list X :=
    match k with 0 => xs | S j => stage_out (S j) (st0 (S j)) (through st0 j xs) end.

  Definition pipe_chans (n : nat) (cp : nat -> option nat) : list chan :=
    map (fun i => mkChan i (S i) (if i =? n then None else cp i)) (seq 0 (S n)).
  Definition pipe_svc (v : nat) (u : St) (c : nat) (x : X) : St * list (list (req X)) * bool :=
    let (u', o) := f v u x in (u', map (fun y => [To 0 (Item y)]) o, false).
End Pipe.
