(** Vocabulary for repeated runs. *)
From Coq Require Import List Arith Bool.
From Verif Require Import Base NetModel NetSpec ReModel.
Import ListNotations.

Section Spec.
  Context {X St : Type}.
  Variables (n : nat) (chs : list chan) (first : nat -> St)
            (reboot : nat -> St -> St * list (list (req X)))
            (svc0 : nat -> St -> nat -> X -> St * list (list (req X)) * bool)
            (eosn0 : nat -> St -> nat -> St * list (list (req X))).
  Notation NR := (NR n chs reboot svc0 eosn0).

  (** The state [s] is what [K] separate executions of the network leave when put one after the
      other: execution number r starts on empty channels, with the nodes in the states [F r], does
      the steps [L r] and ends in the state [T r].  What each thread read and pushed, and what
      each channel carried and still holds, is the concatenation over the runs; a thread that went
      on to the next run had ended, and took its state with it. *)
  Record separate (K : nat) (s : mst X St) (F : nat -> nat -> St) (T : nat -> st X St) (L : nat -> list act) : Prop := {
    s_first : forall v, F 0 v = first v;
    s_exec : forall r, r < K -> exec (step (NR (F r))) (init_st (NR (F r))) (L r) = Some (T r);
    s_carry : forall r v, r < run s v -> ph (nd (T r) v) = Done /\ F (S r) v = ust (nd (T r) v);
    s_now : forall v, nd (base s) v = nd (T (run s v)) v;
    s_later : forall r v, r < K -> run s v < r -> hl (T r) v = [] /\ hp (T r) v = [] /\ nd (T r) v = init_node (NR (F r)) v;
    s_read : forall v, hl (base s) v = flat_map (fun r => hl (T r) v) (seq 0 K);
    s_push : forall v, hp (base s) v = flat_map (fun r => hp (T r) v) (seq 0 K);
    s_sent : forall c, hs (base s) c = flat_map (fun r => hs (T r) c) (seq 0 K);
    s_held : forall c, q (base s) c = flat_map (fun r => q (T r) c) (seq 0 K) }.

  (** Every run ended. *)
  Definition all_ended (K : nat) (s : mst X St) : Prop :=
    forall v, v < n -> ph (nd (base s) v) = Done /\ S (run s v) = K.
End Spec.
