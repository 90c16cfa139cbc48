(** A finite map as an association list, newest first, one entry per key up to [eqv]. *)
From Coq Require Import List Bool ZArith.
From Verif Require Import HashModel.
Import ListNotations.

Section Spec.
  Context {K V : Type}.
  Variable eqv : K -> K -> bool.
  Definition fmap := list (K * option V).
  Definition has (m : fmap) (k : K) : bool := existsb (fun e => eqv (fst e) k) m.
  Definition get (m : fmap) (k : K) : option V :=
    match find (fun e => eqv (fst e) k) m with Some e => snd e | None => None end.
  Definition remove (m : fmap) (k : K) : fmap := filter (fun e => negb (eqv (fst e) k)) m.

  Definition spec_step (m : fmap) (o : op K V) : fmap * ret V :=
    match o with
    | Insert k v => if has m k then (m, RBool false) else ((k, v) :: m, RBool true)
    | Update k v => ((k, v) :: remove m k, RUnit)
    | Delete k => if has m k then (remove m k, RBool true) else (m, RBool false)
    | Find k => (m, RData (get m k))
    | Count => (m, RCount (Z.of_nat (length m)))
    end.
End Spec.

(** What the user must supply (icl_hash.h:102): a comparison that is an equivalence and a hash
    function that does not separate equal keys. *)
Definition compatible {K : Type} (h : K -> nat) (eqv : K -> K -> bool) : Prop :=
  (forall a, eqv a a = true) /\ (forall a b, eqv a b = true -> eqv b a = true) /\
  (forall a b c, eqv a b = true -> eqv b c = true -> eqv a c = true) /\
  (forall a b, eqv a b = true -> h a = h b).

(** Calls other than reading the entry counter. *)
Definition no_count {K V} (o : op K V) : Prop := match o with Count => False | _ => True end.
(** Calls that do not delete or replace an entry. *)
Definition only_adds {K V} (eqv : K -> K -> bool) (m : list (K * option V)) (o : op K V) : Prop :=
  match o with Delete k => has eqv m k = false | Update k _ => has eqv m k = false | _ => True end.
