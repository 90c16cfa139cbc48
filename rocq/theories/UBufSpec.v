(** What the two users of the unbounded channel may observe. *)
From Coq Require Import List Arith Bool.
From Verif Require Import Base UBufModel.
Import ListNotations.

Section Spec.
  Context {A : Type}.
  (** [bound]: capacity of a channel with fixedsize. *)
  Variable bound : option nat.

  (** [replay t q b q' b']: the observations [t] are those of a FIFO queue going from content [q]
      to content [q'], where push fails only when the bound is reached and pop fails only if
      nothing was stored when it was called ([b], [b']: nothing was stored at the last call). *)
  Fixpoint replay (t : list (event A)) (q : list A) (b : bool) (q' : list A) (b' : bool) : Prop :=
    match t with
    | [] => q' = q /\ b' = b
    | EPush x :: t' => replay t' (q ++ [x]) b q' b'
    | EPushFull _ :: t' => bound = Some (length q) /\ replay t' q b q' b'
    | ECallPop :: t' => replay t' q (match q with [] => true | _ => false end) q' b'
    | EPop x :: t' => exists q1, q = x :: q1 /\ replay t' q1 b q' b'
    | EPopEmpty :: t' => b = true /\ replay t' q b q' b'
    | EReset :: t' => replay t' [] b q' b'
    end.

  (** The observations are those of a FIFO queue, now holding [q]. *)
  Definition fifo (t : list (event A)) (q : list A) : Prop := exists b, replay t [] false q b.

  Fixpoint pushes (t : list (event A)) : list A :=
    match t with [] => [] | EPush x :: t' => x :: pushes t' | _ :: t' => pushes t' end.
  Fixpoint pops (t : list (event A)) : list A :=
    match t with [] => [] | EPop x :: t' => x :: pops t' | _ :: t' => pops t' end.

  (** Executions in which push and pop calls do not overlap and reset is not used. *)
  Definition seqstep (n : nat) (fixedsize : bool) (s : st A) (a : act A) : option (st A) :=
    match a with
    | CallPush _ => match cp s with CIdle => step n fixedsize s a | _ => None end
    | CallPop => match pp s with PIdle => step n fixedsize s a | _ => None end
    | Reset => None
    | _ => step n fixedsize s a
    end.

  (** Progress: the number of own steps a call still needs. *)
  Definition pleft (s : st A) : nat :=
    match pp s with PIdle => 0 | PAvail _ => 7 | PTake _ => 6 | PLink _ _ => 5 | PSet _ _ => 4 | PCnt _ => 3 | PCnt2 _ _ => 2 | PPut _ => 1 end.
  Definition cleft (s : st A) : nat :=
    match cp s with CIdle => 0 | CEmp1 => 10 | CCmp => 9 | CEmp2 => 8 | CNext => 7 | CRst _ => 6 | CRel _ => 5 | CDec _ => 4
    | CDec2 _ _ => 3 | CSet _ => 2 | CPop => 1 end.
End Spec.
