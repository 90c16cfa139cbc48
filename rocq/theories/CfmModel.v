(** combine_farms and the functions it calls (ff/combine.hpp:975-1598): two farms in sequence made
    into one farm, or into two connected without a collector.

    Simplifications: those of CwsModel (ownership, wrappers and copies of a node); the buffers and
    the scheduling of the new farms are left out; node1 and node2 are plain nodes, not compositions.
    A helper node that only forwards (combine.hpp:1398-1403) is left out; so are the wrappers of an
    ordered farm (combine.hpp:1193-1224), which number the items and restore their order (C16). *)
From Coq Require Import List Arith Bool.
From Verif Require Import CwsModel.
Import ListNotations.

(** A farm: isOFarm, getEmitter, the collector (none, default, its own), getWorkers. *)
Record farm := mkFarm { ord : bool; em : option bb; co : option (option bb); wk : list bb }.
(** The pipeline given back; an error message and a pipeline that cannot be used (empty, or with an
    empty farm); abort or undefined behaviour (a composition with a parallel block, CwsModel). *)
Inductive out := Err | Ub | Ok (st : list bb).

Section Kinds.
  (** isMultiInput and isMultiOutput of a node. *)
  Variables mi mo : bb -> bool.

  (** A new farm with the emitter of the first, one worker, and the collector of the second
      (combine.hpp:996-1031, 1056-1084, 1449-1497, 1529-1588). *)
  Definition one_farm (f1 f2 : farm) (l r : list bb) : out := Ok [Farm (em f1) (co f2) [A2a l r]].
  (** combine_farms_a2a without a node (combine.hpp:975-1031). *)
  Definition farms_a2a (f1 f2 : farm) : out :=
    match co f1, em f2 with
    | Some (Some _), _ => Err
    | _, Some _ => Err
    | _, None => one_farm f1 f2 (wk f1) (wk f2)
    end.
  (** The compositions of the workers of the first set with a node (combine.hpp:1061-1077,
      1469-1487, 1546-1559), used by combine_farms_a2a with a node (1039-1087) and by case 3.1. *)
  Definition farms_a2a_node (f1 : farm) (n : nat) (f2 : farm) : out :=
    match combs (fun x => Comb x (Node n)) (wk f1) with Some l => one_farm f1 f2 l (wk f2) | None => Ub end.
  (** Case 4.1 (combine.hpp:1501-1593). *)
  Definition farms_a2a_both (f1 : farm) (n1 : nat) (f2 : farm) (n2 : nat) : out :=
    match combs (fun x => Comb x (Node n1)) (wk f1), combs (Comb (Node n2)) (wk f2) with
    | Some l, Some r => one_farm f1 f2 l r
    | _, _ => Ub
    end.

  (** The loop of combine.hpp:1150-1157. *)
  Fixpoint pairs (a b : list bb) : option (list bb) :=
    match a, b with
    | [], [] => Some []
    | x :: a, y :: b =>
        if same (kindof x) KSeq && same (kindof y) KSeq then
          match pairs a b with Some l => Some (Comb x y :: l) | None => None end
        else None
    | _, _ => None
    end.
  Definition is_pipe_b (b : bb) : bool := same (kindof b) KPipe.
  (** combine_farms_nf for farms that are not ordered (combine.hpp:1095-1172). *)
  Definition farms_nf (f1 f2 : farm) : out :=
    if negb (length (wk f1) =? length (wk f2)) then Err
    else match wk f1, wk f2 with
         | x :: _, y :: _ =>
             if mo x || mi y then Err
             else if is_pipe_b x || is_pipe_b y then Err
             else match pairs (wk f1) (wk f2) with Some l => Ok [Farm (em f1) (co f2) l] | None => Ub end
         | _, _ => Ub
         end.

  (** combine_ofarm_farm (combine.hpp:1175-1271): the new first farm has no collector; the collector
      of the first and the emitter of the second become the emitter of the second.  A composed emitter
      that does not end with a multi-output node makes add_emitter abort (ff/farm.hpp:959-970). *)
  Definition ofarm_farm (f1 f2 : farm) : out :=
    if ord f2 && (length (wk f1) =? length (wk f2)) then Err
    else
      let c := match co f1 with Some (Some c) => Some c | _ => None end in
      let go e := Ok [Farm (em f1) None (wk f1); Farm e (co f2) (wk f2)] in
      match c, em f2 with
      | None, None => go None
      | None, Some e => if mo e then go (Some e) else Ub
      | Some c, None => if mo c then go (Some c) else Ub
      | Some c, Some e => if mo e then go (Some (Comb c e)) else Ub
      end.

  (** Two farms, the first without its collector, the second with emitter e. *)
  Definition two_farms (f1 f2 : farm) (e : option bb) : out :=
    Ok [Farm (em f1) None (wk f1); Farm e (co f2) (wk f2)].

  (** combine.hpp:1312-1594. *)
  Definition combine_farms (f1 : farm) (n1 : option nat) (f2 : farm) (n2 : option nat) (merge : bool) : out :=
    if merge then
      if ord f1 || ord f2 then
        match n1, n2 with
        | None, None =>
            if length (wk f1) =? length (wk f2) then Err
            else if ord f1 then ofarm_farm f1 f2
            else two_farms f1 f2 (em f2)
        | _, _ => Err
        end
      else
        match n1, n2 with
        | None, None =>
            if length (wk f1) =? length (wk f2) then farms_nf f1 f2
            else farms_a2a (mkFarm (ord f1) (em f1) None (wk f1)) (mkFarm (ord f2) None (co f2) (wk f2))
        | Some a, Some b =>
            if negb (mo (Node b)) && mi (Node b) then Err
            else two_farms f1 f2 (Some (Comb (Node a) (Node b)))
        | None, Some _ => two_farms f1 f2 None
        | Some a, None => two_farms f1 f2 (Some (Node a))
        end
    else if ord f1 || ord f2 then Err
    else
      match n1, n2 with
      | None, None => farms_a2a (mkFarm (ord f1) (em f1) None (wk f1)) (mkFarm (ord f2) None (co f2) (wk f2))
      | None, Some b => farms_a2a_node f1 b f2
      | Some a, None => farms_a2a_node f1 a f2
      | Some a, Some b => if mi (Node a) then Err else if mo (Node b) then Err else farms_a2a_both f1 a f2 b
      end.
End Kinds.
