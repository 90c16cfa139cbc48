(** What a user expects of the feedback channels of a pipeline with wrap_around(). *)
From Coq Require Import List Arith Bool.
From Verif Require Import WireModel WireSpec WrapModel.
Import ListNotations.

(** The feedback goes from the threads that produce the output of the last stage to those that take
    the input of the first: from everyone to everyone, or from the j-th to the j-th (see [full] in
    WireSpec.v). *)
Definition inside (x : id) (l : list id) : bool := existsb (id_eqb x) l.
Definition ends (l : list stage) : option (nat * stage * stage) :=
  match nth_error l (pred (length l)), nth_error l 0 with
  | Some p, Some c => Some (pred (length l), p, c)
  | _, _ => None
  end.
Definition fsuccs (l : list stage) (x : id) : list id :=
  match ends l with
  | Some (n, p, c) =>
      if inside x (exit n p) then if full p c then entry 0 c else firstn 1 (skipn (pos x) (entry 0 c)) else []
  | None => []
  end.
Definition fpreds (l : list stage) (y : id) : list id :=
  match ends l with
  | Some (n, p, c) =>
      if inside y (entry 0 c) then if full p c then exit n p else firstn 1 (skipn (pos y) (exit n p)) else []
  | None => []
  end.

(** Which last stage [p] can be sent back to which first stage [c]: anything to a farm or a
    multi-input node; a stage with one producer to a standard node; to an all-to-all, a producer
    with several outputs, or as many producers as there are consumers, or producers with several
    outputs to consumers with several inputs. *)
Definition wrap_ok (p c : stage) : bool :=
  match c with
  | SNode k => mi k || single p
  | SFarm _ _ _ _ => true
  | SA2A n1 k1 _ _ => if exit_mo p then single p || mi k1 else negb (single p) && (length (exit 0 p) =? n1)
  end.
Definition wrappable (l : list stage) : bool :=
  (2 <=? length l) && connectable l && match ends l with Some (_, p, c) => wrap_ok p c | None => false end.

(** The last stage is a farm with a multi-output collector. *)
Definition collector_mo (l : list stage) : Prop :=
  exists n p c, ends l = Some (n, p, c) /\ match p with SFarm _ _ (UsrColl k) _ => mo k = true | _ => False end.

(** All the connections of a thread: [true] marks feedback.  Feedback comes first. *)
Definition wsuccs (l : list stage) (x : id) : list (bool * id) := map (pair true) (fsuccs l x) ++ map (pair false) (succs l x).
Definition wpreds (l : list stage) (x : id) : list (bool * id) := map (pair true) (fpreds l x) ++ map (pair false) (preds l x).
