(** What a user expects of the channels of a pipeline, independently of how they are created. *)
From Coq Require Import List Arith Bool.
From Verif Require Import WireModel.
From Verif Require NetModel.
Import ListNotations.

(** The threads of a stage, in the order of the data flow. *)
Definition threads_of (i : nat) (s : stage) : list id :=
  match s with
  | SNode _ => [(i, Self)]
  | SFarm n _ c _ => [(i, Em)] ++ wk i n ++ match c with NoColl => [] | _ => [(i, Co)] end
  | SA2A n1 _ n2 _ => lw i n1 ++ rw i n2
  end.
Definition threads (l : list stage) : list id :=
  flat_map (fun i => match nth_error l i with Some s => threads_of i s | None => [] end) (seq 0 (length l)).
Definition thread (l : list stage) (x : id) : Prop :=
  exists s, nth_error l (fst x) = Some s /\ In x (threads_of (fst x) s).

(** The threads that take the input of a stage and those that produce its output. *)
Definition entry (i : nat) (s : stage) : list id :=
  match s with
  | SNode _ => [(i, Self)]
  | SFarm _ _ _ _ => [(i, Em)]
  | SA2A n1 _ _ _ => lw i n1
  end.
Definition exit (i : nat) (s : stage) : list id :=
  match s with
  | SNode _ => [(i, Self)]
  | SFarm n _ NoColl _ => wk i n
  | SFarm _ _ _ _ => [(i, Co)]
  | SA2A _ _ n2 _ => rw i n2
  end.
Definition exit_mo (s : stage) : bool :=
  match s with
  | SNode k => mo k
  | SFarm _ kw NoColl _ => mo kw
  | SFarm _ _ DefColl _ => false
  | SFarm _ _ (UsrColl k) _ => mo k
  | SA2A _ _ _ k2 => mo k2
  end.
Definition entry_mi (s : stage) : bool :=
  match s with SNode k => mi k | SFarm _ _ _ _ => true | SA2A _ k1 _ _ => mi k1 end.

(** Between two stages: every producer to every consumer if there is one producer, or one
    consumer, or the producers can have several outputs and the consumers several inputs;
    otherwise the j-th producer to the j-th consumer. *)
Definition full (p c : stage) : bool :=
  (length (exit 0 p) =? 1) || (length (entry 0 c) =? 1) || (exit_mo p && entry_mi c).

(** Position of a thread in its group. *)
Definition pos (x : id) : nat := match snd x with Wk j | Lw j | Rw j => j | _ => 0 end.

Definition after (l : list stage) (i : nat) (p : stage) (x : id) : list id :=
  match nth_error l (S i) with
  | None => []
  | Some c => if full p c then entry (S i) c else firstn 1 (skipn (pos x) (entry (S i) c))
  end.
Definition before (l : list stage) (i : nat) (c : stage) (y : id) : list id :=
  match i with
  | 0 => []
  | S i' => match nth_error l i' with
            | None => []
            | Some p => if full p c then exit i' p else firstn 1 (skipn (pos y) (exit i' p))
            end
  end.

(** The threads that x sends to, by output number, and those that x receives from, by input
    number. *)
Definition succs (l : list stage) (x : id) : list id :=
  match nth_error l (fst x) with
  | None => []
  | Some s =>
      match s, snd x with
      | SFarm n _ _ _, Em => wk (fst x) n
      | SFarm _ _ NoColl _, Wk _ => after l (fst x) s x
      | SFarm _ _ _ _, Wk _ => [(fst x, Co)]
      | SA2A _ _ n2 _, Lw _ => rw (fst x) n2
      | _, _ => after l (fst x) s x
      end
  end.
Definition preds (l : list stage) (x : id) : list id :=
  match nth_error l (fst x) with
  | None => []
  | Some s =>
      match s, snd x with
      | SFarm _ _ _ _, Wk _ => [(fst x, Em)]
      | SFarm n _ _ _, Co => wk (fst x) n
      | SA2A n1 _ _ _, Rw _ => lw (fst x) n1
      | _, _ => before l (fst x) s x
      end
  end.

(** Pipelines that the library can connect.  [link_ok]: adjacent stages.  A producer with one
    output needs one consumer; several producers without a common consumer need as many consumers,
    unless the former have several outputs and the latter several inputs.  An all-to-all whose
    single output node is multi-output cannot feed a standard node. *)
Definition single (s : stage) : bool :=
  match s with SNode _ => true | SFarm _ _ NoColl _ => false | SFarm _ _ _ _ => true | SA2A _ _ _ _ => false end.
Definition link_ok (p c : stage) : bool :=
  let np := length (exit 0 p) in
  let nc := length (entry 0 c) in
  match c with
  | SNode k => mi k || single p || ((np =? 1) && negb (is_a2a p && exit_mo p))
  | SFarm _ _ _ _ => true
  | SA2A _ k1 _ _ =>
      if single p then exit_mo p || (nc =? 1)
      else (exit_mo p && mi k1) || (np =? nc)
  end.
Definition stage_ok (s : stage) : bool :=
  match s with
  | SNode _ => true
  | SFarm n kw _ o => (0 <? n) && negb (o && (mi kw || mo kw))
  | SA2A n1 k1 n2 k2 => (0 <? n1) && (0 <? n2) && (negb (mi k1) || mo k1) && (negb (mo k2) || mi k2)
  end.
Fixpoint links_ok (p : stage) (l : list stage) : bool :=
  match l with [] => true | c :: l' => link_ok p c && links_ok c l' end.
Definition connectable (l : list stage) : bool :=
  match l with [] => false | s :: l' => forallb stage_ok l && links_ok s l' end.

(** An ordered farm has a collector (ff_OFarm adds one; ff_farm::set_ordered does not). *)
Definition ordered_coll (s : stage) : Prop := match s with SFarm _ _ NoColl true => False | _ => True end.

(** The network of threads [N] (NetModel.v) runs the pipeline wired in [h]: its nodes are the threads of
    the pipeline, and output (input) number j of every node is the channel that [h] has there. *)
Definition runs {X St : Type} (l : list stage) (h : heap) (N : NetModel.net X St) : Prop :=
  NetModel.nodes N = length (threads l) /\
  exists cid : nat -> nat,
    forall v x s, nth_error (threads l) v = Some x -> nth_error l (fst x) = Some s ->
      outputs s h x = map (fun c => Some (cid c)) (NetModel.outs N v) /\
      inputs s h x = map (fun c => Some (cid c)) (NetModel.ins N v).
