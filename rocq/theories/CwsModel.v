(** combine_with_laststage and combine_with_firststage with the helpers they call
    (ff/optimize.hpp:115-326): a node added at the end or at the beginning of a pipeline without a
    stage of its own.

    Simplifications: ownership of the nodes is left out; a copy of the node ([new T( *node)]) has the
    number of the node; the wrapper that turns an emitter into a multi-output node
    (internal_mo_transformer, optimize.hpp:130-132) does what the emitter does and is left out; the
    node is neither a parallel block nor a composition.  An ordered farm without a collector of its
    own counts as a farm with a default collector (hasCollector, ff/farm.hpp:1281-1283). *)
From Coq Require Import List Arith Bool.
Import ListNotations.

(** A node; ff_comb; ff_pipeline; ff_farm with its emitter, collector (none; default; its own) and
    workers; ff_a2a with its two sets. *)
Inductive bb :=
| Node (i : nat)
| Comb (l r : bb)
| Pipe (st : list bb)
| Farm (e : option bb) (c : option (option bb)) (w : list bb)
| A2a (l r : list bb).

(** isPipe, isFarm, isAll2All. *)
Inductive kind := KSeq | KPipe | KFarm | KA2a.
Definition kindof (b : bb) : kind :=
  match b with Node _ => KSeq | Comb _ _ => KSeq | Pipe _ => KPipe | Farm _ _ _ => KFarm | A2a _ _ => KA2a end.
Definition same (a b : kind) : bool :=
  match a, b with KSeq, KSeq => true | KPipe, KPipe => true | KFarm, KFarm => true | KA2a, KA2a => true | _, _ => false end.

(** The value returned (0 or -1) and the block; or undefined behaviour: a cast to the wrong class, a
    composition with a parallel block (it stays empty, ff/combine.hpp:340-353), an index out of
    range. *)
Inductive res := Bad | R (ok : bool) (b : bb).
Definition wrap (f : bb -> bb) (r : res) : res := match r with Bad => Bad | R ok b => R ok (f b) end.

(** get_and_remove_nodes (ff/pipeline.hpp:1019-1038), used by flatten (1382-1393). *)
Fixpoint flat (b : bb) : list bb := match b with Pipe st => flat_map flat st | _ => [b] end.

(** The loops over the nodes after the first (optimize.hpp:211-215, 219-223, 227-231, 256-261,
    283-287): the value returned by each call is added to r, and a negative sum is not looked at. *)
Section Rest.
  Variable f : bb -> res.
  Variable k : kind.
  Fixpoint rest (l : list bb) : option (list bb) :=
    match l with
    | [] => Some []
    | x :: t =>
        if same (kindof x) k then
          match f x, rest t with R _ y, Some t' => Some (y :: t') | _, _ => None end
        else None
    end.
  (** The first node decides the value returned (optimize.hpp:208-216, 251-262, 278-289). *)
  Definition each (mk : list bb -> bb) (h : bb) (t : list bb) : res :=
    match f h with
    | Bad => Bad
    | R false x => R false (mk (x :: t))
    | R true x => match rest t with Some t' => R true (mk (x :: t')) | None => Bad end
    end.
End Rest.
(** The compositions made for a set of nodes (optimize.hpp:234-246, 263-274, 290-300). *)
Fixpoint combs (f : bb -> bb) (l : list bb) : option (list bb) :=
  match l with
  | [] => Some []
  | x :: t => if same (kindof x) KSeq then match combs f t with Some t' => Some (f x :: t') | None => None end else None
  end.
Definition combine_all (f : bb -> bb) (mk : list bb -> bb) (l : list bb) : res :=
  match combs f l with Some l' => R true (mk l') | None => Bad end.

(** combine_with_laststage for a pipeline (optimize.hpp:308-330), combine_right_with_farm (197-248)
    with combine_with_collector (149-167), combine_right_with_a2a (249-274). *)
Fixpoint right (fuel : nat) (n : nat) (b : bb) : res :=
  match fuel with
  | 0 => Bad
  | S fuel =>
      match b with
      | Pipe st =>
          let l := flat_map flat st in
          match rev l with
          | [] => R false (Pipe l)
          | x :: ini =>
              if same (kindof x) KSeq then R true (Pipe (rev ini ++ [Comb x (Node n)]))
              else wrap (fun y => Pipe (rev ini ++ [y])) (right fuel n x)
          end
      | Farm e (Some None) w => R false b
      | Farm e (Some (Some c)) w => R true (Farm e (Some (Some (Comb c (Node n)))) w)
      | Farm e None w =>
          match w with
          | [] => Bad
          | h :: t =>
              if same (kindof h) KSeq then combine_all (fun x => Comb x (Node n)) (Farm e None) w
              else each (right fuel n) (kindof h) (Farm e None) h t
          end
      | A2a l r =>
          match r with
          | [] => Bad
          | h :: t =>
              if same (kindof h) KPipe then each (right fuel n) KPipe (A2a l) h t
              else combine_all (fun x => Comb x (Node n)) (A2a l) r
          end
      | _ => Bad
      end
  end.

(** combine_with_firststage for a pipeline (optimize.hpp:173-194), combine_with_emitter (115-142),
    combine_left_with_a2a (276-301). *)
Fixpoint left (fuel : nat) (n : nat) (b : bb) : res :=
  match fuel with
  | 0 => Bad
  | S fuel =>
      match b with
      | Pipe st =>
          match flat_map flat st with
          | [] => R false (Pipe [])
          | x :: t =>
              if same (kindof x) KSeq then R true (Pipe (Comb (Node n) x :: t))
              else wrap (fun y => Pipe (y :: t)) (left fuel n x)
          end
      | Farm None c w => R true (Farm (Some (Node n)) c w)
      | Farm (Some e) c w => R true (Farm (Some (Comb (Node n) e)) c w)
      | A2a l r =>
          match l with
          | [] => Bad
          | h :: t =>
              if same (kindof h) KPipe then each (left fuel n) KPipe (fun l => A2a l r) h t
              else combine_all (Comb (Node n)) (fun l => A2a l r) l
          end
      | _ => Bad
      end
  end.

(** The calls terminate because they go down the nesting: enough fuel. *)
Fixpoint size (b : bb) : nat :=
  match b with
  | Node _ => 1
  | Comb l r => S (size l + size r)
  | Pipe st => S (list_sum (map size st))
  | Farm e c w =>
      S ((match e with Some x => size x | None => 0 end)
         + (match c with Some (Some x) => size x | _ => 0 end) + list_sum (map size w))
  | A2a l r => S (list_sum (map size l) + list_sum (map size r))
  end.
Definition combine_with_laststage (st : list bb) (n : nat) : res := right (size (Pipe st)) n (Pipe st).
Definition combine_with_firststage (st : list bb) (n : nat) : res := left (size (Pipe st)) n (Pipe st).
