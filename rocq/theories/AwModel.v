(** The channels of an all-to-all that runs on its own, with or without wrap_around():
    ff_a2a::prepare (ff/all2all.hpp:83-350).  Unlike in WireModel.v, the nodes of a set may be of
    different kinds: the code only looks at the first of each set.

    Simplifications:
    - the nodes of the two sets are nodes, not pipelines (refused: farms and all-to-alls), and have
      no channels yet; nothing follows the all-to-all (outputNodes is empty);
    - an entry of a list of feedback nodes that is a node stands for the channel that this node has
      at the time (it does not change later);
    - the condition variables of the blocking mode, on-demand scheduling and the numbers given to
      the nodes are left out; memory allocation succeeds. *)
From Coq Require Import List Arith Bool.
Import ListNotations.

(** isMultiInput, isMultiOutput. *)
Record kind := mkKind { mi : bool; mo : bool }.
Definition std : kind := mkKind false false.

(** Node i of the first (second) set. *)
Inductive node := L (i : nat) | R (i : nat).
Definition node_eqb (a b : node) : bool :=
  match a, b with L i, L j | R i, R j => i =? j | _, _ => false end.

(** [in1], [out1]: the pointers in and out (ff/node.hpp:1250); [inN], [outN], [inF], [outF]:
    inputNodes, outputNodes and their feedback counterparts (ff/multinode.hpp), of the node or of
    the transformer around it; [None] in a list is a node without a channel. *)
Record heap := mkHeap {
  nb : nat;
  in1 : node -> option nat;
  out1 : node -> option nat;
  inN : node -> list (option nat);
  outN : node -> list (option nat);
  inF : node -> list (option nat);
  outF : node -> list (option nat) }.
Definition heap0 : heap :=
  mkHeap 0 (fun _ => None) (fun _ => None) (fun _ => []) (fun _ => []) (fun _ => []) (fun _ => []).

Definition upd {T} (f : node -> T) (x : node) (v : T) : node -> T := fun y => if node_eqb x y then v else f y.
Definition alloc (h : heap) := mkHeap (S (nb h)) (in1 h) (out1 h) (inN h) (outN h) (inF h) (outF h).
Definition put_in1 x b h := mkHeap (nb h) (upd (in1 h) x b) (out1 h) (inN h) (outN h) (inF h) (outF h).
Definition put_out1 x b h := mkHeap (nb h) (in1 h) (upd (out1 h) x b) (inN h) (outN h) (inF h) (outF h).
Definition add_inN x b h := mkHeap (nb h) (in1 h) (out1 h) (upd (inN h) x (inN h x ++ [b])) (outN h) (inF h) (outF h).
Definition add_outN x b h := mkHeap (nb h) (in1 h) (out1 h) (inN h) (upd (outN h) x (outN h x ++ [b])) (inF h) (outF h).
Definition add_inF x b h := mkHeap (nb h) (in1 h) (out1 h) (inN h) (outN h) (upd (inF h) x (inF h x ++ [b])) (outF h).
Definition add_outF x b h := mkHeap (nb h) (in1 h) (out1 h) (inN h) (outN h) (inF h) (upd (outF h) x (outF h x ++ [b])).

(** set_output, set_input with a buffer node of channel b: a multi-output (multi-input) node adds it
    to its list (ff/multinode.hpp:276-292, 620-637), another takes its channel as [out] ([in])
    (ff/node.hpp:783-795). *)
Definition set_output (m : bool) (x : node) (b : nat) (h : heap) : heap :=
  if m then add_outN x (Some b) h else put_out1 x (Some b) h.
Definition set_input (m : bool) (x : node) (b : nat) (h : heap) : heap :=
  if m then add_inN x (Some b) h else put_in1 x (Some b) h.
(** set_output_feedback, set_input_feedback (ff/multinode.hpp:295-298, 640-643); the versions for
    other nodes do nothing and return -1 (ff/node.hpp:787, 795). *)
Definition set_output_feedback (m : bool) (x : node) (b : option nat) (h : heap) : heap :=
  if m then add_outF x b h else h.
Definition set_input_feedback (m : bool) (x : node) (b : option nat) (h : heap) : heap :=
  if m then add_inF x b h else h.

(** for (i = 0; i < n; ++i) h = f(i, h). *)
Fixpoint loop (n : nat) (f : nat -> heap -> heap) (h : heap) : heap :=
  match n with 0 => h | S n => f n (loop n f h) end.

Definition kd (ks : list kind) (i : nat) : kind := nth i ks std.

(** create_input_buffer of the all-to-all (ff/all2all.hpp:800-805): of a node (ff/node.hpp:717-725)
    and of a multi-input node (ff/multinode.hpp:83-91). *)
Definition create_in (m : bool) (x : node) (h : heap) : heap :=
  let b := nb h in
  let h := put_in1 x (Some b) (alloc h) in
  if m then add_inN x (Some b) h else h.
(** create_output_buffer of the all-to-all (ff/all2all.hpp:807-833): a multi-output node gets a
    buffer node as output, another its own [out] (ff/node.hpp:744-752). *)
Definition create_out (m : bool) (x : node) (h : heap) : heap :=
  let b := nb h in
  if m then add_outN x (Some b) (alloc h) else put_out1 x (Some b) (alloc h).

(** The feedback (ff/all2all.hpp:85-141).  The two tests look at the first nodes only. *)
Definition wrap (ls rs : list kind) (h : heap) : option heap :=
  let nl := length ls in
  let nr := length rs in
  if mo (kd rs 0) then
    if mi (kd ls 0) then
      Some (loop nr (fun i => loop nl (fun j h =>
        let b := nb h in
        set_input_feedback (mi (kd ls j)) (L j) (Some b)
          (set_output_feedback (mo (kd rs i)) (R i) (Some b) (alloc h)))) h)
    else if negb (nl =? nr) then None
    else
      let h := loop nl (fun j => create_in (mi (kd ls j)) (L j)) h in
      Some (loop nr (fun i h => set_output_feedback (mo (kd rs i)) (R i) (in1 h (L i)) h) h)
  else
    if negb (nl =? nr) then None
    else if negb (mi (kd ls 0)) then
      let h := loop nl (fun j => create_in (mi (kd ls j)) (L j)) h in
      Some (loop nr (fun i h => put_out1 (R i) (in1 h (L i)) h) h)
    else
      let h := loop nr (fun i => create_out (mo (kd rs i)) (R i)) h in
      if forallb mi ls then Some (loop nl (fun j h => set_input_feedback true (L j) (out1 h (R j)) h) h) else None.

(** The forward channels (ff/all2all.hpp:292-316), the second set in the outer loop.  [tl], [tr]:
    the nodes of the first (second) set have been put inside transformers (247-290), which have the
    list of outputs (inputs) then. *)
Definition forward (tl tr : bool) (ls rs : list kind) (h : heap) : heap :=
  loop (length rs) (fun i => loop (length ls) (fun j h =>
    let b := nb h in
    set_input (tr || mi (kd rs i)) (R i) b (set_output (tl || mo (kd ls j)) (L j) b (alloc h)))) h.

(** prepare.  add_firstset and add_secondset refuse an empty set (ff/all2all.hpp:421-424, 460-463).
    A set is transformed if its first node cannot do; the first set must not be multi-input then
    (240-246) and the second not multi-output (272-277). *)
Definition prepare (w : bool) (ls rs : list kind) : option heap :=
  match ls, rs with
  | [], _ | _, [] => None
  | l0 :: _, r0 :: _ =>
      match (if w then wrap ls rs heap0 else Some heap0) with
      | None => None
      | Some h =>
          if negb (mo l0) && mi l0 then None
          else if negb (mi r0) && mo r0 then None
          else Some (forward (negb (mo l0)) (negb (mi r0)) ls rs h)
      end
  end.

Definition olist (o : option nat) : list (option nat) := match o with Some b => [Some b] | None => [] end.

(** The channels that a thread uses, in the order of their numbers (ff/multinode.hpp:106-113,
    494-503): the feedback channels first. *)
Definition inputs (ls rs : list kind) (h : heap) (x : node) : list (option nat) :=
  match x with
  | L j => if mi (kd ls j) then inF h x ++ inN h x else olist (in1 h x)
  | R i => if negb (mi (kd rs 0)) || mi (kd rs i) then inF h x ++ inN h x else olist (in1 h x)
  end.
Definition outputs (ls rs : list kind) (h : heap) (x : node) : list (option nat) :=
  match x with
  | L j => if negb (mo (kd ls 0)) || mo (kd ls j) then outF h x ++ outN h x else olist (out1 h x)
  | R i => if mo (kd rs i) then outF h x ++ outN h x else olist (out1 h x)
  end.
