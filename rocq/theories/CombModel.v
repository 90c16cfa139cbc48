(** Model of the combination of nodes: ff/combine.hpp (class ff_comb) and the thread
    loop that runs it, ff/node.hpp (ff_node::thWorker::svc).

    Simplifications: standard nodes only (single input, single output channel, so that
    [eosnotify] is called once); a node's svc is a function from its state and the task
    to the new state, the values it passes to ff_send_out while it runs, and the value
    it returns; it does not look at the result of ff_send_out.  The input channel is a
    list of values; the output channel is an unbounded queue of values.  The first node
    has an input channel (skipfirstpop is false). *)
From Coq Require Import List.
Import ListNotations.

(** The values that travel on a channel or are returned by svc:
    ff/node.hpp L73-78 and the null pointer. *)
Inductive val (T : Type) : Type :=
| Item (x : T) | Null | GoOn | GoOut | Eos | EosW | EosNoFreeze | Flush.
Arguments Item {T} x.
Arguments Null {T}.
Arguments GoOn {T}.
Arguments GoOut {T}.
Arguments Eos {T}.
Arguments EosW {T}.
Arguments EosNoFreeze {T}.
Arguments Flush {T}.

Section Comb.
Context {T : Type}.
Notation val := (val T).

(** A user node: svc (ff/node.hpp L980) and eosnotify (L1030).  Each is given the
    state and yields the new state and the values sent with ff_send_out. *)
Record node : Type := mkN {
  St : Type;
  nsvc : St -> val -> St * list val * val;
  neos : St -> St * list val }.

(** ff_comb: comp_nodes[0] and comp_nodes[1], each a node or an ff_comb
    (ff/combine.hpp L65-80, L352-396). *)
Inductive tree : Type := Leaf (n : node) | Comb (l r : tree).

Fixpoint st (t : tree) : Type :=
  match t with Leaf n => St n | Comb l r => st l * st r end.

(** isComp: ff/combine.hpp L193, ff/node.hpp L1237. *)
Definition is_comb (t : tree) : bool := match t with Leaf _ => false | Comb _ _ => true end.

(** The values after which nothing is sent on: ff/combine.hpp L528, L552. *)
Definition quiet (v : val) : bool :=
  match v with GoOn | GoOut | EosNoFreeze | Flush => true | _ => false end.

(** ff_send_out: ff/node.hpp L1211-1219 for a node (calls the registered callback [k]),
    ff/combine.hpp L748-752 for an ff_comb (that of comp_nodes[1]).  The callback of a
    node is the one connectCallback (L419-437) gives it: see [connect] below. *)
Fixpoint send_out {W : Type} (t : tree) (k : val -> W -> W) (v : val) (w : W) : W :=
  match t with Leaf _ => k v w | Comb _ r => send_out r k v w end.

(** ff_comb::propagateEOS: ff/combine.hpp L628-638 (standard nodes). *)
Fixpoint propagate {W : Type} (t : tree) (k : val -> W -> W) (w : W) : W :=
  match t with
  | Leaf _ => w   (* ff_node::propagateEOS, ff/node.hpp L1311 *)
  | Comb _ r => if is_comb r then propagate r k w else send_out r k Eos w
  end.

Definition sends {W : Type} (k : val -> W -> W) (vs : list val) (w : W) : W :=
  fold_left (fun w v => k v w) vs w.

(** ff_comb::push_comp_local: ff/combine.hpp L545-557, given the svc and eosnotify of
    comp_nodes[1].  The state is that of comp_nodes[1] and the rest of the world. *)
Definition push_comp {W R : Type} (l r : tree) (k : val -> W -> W)
    (svc_r : val -> R -> W -> R * W * val) (eos_r : R -> W -> R * W)
    (v : val) (rw : R * W) : R * W :=
  let (sr, w) := rw in
  match v with
  | Eos => let '(sr', w') := eos_r sr w in (sr', propagate (Comb l r) k w')
  | _ =>
    let '(sr', w', ret) := svc_r v sr w in
    if quiet ret then (sr', w')
    else match ret with
         | Eos => (sr', propagate (Comb l r) k w')
         | _ => (sr', send_out r k ret w')
         end
  end.

(** ff_comb::eosnotify: ff/combine.hpp L613-626 (single input); a node's own otherwise. *)
(** ff_comb::svc: ff/combine.hpp L515-536; a node's own otherwise. *)
Fixpoint svc {W : Type} (t : tree) (k : val -> W -> W) (x : val) :
    st t -> W -> st t * W * val :=
  match t return st t -> W -> st t * W * val with
  | Leaf n => fun s w => let '(s', vs, r) := nsvc n s x in (s', sends k vs w, r)
  | Comb l r => fun s w =>
    let (sl, sr) := s in
    let push := push_comp l r k (fun v s w => svc r k v s w) (fun s w => eosn r k s w) in
    if is_comb l then
      let '(sl', (sr', w'), ret) := svc l push x sl (sr, w) in ((sl', sr'), w', ret)
    else
      match x with
      | Null => ((sl, sr), w, GoOn)
      | _ =>
        let '(sl', rw, r1) := svc l push x sl (sr, w) in
        let (sr', w') := if quiet r1 then rw else send_out l push r1 rw in
        ((sl', sr'), w', match r1 with Eos => GoOut | _ => GoOn end)
      end
  end
with eosn {W : Type} (t : tree) (k : val -> W -> W) : st t -> W -> st t * W :=
  match t return st t -> W -> st t * W with
  | Leaf n => fun s w => let (s', vs) := neos n s in (s', sends k vs w)
  | Comb l r => fun s w =>
    let (sl, sr) := s in
    let push := push_comp l r k (fun v s w => svc r k v s w) (fun s w => eosn r k s w) in
    let '(sl', (sr', w')) := eosn l push sl (sr, w) in
    let '(sr'', w'') := eosn r k sr' w' in
    ((sl', sr''), w'')
  end.

(** The output channel of the whole combination: ff_node::Push (ff/node.hpp L576-598) on
    a queue that is never full.  The null pointer must not be
    pushed (asserted in ff/buffer.hpp L242, ff/ubuffer.hpp L346: the process aborts, or,
    compiled without assertions, the queue is corrupted): [broken]. *)
Record chan : Type := mkC { out : list val; broken : bool }.

Definition Push (v : val) (c : chan) : chan :=
  match v with Null => mkC (out c) true | _ => mkC (out c ++ [v]) (broken c) end.

(** thWorker::svc, ff/node.hpp L1438-1514: one thread runs the node or combination [t]
    on its input channel.  The result tells whether the thread has left the loop
    ([false]: it still waits for input).  The output channel is present. *)
Fixpoint thread (t : tree) (ins : list val) (s : st t) (c : chan) : st t * chan * bool :=
  match ins with
  | [] => (s, c, false)
  | x :: rest =>
    match x with
    | Eos | EosW => let '(s', c') := eosn t Push s c in (s', send_out t Push x c', true)
    | EosNoFreeze => let '(s', c') := eosn t Push s c in (s', c', true)
    | GoOut => (s, c, true)
    | _ =>
      let '(s', c', ret) := svc t Push x s c in
      match ret with
      | GoOut => (s', c', true)
      | Null => (s', send_out t Push Eos c', true)
      | Eos | EosW => (s', send_out t Push ret c', true)
      | EosNoFreeze => (s', c', true)
      | GoOn | Flush => thread t rest s' c'
      | Item _ => thread t rest s' (send_out t Push ret c')
      end
    end
  end.
End Comb.

(** * The wiring of the callbacks *)
(** A position in a combination: the sequence of choices comp_nodes[0] / comp_nodes[1]. *)
Inductive side : Type := L | R.
Definition path := list side.

(** getLast: ff/combine.hpp L202-206. *)
Fixpoint last_path {T} (t : @tree T) : path :=
  match t with Leaf _ => [] | Comb _ r => R :: last_path r end.

(** get_out_nodes: ff/combine.hpp L640-645, ff/node.hpp L1079: the last node. *)
Definition out_nodes {T} (t : @tree T) : list path := [last_path t].

(** connectCallback: ff/combine.hpp L419-437: the registrations it makes, in order, as
    (node, combination whose push_comp_local it calls). *)
Fixpoint connect {T} (t : @tree T) : list (path * path) :=
  match t with
  | Leaf _ => []
  | Comb l r =>
    map (fun x => (L :: fst x, L :: snd x)) (connect l) ++
    map (fun x => (R :: fst x, R :: snd x)) (connect r) ++
    map (fun n => (L :: n, [])) (out_nodes l)
  end.

Fixpoint at_path {T} (t : @tree T) (p : path) : option (@tree T) :=
  match p, t with
  | [], _ => Some t
  | L :: p', Comb l _ => at_path l p'
  | R :: p', Comb _ r => at_path r p'
  | _ :: _, Leaf _ => None
  end.
