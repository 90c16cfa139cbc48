(** A combination of nodes (ff_comb) that reads several channels: as a multi-input stage, or as the
    collector of a farm.  ff_gatherer::svc (ff/gt.hpp:563-675) with a combination as filter, and
    ff_comb::eosnotify with its counters (ff/combine.hpp:476-489, 613-626).

    Builds on CombModel (C41): same nodes, svc and callbacks.  Simplifications: the channels are
    given by the order in which the gatherer receives their messages (any order is possible, C19);
    marks are FF_EOS; the combination ends in a standard node. *)
From Coq Require Import List Arith Bool.
From Verif Require Import CombModel.
Import ListNotations.

Section Gc.
Context {T : Type}.
Notation val := (val T).
Notation tree := (@tree T).

(** What the gatherer receives: an item, or the end of one channel. *)
Inductive gmsg : Type := GItem (x : T) | GEnd.

(** The field neos of the combinations on the left-hand side (ff/combine.hpp:781); svc_init sets
    it to 0 (L504). *)
Fixpoint ctr (t : tree) : Type := match t with Leaf _ => unit | Comb l _ => (ctr l * nat)%type end.
Fixpoint ctr0 (t : tree) : ctr t := match t return ctr t with Leaf _ => tt | Comb l _ => (ctr0 l, 0) end.

(** comp_nodes[0]->isMultiInput() || comp_multi_input (ff/combine.hpp:619): [mi] tells whether the
    first node is multi-input; set_multiinput (L476-485), called by add_collector
    (ff/farm.hpp:1188), sets comp_multi_input of the innermost combination only. *)
Definition counted (mi : bool) (l : tree) : bool := mi || negb (is_comb l).

(** ff_comb::eosnotify: ff/combine.hpp:613-626.  [n]: getFirst()->get_neos(), the number of input
    channels (ff/multinode.hpp:405, ff/gt.hpp:455 for a multi-input first node; set by
    ff/gt.hpp:549-550 otherwise).  Combinations inside comp_nodes[1] are not counted. *)
Fixpoint geosn {W : Type} (mi : bool) (n : nat) (t : tree) (k : val -> W -> W) :
    st t -> ctr t -> W -> st t * ctr t * W :=
  match t return st t -> ctr t -> W -> st t * ctr t * W with
  | Leaf nd => fun s c w => let (s', vs) := neos nd s in (s', c, sends k vs w)
  | Comb l r => fun s c w =>
    let (sl, sr) := s in
    let (cl, m) := c in
    let push := push_comp l r k (fun v s w => svc r k v s w) (fun s w => eosn r k s w) in
    let '(sl', cl', (sr', w')) := geosn mi n l push sl cl (sr, w) in
    if counted mi l && (S m <? n) then ((sl', sr'), (cl', S m), w')
    else let '(sr'', w'') := eosn r k sr' w' in ((sl', sr''), (cl', S m), w'')
  end.

(** ff_gatherer::svc: ff/gt.hpp:586-667.  [m]: ends received so far.  The result tells whether the
    gatherer has left the loop. *)
Fixpoint gather (mi : bool) (n : nat) (t : tree) (ms : list gmsg) (m : nat) (s : st t) (c : ctr t) (o : @chan T) :
    st t * @chan T * bool :=
  match ms with
  | [] => (s, o, false)
  | GEnd :: rest =>
    let '(s', c', o') := geosn mi n t Push s c o in
    if S m <? n then gather mi n t rest (S m) s' c' o'
    else (s', send_out t Push Eos o', true)
  | GItem x :: rest =>
    let '(s', o', ret) := svc t Push (Item x) s o in
    match ret with
    | GoOn | Flush => gather mi n t rest m s' c o'
    | GoOut | EosNoFreeze | EosW => (s', o', true)
    | Null | Eos => (s', send_out t Push Eos o', true)
    | Item _ => gather mi n t rest m s' c (send_out t Push ret o')
    end
  end.
End Gc.
Arguments gmsg : clear implicits.
