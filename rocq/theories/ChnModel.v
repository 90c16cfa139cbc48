(** change_node of the building blocks, and what their destructors delete (ff/pipeline.hpp:886-1014,
    ff/all2all.hpp:399-408, 489-522, ff/farm.hpp:892-912, 954-1064, 1167-1198,
    ff/combine.hpp:128-132, 214-256), before the block is prepared.

    Simplifications: a pointer to a node is a number; the internals of the load balancer and of the
    gatherer are left out (before prepare they have no filter, ff/lb.hpp:572-579); a farm's default
    collector and a removed one count as none; the barrier is left out; a composition given as emitter
    ends with a multi-output node (otherwise the code aborts, ff/farm.hpp:960-971). *)
From Coq Require Import List Arith Bool.
Import ListNotations.

(** isComp; isFarm, isAll2All or isPipe; otherwise. *)
Inductive kind := Seq | Comp | Par.

(** nodes_list, internalSupportNodes, node_cleanup, dontcleanup. *)
Record pipe := mkPipe { nodes : list nat; psup : list nat; ncl : bool; dont : list nat }.
(** workers1, workers2, internalSupportNodes. *)
Record a2a := mkA2a { w1 : list nat; w2 : list nat; asup : list nat }.
(** emitter, collector, workers, internalSupportNodes, emitter_cleanup, collector_cleanup,
    worker_cleanup. *)
Record farm := mkFarm { em : option nat; co : option nat; wk : list nat; fsup : list nat; ecl : bool; ccl : bool; wcl : bool }.
(** comp_nodes, cleanup_stages. *)
Record comb := mkComb { c0 : nat; c1 : nat; csup : list nat }.
Inductive block := BPipe (p : pipe) | BA2a (a : a2a) | BFarm (f : farm) | BComb (c : comb).

Definition mem (x : nat) (l : list nat) : bool := existsb (Nat.eqb x) l.
(** Search for the first occurrence and erase (pipeline.hpp:967-973, all2all.hpp:496-501,
    farm.hpp:1047-1052, combine.hpp:220-226). *)
Fixpoint erase (x : nat) (l : list nat) : list nat :=
  match l with [] => [] | y :: r => if y =? x then r else y :: erase x r end.
Definition erase_if (rm : bool) (x : nat) (l : list nat) : list nat := if rm then erase x l else l.
Definition push_if (cl : bool) (x : nat) (l : list nat) : list nat := if cl then l ++ [x] else l.
Fixpoint index (x : nat) (l : list nat) : option nat :=
  match l with [] => None | y :: r => if y =? x then Some 0 else option_map S (index x r) end.
(** [workers[i] = n]. *)
Fixpoint set_at (i : nat) (n : nat) (l : list nat) : list nat :=
  match l, i with [], _ => [] | _ :: r, 0 => n :: r | y :: r, S i => y :: set_at i n r end.
Definition is (o : option nat) (x : nat) : bool := match o with Some y => y =? x | None => false end.
Definition opt (o : option nat) : list nat := match o with Some y => [y] | None => [] end.

(** insert_stage and remove_stage (pipeline.hpp:956-990). *)
Definition insert_at (i n : nat) (l : list nat) : list nat := firstn i l ++ n :: skipn i l.
Definition remove_at (i : nat) (l : list nat) : list nat := firstn i l ++ skipn (S i) l.

(** What a call gives: the value returned, the block, the nodes deleted during the call. *)
Record result := mkRes { ok : bool; after : block; now : list nat }.

(** pipeline.hpp:1001-1014. *)
Definition pipe_change (p : pipe) (old n : nat) (cl rm : bool) : result :=
  match index old (nodes p) with
  | Some i => mkRes true (BPipe (mkPipe (remove_at i (insert_at (S i) n (nodes p))) (erase_if rm old (push_if cl n (psup p))) (ncl p) (dont p))) []
  | None => mkRes false (BPipe p) []
  end.
(** all2all.hpp:489-522. *)
Definition a2a_change (a : a2a) (old n : nat) (cl rm : bool) : result :=
  match index old (w1 a) with
  | Some i => mkRes true (BA2a (mkA2a (set_at i n (w1 a)) (w2 a) (push_if cl n (erase_if rm old (asup a))))) []
  | None =>
      match index old (w2 a) with
      | Some i => mkRes true (BA2a (mkA2a (w1 a) (set_at i n (w2 a)) (push_if cl n (erase_if rm old (asup a))))) []
      | None => mkRes false (BA2a a) []
      end
  end.
(** combine.hpp:214-256. *)
Definition comb_change (kd : nat -> kind) (c : comb) (old n : nat) (cl rm : bool) : result :=
  let sup := push_if cl n (erase_if rm old (csup c)) in
  let comp := match kd old with Comp => true | _ => false end in
  if c0 c =? old then if comp then mkRes false (BComb c) [] else mkRes true (BComb (mkComb n (c1 c) sup)) []
  else if c1 c =? old then if comp then mkRes false (BComb c) [] else mkRes true (BComb (mkComb (c0 c) n sup)) []
  else mkRes false (BComb c) [].
(** farm.hpp:1024-1064 with change_emitter (1000-1010), add_emitter (954-988) and add_collector
    (1167-1198): a parallel block is refused. *)
Definition farm_change (kd : nat -> kind) (f : farm) (old n : nat) (cl rm : bool) : result :=
  let seq := match kd n with Par => false | _ => true end in
  if is (em f) old then
    mkRes seq (BFarm (mkFarm (if seq then Some n else None) (co f) (wk f) (fsup f) cl (ccl f) (wcl f)))
      (if ecl f then [old] else [])
  else if is (co f) old then
    mkRes seq (BFarm (mkFarm (em f) (if seq then Some n else None) (wk f) (fsup f) (ecl f) cl (wcl f)))
      (if ccl f then [old] else [])
  else
    match index old (wk f) with
    | Some i =>
        mkRes true
          (BFarm (mkFarm (em f) (co f) (set_at i n (wk f))
             (push_if (cl && negb (wcl f)) n (push_if (wcl f) old (erase_if rm old (fsup f)))) (ecl f) (ccl f) (wcl f))) []
    | None => mkRes false (BFarm f) []
    end.

Definition change (kd : nat -> kind) (b : block) (old n : nat) (cl rm : bool) : result :=
  match b with
  | BPipe p => pipe_change p old n cl rm
  | BA2a a => a2a_change a old n cl rm
  | BFarm f => farm_change kd f old n cl rm
  | BComb c => comb_change kd c old n cl rm
  end.

(** The destructors: the nodes deleted, in order (pipeline.hpp:886-906, all2all.hpp:399-408,
    farm.hpp:892-912, combine.hpp:128-132). *)
Definition destroy (b : block) : list nat :=
  match b with
  | BPipe p => (if ncl p then filter (fun n => negb (mem n (psup p)) && negb (mem n (dont p))) (rev (nodes p)) else []) ++ psup p
  | BA2a a => asup a
  | BFarm f => (if ecl f then opt (em f) else []) ++ (if ccl f then opt (co f) else []) ++ (if wcl f then wk f else []) ++ fsup f
  | BComb c => csup c
  end.
