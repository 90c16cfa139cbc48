(** The channels of a pipeline on which wrap_around() was called: ff_pipeline::prepare_wraparound
    (ff/pipeline.hpp:80-390), which runs before the loop that connects adjacent stages
    (ff/pipeline.hpp:393-406), and set_input_feedback, set_output_feedback (ff/node.hpp:787-796,
    ff/multinode.hpp:295-298, 640-643; ff/farm.hpp:2046-2048, 2086-2089; ff/lb.hpp:725-728).  The
    rest of prepare is [connect_all] and [prep_all] of WireModel.v.

    Simplifications: those of WireModel.v (except that feedback is now there).  A farm's own
    wrap_around is in FwrModel.v, that of an all-to-all in its own files (C71). *)
From Coq Require Import List Arith Bool.
From Verif Require Import WireModel.
Import ListNotations.

(** In this file a heap also stands for the effect of prepare_wraparound: its [inN] and [outN] are
    then the lists inputNodesFeedback and outputNodesFeedback (prepare_wraparound touches no other
    list), while [nb], [nin] and [nout] are the ones that the rest of prepare goes on with. *)

(** set_output_feedback of the last stage (ff/multinode.hpp:640-643).  A farm adds the node to a
    list of its own (ff/farm.hpp:2086-2089), which ff_farm::prepare reads only if there is no
    collector (ff/farm.hpp:463-490). *)
Definition fb_out (n : nat) (p : stage) (b : nat) (h : heap) : heap :=
  match p with
  | SNode _ => add_out (n, Self) [Bref b] h
  | _ => add_out (n, Obj) [Bref b] h
  end.

(** prepare_wraparound: [p] is the last stage, of index n; [c] the first (ff/pipeline.hpp:150-390). *)
Definition wrap (n : nat) (p c : stage) (h : heap) : option heap :=
  match c with
  | SA2A n1 k1 _ _ =>
      if mi k1 then                                        (* first_multi_multiinput, 325-389 *)
        if p_ss p then None
        else if p_sm p then
          iter (fun y h => let b := nb h in Some (fb_out n p b (add_in y [Bref b] (alloc h)))) (lw 0 n1) h
        else if p_ms p then
          if length (out_nodes n p) =? n1 then
            (* w[i]->set_output(t) of a standard node: its output is the channel of t (ff/node.hpp:793) *)
            iter (fun xy h => let b := nb h in Some (set_nout (fst xy) (Some b) (add_in (snd xy) [Bref b] (alloc h))))
              (combine (out_nodes n p) (lw 0 n1)) h
          else None
        else cross (out_nodes n p) (lw 0 n1) h
      else                                                 (* first_multi_standard, 268-323 *)
        if p_ss p then None
        else if p_sm p then
          (* firstSet[j]->set_input(t) of a standard node: its input is the channel of t (ff/node.hpp:783) *)
          iter (fun y h => let b := nb h in Some (fb_out n p b (set_nin y (Some b) (alloc h)))) (lw 0 n1) h
        else if p_ms p then
          if length (out_nodes n p) =? n1 then
            bind (iter (create_in false) (lw 0 n1) h) (iter (join false) (combine (out_nodes n p) (lw 0 n1)))
          else None
        else None
  | _ =>
      let y := in_node 0 c in
      if multi_in c then                                   (* first_single_multiinput, 190-266 *)
        if p_ss p then bind (stage_create_output n p h) (fun h => Some (add_in y [stage_ref n p] h))
        else if p_sm p then let b := nb h in Some (add_in y [Bref b] (fb_out n p b (alloc h)))
        else if p_ms p then bind (stage_create_output n p h) (fun h => Some (add_in y (map Nref (out_nodes n p)) h))
        else cross (out_nodes n p) [y] h
      else                                                 (* first_single_standard, 154-188 *)
        bind (create_in false y h) (fun h =>
        if p_ss p then stage_set_output_buffer n p (nin h y) h
        else if p_sm p then match nin h y with Some b => Some (fb_out n p b h) | None => None end
        else None)
  end.

(** The state with which the loop over the stages begins: the lists of forward connections are
    empty. *)
Definition forward0 (w : heap) : heap := mkHeap (nb w) (nin w) (nout w) (fun _ => []) (fun _ => []).

(** ff_pipeline::prepare with the flag wraparound, then the stages' prepare.  The result: what
    prepare_wraparound left, and the final state. *)
Definition wrap_wire (l : list stage) : option (heap * heap) :=
  match l with
  | [] | [_] => None                                         (* ff/pipeline.hpp:394-397: too few nodes *)
  | c :: l' =>
      if forallb populated l then
        let n := length l' in
        match nth_error l n with
        | None => None
        | Some p =>
            match wrap n p c heap0 with
            | None => None
            | Some w => match bind (connect_all 0 c l' (forward0 w)) (prep_all 0 l) with Some h => Some (w, h) | None => None end
            end
        end
      else None
  end.

(** ** What the threads use *)

(** A multi-input node has its feedback channels first (ff/multinode.hpp:106-113; the emitter:
    ff/lb.hpp:1002-1013), and so has a multi-output node (ff/multinode.hpp:494-503).  A node with
    one input (output) reads [in] (writes [out]).  The channels of the feedback lists are looked up
    in the final state. *)
Definition winputs (s : stage) (w h : heap) (x : id) : list (option nat) :=
  if in_kind s (snd x) then map (refout h) (inN w x) ++ map (refout h) (inN h x) else olist (nin h x).
Definition woutputs (s : stage) (w h : heap) (x : id) : list (option nat) :=
  if out_kind s (snd x) then map (refin h) (outN w x) ++ map (refin h) (outN h x) else olist (nout h x).
