(** The static optimiser: ff/optimize.hpp:336-796 (optimize_static of a farm and of a pipeline),
    with the operations on pipelines and farms it uses.

    Simplifications:
    - a sequential node is given by what it sends: for each input, as a function of the inputs it
      received before, and at the end of the stream (eosnotify).  What svc returns and what it
      passes to ff_send_out / ff_send_out_to are one list of (destination, value).  It does not ask from
      which channel an input came, nor how many input channels there are (eosnotify is called
      once, the default of ff_minode, ff/gt.hpp:657);
    - the flags that only concern performance (blocking mode, thread mapping, initial barrier),
      buffer sizes, who deletes which node, reports and the test for an already prepared pipeline
      are not modelled;
    - no feedback channels (flatten, ff/pipeline.hpp:1380-1382: "if there are feedback channels
      calling this method is dangerous"). *)
From Coq Require Import List Arith Bool.
Import ListNotations.

Section Model.
  Context {A : Type}.

  (** A value sent by a node: to the output channel with the given index (ff_send_out_to) or to
      no channel in particular (ff_send_out). *)
  Definition out : Type := option nat * A.

  (** A sequential node, with isMultiInput, isMultiOutput and isComp (ff/node.hpp:1232-1238). *)
  Record node := mkNode {
    nmi : bool; nmo : bool; ncomp : bool;
    resp : list A -> A -> list out;
    fin : list A -> list out }.

  (** What a node sends for the inputs [xs] when it already received [h]. *)
  Fixpoint replies (n : node) (h xs : list A) : list out :=
    match xs with
    | [] => []
    | x :: r => resp n h x ++ replies n (h ++ [x]) r
    end.
  Definition payload (l : list out) : list A := map snd l.

  (** ff_comb(n1, n2), ff/combine.hpp:89-105: what n1 sends is the input of n2; isMultiInput and
      isMultiOutput are those of the ends (ff/combine.hpp:184-192). *)
  Definition comb (n1 n2 : node) : node :=
    mkNode (nmi n1) (nmo n2) true
      (fun h x => replies n2 (payload (replies n1 [] h)) (payload (resp n1 h x)))
      (fun h => let m := payload (replies n1 [] h) in
                replies n2 m (payload (fin n1 h)) ++ fin n2 (m ++ payload (fin n1 h))).

  (** internal_mi_transformer(n), ff/multinode.hpp:1163-1189: a multi-input node that calls n. *)
  Definition to_mi (n : node) : node := mkNode true false false (resp n) (fin n).

  (** The collector of a farm, ff/farm.hpp:1260-1283, 1693-1696: none (removed or never added), the
      default one (getCollector is NULL, hasCollector holds), or a node. *)
  Inductive coll := NoColl | DefColl | Coll (c : node).

  (** Skeletons.  [Farm ord em ws c]: ordered?, emitter (None: the default one), workers,
      collector.  [A2A l r]: the two sets of nodes of an all-to-all. *)
  Inductive skel :=
  | Seq (n : node)
  | Pipe (l : list skel)
  | Farm (ord : bool) (em : option node) (ws : list skel) (c : coll)
  | A2A (l r : list skel).

  Definition is_mi_node (s : skel) : bool := match s with Seq n => nmi n | _ => false end.
  (** isMultiInput of a stage that is not a pipeline: ff/farm.hpp:1269, ff/all2all.hpp:799. *)
  Definition is_mi (s : skel) : bool := match s with Seq n => nmi n | Pipe _ => false | _ => true end.
  (** isMultiOutput of a stage that is not a pipeline: ff/farm.hpp:1271-1275, ff/all2all.hpp:800. *)
  Definition is_mo (s : skel) : bool :=
    match s with
    | Seq n => nmo n
    | Pipe _ => false
    | Farm _ _ _ NoColl => true
    | Farm _ _ _ DefColl => false
    | Farm _ _ _ (Coll c) => nmo c
    | A2A _ _ => true
    end.

  (** What a call of the optimiser may end in: a result; -1; abort(); undefined behaviour (NULL
      dereference, object used as one of another class); no result within the fuel. *)
  Inductive res (T : Type) := Ok (x : T) | Err | Abort | Undef | NoFuel.
  Arguments Ok {T}. Arguments Err {T}. Arguments Abort {T}. Arguments Undef {T}. Arguments NoFuel {T}.
  Definition bind {T U} (r : res T) (f : T -> res U) : res U :=
    match r with Ok x => f x | Err => Err | Abort => Abort | Undef => Undef | NoFuel => NoFuel end.
  Fixpoint mapM {T U} (f : T -> res U) (l : list T) : res (list U) :=
    match l with
    | [] => Ok []
    | x :: r => bind (f x) (fun y => bind (mapM f r) (fun ys => Ok (y :: ys)))
    end.

  (** The options of OptLevel that change the skeleton, ff/node.hpp:92-103. *)
  Record opts := mkOpts { merge_farms : bool; introduce_a2a : bool; remove_coll : bool; merge_emitter : bool }.
  (** OptLevel1, ff/node.hpp:104-111. *)
  Definition level1 := mkOpts false false true false.
  (** OptLevel2, ff/node.hpp:112-121. *)
  Definition level2 := mkOpts true false true true.
  (** OptLevel with remove_collector only: ff/optimize.hpp:360-362, 669-671. *)
  Definition rm_only := mkOpts false false true false.

  (** get_and_remove_nodes and flatten, ff/pipeline.hpp:1019-1038, 1382-1393: the stages in order,
      nested pipelines replaced by their stages. *)
  Fixpoint flat (s : skel) : list skel :=
    match s with
    | Pipe l => flat_map flat l
    | _ => [s]
    end.

  (** find_farm_with_null_collector, ff/optimize.hpp:508-517; [i]: index of the head of [l]. *)
  Fixpoint find_null_coll (l : list skel) (i start : nat) : option nat :=
    match l with
    | [] => None
    | s :: r =>
        match s with
        | Farm _ _ _ c =>
            if (start <=? i) && match c with Coll _ => false | _ => true end then Some i
            else find_null_coll r (S i) start
        | _ => find_null_coll r (S i) start
        end
    end.
  (** find_farm_with_null_emitter, ff/optimize.hpp:518-527. *)
  Fixpoint find_null_em (l : list skel) (i start : nat) : option nat :=
    match l with
    | [] => None
    | s :: r =>
        match s with
        | Farm _ None _ _ => if start <=? i then Some i else find_null_em r (S i) start
        | _ => find_null_em r (S i) start
        end
    end.

  (** The test of ff/optimize.hpp:541-547 for one stage: may it be merged with a farm that is
      ordered or not ([o]) and has [nw] workers?  A stage that is not a farm is read as if it were
      one when o = false: undefined. *)
  Definition mergeable (o : bool) (nw : nat) (s : skel) : res bool :=
    match s with
    | Farm o' em ws c =>
        Ok (eqb o o' && (nw =? length ws) && match c with Coll _ => false | _ => true end &&
            match em with None => true | _ => false end)
    | _ => if o then Ok false else Undef
    end.
  (** The for loop of ff/optimize.hpp:540-548: all stages of [l]. *)
  Fixpoint all_mergeable (o : bool) (nw : nat) (l : list skel) : res bool :=
    match l with
    | [] => Ok true
    | s :: r => bind (mergeable o nw s) (fun b => if b then all_mergeable o nw r else Ok false)
    end.
  Definition segment {T} (l : list T) (i j : nat) : list T := firstn (S j - i) (skipn i l).

  (** farm_sequence, ff/optimize.hpp:529-567: the index of the last farm of the sequence that
      starts before [sp]; [last]: None is -1.  Every failed test leaves the loop (line 560). *)
  Fixpoint farm_sequence (fuel : nat) (l : list skel) (o : bool) (nw : nat) (sp : nat) (last : option nat)
    : res (option nat) :=
    match fuel with
    | 0 => NoFuel
    | S k =>
        if sp <? length l then
          match find_null_em l 0 sp with
          | None => Ok last
          | Some next =>
              bind (all_mergeable o nw (segment l sp next)) (fun b =>
                if b then farm_sequence k l o nw (S next) (Some next) else Ok last)
          end
        else Ok last
    end.

  (** new ff_comb(w1, w2) on two workers: a combine of something else than two sequential nodes
      has no nodes (ff/combine.hpp:340-357) and is used later as if it had. *)
  Definition comb_workers (s1 s2 : skel) : res skel :=
    match s1, s2 with Seq a, Seq b => Ok (Seq (comb a b)) | _, _ => Undef end.
  Fixpoint zip_comb (l1 l2 : list skel) : res (list skel) :=
    match l1, l2 with
    | [], [] => Ok []
    | a :: r, b :: t => bind (comb_workers a b) (fun c => bind (zip_comb r t) (fun cs => Ok (c :: cs)))
    | _, _ => Undef
    end.
  Fixpoint fold_comb (acc : list skel) (fs : list skel) : res (list skel) :=
    match fs with
    | [] => Ok acc
    | Farm _ _ ws _ :: r => bind (zip_comb acc ws) (fun a => fold_comb a r)
    | _ :: _ => Undef
    end.
  Definition has_coll (ord : bool) (c : coll) : bool := ord || match c with NoColl => false | _ => true end.
  Definition coll_of (s : skel) : coll := match s with Farm _ _ _ c => c | _ => NoColl end.
  (** getCollector: ff/farm.hpp:1693-1696; add_collector(NULL) gives the default collector. *)
  Definition as_added (c : coll) : coll := match c with Coll n => Coll n | _ => DefColl end.

  (** combine_farm_sequence, ff/optimize.hpp:569-613, for the stages [fs] (at least two farms). *)
  Definition combine_seq (fs : list skel) : res skel :=
    match fs with
    | Farm ord em ws c :: r =>
        bind (fold_comb ws r) (fun ws' =>
          let cl := coll_of (last fs (Farm ord em ws c)) in
          Ok (Farm ord em ws' (if has_coll ord cl then as_added cl else NoColl)))
    | _ => Undef
    end.

  (** ff/optimize.hpp:616-634. *)
  Fixpoint merge_loop (fuel : nat) (l : list skel) (first : nat) : res (list skel) :=
    match fuel with
    | 0 => NoFuel
    | S k =>
        match nth_error l first with
        | Some (Farm o _ ws _) =>
            bind (farm_sequence (S (length l)) l o (length ws) (S first) None) (fun last =>
            bind (match last with
                  | Some lf => bind (combine_seq (segment l first lf))
                                 (fun f => Ok (firstn first l ++ f :: skipn (S lf) l))
                  | None => Ok l
                  end) (fun l' =>
            match find_null_coll l' 0 (S first) with
            | Some nx => merge_loop k l' nx
            | None => Ok l'
            end))
        | _ => Undef
        end
    end.
  Definition merge_step (l : list skel) : res (list skel) :=
    match find_null_coll l 0 0 with
    | Some first => merge_loop (S (length l)) l first
    | None => Ok l
    end.

  (** combine_farms_a2a(farm1, farm2), ff/combine.hpp:975-1030. *)
  Definition combine_a2a (em : option node) (w1 w2 : list skel) (ord2 : bool) (c2 : coll) : skel :=
    Farm false em [A2A w1 w2] (if has_coll ord2 c2 then as_added c2 else NoColl).

  (** ff/optimize.hpp:635-665.  When farm2 has an emitter nothing changes and the loop repeats. *)
  Fixpoint a2a_loop (fuel : nat) (l : list skel) (first : option nat) : res (list skel) :=
    match fuel with
    | 0 => NoFuel
    | S k =>
        match first with
        | None => Ok l
        | Some i =>
            if i <? length l - 1 then
              match nth_error l i, nth_error l (S i) with
              | Some (Farm false em1 w1 c1), Some s2 =>
                  match s2 with
                  | Farm false None w2 c2 =>
                      let l' := firstn i l ++ combine_a2a em1 w1 w2 false c2 :: skipn (S (S i)) l in
                      a2a_loop k l' (find_null_coll l' 0 (S i))
                  | Farm false (Some _) _ _ => a2a_loop k l first
                  | _ => a2a_loop k l (find_null_coll l 0 (S (S i)))
                  end
              | Some (Farm true _ _ _), Some _ => a2a_loop k l (find_null_coll l 0 (S i))
              | _, _ => Undef
              end
            else Ok l
        end
    end.

  (** ff_farm::remove_collector, ff/farm.hpp:1260-1267. *)
  Definition removed (ord : bool) : coll := if ord then DefColl else NoColl.

  (** ff/optimize.hpp:682-725, the while loop over the farms with null collector. *)
  Fixpoint rm_loop (fuel : nat) (l : list skel) (next : nat) : res (list skel) :=
    match fuel with
    | 0 => NoFuel
    | S k =>
        match find_null_coll l 0 next with
        | None => Ok l
        | Some i =>
            let l' :=
              match nth_error l i with
              | Some (Farm ord em ws c) =>
                  if i <? length l - 1 then
                    if has_coll ord c then
                      match nth_error l (S i) with
                      | Some s2 =>
                          if ord then
                            match s2 with
                            | Seq n => firstn i l ++ Farm ord em ws (Coll n) :: skipn (S (S i)) l
                            | _ => l
                            end
                          else
                            match s2 with
                            | A2A _ _ => l
                            | Seq n => firstn i l ++ Farm ord em ws NoColl ::
                                       (if nmi n then Seq n else Seq (to_mi n)) :: skipn (S (S i)) l
                            | _ => firstn i l ++ Farm ord em ws NoColl :: skipn (S i) l
                            end
                      | None => l
                      end
                    else l
                  else if ord then l else firstn i l ++ Farm ord em ws NoColl :: skipn (S i) l
              | _ => l
              end in
            rm_loop k l' (S i)
        end
    end.

  (** add_emitter on a farm without emitter, ff/farm.hpp:954-988: a combine must end in a
      multi-output node, otherwise abort(). *)
  Definition add_emitter (n : node) : res (option node) :=
    if ncomp n && negb (nmo n) then Abort else Ok (Some n).

  (** ff/optimize.hpp:727-767: the stage before the first farm with default emitter. *)
  Definition merge_em_step (l : list skel) : res (list skel) :=
    match find_null_em l 0 0 with
    | Some (S p) =>
        match nth_error l p, nth_error l (S p) with
        | Some prev, Some (Farm ord None ws c) =>
            if is_mo prev then Ok l else
            match prev with
            | Farm o1 e1 w1 c1 =>
                if has_coll o1 c1 then
                  match c1 with
                  | Coll n =>
                      if nmi n && negb (ncomp n) then Abort else
                      bind (add_emitter n) (fun e =>
                        Ok (firstn p l ++ Farm o1 e1 w1 (removed o1) :: Farm ord e ws c :: skipn (S (S p)) l))
                  | _ => Undef              (* collector is NULL: collector->isMultiInput() *)
                  end
                else Ok l
            | Seq n =>
                if nmi n && negb (ncomp n) then Abort else
                bind (add_emitter n) (fun e =>
                  Ok (firstn p l ++ Farm ord e ws c :: skipn (S (S p)) l))
            | _ => Ok l
            end
        | _, _ => Ok l
        end
    | _ => Ok l
    end.

  (** optimize_static(pipe, o), ff/optimize.hpp:460-796, on the stages of the pipeline, and
      optimize_static(farm, o), ff/optimize.hpp:336-455.  [fuel] bounds the nesting depth and the
      number of iterations of the a2a loop. *)
  Fixpoint opt_pipe (fuel : nat) (o : opts) (l0 : list skel) {struct fuel} : res (list skel) :=
    match fuel with
    | 0 => NoFuel
    | S k =>
        let inner w := match w with Pipe l => bind (opt_pipe k o l) (fun l' => Ok (Pipe l')) | _ => Ok w end in
        let l := flat_map flat l0 in
        bind (mapM (fun s =>
                match s with
                | Farm ord em ws c => bind (mapM inner ws) (fun ws' => Ok (Farm ord em ws' c))
                | A2A a b => bind (mapM inner a) (fun a' => bind (mapM inner b) (fun b' => Ok (A2A a' b')))
                | _ => Ok s
                end) l) (fun l1 =>
        bind (if merge_farms o then merge_step l1 else Ok l1) (fun l2 =>
        bind (if introduce_a2a o then a2a_loop fuel l2 (find_null_coll l2 0 0) else Ok l2) (fun l3 =>
        bind (if remove_coll o
              then bind (mapM (fun s => match s with Farm _ _ _ _ => opt_farm k rm_only s | _ => Ok s end) l3)
                     (fun l => rm_loop (S (length l)) l 0)
              else Ok l3) (fun l4 =>
        if merge_emitter o then merge_em_step l4 else Ok l4))))
    end
  with opt_farm (fuel : nat) (o : opts) (f : skel) {struct fuel} : res skel :=
    match fuel with
    | 0 => NoFuel
    | S k =>
        match f with
        | Farm ord em ws c =>
            let inner o' w := match w with Pipe l => bind (opt_pipe k o' l) (fun l' => Ok (Pipe l')) | _ => Ok w end in
            bind (mapM (inner o) ws) (fun ws1 =>
            bind (if remove_coll o then
                    mapM (fun w =>
                      match w with
                      | Farm false _ _ _ =>
                          bind (opt_farm k rm_only w) (fun w' =>
                            match w' with
                            | Farm o' e' ws' (Coll n) => Ok w'
                            | Farm o' e' ws' _ => Ok (Farm o' e' ws' (removed o'))
                            | _ => Ok w'
                            end)
                      | Pipe l => inner rm_only w
                      | A2A a b => bind (mapM (inner rm_only) a) (fun a' =>
                                   bind (mapM (inner rm_only) b) (fun b' => Ok (A2A a' b')))
                      | _ => Ok w
                      end) ws1
                  else Ok ws1) (fun ws2 =>
            Ok (Farm ord em ws2 c)))
        | _ => Undef
        end
    end.
End Model.
Arguments node : clear implicits.
Arguments out : clear implicits.
Arguments skel : clear implicits.
Arguments coll : clear implicits.
Arguments Ok {T}. Arguments Err {T}. Arguments Abort {T}. Arguments Undef {T}. Arguments NoFuel {T}.
