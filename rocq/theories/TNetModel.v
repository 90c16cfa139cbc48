(** A network of node threads as in NetModel, on a TSO machine and with the memory accesses of the
    channels: a channel is an array of slots holding pointers (null: free), and each thread has a
    FIFO store buffer.  A store enters the thread's buffer and reaches memory at an arbitrary later
    step; a load sees the thread's own newest buffered store to the location, else memory.

    - push: ff/buffer.hpp:241-260 (test of the slot, store of the pointer, advance of pwrite);
      pop: ff/buffer.hpp:345-350 and inc, 333-337 (test, load, store of null, advance of pread);
    - the node loops are those of NetModel (ff/node.hpp:1438-1514, ff/lb.hpp:899-1005,
      ff/gt.hpp:563-660): read a channel, call svc, push what it sends, one push at a time;
    - the items are objects in memory: svc loads the object whose address it received; what it
      sends are addresses of objects it stores to before the addresses are pushed.

    Simplifications:
    - an unbounded channel is an array without end (ff/ubuffer.hpp chains rings instead: C57 proves
      that chain correct on TSO);
    - pwrite and pread are registers of the producer and of the consumer (nobody else reads them);
      the store to a slot and the advance of the position are one step;
    - a test that fails (channel empty, or full) does not change the state: it is not a step;
    - an object is one memory word.  A node may store only to an object that nobody has used yet or
      that it owns: one that it received, or allocated, and has not passed on.  Ownership moves with
      the pointer.  Nothing is freed.  A value sent to several channels (broadcast) is one object for
      each channel; the code passes the same pointer to all. *)
From Coq Require Import List Arith Bool.
From Verif Require Import Base NetModel NetSpec.
Import ListNotations.

(** Newest buffered store to location i. *)
Fixpoint fwd {V} (l : list (nat * V)) (i : nat) : option V :=
  match l with
  | [] => None
  | (j, v) :: l' => match fwd l' i with Some w => Some w | None => if j =? i then Some v else None end
  end.

(** A load: own store buffer first, then memory. *)
Definition ld {V} (m : nat -> V) (l : list (nat * V)) (i : nat) : V :=
  match fwd l i with Some v => v | None => m i end.

(** ff/buffer.hpp:256, 335: the next position; [sz] is the size of the ring, None: unbounded. *)
Definition nxt (sz : option nat) (i : nat) : nat :=
  match sz with Some n => if n <=? i + 1 then 0 else i + 1 | None => i + 1 end.

(** A message of pointers seen as a message of what they point to (FF_EOS is a pointer value). *)
Definition mmap {A B} (f : A -> B) (m : msg A) : msg B := match m with Item a => Item (f a) | Eos => Eos end.
Definition rmap {A B} (f : A -> B) (r : req A) : req B :=
  match r with To j m => To j (mmap f m) | Any a => Any (f a) end.

Section Model.
  Context {X St : Type}.
  Variable N : net X St.
  Variable o0 : nat -> X.     (* what the memory of the objects contains at the start: anything *)

  Inductive store := SSlot (c i : nat) (v : option (msg nat)) | SObj (a : nat) (x : X).

  Inductive pc :=
  | Boot                        (* has not yet done what it sends before reading *)
  | Idle
  | Seen (c : nat)              (* in pop: the slot was not null, buffer.hpp:346 *)
  | Got (c : nat) (p : msg nat) (* in pop: pointer loaded, buffer.hpp:347 *)
  | Use (c : nat) (p : msg nat) (* pop returned p *)
  | Avail (k j : nat).          (* in push of request k of the group: the slot was null, buffer.hpp:244 *)

  (** Who may use an object: nobody yet, a thread, or the consumer of a channel once it pops it. *)
  Inductive owner := Free | Own (v : nat) | InCh (c : nat).

  Record tst := mkT {
    mem : nat -> nat -> option (msg nat);   (* channel, slot *)
    obj : nat -> X;
    sb : nat -> list store;                 (* store buffers, oldest first *)
    pw : nat -> nat;
    pr : nat -> nat;
    pcs : nat -> pc;
    cn : nat -> node nat St;                (* NetModel's node, its pending requests holding addresses *)
    own : nat -> owner;
    got : nat -> list (nat * msg X);        (* history: what svc was given, with the channel *)
    put : nat -> list (nat * msg X);        (* history: what the thread pushed *)
    bad : bool }.                           (* svc was given the null pointer *)

  Definition tinit : tst :=
    mkT (fun _ _ => None) o0 (fun _ => []) (fun _ => 0) (fun _ => 0) (fun _ => Boot)
        (fun v => mkNode (start N v) [] [] Running) (fun _ => Free) (fun _ => []) (fun _ => []) false.

  Definition sizeof (c : nat) : option nat := match chan_of N c with Some k => cap k | None => None end.

  (** The stores of a buffer to the slots of channel c; to objects. *)
  Definition slots (c : nat) (l : list store) : list (nat * option (msg nat)) :=
    flat_map (fun e => match e with SSlot c' i v => if c' =? c then [(i, v)] else [] | SObj _ _ => [] end) l.
  Definition objs (l : list store) : list (nat * X) :=
    flat_map (fun e => match e with SObj a x => [(a, x)] | SSlot _ _ _ => [] end) l.

  (** What thread v sees in slot i of channel c, and in object a. *)
  Definition see (s : tst) (v c i : nat) : option (msg nat) := ld (mem s c) (slots c (sb s v)) i.
  Definition view (s : tst) (v a : nat) : X := ld (obj s) (objs (sb s v)) a.

  (** The requests G with their items replaced by the addresses sg, in order. *)
  Definition place1 (r : req X) (sg : list nat) : req nat :=
    match r with To j Eos => To j Eos | To j (Item _) => To j (Item (hd 0 sg)) | Any _ => Any (hd 0 sg) end.
  Fixpoint placeg (g : list (req X)) (sg : list nat) : list (req nat) :=
    match g with [] => [] | r :: g' => place1 r sg :: placeg g' (skipn (length (item_of r)) sg) end.
  Fixpoint place (G : list (list (req X))) (sg : list nat) : list (list (req nat)) :=
    match G with [] => [] | g :: G' => placeg g sg :: place G' (skipn (length (flat_map item_of g)) sg) end.

  Fixpoint distinct (l : list nat) : bool :=
    match l with [] => true | a :: l' => negb (memb a l') && distinct l' end.
  Definition usable (s : tst) (v a : nat) : bool :=
    match own s a with Free => true | Own w => w =? v | InCh _ => false end.
  (** The objects the node chooses for the items it sends. *)
  Definition chosen (s : tst) (v : nat) (G : list (list (req X))) (sg : list nat) : bool :=
    (length sg =? length (sent G)) && distinct sg && forallb (usable s v) sg.

  (** The thread stores the items of G to the objects sg and owns them. *)
  Definition writes (G : list (list (req X))) (sg : list nat) : list store :=
    map (fun ax => SObj (fst ax) (snd ax)) (combine sg (sent G)).
  Definition owns (s : tst) (v : nat) (sg : list nat) : nat -> owner :=
    fun a => if memb a sg then Own v else own s a.
  Definition own1 (o : nat -> owner) (p : msg nat) (w : owner) : nat -> owner :=
    match p with Item a => fupd o a w | Eos => o end.

  (** As NetModel.resolve, for a request with an address. *)
  Definition tresolve (v : nat) (r : req nat) (j : nat) : option (nat * msg nat) :=
    match r with
    | To i m => option_map (fun c => (c, m)) (nth_error (outs N v) i)
    | Any a => option_map (fun c => (c, Item a)) (nth_error (outs N v) j)
    end.

  Inductive tact :=
  | TBoot (v : nat) (sg : list nat)
  | TTest (v c : nat) | TRead (v : nat) | TClear (v : nat) | TUse (v : nat) (sg : list nat)
  | TChk (v k j : nat) | TStore (v : nat) | TNext (v : nat) | TFin (v : nat)
  | TFlush (v : nat).

  Definition setpc (s : tst) (v : nat) (p : pc) : tst :=
    mkT (mem s) (obj s) (sb s) (pw s) (pr s) (fupd (pcs s) v p) (cn s) (own s) (got s) (put s) (bad s).

  (** The thread has computed its new node state r (user state, requests, phase). *)
  Definition enter (s : tst) (v : nat) (r : node X St) (sg : list nat) (g : nat -> list (nat * msg X)) : option tst :=
    if chosen s v (pend r) sg then
      Some (mkT (mem s) (obj s) (fupd (sb s) v (sb s v ++ writes (pend r) sg)) (pw s) (pr s)
                (fupd (pcs s) v Idle)
                (fupd (cn s) v (mkNode (ust r) (place (pend r) sg) (ended r) (ph r)))
                (owns s v sg) g (put s) (bad s))
    else None.

  Definition tstep (s : tst) (a : tact) : option tst :=
    match a with
    | TBoot v sg =>
        if v <? nodes N then
          match pcs s v with Boot => enter s v (init_node N v) sg (got s) | _ => None end
        else None
    | TTest v c =>
        let n := cn s v in
        match pcs s v, ph n, pend n with
        | Idle, Running, [] =>
            if (v <? nodes N) && memb c (ins N v) && negb (memb c (ended n)) then
              match see s v c (pr s c) with Some _ => Some (setpc s v (Seen c)) | None => None end
            else None
        | _, _, _ => None
        end
    | TRead v =>
        match pcs s v with
        | Seen c =>
            match see s v c (pr s c) with
            | Some p => Some (setpc s v (Got c p))
            | None => Some (mkT (mem s) (obj s) (sb s) (pw s) (pr s) (pcs s) (cn s) (own s) (got s) (put s) true)
            end
        | _ => None
        end
    | TClear v =>
        match pcs s v with
        | Got c p =>
            Some (mkT (mem s) (obj s) (fupd (sb s) v (sb s v ++ [SSlot c (pr s c) None])) (pw s)
                      (fupd (pr s) c (nxt (sizeof c) (pr s c))) (fupd (pcs s) v (Use c p)) (cn s)
                      (own1 (own s) p (Own v)) (got s) (put s) (bad s))
        | _ => None
        end
    | TUse v sg =>
        match pcs s v with
        | Use c p =>
            let n := cn s v in
            let m := mmap (view s v) p in
            enter s v (react N v (mkNode (ust n) [] (ended n) (ph n)) c m) sg
                  (fupd (got s) v (got s v ++ [(c, m)]))
        | _ => None
        end
    | TChk v k j =>
        match pcs s v, pend (cn s v) with
        | Idle, g :: _ =>
            match nth_error g k with
            | Some r =>
                match tresolve v r j with
                | Some (c, _) =>
                    if v <? nodes N then
                      match see s v c (pw s c) with None => Some (setpc s v (Avail k j)) | Some _ => None end
                    else None
                | None => None
                end
            | None => None
            end
        | _, _ => None
        end
    | TStore v =>
        let n := cn s v in
        match pcs s v, pend n with
        | Avail k j, g :: P =>
            match nth_error g k with
            | Some r =>
                match tresolve v r j with
                | Some (c, p) =>
                    Some (mkT (mem s) (obj s) (fupd (sb s) v (sb s v ++ [SSlot c (pw s c) (Some p)]))
                              (fupd (pw s) c (nxt (sizeof c) (pw s c))) (pr s) (fupd (pcs s) v Idle)
                              (fupd (cn s) v (mkNode (ust n) (remove_nth k g :: P) (ended n) (ph n)))
                              (own1 (own s) p (InCh c)) (got s)
                              (fupd (put s) v (put s v ++ [(c, mmap (view s v) p)])) (bad s))
                | None => None
                end
            | None => None
            end
        | _, _ => None
        end
    | TNext v =>
        let n := cn s v in
        match pcs s v, pend n with
        | Idle, [] :: P =>
            if v <? nodes N then
              Some (mkT (mem s) (obj s) (sb s) (pw s) (pr s) (pcs s)
                        (fupd (cn s) v (mkNode (ust n) P (ended n) (ph n))) (own s) (got s) (put s) (bad s))
            else None
        | _, _ => None
        end
    | TFin v =>
        let n := cn s v in
        match pcs s v, ph n, pend n with
        | Idle, Closing, [] =>
            if v <? nodes N then
              Some (mkT (mem s) (obj s) (sb s) (pw s) (pr s) (pcs s)
                        (fupd (cn s) v (mkNode (ust n) [] (ended n) Done)) (own s) (got s) (put s) (bad s))
            else None
        | _, _, _ => None
        end
    | TFlush v =>
        match sb s v with
        | [] => None
        | SSlot c i p :: l =>
            Some (mkT (fupd (mem s) c (fupd (mem s c) i p)) (obj s) (fupd (sb s) v l) (pw s) (pr s) (pcs s)
                      (cn s) (own s) (got s) (put s) (bad s))
        | SObj a x :: l =>
            Some (mkT (mem s) (fupd (obj s) a x) (fupd (sb s) v l) (pw s) (pr s) (pcs s)
                      (cn s) (own s) (got s) (put s) (bad s))
        end
    end.
End Model.
Arguments store : clear implicits.
Arguments tst : clear implicits.
