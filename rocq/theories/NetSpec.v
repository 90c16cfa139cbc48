(** Vocabulary of the network theorems: what the user's code asks for, independently of how the
    threads interleave. *)
From Coq Require Import List Arith Bool Permutation.
From Verif Require Import Base NetModel.
Import ListNotations.

Section Spec.
  Context {X St : Type}.
  Variable N : net X St.

  (** What node v's code sends when it reads [log] (messages with the channel they came from),
      starting in state u. *)
  Fixpoint replies (v : nat) (u : St) (log : list (nat * msg X)) : list (list (req X)) :=
    match log with
    | [] => []
    | (c, Item x) :: l => let '(u', o, _) := svc N v u c x in o ++ replies v u' l
    | (c, Eos) :: l => let (u', o) := eosn N v u c in o ++ replies v u' l
    end.

  (** The pushes [p] carry out the requests [g] of node v, one push each, in this order. *)
  Definition resolves (v : nat) (r : req X) (cm : nat * msg X) : Prop :=
    match r with
    | To j m => nth_error (outs N v) j = Some (fst cm) /\ snd cm = m
    | Any x => In (fst cm) (outs N v) /\ snd cm = Item x
    end.

  (** The pushes [p] carry out the groups [G], group after group, in any order inside a group:
      no request is lost, repeated or invented. *)
  Inductive realizes (v : nat) : list (list (req X)) -> list (nat * msg X) -> Prop :=
  | real_nil : realizes v [] []
  | real_cons : forall g g' p G P, Permutation g g' -> Forall2 (resolves v) g' p -> realizes v G P ->
      realizes v (g :: G) (p ++ P).

  (** Messages of one channel in a history. *)
  Definition on (c : nat) (h : list (nat * msg X)) : list (msg X) :=
    map snd (filter (fun cm => fst cm =? c) h).

  (** Items in a sequence of messages; items a node's code sends; those it sends to output number
      i, in order; what was read from channel c. *)
  Definition items (l : list (msg X)) : list X := flat_map (fun m => match m with Item x => [x] | Eos => [] end) l.
  Definition item_of (r : req X) : list X := match r with To _ (Item x) => [x] | To _ Eos => [] | Any x => [x] end.
  Definition item_to (i : nat) (r : req X) : list X :=
    match r with To j (Item x) => if j =? i then [x] else [] | _ => [] end.
  Definition sent (G : list (list (req X))) : list X := flat_map (flat_map item_of) G.
  Definition sent_to (i : nat) (G : list (list (req X))) : list X := flat_map (flat_map (item_to i)) G.
  Definition received (s : st X St) (c : nat) : list (msg X) :=
    match chan_of N c with Some k => on c (hl s (dst k)) | None => [] end.

  (** What node v's code has sent in state s. *)
  Definition requests (s : st X St) (v : nat) : list (list (req X)) :=
    boot N v ++ replies v (start N v) (hl s v).

  (** Every send names its output, and a group (a broadcast) uses an output at most once. *)
  Definition port (r : req X) : nat := match r with To j _ => j | Any _ => 0 end.
  Definition directed (G : list (list (req X))) : Prop :=
    Forall (fun g => (forall x, ~ In (Any x) g) /\ NoDup (map port g)) G.

  (** A request the user's code may make: an item, for an output channel that exists. *)
  Definition ok_req (v : nat) (r : req X) : Prop :=
    match r with
    | To j (Item _) => j < length (outs N v)
    | To _ Eos => False
    | Any _ => outs N v <> []
    end.
  Definition ok_groups (v : nat) (G : list (list (req X))) : Prop := Forall (Forall (ok_req v)) G.

  Record wf : Prop := {
    wf_ends : forall c k, chan_of N c = Some k -> src k < nodes N /\ dst k < nodes N;
    wf_cap : forall c k b, chan_of N c = Some k -> cap k = Some b -> 1 <= b;
    wf_boot : forall v, v < nodes N -> ok_groups v (boot N v);
    wf_svc : forall v u c x, v < nodes N -> ok_groups v (snd (fst (svc N v u c x)));
    wf_eosn : forall v u c, v < nodes N -> ok_groups v (snd (eosn N v u c)) }.

  (** Some call of svc made while reading [log] returned EOS. *)
  Fixpoint quits (v : nat) (u : St) (log : list (nat * msg X)) : bool :=
    match log with
    | [] => false
    | (c, Item x) :: l => snd (svc N v u c x) || quits v (fst (fst (svc N v u c x))) l
    | (c, Eos) :: l => quits v (fst (eosn N v u c)) l
    end.

  (** Node v reads its whole input: svc never returns EOS. *)
  Definition patient (v : nat) : Prop := forall u c x, snd (svc N v u c x) = false.

  (** No cycle: the nodes are numbered so that channels go upwards. *)
  Definition acyclic : Prop := forall c k, chan_of N c = Some k -> src k < dst k.

  (** Cycles are allowed, but only through unbounded channels, and a node that may stop early is
      fed by unbounded channels. *)
  Definition bounded_upwards : Prop :=
    forall c k b, chan_of N c = Some k -> cap k = Some b -> src k < dst k /\ patient (dst k).

  Definition all_done (s : st X St) : Prop := forall v, v < nodes N -> ph (nd s v) = Done.
  Definition stuck (s : st X St) : Prop := forall a, step N s a = None.
End Spec.
