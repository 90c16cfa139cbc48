(** What a pipeline computes: composition of stream functions. *)
From Coq Require Import List.
From Verif Require Import PipeModel.
Import ListNotations.

Section Spec.
  Context {A St : Type}.

  (** The tasks a node emits on a stream of tasks, and how it leaves: [None] if it handled the
      whole stream, [Some r] if svc asked to stop. *)
  Fixpoint emits (nd : node A St) (s : St) (l : list A) : list A * St * option (ret (A := A)) :=
    match l with
    | [] => ([], s, None)
    | x :: l' =>
        let '(s', sent, r) := svc nd s x in
        match r with
        | RTask y => let '(o, s'', e) := emits nd s' l' in (sent ++ y :: o, s'', e)
        | RGoOn => let '(o, s'', e) := emits nd s' l' in (sent ++ o, s'', e)
        | r => (sent, s', Some r)
        end
    end.

  (** The node on a whole stream [l] ended by EOS: the tasks emitted, and whether it emits
      end-of-stream. *)
  Definition node_fun (nd : node A St) (s : St) (l : list A) : list A :=
    match emits nd s l with
    | (o, s', None) => o ++ eosn nd s'
    | (o, _, Some _) => o
    end.

  (** svc never asks to stop and eventually returns: the node handles its whole input. *)
  Definition total (nd : node A St) : Prop :=
    forall s x, match snd (svc nd s x) with RTask _ | RGoOn => True | _ => False end.
  (** svc stops, if ever, with EOS (or NULL) only. *)
  Definition ends_with_eos (nd : node A St) : Prop :=
    forall s x, match snd (svc nd s x) with RTask _ | RGoOn | REnd EOS => True | _ => False end.

  (** The composition of the stages. *)
  Fixpoint compose (ns : list (node A St * St * option nat)) (l : list A) : list A :=
    match ns with
    | [] => l
    | (nd, s, _) :: ns' => compose ns' (node_fun nd s l)
    end.

  (** The stream of tasks [l] ended by end-of-stream. *)
  Definition stream (l : list A) : list (tok A) := map Task l ++ [End EOS].
End Spec.
