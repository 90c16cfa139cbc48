(** Interleaving model (sequential consistency) of ff/staticlinkedlist.hpp: one producer thread
    calling push, one consumer thread calling pop, every access to a node's data is one atomic
    step.  Both compilation variants are covered: [post = true] is the default (POSTPOLLING_VERSION),
    [post = false] the one selected by NO_POST_POLLING.  The WHILE_VERSION (spinning push) is the
    client loop that repeats a failed push.  Pointers to nodes are node numbers. *)
From Coq Require Import List Arith.
From Verif Require Import Base.
Import ListNotations.

Section Conc.
Context {A : Type}.
Variable post : bool.
Variable n : nat. (* cachesize, staticlinkedlist.hpp:130/289 *)

(** Links, set by the constructor (lines 150-154, 308-311) and never changed. *)
Definition next (i : nat) : nat := (i + 1) mod n.
Definition previous (i : nat) : nat := (n + i - 1) mod n.
(** Node written by push: tail->previous (line 202) or tail (line 353). *)
Definition target (t : nat) : nat := if post then previous t else t.

(** Program points of push (staticlinkedlist.hpp:198-218, 349-368). *)
Inductive ppc :=
| PIdle                (* outside push *)
| PChk (x : A)         (* about to read tail->data *)
| PSt (x : A)          (* about to store the data *)
| PInc (x : A).        (* about to do tail = tail->next, then return true *)

(** Program points of pop (staticlinkedlist.hpp:220-239, 371-390). *)
Inductive cpc :=
| CIdle
| CChk                 (* about to test head->data *)
| CRd                  (* about to read *data = head->data *)
| CClr (d : option A)  (* about to store head->data = NULL *)
| CInc (d : option A). (* about to do head = head->next, return true *)

(** Results observed by the callers, in order of return. *)
Inductive event :=
| EPush (x : A)         (* push(x) returned true *)
| EPushFull (x : A)     (* push(x) returned false *)
| EPop (d : option A)   (* pop returned true with *data = d *)
| EPopEmpty.            (* pop returned false *)

Record st := mkSt {
  slots : nat -> option A;   (* data field of each node; None is 0 *)
  pw : nat;                  (* tail, used by the producer only *)
  pr : nat;                  (* head, used by the consumer only *)
  pp : ppc;
  cp : cpc;
  (* history variables, never read by the steps *)
  stored : list A;           (* values stored by push, in order of the store *)
  taken : nat;               (* number of slots emptied by pop *)
  tr : list event
}.

(** Constructor, staticlinkedlist.hpp:130-170 (tail is node 1) and 289-325 (tail is node 0). *)
Definition init_st : st := mkSt (fun _ => None) (if post then 1 else 0) 0 PIdle CIdle [] 0 [].

Inductive act := CallPush (x : A) | CallPop | P | C.

Definition step (s : st) (a : act) : option st :=
  match a with
  | CallPush x =>
      match pp s with
      | PIdle => Some (mkSt (slots s) (pw s) (pr s) (PChk x) (cp s) (stored s) (taken s) (tr s))
      | _ => None
      end
  | CallPop =>
      match cp s with
      | CIdle => Some (mkSt (slots s) (pw s) (pr s) (pp s) CChk (stored s) (taken s) (tr s))
      | _ => None
      end
  | P =>
      match pp s with
      | PIdle => None
      | PChk x =>
          match slots s (pw s) with
          | None => Some (mkSt (slots s) (pw s) (pr s) (PSt x) (cp s) (stored s) (taken s) (tr s))
          | Some _ => Some (mkSt (slots s) (pw s) (pr s) PIdle (cp s) (stored s) (taken s)
                              (tr s ++ [EPushFull x]))
          end
      | PSt x => Some (mkSt (fupd (slots s) (target (pw s)) (Some x)) (pw s) (pr s) (PInc x) (cp s)
                         (stored s ++ [x]) (taken s) (tr s))
      | PInc x => Some (mkSt (slots s) (next (pw s)) (pr s) PIdle (cp s)
                          (stored s) (taken s) (tr s ++ [EPush x]))
      end
  | C =>
      match cp s with
      | CIdle => None
      | CChk =>
          match slots s (pr s) with
          | None => Some (mkSt (slots s) (pw s) (pr s) (pp s) CIdle (stored s) (taken s)
                            (tr s ++ [EPopEmpty]))
          | Some _ => Some (mkSt (slots s) (pw s) (pr s) (pp s) CRd (stored s) (taken s) (tr s))
          end
      | CRd => Some (mkSt (slots s) (pw s) (pr s) (pp s) (CClr (slots s (pr s)))
                       (stored s) (taken s) (tr s))
      | CClr d => Some (mkSt (fupd (slots s) (pr s) None) (pw s) (pr s) (pp s) (CInc d)
                         (stored s) (S (taken s)) (tr s))
      | CInc d => Some (mkSt (slots s) (pw s) (next (pr s)) (pp s) CIdle
                         (stored s) (taken s) (tr s ++ [EPop d]))
      end
  end.

(** What the callers saw. *)
Fixpoint pushes (t : list event) : list A :=
  match t with [] => [] | EPush x :: t' => x :: pushes t' | _ :: t' => pushes t' end.
Fixpoint pops (t : list event) : list (option A) :=
  match t with [] => [] | EPop d :: t' => d :: pops t' | _ :: t' => pops t' end.
End Conc.
Arguments ppc : clear implicits.
Arguments cpc : clear implicits.
Arguments event : clear implicits.
Arguments st : clear implicits.
Arguments act : clear implicits.
