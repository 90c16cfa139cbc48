(** Model of ff_node::push, pop, Push and Pop, /repo/ff/node.hpp L571-L621.
    A channel is the list of its items, oldest first, with an optional capacity.  The other end of the
    channel acts between two attempts: before attempt [i] of a Push it has removed [d i] items, before
    attempt [i] of a Pop it has added the items [a i].  The two are arbitrary functions.
    Not modelled: the time spent waiting, and the condition variables (every wait is a timed wait, L588
    and L609, so each one ends). *)
From Coq Require Import List Arith Bool.
Import ListNotations.

Section Chan.
Variable X : Type.

(** L571: out->push, refused when the buffer is full ([cap = None]: unbounded buffer). *)
Definition push1 (cap : option nat) (q : list X) (x : X) : option (list X) :=
  match cap with
  | Some c => if length q <? c then Some (q ++ [x]) else None
  | None => Some (q ++ [x])
  end.

(** L592-L596: the non-blocking loop; [n] attempts are left, [i] is the number of attempts made. *)
Fixpoint push_nb (cap : option nat) (d : nat -> nat) (n i : nat) (q : list X) (x : X) : bool * list X :=
  match n with
  | 0 => (false, q)
  | S n =>
      let q := skipn (d i) q in
      match push1 cap q x with
      | Some q' => (true, q')
      | None => push_nb cap d n (S i) q x
      end
  end.

(** L577-L591: the blocking loop; [None] after [fuel] attempts without success. *)
Fixpoint push_bl (cap : option nat) (d : nat -> nat) (fuel i : nat) (q : list X) (x : X) : option (list X) :=
  match fuel with
  | 0 => None
  | S fuel =>
      let q := skipn (d i) q in
      match push1 cap q x with
      | Some q' => Some q'
      | None => push_bl cap d fuel (S i) q x
      end
  end.

(** Push, L576-L598. [Some (r, q)]: it returned [r] and left the channel as [q]. *)
Definition Push (blocking : bool) (cap : option nat) (d : nat -> nat) (retry fuel : nat) (q : list X) (x : X)
  : option (bool * list X) :=
  if blocking then option_map (fun q' => (true, q')) (push_bl cap d fuel 0 q x)
  else Some (push_nb cap d retry 0 q x).

(** The variable the caller passes: what it held, NULL, or an item taken from the channel. *)
Inductive cell := Kept | Null | Got (x : X).

(** L572-L575 *)
Definition pop1 (active : bool) (q : list X) : option (X * list X) :=
  if active then match q with [] => None | x :: q' => Some (x, q') end else None.

(** L614-L619: [act i] is the value of in_active read by attempt [i]. *)
Fixpoint pop_nb (act : nat -> bool) (a : nat -> list X) (n i : nat) (q : list X) : bool * cell * list X :=
  match n with
  | 0 => (true, Kept, q)                                   (* L620: return true *)
  | S n =>
      let q := q ++ a i in
      if negb (act i) then (false, Null, q)                (* L615 *)
      else match pop1 (act i) q with
           | Some (x, q') => (true, Got x, q')
           | None => pop_nb act a n (S i) q
           end
  end.

(** L603-L612 *)
Fixpoint pop_bl (a : nat -> list X) (fuel i : nat) (q : list X) : option (bool * cell * list X) :=
  match fuel with
  | 0 => None
  | S fuel =>
      let q := q ++ a i in
      match q with
      | x :: q' => Some (true, Got x, q')
      | [] => pop_bl a fuel (S i) q
      end
  end.

(** Pop, L600-L621. *)
Definition Pop (blocking : bool) (act : nat -> bool) (a : nat -> list X) (retry fuel : nat) (q : list X)
  : option (bool * cell * list X) :=
  if blocking
  then if negb (act 0) then Some (false, Null, q) else pop_bl a fuel 0 q
  else Some (pop_nb act a retry 0 q).
End Chan.
Arguments Kept {X}. Arguments Null {X}. Arguments Got {X} x.
Arguments Push {X}. Arguments Pop {X}. Arguments push1 {X}. Arguments pop1 {X}.
Arguments push_nb {X}. Arguments push_bl {X}. Arguments pop_nb {X}. Arguments pop_bl {X}.
