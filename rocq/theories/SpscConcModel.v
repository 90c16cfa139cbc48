(** Interleaving model (sequential consistency) of the bounded SPSC ring: one producer thread
    calling push, one consumer thread calling pop, every access to the shared array is one
    atomic step.  ff/buffer.hpp:94-410. *)
From Coq Require Import List Arith.
From Verif Require Import Base SpscSeqModel.
Import ListNotations.

Section Conc.
Context {A : Type}.
Variable n : nat. (* buffer.hpp:118, size *)

(** Program points of push (buffer.hpp:241-260). *)
Inductive ppc :=
| PIdle                (* outside push *)
| PChk (x : A)         (* line 244: about to read buf[pwrite] in available() *)
| PSt (x : A)          (* line 255: about to store buf[pwrite] = data *)
| PInc (x : A).        (* line 256: about to update pwrite, then return true *)

(** Program points of pop (buffer.hpp:345-350, inc at 333-337). *)
Inductive cpc :=
| CIdle
| CChk                 (* line 346: about to read buf[pread] in empty() *)
| CRd                  (* line 347: about to read *data = buf[pread] *)
| CClr (d : option A)  (* line 334: about to store buf[pread] = NULL *)
| CInc (d : option A). (* line 335: about to update pread, then return true *)

(** Results observed by the callers, in order of return. *)
Inductive event :=
| EPush (x : A)         (* push(x) returned true *)
| EPushFull (x : A)     (* push(x) returned false *)
| EPop (d : option A)   (* pop returned true with *data = d *)
| EPopEmpty.            (* pop returned false *)

Record st := mkSt {
  slots : nat -> option A;   (* buf, buffer.hpp:119 *)
  pw : nat;                  (* pwrite, written by the producer only *)
  pr : nat;                  (* pread, written by the consumer only *)
  pp : ppc;
  cp : cpc;
  (* history variables, never read by the steps *)
  stored : list A;           (* values stored by push, in order of the store *)
  taken : nat;               (* number of slots emptied by pop *)
  tr : list event
}.

(** After init (buffer.hpp:167-180, reset(false)). *)
Definition init_st : st := mkSt (fun _ => None) 0 0 PIdle CIdle [] 0 [].

Inductive act := CallPush (x : A) | CallPop | P | C.

Definition step (s : st) (a : act) : option st :=
  match a with
  | CallPush x =>
      match pp s with
      | PIdle => Some (mkSt (slots s) (pw s) (pr s) (PChk x) (cp s) (stored s) (taken s) (tr s))
      | _ => None
      end
  | CallPop =>
      match cp s with
      | CIdle => Some (mkSt (slots s) (pw s) (pr s) (pp s) CChk (stored s) (taken s) (tr s))
      | _ => None
      end
  | P =>
      match pp s with
      | PIdle => None
      | PChk x =>
          match slots s (pw s) with
          | None => Some (mkSt (slots s) (pw s) (pr s) (PSt x) (cp s) (stored s) (taken s) (tr s))
          | Some _ => Some (mkSt (slots s) (pw s) (pr s) PIdle (cp s) (stored s) (taken s)
                              (tr s ++ [EPushFull x]))
          end
      | PSt x => Some (mkSt (fupd (slots s) (pw s) (Some x)) (pw s) (pr s) (PInc x) (cp s)
                         (stored s ++ [x]) (taken s) (tr s))
      | PInc x => Some (mkSt (slots s) (wrap n (pw s)) (pr s) PIdle (cp s)
                          (stored s) (taken s) (tr s ++ [EPush x]))
      end
  | C =>
      match cp s with
      | CIdle => None
      | CChk =>
          match slots s (pr s) with
          | None => Some (mkSt (slots s) (pw s) (pr s) (pp s) CIdle (stored s) (taken s)
                            (tr s ++ [EPopEmpty]))
          | Some _ => Some (mkSt (slots s) (pw s) (pr s) (pp s) CRd (stored s) (taken s) (tr s))
          end
      | CRd => Some (mkSt (slots s) (pw s) (pr s) (pp s) (CClr (slots s (pr s)))
                       (stored s) (taken s) (tr s))
      | CClr d => Some (mkSt (fupd (slots s) (pr s) None) (pw s) (pr s) (pp s) (CInc d)
                         (stored s) (S (taken s)) (tr s))
      | CInc d => Some (mkSt (slots s) (pw s) (wrap n (pr s)) (pp s) CIdle
                         (stored s) (taken s) (tr s ++ [EPop d]))
      end
  end.

(** What the callers saw. *)
Fixpoint pushes (t : list event) : list A :=
  match t with [] => [] | EPush x :: t' => x :: pushes t' | _ :: t' => pushes t' end.
Fixpoint pops (t : list event) : list (option A) :=
  match t with [] => [] | EPop d :: t' => d :: pops t' | _ :: t' => pops t' end.
End Conc.
Arguments ppc : clear implicits.
Arguments cpc : clear implicits.
Arguments event : clear implicits.
Arguments st : clear implicits.
Arguments act : clear implicits.
