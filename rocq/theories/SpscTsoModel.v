(** The bounded SPSC ring on a TSO machine: each thread has a FIFO store buffer; a store
    enters the thread's buffer and reaches memory at an arbitrary later drain step; a load
    sees the thread's own latest buffered store to that location, else memory.
    ff/buffer.hpp:241-260 (push), 333-350 (inc, pop); the comments at 83-88 and 246-252 claim the
    queue is correct on TSO without fences (WMB is only a compiler barrier there).
    In addition the producer writes the pointed-to object before pushing its address and the
    consumer reads it after pop returns, so publication of the payload is modelled too. *)
From Coq Require Import List Arith.
From Verif Require Import Base SpscSeqModel.
Import ListNotations.

Section Tso.
Variable n : nat. (* size *)

(** Addresses of user objects and object contents are naturals; NULL is [None]. *)
Inductive store := SSlot (i : nat) (v : option nat) | SPay (a : nat) (v : nat).

Inductive ppc :=
| PIdle
| PPay (a v : nat)     (* user code: about to write object [a] := [v] *)
| PChk (a v : nat)     (* buffer.hpp:244 *)
| PSt (a v : nat)      (* buffer.hpp:255 *)
| PInc (a v : nat).    (* buffer.hpp:256 *)

Inductive cpc :=
| CIdle
| CChk                 (* buffer.hpp:346 *)
| CRd                  (* buffer.hpp:347 *)
| CClr (d : option nat)   (* buffer.hpp:334 *)
| CInc (d : option nat)   (* buffer.hpp:335 *)
| CUse (d : option nat).  (* user code after pop: about to read object *d *)

Inductive event :=
| EPush (a v : nat) | EPushFull (a v : nat)
| EPop (d : option (nat * nat))   (* address popped and content read from it *)
| EPopEmpty.

Record st := mkSt {
  slots : nat -> option nat;  (* memory: ring slots *)
  pay : nat -> nat;           (* memory: objects *)
  pbuf : list store;          (* producer store buffer, oldest first *)
  cbuf : list store;          (* consumer store buffer, oldest first *)
  pw : nat;                   (* pwrite: only its owner reads it, so kept as a register *)
  pr : nat;                   (* pread: idem *)
  pp : ppc;
  cp : cpc;
  stored : list (nat * nat);  (* history: (address, content) of stores performed by push *)
  taken : nat;                (* history: number of clears performed by pop *)
  tr : list event
}.

Definition init_st : st :=
  mkSt (fun _ => None) (fun _ => 0) [] [] 0 0 PIdle CIdle [] 0 [].

(** Latest buffered store to slot [i] (None = no such store). *)
Fixpoint fwd (b : list store) (i : nat) : option (option nat) :=
  match b with
  | [] => None
  | SSlot j v :: b' => match fwd b' i with
                       | Some w => Some w
                       | None => if j =? i then Some v else None
                       end
  | SPay _ _ :: b' => fwd b' i
  end.

Definition load (b : list store) (m : nat -> option nat) (i : nat) : option nat :=
  match fwd b i with Some v => v | None => m i end.

Inductive act := CallPush (a v : nat) | CallPop | P | C | DrainP | DrainC.

(** Ownership discipline of the user (README: the producer does not use the reference after
    sending it): an address already pushed is not written and pushed again.  Address reuse
    after the consumer gave the object back is outside this model. *)
Definition fresh (a : nat) (l : list (nat * nat)) : bool :=
  negb (existsb (fun p => fst p =? a) l).

Definition step (s : st) (x : act) : option st :=
  match x with
  | CallPush a v =>
      match pp s with
      | PIdle => if fresh a (stored s) then
          Some (mkSt (slots s) (pay s) (pbuf s) (cbuf s) (pw s) (pr s) (PPay a v) (cp s)
                     (stored s) (taken s) (tr s)) else None
      | _ => None
      end
  | CallPop =>
      match cp s with
      | CIdle => Some (mkSt (slots s) (pay s) (pbuf s) (cbuf s) (pw s) (pr s) (pp s) CChk
                            (stored s) (taken s) (tr s))
      | _ => None
      end
  | P =>
      match pp s with
      | PIdle => None
      | PPay a v => Some (mkSt (slots s) (pay s) (pbuf s ++ [SPay a v]) (cbuf s) (pw s) (pr s)
                               (PChk a v) (cp s) (stored s) (taken s) (tr s))
      | PChk a v =>
          match load (pbuf s) (slots s) (pw s) with
          | None => Some (mkSt (slots s) (pay s) (pbuf s) (cbuf s) (pw s) (pr s) (PSt a v) (cp s)
                               (stored s) (taken s) (tr s))
          | Some _ => Some (mkSt (slots s) (pay s) (pbuf s) (cbuf s) (pw s) (pr s) PIdle (cp s)
                               (stored s) (taken s) (tr s ++ [EPushFull a v]))
          end
      | PSt a v => Some (mkSt (slots s) (pay s) (pbuf s ++ [SSlot (pw s) (Some a)]) (cbuf s)
                              (pw s) (pr s) (PInc a v) (cp s)
                              (stored s ++ [(a, v)]) (taken s) (tr s))
      | PInc a v => Some (mkSt (slots s) (pay s) (pbuf s) (cbuf s) (wrap n (pw s)) (pr s) PIdle
                               (cp s) (stored s) (taken s) (tr s ++ [EPush a v]))
      end
  | C =>
      match cp s with
      | CIdle => None
      | CChk =>
          match load (cbuf s) (slots s) (pr s) with
          | None => Some (mkSt (slots s) (pay s) (pbuf s) (cbuf s) (pw s) (pr s) (pp s) CIdle
                               (stored s) (taken s) (tr s ++ [EPopEmpty]))
          | Some _ => Some (mkSt (slots s) (pay s) (pbuf s) (cbuf s) (pw s) (pr s) (pp s) CRd
                               (stored s) (taken s) (tr s))
          end
      | CRd => Some (mkSt (slots s) (pay s) (pbuf s) (cbuf s) (pw s) (pr s) (pp s)
                          (CClr (load (cbuf s) (slots s) (pr s))) (stored s) (taken s) (tr s))
      | CClr d => Some (mkSt (slots s) (pay s) (pbuf s) (cbuf s ++ [SSlot (pr s) None])
                          (pw s) (pr s) (pp s) (CInc d) (stored s) (S (taken s)) (tr s))
      | CInc d => Some (mkSt (slots s) (pay s) (pbuf s) (cbuf s) (pw s) (wrap n (pr s)) (pp s)
                          (CUse d) (stored s) (taken s) (tr s))
      | CUse d => Some (mkSt (slots s) (pay s) (pbuf s) (cbuf s) (pw s) (pr s) (pp s) CIdle
                          (stored s) (taken s)
                          (tr s ++ [EPop (match d with Some a => Some (a, pay s a) | None => None end)]))
      end
  | DrainP =>
      match pbuf s with
      | [] => None
      | SSlot i v :: b => Some (mkSt (fupd (slots s) i v) (pay s) b (cbuf s) (pw s) (pr s)
                                     (pp s) (cp s) (stored s) (taken s) (tr s))
      | SPay a v :: b => Some (mkSt (slots s) (fupd (pay s) a v) b (cbuf s) (pw s) (pr s)
                                     (pp s) (cp s) (stored s) (taken s) (tr s))
      end
  | DrainC =>
      match cbuf s with
      | [] => None
      | SSlot i v :: b => Some (mkSt (fupd (slots s) i v) (pay s) (pbuf s) b (pw s) (pr s)
                                     (pp s) (cp s) (stored s) (taken s) (tr s))
      | SPay a v :: b => Some (mkSt (slots s) (fupd (pay s) a v) (pbuf s) b (pw s) (pr s)
                                     (pp s) (cp s) (stored s) (taken s) (tr s))
      end
  end.

Fixpoint pushes (t : list event) : list (nat * nat) :=
  match t with [] => [] | EPush a v :: t' => (a, v) :: pushes t' | _ :: t' => pushes t' end.
Fixpoint pops (t : list event) : list (option (nat * nat)) :=
  match t with [] => [] | EPop d :: t' => d :: pops t' | _ :: t' => pops t' end.
End Tso.
