(** Model of the list queue with node cache: /repo/ff/dynqueue.hpp, for any number of threads using
    mp_push and mp_pop (L205-L233).

    push and pop (L167-L197) make the same accesses in the same order without the locks; with one producer
    and one consumer the locks are always free, so their executions are executions of this model.
    One step is one access to shared memory.  The spin locks are atomic (C13).
    The node cache is a SWSR buffer, whose operations are linearizable (C01-C03): here it is a list and the
    outcome of a push or pop on it ("full", "empty") is left open, which covers every capacity.
    malloc returns any address that is not allocated, so a freed address may come back at once.
    Memory orders are not modelled. *)
From Coq Require Import List Arith Bool.
From Verif Require Import Base LinSpec.
Import ListNotations.

Section Dynq.
  Context {A : Type}.

  Inductive pc :=
  | DIdle
  | PAlloc (x : A)              (* L122-L127: cache.pop under the producers' lock *)
  | PMalloc (x : A)             (* L129: malloc *)
  | PData (x : A) (n : nat)     (* L208: n->data = data *)
  | PNext (x : A) (n : nat)     (* L208: n->next = NULL *)
  | PLock (x : A) (n : nat)     (* L209: spin_lock(P_lock) *)
  | PLink (x : A) (n : nat)     (* L210: tail->next = n *)
  | PTail (n : nat)             (* L211: tail = n *)
  | PUnlock                     (* L212-L213 *)
  | CLock                       (* L221: spin_lock(C_lock) *)
  | CTest                       (* L222: if (head->next) *)
  | CRead                       (* L224: *data = (head->next)->data *)
  | CHead (v : A)               (* L225: head = head->next *)
  | CCache (v : A) (n : nat)    (* L226: cache.push(n) *)
  | CUnlock (v : A) (f : option nat)  (* L227: spin_unlock; [f]: the node to be freed *)
  | CFree (v : A) (n : nat)     (* L228: free(n) *)
  | CFail.                      (* L231: spin_unlock, then return false *)

  Record dq := mkD {
    ndata : nat -> A; nnext : nat -> option nat; live : nat -> bool;
    head : nat; tail : nat; cache : list nat; lkP : option nat; lkC : option nat;
    dp : nat -> pc; tr : list (ev A) }.

  Inductive dact := DPush (t : nat) (x : A) | DPop (t : nat) | DStep (t : nat) (hit : bool) (addr : nat).

  Definition go (s : dq) t p :=
    mkD (ndata s) (nnext s) (live s) (head s) (tail s) (cache s) (lkP s) (lkC s) (fupd (dp s) t p) (tr s).
  Definition goe (s : dq) t p e :=
    mkD (ndata s) (nnext s) (live s) (head s) (tail s) (cache s) (lkP s) (lkC s) (fupd (dp s) t p) (tr s ++ [e]).

  (** [hit]: outcome of the operation on the cache; [addr]: the address malloc returns. *)
  Definition dstep (s : dq) (a : dact) : option dq :=
    match a with
    | DPush t x => match dp s t with DIdle => Some (goe s t (PAlloc x) (CallPush t x)) | _ => None end
    | DPop t => match dp s t with DIdle => Some (goe s t CLock (CallPop t)) | _ => None end
    | DStep t hit addr =>
        match dp s t with
        | DIdle => None
        | PAlloc x =>
            match lkP s, hit, cache s with
            | Some _, _, _ => None
            | None, true, n :: c =>
                Some (mkD (ndata s) (nnext s) (live s) (head s) (tail s) c (lkP s) (lkC s) (fupd (dp s) t (PData x n)) (tr s))
            | None, _, _ => Some (go s t (PMalloc x))
            end
        | PMalloc x =>
            if live s addr then None
            else Some (mkD (ndata s) (nnext s) (fupd (live s) addr true) (head s) (tail s) (cache s) (lkP s) (lkC s)
                           (fupd (dp s) t (PData x addr)) (tr s))
        | PData x n =>
            Some (mkD (fupd (ndata s) n x) (nnext s) (live s) (head s) (tail s) (cache s) (lkP s) (lkC s)
                      (fupd (dp s) t (PNext x n)) (tr s))
        | PNext x n =>
            Some (mkD (ndata s) (fupd (nnext s) n None) (live s) (head s) (tail s) (cache s) (lkP s) (lkC s)
                      (fupd (dp s) t (PLock x n)) (tr s))
        | PLock x n =>
            match lkP s with
            | Some _ => None
            | None => Some (mkD (ndata s) (nnext s) (live s) (head s) (tail s) (cache s) (Some t) (lkC s)
                                (fupd (dp s) t (PLink x n)) (tr s))
            end
        | PLink x n =>
            Some (mkD (ndata s) (fupd (nnext s) (tail s) (Some n)) (live s) (head s) (tail s) (cache s) (lkP s) (lkC s)
                      (fupd (dp s) t (PTail n)) (tr s ++ [LinPush t]))
        | PTail n =>
            Some (mkD (ndata s) (nnext s) (live s) (head s) n (cache s) (lkP s) (lkC s) (fupd (dp s) t PUnlock) (tr s))
        | PUnlock =>
            Some (mkD (ndata s) (nnext s) (live s) (head s) (tail s) (cache s) None (lkC s)
                      (fupd (dp s) t DIdle) (tr s ++ [RetPush t true]))
        | CLock =>
            match lkC s with
            | Some _ => None
            | None => Some (mkD (ndata s) (nnext s) (live s) (head s) (tail s) (cache s) (lkP s) (Some t)
                                (fupd (dp s) t CTest) (tr s))
            end
        | CTest =>
            match nnext s (head s) with
            | None => Some (goe s t CFail (RetPop t None))
            | Some _ => Some (go s t CRead)
            end
        | CRead =>
            match nnext s (head s) with
            | None => None
            | Some m => Some (go s t (CHead (ndata s m)))
            end
        | CHead v =>
            match nnext s (head s) with
            | None => None
            | Some m => Some (mkD (ndata s) (nnext s) (live s) m (tail s) (cache s) (lkP s) (lkC s)
                                  (fupd (dp s) t (CCache v (head s))) (tr s ++ [LinPop t]))
            end
        | CCache v n =>
            if hit
            then Some (mkD (ndata s) (nnext s) (live s) (head s) (tail s) (cache s ++ [n]) (lkP s) (lkC s)
                           (fupd (dp s) t (CUnlock v None)) (tr s))
            else Some (go s t (CUnlock v (Some n)))
        | CUnlock v f =>
            match f with
            | None => Some (mkD (ndata s) (nnext s) (live s) (head s) (tail s) (cache s) (lkP s) None
                                (fupd (dp s) t DIdle) (tr s ++ [RetPop t (Some v)]))
            | Some n => Some (mkD (ndata s) (nnext s) (live s) (head s) (tail s) (cache s) (lkP s) None
                                  (fupd (dp s) t (CFree v n)) (tr s))
            end
        | CFree v n =>
            Some (mkD (ndata s) (nnext s) (fupd (live s) n false) (head s) (tail s) (cache s) (lkP s) (lkC s)
                      (fupd (dp s) t DIdle) (tr s ++ [RetPop t (Some v)]))
        | CFail =>
            Some (mkD (ndata s) (nnext s) (live s) (head s) (tail s) (cache s) (lkP s) None
                      (fupd (dp s) t DIdle) (tr s))
        end
    end.

  (** Constructor, L136-L150: the dummy node is [h]; the cache is filled with the nodes [c] (empty unless
      fillcache). *)
  Definition dq_init (d0 : nat -> A) (x0 : nat -> option nat) (h : nat) (c : list nat) : dq :=
    mkD d0 (fupd x0 h None) (fun a => (a =? h) || existsb (Nat.eqb a) c) h h c None None (fun _ => DIdle) [].
End Dynq.
Arguments dq : clear implicits. Arguments pc : clear implicits. Arguments dact : clear implicits.
