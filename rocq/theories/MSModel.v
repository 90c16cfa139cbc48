(** Model of the lock-free list queue: MSqueue, /repo/ff/mpmc/MPMCqueues.hpp L576-L767, for any number of
    threads.  One step is one access to shared memory; sequentially consistent memory.

    Pointers are plain addresses without a tag, as in the code (L604, L631).  Allocation (L656-L664) may
    return any address which is not allocated; that a node is not handed out again too early is a condition
    on the execution ([no_early_reuse]), since the code leaves it to the delayed allocator (L690).
    Freed memory stays readable (slab memory), so reading it is not an error here.
    The two writes of the Node constructor (L636-L638) to the still private node are one step. *)
From Coq Require Import List Arith Bool.
From Verif Require Import Base LinSpec.
Import ListNotations.

Section MS.
  Context {A : Type}.

  Inductive mpc :=
  | MIdle
  | MAlloc (x : A)                                   (* L713 -> L659: posix_memalign *)
  | MInit (x : A) (n : nat)                          (* L662: new Node(data) *)
  | MTail (x : A) (n : nat)                          (* L716: tailptr = tail *)
  | MNext (x : A) (n tp : nat)                       (* L717: next = tailptr->next *)
  | MChk (x : A) (n tp : nat) (nx : option nat)      (* L719: if (tailptr == tail) *)
  | MCas (x : A) (n tp : nat)                        (* L721-L723: CAS(&tailptr->next, node, NULL) *)
  | MHelp (x : A) (n tp nx : nat)                    (* L725: CAS(&tail, next, tailptr) *)
  | MSwing (n tp : nat)                              (* L729: CAS(&tail, node, tailptr), then return *)
  | QHead                                            (* L742: headptr = head *)
  | QTail (hp : nat)                                 (* L743: tailptr = tail *)
  | QNext (hp tp : nat)                              (* L744: next = headptr->next *)
  | QChk (hp tp : nat) (nx : option nat)             (* L746: if (head == headptr) *)
  | QHelp (hp tp : nat) (nx : option nat)            (* L749: CAS(&tail, next, tailptr) *)
  | QData (hp : nat) (nx : option nat)               (* L751: *data = next->data *)
  | QCas (hp nx : nat) (v : A)                       (* L752: CAS(&head, next, headptr) *)
  | QFree (hp : nat) (v : A).                        (* L757-L758: deallocnode(headptr), return true *)

  Record ms := mkM {
    mdata : nat -> A; mnext : nat -> option nat; alive : nat -> bool;
    mhead : nat; mtail : nat; mp : nat -> mpc; mtr : list (ev A) }.

  Inductive mact := MPush (t : nat) (x : A) | MPop (t : nat) | MStep (t : nat) (addr : nat).

  Definition mgo (s : ms) t p :=
    mkM (mdata s) (mnext s) (alive s) (mhead s) (mtail s) (fupd (mp s) t p) (mtr s).
  Definition mgoe (s : ms) t p e :=
    mkM (mdata s) (mnext s) (alive s) (mhead s) (mtail s) (fupd (mp s) t p) (mtr s ++ [e]).
  Definition mgot (s : ms) t p tl :=
    mkM (mdata s) (mnext s) (alive s) (mhead s) tl (fupd (mp s) t p) (mtr s).

  (** [addr]: what the allocator returns.  The value of CAS(&tail, next, tailptr) is not used, so the
      failing case just continues. *)
  Definition mstep (s : ms) (a : mact) : option ms :=
    match a with
    | MPush t x => match mp s t with MIdle => Some (mgoe s t (MAlloc x) (CallPush t x)) | _ => None end
    | MPop t => match mp s t with MIdle => Some (mgoe s t QHead (CallPop t)) | _ => None end
    | MStep t addr =>
        match mp s t with
        | MIdle => None
        | MAlloc x =>
            if alive s addr then None
            else Some (mkM (mdata s) (mnext s) (fupd (alive s) addr true) (mhead s) (mtail s)
                           (fupd (mp s) t (MInit x addr)) (mtr s))
        | MInit x n =>
            Some (mkM (fupd (mdata s) n x) (fupd (mnext s) n None) (alive s) (mhead s) (mtail s)
                      (fupd (mp s) t (MTail x n)) (mtr s))
        | MTail x n => Some (mgo s t (MNext x n (mtail s)))
        | MNext x n tp => Some (mgo s t (MChk x n tp (mnext s tp)))
        | MChk x n tp nx =>
            if mtail s =? tp
            then match nx with
                 | None => Some (mgo s t (MCas x n tp))
                 | Some m => Some (mgo s t (MHelp x n tp m))
                 end
            else Some (mgo s t (MTail x n))
        | MCas x n tp =>
            match mnext s tp with
            | None => Some (mkM (mdata s) (fupd (mnext s) tp (Some n)) (alive s) (mhead s) (mtail s)
                                (fupd (mp s) t (MSwing n tp)) (mtr s ++ [LinPush t]))
            | Some _ => Some (mgo s t (MTail x n))
            end
        | MHelp x n tp nx =>
            if mtail s =? tp then Some (mgot s t (MTail x n) nx) else Some (mgo s t (MTail x n))
        | MSwing n tp =>
            if mtail s =? tp
            then Some (mkM (mdata s) (mnext s) (alive s) (mhead s) n (fupd (mp s) t MIdle) (mtr s ++ [RetPush t true]))
            else Some (mgoe s t MIdle (RetPush t true))
        | QHead => Some (mgo s t (QTail (mhead s)))
        | QTail hp => Some (mgo s t (QNext hp (mtail s)))
        | QNext hp tp =>
            match mnext s hp with
            | None => if hp =? tp then Some (mgoe s t (QChk hp tp None) (SeeEmpty t)) else Some (mgo s t (QChk hp tp None))
            | Some m => Some (mgo s t (QChk hp tp (Some m)))
            end
        | QChk hp tp nx =>
            if mhead s =? hp
            then if hp =? tp
                 then match nx with
                      | None => Some (mgoe s t MIdle (RetPop t None))        (* L748: return false *)
                      | Some _ => Some (mgo s t (QHelp hp tp nx))
                      end
                 else Some (mgo s t (QData hp nx))
            else Some (mgo s t QHead)
        | QHelp hp tp nx =>
            match nx with
            | None => None
            | Some m => if mtail s =? tp then Some (mgot s t QHead m) else Some (mgo s t QHead)
            end
        | QData hp nx =>
            match nx with
            | None => None    (* would dereference NULL *)
            | Some m => Some (mgo s t (QCas hp m (mdata s m)))
            end
        | QCas hp nx v =>
            if mhead s =? hp
            then Some (mkM (mdata s) (mnext s) (alive s) nx (mtail s) (fupd (mp s) t (QFree hp v)) (mtr s ++ [LinPop t]))
            else Some (mgo s t QHead)
        | QFree hp v =>
            Some (mkM (mdata s) (mnext s) (fupd (alive s) hp false) (mhead s) (mtail s)
                      (fupd (mp s) t MIdle) (mtr s ++ [RetPop t (Some v)]))
        end
    end.

  (** init, L688-L703: [d] is the dummy node. *)
  Definition ms_init (d0 : nat -> A) (x0 : nat -> option nat) (d : nat) : ms :=
    mkM d0 (fupd x0 d None) (fun a => a =? d) d d (fun _ => MIdle) [].

  (** The node a running push has in its local tailptr, a running pop in its local headptr. *)
  Definition hazard (p : mpc) : option nat :=
    match p with
    | MNext _ _ tp | MChk _ _ tp _ | MCas _ _ tp | MHelp _ _ tp _ | MSwing _ tp => Some tp
    | QTail hp | QNext hp _ | QChk hp _ _ | QHelp hp _ _ | QData hp _ | QCas hp _ _ => Some hp
    | _ => None
    end.

  (** The allocator never hands out a node which a running operation has in its headptr or tailptr. *)
  Fixpoint no_early_reuse (s : ms) (l : list mact) : Prop :=
    match l with
    | [] => True
    | a :: r =>
        (forall t addr x, a = MStep t addr -> mp s t = MAlloc x -> forall u, hazard (mp s u) <> Some addr) /\
        match mstep s a with None => True | Some s' => no_early_reuse s' r end
    end.
End MS.
Arguments ms : clear implicits. Arguments mpc : clear implicits. Arguments mact : clear implicits.
