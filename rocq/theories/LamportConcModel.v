(** Interleaving model (sequential consistency) of the Lamport ring, one producer and one
    consumer.  ff/buffer.hpp:421-539.  pread and pwrite are shared here. *)
From Coq Require Import List Arith.
From Verif Require Import Base SpscSeqModel.
Import ListNotations.

Section Conc.
Context {A : Type}.
Variable n : nat. (* size *)

Inductive ppc :=
| PIdle
| PChk (x : A)              (* buffer.hpp:489-490: about to read pread and compare with next *)
| PSt (x : A) (next : nat)  (* 491: about to store buf[pwrite] = data *)
| PInc (x : A) (next : nat). (* 497: about to store pwrite = next, then return true *)

Inductive cpc :=
| CIdle
| CChk                 (* 509: about to read pwrite in empty() *)
| CRd                  (* 510: about to read data = buf[pread] *)
| CInc (d : option A). (* 511: about to store pread, then return true *)

Inductive event := EPush (x : A) | EPushFull (x : A) | EPop (d : option A) | EPopEmpty.

Record st := mkSt {
  slots : nat -> option A; pw : nat; pr : nat; pp : ppc; cp : cpc;
  pub : list A;  (* history: values published, in order of the pwrite update *)
  tr : list event
}.
Definition init_st : st := mkSt (fun _ => None) 0 0 PIdle CIdle [] [].
Inductive act := CallPush (x : A) | CallPop | P | C.

Definition step (s : st) (a : act) : option st :=
  match a with
  | CallPush x => match pp s with
      | PIdle => Some (mkSt (slots s) (pw s) (pr s) (PChk x) (cp s) (pub s) (tr s))
      | _ => None end
  | CallPop => match cp s with
      | CIdle => Some (mkSt (slots s) (pw s) (pr s) (pp s) CChk (pub s) (tr s))
      | _ => None end
  | P => match pp s with
      | PIdle => None
      | PChk x => if wrap n (pw s) =? pr s
          then Some (mkSt (slots s) (pw s) (pr s) PIdle (cp s) (pub s) (tr s ++ [EPushFull x]))
          else Some (mkSt (slots s) (pw s) (pr s) (PSt x (wrap n (pw s))) (cp s) (pub s) (tr s))
      | PSt x nx => Some (mkSt (fupd (slots s) (pw s) (Some x)) (pw s) (pr s) (PInc x nx) (cp s)
                           (pub s) (tr s))
      | PInc x nx => Some (mkSt (slots s) nx (pr s) PIdle (cp s) (pub s ++ [x]) (tr s ++ [EPush x]))
      end
  | C => match cp s with
      | CIdle => None
      | CChk => if pw s =? pr s
          then Some (mkSt (slots s) (pw s) (pr s) (pp s) CIdle (pub s) (tr s ++ [EPopEmpty]))
          else Some (mkSt (slots s) (pw s) (pr s) (pp s) CRd (pub s) (tr s))
      | CRd => Some (mkSt (slots s) (pw s) (pr s) (pp s) (CInc (slots s (pr s))) (pub s) (tr s))
      | CInc d => Some (mkSt (slots s) (pw s) (wrap n (pr s)) (pp s) CIdle (pub s) (tr s ++ [EPop d]))
      end
  end.

Fixpoint pushes (t : list event) : list A :=
  match t with [] => [] | EPush x :: t' => x :: pushes t' | _ :: t' => pushes t' end.
Fixpoint pops (t : list event) : list (option A) :=
  match t with [] => [] | EPop d :: t' => d :: pops t' | _ :: t' => pops t' end.
End Conc.
Arguments ppc : clear implicits.
Arguments cpc : clear implicits.
Arguments event : clear implicits.
Arguments st : clear implicits.
Arguments act : clear implicits.
