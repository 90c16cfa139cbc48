(** The ordered farm: strict round robin emitter and collector, ff/farm.hpp:107-202 (ofarm_lb,
    ofarm_gt), over ff/lb.hpp:240-293, 899-975 and ff/gt.hpp:197-218, 563-675.

    Simplifications: as in FarmModel (atomic channels, emitter's filter represented by the stream it emits,
    no collector filter, infinite retry).  The two variables called [victim] are [vl] (emitter)
    and [vg] (collector); [dead] and [offline] are set together, both are [off]. *)
From Coq Require Import List Arith Bool ZArith.
From Verif Require Import Base PipeModel FarmModel.
Import ListNotations.

Section Model.
  Context {A St : Type}.

  Record ost := mkO { osrc : list A; vl : nat; ec : nat; ows : list (wk A St); vg : nat; oout : list (tok A); odone : bool }.

  Inductive oact := OSend | OSendEos | OPop (w : nat) | OPush (w : nat) | OCollect | OFinish.

  (** updatenextone, farm.hpp:179-184; [None] if the fuel is exhausted. *)
  Fixpoint next_alive (fuel n start v : nat) (dead : nat -> bool) : option nat :=
    match fuel with
    | 0 => None
    | S f => let v' := (v + 1) mod n in
             if dead v' && negb (v' =? start) then next_alive f n start v' dead else Some v'
    end.
  Definition dead_of (l : list (wk A St)) (v : nat) : bool := match nth_error l v with Some k => off k | None => false end.

  (** gather_task, farm.hpp:185-192, on channel [vg]: no offline test is made. *)
  Definition ocollect (k : wk A St) : option (wk A St * tok A) :=
    match outq k with
    | [] => None
    | t :: q => Some (mkWk (wc k) (ocap k) q (eosd k) (match t with End _ => true | Task _ => off k end) (given k) (got k ++ [t]), t)
    end.

  Definition ostep (s : ost) (a : oact) : option ost :=
    let n := length (ows s) in
    match a with
    | OSend =>                                        (* schedule_task, farm.hpp:113-117 *)
        match osrc s, nth_error (ows s) (vl s) with
        | x :: l, Some k => match put k (Task x) with
                            | Some k' => Some (mkO l ((vl s + 1) mod n) (ec s) (lupd (ows s) (vl s) k') (vg s) (oout s) (odone s))
                            | None => None
                            end
        | _, _ => None
        end
    | OSendEos =>                                     (* broadcast_task, farm.hpp:149-154: from victim to n-1, then from 0 *)
        match osrc s with
        | _ :: _ => None
        | [] => if ec s <? n
                then let i := if vl s + ec s <? n then vl s + ec s else vl s + ec s - n in
                     match nth_error (ows s) i with
                     | Some k => match put k (End EOS) with
                                 | Some k' => Some (mkO [] (vl s) (S (ec s)) (lupd (ows s) i k') (vg s) (oout s) (odone s))
                                 | None => None
                                 end
                     | None => None
                     end
                else None
        end
    | OPop w => match nth_error (ows s) w with
                | Some k => match wpop k with Some k' => Some (mkO (osrc s) (vl s) (ec s) (lupd (ows s) w k') (vg s) (oout s) (odone s)) | None => None end
                | None => None
                end
    | OPush w => match nth_error (ows s) w with
                 | Some k => match wpush k with Some k' => Some (mkO (osrc s) (vl s) (ec s) (lupd (ows s) w k') (vg s) (oout s) (odone s)) | None => None end
                 | None => None
                 end
    | OCollect =>                                     (* one round of gt.hpp:588-645, while neos < running *)
        if forallb off (ows s) then None else
        match nth_error (ows s) (vg s) with
        | Some k =>
            match ocollect k with
            | Some (k', t) =>
                let l := lupd (ows s) (vg s) k' in
                match next_alive n n (vg s) (vg s) (dead_of l) with
                | Some v' => Some (mkO (osrc s) (vl s) (ec s) l v' (oout s ++ match t with Task _ => [t] | End _ => [] end) (odone s))
                | None => None
                end
            | None => None
            end
        | None => None
        end
    | OFinish => if odone s then None
                 else if forallb off (ows s) then Some (mkO (osrc s) (vl s) (ec s) (ows s) (vg s) (oout s ++ [End EOS]) true)   (* gt.hpp:647-662 *)
                 else None
    end.

  Definition ostart_at (v v' : nat) (wn : list (node A St * St * option nat * option nat)) (input : list A) : ost :=
    mkO input v 0 (map (fun '(n, s, ci, co) => mkWk (mkCell n ci s [] [] false) co [] false false [] []) wn) v' [] false.
  Definition ostart := ostart_at 0 0.

  (** A further run of a frozen farm whose channels are empty: thaw(true, nw), farm.hpp:159-161 and
      197-200: each victim is reset only if nw is smaller ([-1] is the default).  The number of running workers is
      not changed: the model covers [nw = -1] and [nw >= workers]. *)
  Definition thaw_victim (nw : Z) (v : nat) : nat := if (nw <? Z.of_nat v)%Z then 0 else v.
  Definition othaw (nw : Z) (s : ost) (input : list A) : ost :=
    ostart_at (thaw_victim nw (vl s)) (thaw_victim nw (vg s))
      (map (fun k => (nd (wc k), cst (wc k), cap (wc k), ocap k)) (ows s)) input.
End Model.
Arguments ost : clear implicits.
