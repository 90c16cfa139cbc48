(** C64: the parallel graph search. *)
From Coq Require Import List Arith ZArith Bool Lia.
From Verif Require Import Base GsModel GsSpec GsProofs GsProofs2.
Import ListNotations.
Local Open Scope nat_scope.

Lemma gid : forall out ident bits a, good_ids out ident bits a ->
  forall b, Some a = Some b -> good_ids out ident bits b.
Proof. intros out ident bits a H b E. injection E as <-. exact H. Qed.

Lemma rch_reach : forall out a n, rch out (Some a) n <-> reach out a n.
Proof.
  intros; split; [intros (b & E & R); injection E as <-; auto|intros R; exists a; auto].
Qed.

(** ** Searching all the results *)

(** The search for all results, once it returned, has every reachable node that matches, once,
    and tells whether there is one; for every graph, number of workers and schedule. *)
Definition search_all_claim : Prop := forall out ident hit bits nw a l s,
  0 < nw -> good_ids out ident bits a ->
  exec (gstep out ident hit bits true nw (Some a)) (g_init nw) l = Some s -> returned nw s ->
  NoDup (results nw s) /\
  (forall n, In n (results nw s) <-> reach out a n /\ hit n = true) /\
  (flag s = true <-> exists n, reach out a n /\ hit n = true).

(** It holds except that results may be repeated when the start node is its own successor or has
    the same successor twice. *)
Theorem search_all_partial : forall out ident hit bits nw a l s,
  0 < nw -> good_ids out ident bits a ->
  exec (gstep out ident hit bits true nw (Some a)) (g_init nw) l = Some s -> returned nw s ->
  (NoDup (a :: out a) -> NoDup (results nw s)) /\
  (forall n, In n (results nw s) <-> reach out a n /\ hit n = true) /\
  (flag s = true <-> exists n, reach out a n /\ hit n = true).
Proof.
  intros out ident hit bits nw a l s Hn G H (R & D).
  pose proof (gid out ident bits a G) as Hid.
  pose proof (inv_exec out ident hit bits true nw (Some a) Hn Hid l s H) as I.
  assert (O : ok true s) by (left; auto).
  assert (C : forall n, In n (results nw s) <-> reach out a n /\ hit n = true).
  { intros n. rewrite (complete out ident hit bits true nw (Some a) Hn Hid s I O R n), rch_reach. tauto. }
  split; [|split; [exact C|]].
  - intros ND. apply (NoDup_count_occ Nat.eq_dec). intros x.
    rewrite (end_occ out ident hit bits true nw (Some a) Hn Hid s I O R x).
    pose proof (nodup_sent out ident hit bits true nw (Some a) Hn Hid a l s eq_refl ND H) as N.
    destruct (hit x); [|auto]. apply (NoDup_count_occ Nat.eq_dec); auto.
  - rewrite (flag_results out ident hit bits true nw (Some a) Hn Hid s I D). split.
    + intros N. destruct (results nw s) as [|x r] eqn:E; [congruence|]. exists x. apply C. simpl; auto.
    + intros (n & Hr). apply C in Hr. intros Z. rewrite Z in Hr. contradiction.
Qed.

(** The search for all results never blocks before it has returned, *)
Theorem search_all_no_deadlock : forall out ident hit bits nw a l s,
  0 < nw -> good_ids out ident bits a ->
  exec (gstep out ident hit bits true nw (Some a)) (g_init nw) l = Some s ->
  (forall b, gstep out ident hit bits true nw (Some a) s b = None) -> returned nw s.
Proof.
  intros out ident hit bits nw a l s Hn G H Z.
  pose proof (gid out ident bits a G) as Hid.
  pose proof (inv_exec out ident hit bits true nw (Some a) Hn Hid l s H) as I.
  apply (no_deadlock out ident hit bits true nw (Some a) Hn Hid s I); auto. left; auto.
Qed.

(** and every search of a finite graph, for all results or for one, takes a bounded number of steps. *)
Theorem search_steps_bounded : forall out ident hit bits all nw a U,
  0 < nw -> good_ids out ident bits a -> (forall n, reach out a n -> In n U) ->
  exists B, forall l s, exec (gstep out ident hit bits all nw (Some a)) (g_init nw) l = Some s -> length l <= B.
Proof.
  intros out ident hit bits all nw a U Hn G HU.
  exists (phi out ident nw (Some a) U (g_init nw)). intros l s H.
  pose proof (terminates out ident hit bits all nw (Some a) Hn (gid out ident bits a G) U
    ltac:(intros n R; apply HU, rch_reach; auto) l s H). lia.
Qed.

(** A schedule: each thread runs when it can (scheduler of the examples). *)
Fixpoint drive (step : gst -> act -> option gst) (cands : nat -> list act) (fuel i : nat) (s : gst) : list act :=
  match fuel with
  | O => []
  | S f =>
      match find (fun b => match step s b with Some _ => true | None => false end) (cands i) with
      | Some b => match step s b with Some s' => b :: drive step cands f (S i) s' | None => [] end
      | None => []
      end
  end.
Definition cands (nw i : nat) : list act :=
  [Start (i mod nw); Emit (i mod nw)] ++
  flat_map (fun w => [Take w; Test w; Mark w]) (seq 0 nw) ++ map Back (seq 0 nw) ++ [Absorb].

(** 0 -> 1, 2; 1 -> 3; 2 -> 3; 3 -> 0, 4. *)
Definition gout (n : nat) : list nat := match n with 0 => [1; 2] | 1 => [3] | 2 => [3] | 3 => [0; 4] | _ => [] end.
Definition ghit (n : nat) : bool := match n with 3 | 4 => true | _ => false end.

Lemma gout_small : forall n, reach gout 0 n -> n < 5.
Proof.
  induction 1 as [|n m R IH I]; [lia|].
  destruct n as [|[|[|[|[|n]]]]]; simpl in I; lia.
Qed.

Example gids : good_ids gout (fun n => n) 8 0 /\ NoDup (0 :: gout 0).
Proof.
  split; [split; [intros n R; pose proof (gout_small n R); lia|auto]|].
  repeat constructor; simpl; intuition discriminate.
Qed.

Example search_all_run :
  let step := gstep gout (fun n => n) ghit 8 true 2 (Some 0) in
  exists l s, exec step (g_init 2) l = Some s /\ emt s = EEnd /\ map (wrk s) [0; 1] = [WDone; WDone] /\
    results 2 s = [3; 4] /\ flag s = true.
Proof.
  set (step := gstep _ _ _ _ _ _ _).
  exists (drive step (cands 2) 100 0 (g_init 2)). eexists.
  split; [vm_compute; reflexivity|]. vm_compute. auto.
Qed.

(** ** Results found twice *)

(** The successors of the start node are sent without looking at the mask (ff/gsearch.hpp:134-138):
    a start node that is its own successor is tested twice. *)
Theorem search_all_twice_refuted : exists l s,
  exec (gstep (fun n => match n with 0 => [0] | _ => [] end) (fun n => n) (fun _ => true) 8 true 2 (Some 0))
    (g_init 2) l = Some s /\ returned 2 s /\ results 2 s = [0; 0].
Proof.
  set (step := gstep _ _ _ _ _ _ _).
  exists (drive step (cands 2) 100 0 (g_init 2)). eexists.
  split; [vm_compute; reflexivity|]. split; [|vm_compute; reflexivity].
  split; [reflexivity|]. intros [|[|w]] L; [reflexivity|reflexivity|lia].
Qed.

Theorem search_all_claim_refuted : ~ search_all_claim.
Proof.
  intros C. destruct search_all_twice_refuted as (l & s & H & R & E).
  assert (G : good_ids (fun n => match n with 0 => [0] | _ => [] end) (fun n => n) 8 0).
  { split; [|auto]. intros n Rn. assert (n = 0); [|lia].
    induction Rn as [|n m Rn IH I]; auto. subst n. simpl in I. intuition. }
  destruct (C _ _ _ _ 2 0 l s ltac:(lia) G H R) as (N & _).
  rewrite E in N. inversion N as [|? ? X Y]; subst. apply X; simpl; auto.
Qed.

(** ** Searching one result *)

(** A search for one result, if it returns, gives a reachable node that matches, or says that there
    is none. *)
Theorem search_one_partial : forall out ident hit bits nw a l s,
  0 < nw -> good_ids out ident bits a ->
  exec (gstep out ident hit bits false nw (Some a)) (g_init nw) l = Some s -> returned nw s ->
  if flag s then exists n, one_result nw s = Some n /\ reach out a n /\ hit n = true
  else forall n, reach out a n -> hit n = false.
Proof.
  intros out ident hit bits nw a l s Hn G H (R & D).
  pose proof (gid out ident bits a G) as Hid.
  pose proof (inv_exec out ident hit bits false nw (Some a) Hn Hid l s H) as I.
  pose proof (flag_results out ident hit bits false nw (Some a) Hn Hid s I D) as FR.
  destruct (flag s) eqn:F.
  - pose proof (proj1 FR eq_refl) as NZ. unfold one_result.
    assert (X : forall ws, (forall w, In w ws -> w < nw) -> flat_map (fnd s) ws = [] \/
      exists x l0 r, filter (fun l => negb (length l =? 0)) (map (fnd s) ws) = (x :: l0) :: r /\ exists w, w < nw /\ fnd s w = x :: l0).
    { clear - D. induction ws as [|w ws IH]; intros L; [left; reflexivity|]. simpl.
      destruct (fnd s w) as [|x l0] eqn:E; simpl.
      - apply IH. intros v I; apply L; simpl; auto.
      - right. exists x, l0, (filter (fun l => negb (length l =? 0)) (map (fnd s) ws)). split; auto.
        exists w; split; auto. apply L; simpl; auto. }
    destruct (X (seq 0 nw)) as [E|(x & l0 & r & E & w & Lw & Ew)]; [intros w I0; apply in_seq in I0; lia|elim NZ; exact E|].
    rewrite E. eexists. split; [reflexivity|].
    assert (In (last (x :: l0) 0) (results nw s)) as In_.
    { apply (results_in out ident bits nw (Some a) Hn Hid). exists w; split; auto. rewrite Ew.
      clear. revert x. induction l0 as [|y l0 IH]; intros x; simpl; auto. right. apply (IH y). }
    apply (sound out ident hit bits false nw (Some a) Hn Hid s _ I) in In_. rewrite rch_reach in In_. exact In_.
  - intros n Rn. destruct (hit n) eqn:Hh; auto.
    assert (O : ok false s) by (right; auto).
    pose proof (proj2 (complete out ident hit bits false nw (Some a) Hn Hid s I O R n)
      (conj (proj2 (rch_reach out a n) Rn) Hh)) as In_.
    assert (false = true); [|congruence]. apply FR. intros Z. rewrite Z in In_. contradiction.
Qed.

Example search_one_run :
  let step := gstep gout (fun n => n) (fun _ => false) 8 false 2 (Some 0) in
  exists l s, exec step (g_init 2) l = Some s /\ returned 2 s /\ flag s = false.
Proof.
  set (step := gstep _ _ _ _ _ _ _).
  exists (drive step (cands 2) 100 0 (g_init 2)). eexists.
  split; [vm_compute; reflexivity|]. split; [|reflexivity].
  split; [reflexivity|]. intros [|[|w]] L; [reflexivity|reflexivity|lia].
Qed.

Example search_one_hit :
  let step := gstep (fun n => match n with 0 => [1] | _ => [] end) (fun n => n) (fun n => n =? 1) 8 false 1 (Some 0) in
  exists l s, exec step (g_init 1) l = Some s /\ returned 1 s /\ flag s = true /\ one_result 1 s = Some 1.
Proof.
  set (step := gstep _ _ _ _ _ _ _).
  exists (drive step (cands 1) 100 0 (g_init 1)). eexists.
  split; [vm_compute; reflexivity|]. split; [|split; reflexivity].
  split; [reflexivity|]. intros [|w] L; [reflexivity|lia].
Qed.

(** A search for one result returns, under every schedule. *)
Definition search_one_claim : Prop := forall out ident hit bits nw a l s,
  0 < nw -> good_ids out ident bits a ->
  exec (gstep out ident hit bits false nw (Some a)) (g_init nw) l = Some s ->
  (forall b, gstep out ident hit bits false nw (Some a) s b = None) -> returned nw s.

(** It does not.  A worker that finds the node returns NULL, which ends only that worker
    (ff/gsearch.hpp:94); the emitter waits for the marks of all the workers, or for a node that
    comes back.  When the start node matches and has no successors, no schedule with two or more
    workers ever returns. *)
Theorem search_one_hang_refuted : forall out ident hit bits nw a l s,
  2 <= nw -> out a = [] -> hit a = true -> ident a < bits ->
  exec (gstep out ident hit bits false nw (Some a)) (g_init nw) l = Some s -> ~ returned nw s.
Proof. intros out ident hit bits nw a l s H1 H2 H3 H4. apply hangs; auto. Qed.

(** Also with one worker: when the emitter sees the flag while nodes are still on their way back,
    absorb_eos reads one of them where it expects a mark, and the assertion of ff/lb.hpp:450
    fails. *)
Theorem search_one_abort_refuted : exists l s,
  exec (gstep (fun n => match n with 0 => [1; 2] | _ => [] end) (fun n => n) (fun n => n =? 2) 8 false 1 (Some 0))
    (g_init 1) l = Some s /\ emt s = EAbort.
Proof.
  set (step := gstep _ _ _ _ _ _ _).
  exists (drive step (cands 1) 100 0 (g_init 1)). eexists.
  split; [vm_compute; reflexivity|]. vm_compute. auto.
Qed.

Theorem search_one_claim_refuted : ~ search_one_claim.
Proof.
  intros C.
  set (step := gstep (fun _ => []) (fun n => n) (fun _ => true) 8 false 2 (Some 0)).
  set (l := drive step (cands 2) 100 0 (g_init 2)).
  destruct (exec step (g_init 2) l) as [s|] eqn:E; [|vm_compute in E; discriminate].
  assert (R : returned 2 s).
  { refine (C (fun _ => []) (fun n => n) (fun _ => true) 8 2 0 l s _ _ E _); [lia| |].
    - split; [|auto]. intros n Rn. assert (n = 0); [|lia]. induction Rn as [|n m Rn IH []]; auto.
    - assert (s = match exec step (g_init 2) l with Some s => s | None => g_init 2 end) as -> by (rewrite E; auto).
      clear E C. vm_compute. intros [w|w|w| |w|w|w]; try reflexivity;
        destruct w as [|[|w]]; reflexivity. }
  exact (search_one_hang_refuted (fun _ => []) (fun n => n) (fun _ => true) 8 2 0 l s
    ltac:(lia) eq_refl eq_refl ltac:(repeat constructor) E R).
Qed.

(** With one worker it does not block: it returns or stops at the assertion. *)
Theorem search_one_worker_partial : forall out ident hit bits a l s,
  good_ids out ident bits a ->
  exec (gstep out ident hit bits false 1 (Some a)) (g_init 1) l = Some s ->
  (forall b, gstep out ident hit bits false 1 (Some a) s b = None) -> returned 1 s \/ emt s = EAbort.
Proof.
  intros out ident hit bits a l s G H Z.
  exact (one_worker out ident hit bits (Some a) (gid out ident bits a G) l s H Z).
Qed.

(** As long as nothing has been found, a search for one result does not block either. *)
Theorem search_one_not_found_partial : forall out ident hit bits nw a l s,
  0 < nw -> good_ids out ident bits a ->
  exec (gstep out ident hit bits false nw (Some a)) (g_init nw) l = Some s -> flag s = false ->
  (forall b, gstep out ident hit bits false nw (Some a) s b = None) -> returned nw s.
Proof.
  intros out ident hit bits nw a l s Hn G H F Z.
  pose proof (gid out ident bits a G) as Hid.
  pose proof (inv_exec out ident hit bits false nw (Some a) Hn Hid l s H) as I.
  apply (no_deadlock out ident hit bits false nw (Some a) Hn Hid s I); auto. right; auto.
Qed.

Print Assumptions search_all_partial.
Print Assumptions search_all_no_deadlock.
Print Assumptions search_steps_bounded.
Print Assumptions search_all_twice_refuted.
Print Assumptions search_all_claim_refuted.
Print Assumptions search_one_partial.
Print Assumptions search_one_hang_refuted.
Print Assumptions search_one_abort_refuted.
Print Assumptions search_one_claim_refuted.
Print Assumptions search_one_worker_partial.
Print Assumptions search_one_not_found_partial.
