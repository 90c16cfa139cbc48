(** C43: divide and conquer computes the sequential recursion. *)
From Coq Require Import List Arith Bool Lia.
From Verif Require Import Base DCModel DCSpec DCProofs DCProofs2 DCProofs7 DCProofs8 DCProofs9.
Import ListNotations.

Section Props.
Context {Op Res : Type}.
Variable cond : Op -> bool.
Variable divide : Op -> list Op.
Variable seqf : Op -> Res.
Variable combine : list Res -> Res.
Variable dflt : Res.
Variable junk : nat -> nat -> nat.
Notation step := (step cond divide seqf combine dflt junk).
Notation start := (start cond divide seqf dflt).
Notation solves := (solves cond divide seqf combine).

Lemma reach_gi : forall nw op b v l s, solves op v -> 0 < b ->
  exec step (start nw op b) l = Some s -> GI cond divide seqf combine op s.
Proof.
  intros nw op b v l s Sv Hb E. eapply exec_inv; [|eapply gi_start; eauto|exact E].
  intros s1 a s2 G E1. eapply gi_step; eauto.
Qed.

(** Whatever the workers do in which order, when the parallel computation ends the result
    slot of the caller (address 0) holds the value of the sequential recursion; every vector
    allocated for operands and partial results has been deleted, no task and no message is
    left. *)
Theorem dc_result : forall nw op b v l s, solves op v -> 0 < b ->
  exec step (start nw op b) l = Some s -> fin s = true ->
  mem s 0 = v /\ frames s = [] /\ (forall t, tk s t = None) /\ rq s = [] /\
  Forall (fun w => w = mkW [] [] []) (ws s).
Proof.
  intros nw op b v l s Sv Hb E F. pose proof (reach_gi _ _ _ _ _ _ Sv Hb E) as G.
  destruct (gi_final cond divide seqf combine op s v G F Sv) as (A & B & _ & C & D & H). auto.
Qed.

(** No execution reads or writes a deleted vector, indexes a vector out of its bounds or
    fails an assertion. *)
Theorem dc_safe : forall nw op b v l s, solves op v -> 0 < b ->
  exec step (start nw op b) l = Some s -> bad s = false.
Proof. intros nw op b v l s Sv Hb E. apply (reach_gi _ _ _ _ _ _ Sv Hb E). Qed.

(** As long as the computation has not ended, some thread can take a step. *)
Theorem dc_no_deadlock : forall nw op b v l s, solves op v -> 0 < b -> 0 < nw ->
  exec step (start nw op b) l = Some s -> fin s = false -> exists a s', step s a = Some s'.
Proof.
  intros nw op b v l s Sv Hb Hn E F. pose proof (reach_gi _ _ _ _ _ _ Sv Hb E) as G.
  eapply gi_progress; eauto.
  assert (X : length (ws s) = nw); [|lia].
  eapply (exec_inv step (fun s => length (ws s) = nw)); [| |exact E].
  - intros s1 a s2 L E1. rewrite (step_length _ _ _ _ _ _ _ _ _ E1). auto.
  - unfold DCModel.start. destruct (cond op); simpl; apply repeat_length.
Qed.

(** There is a bound on the number of steps of all executions. *)
Theorem dc_bounded : forall nw op b v, solves op v -> 0 < b ->
  exists B, forall l s, exec step (start nw op b) l = Some s -> length l <= B.
Proof.
  intros nw op b v Sv Hb. destruct Sv as (N & S).
  exists (M cond divide N (frames (start nw op b)) (start nw op b)). intros l s E.
  assert (G : GI cond divide seqf combine op (start nw op b)) by (eapply gi_start; eauto; exists N; eauto).
  assert (F : FI cond divide seqf combine op N (start nw op b)) by (eapply fi_start; eauto).
  destruct (run_bound cond divide seqf combine dflt junk op N l _ _ G F E) as (G' & _ & L).
  pose proof (Q_le_M cond divide seqf combine junk op N s G').
  assert (Q (start nw op b) = 0).
  { unfold DCModel.start, Q. destruct (cond op); simpl; rewrite repeat_inq; auto. }
  lia.
Qed.

(** Hence an execution that cannot be continued has ended with the sequential result, and
    from every state reached every way of continuing as long as possible leads there. *)
Theorem dc_total : forall nw op b v l s, solves op v -> 0 < b -> 0 < nw ->
  exec step (start nw op b) l = Some s -> (forall a, step s a = None) ->
  fin s = true /\ mem s 0 = v.
Proof.
  intros nw op b v l s Sv Hb Hn E St. destruct (fin s) eqn:F.
  - split; auto. apply (dc_result nw op b v l s Sv Hb E F).
  - destruct (dc_no_deadlock nw op b v l s Sv Hb Hn E F) as (a & s' & X). rewrite St in X. discriminate.
Qed.

Theorem dc_can_complete : forall nw op b v l s, solves op v -> 0 < b -> 0 < nw ->
  exec step (start nw op b) l = Some s ->
  exists l' s', exec step s l' = Some s' /\ fin s' = true /\ mem s' 0 = v.
Proof.
  intros nw op b v l s Sv Hb Hn E. destruct (dc_bounded nw op b v Sv Hb) as (B & HB).
  assert (G : forall k l s, B - length l <= k -> exec step (start nw op b) l = Some s ->
    exists l' s', exec step s l' = Some s' /\ fin s' = true /\ mem s' 0 = v).
  { induction k as [|k IH]; intros l1 s1 L E1; (destruct (fin s1) eqn:F;
      [exists [], s1; split; [auto | split; [auto | apply (dc_result nw op b v l1 s1 Sv Hb E1 F)]]|]);
    destruct (dc_no_deadlock nw op b v l1 s1 Sv Hb Hn E1 F) as (a & s2 & X);
    assert (E2 : exec step (start nw op b) (l1 ++ [a]) = Some s2)
      by (apply exec_app; exists s1; split; auto; simpl; rewrite X; auto);
    pose proof (HB _ _ E2) as L2; rewrite app_length in L2; simpl in L2; [lia|].
    destruct (IH (l1 ++ [a]) s2) as (l' & s' & A & C); [rewrite app_length; simpl; lia | auto |].
    exists (a :: l'), s'. split; auto. simpl. rewrite X. auto. }
  apply (G (B - length l) l s); auto.
Qed.
End Props.

(** ** A concrete problem: divisions into two and three parts, base cases below 2, and a
    combination that depends on the order of the results. *)
Definition fcond (n : nat) : bool := n <? 2.
Definition fdiv (n : nat) : list nat := if n =? 4 then [3; 2; 1] else [n - 1; n - 2].
Definition fseq (n : nat) : nat := n + 1.
Definition fcomb (l : list nat) : nat := match l with [a; b] => 3 * a + b | [a; b; c] => 9 * a + 3 * b + c | _ => 0 end.
Definition fjunk (t i : nat) : nat := 7 + t + i.

Example dc_solves_ex : solves fcond fdiv fseq fcomb 4 230.
Proof. exists 4. vm_compute. reflexivity. Qed.

(** One scheduler: messages first, then the workers' code, then new tasks; the workers with
    the highest number first. *)
Definition fstep := @step nat nat fcond fdiv fseq fcomb 0 fjunk.
Definition cands (s : @st nat nat) : list act :=
  let is := rev (seq 0 (length (ws s))) in
  AInit :: map AMsg is ++ map (fun i => AWork i (1 + list_max (map (fun f => fst f + length (snd f)) (frames s)))) is ++
  map AStart is ++ flat_map (fun t => map (fun i => ASched i t) [t mod 2]) (rq s).
Fixpoint drive (n : nat) (s : @st nat nat) : list act :=
  match n with
  | 0 => []
  | S m =>
    match find (fun a => match fstep s a with Some _ => true | None => false end) (cands s) with
    | Some a => a :: match fstep s a with Some s' => drive m s' | None => [] end
    | None => []
    end
  end.

Example dc_run_ex : exists s,
  exec fstep (start fcond fdiv fseq 0 2 4 5) (drive 200 (start fcond fdiv fseq 0 2 4 5)) = Some s /\
  fin s = true /\ mem s 0 = 230 /\ numb s = 10.
Proof. eexists. repeat (split; [vm_compute; reflexivity|]). vm_compute. reflexivity. Qed.

(** Finding: a division into no parts.  The sequential recursion that combines the empty list
    of results is defined, but a call that is not the first one then indexes the operand
    vector at -1 (ff/dc.hpp L182 and L200). *)
Section Full.
Context {Op Res : Type}.
Variable cond : Op -> bool.
Variable divide : Op -> list Op.
Variable seqf : Op -> Res.
Variable combine : list Res -> Res.
Fixpoint solve_full (n : nat) (op : Op) : option Res :=
  match n with
  | 0 => None
  | S m => if cond op then Some (seqf op) else option_map combine (all_some (map (solve_full m) (divide op)))
  end.
End Full.

Definition dc_any_division_claim : Prop :=
  forall (cond : nat -> bool) divide (seqf : nat -> nat) combine dflt junk nw op b n v l s,
    solve_full cond divide seqf combine n op = Some v -> 0 < b ->
    exec (step cond divide seqf combine dflt junk) (start cond divide seqf dflt nw op b) l = Some s -> bad s = false.

Theorem dc_any_division_refuted : ~ dc_any_division_claim.
Proof.
  intros H.
  assert (X : exists s, exec (step (fun _ => false) (fun n => match n with 0 => [] | S m => [m] end) (fun n => n) (@length nat) 0 fjunk)
    (start (fun _ => false) (fun n => match n with 0 => [] | S m => [m] end) (fun n => n) 0 1 1 5)
    [AInit; AInit; ASched 0 1; AStart 0; AWork 0 9] = Some s /\ bad s = true).
  { eexists. split; vm_compute; reflexivity. }
  destruct X as (s & E & Bs).
  rewrite (H _ _ _ _ _ _ _ _ _ 3 1 _ s (eq_refl : solve_full (fun _ => false) (fun n => match n with 0 => [] | S m => [m] end)
    (fun n => n) (@length nat) 3 1 = Some 1) (Nat.lt_0_succ 4) E) in Bs. discriminate.
Qed.

Print Assumptions dc_result.
Print Assumptions dc_safe.
Print Assumptions dc_no_deadlock.
Print Assumptions dc_bounded.
Print Assumptions dc_total.
Print Assumptions dc_can_complete.
Print Assumptions dc_any_division_refuted.
