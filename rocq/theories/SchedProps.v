(** C20 (routing of the load balancer): round robin, send to a given worker, broadcast, retries. *)
From Coq Require Import List ZArith Permutation Lia Arith.
From Verif Require Import SchedModel SchedSpec SchedProofs.
Import ListNotations.

(** With room everywhere, task [k] of the stream goes to worker [k mod n], in both modes. *)
Theorem sched_round_robin :
  forall (T : Type) (n : nat) (ok : nat -> nat -> bool) (blocking : bool) (fuel retry : nat) (xs : list T),
  0 < n -> (forall t w, ok t w = true) ->
  exists s, schedule_all n ok blocking (S fuel) retry xs lb_init = Some s /\
    sent s = combine (map (fun k => k mod n) (seq 0 (length xs))) xs.
Proof.
  intros T n ok blk fuel retry xs Hn H.
  destruct (rr_all n ok Hn blk fuel retry xs lb_init H) as (s & E & Q). exists s. split; auto.
  rewrite Q. cbn [sent lb_init nextw app]. f_equal. apply map_ext. intros. apply turn_start; auto.
Qed.

Example sched_round_robin_case :
  exists s, schedule_all 3 (fun _ _ => true) false 1 5 [10; 11; 12; 13; 14] lb_init = Some s /\
    sent s = [(0, 10); (1, 11); (2, 12); (0, 13); (1, 14)].
Proof. eexists. split; vm_compute; reflexivity. Qed.

(** A call that returns true has given the task to exactly one worker: the first one, going round
    from the worker after the last selected one, that accepted. *)
Theorem sched_true_delivers_once :
  forall (T : Type) (n : nat) (ok : nat -> nat -> bool) (blocking : bool) (fuel retry : nat) (x : T) (s s' : lb T),
  0 < n -> schedule n ok blocking fuel retry x s = Some (s', true) ->
  exists j, goes_to n ok s j x s' /\ turn n (nextw s) j < n.
Proof.
  intros T n ok blk fuel retry x s s' Hn H. unfold schedule in H.
  destruct blk; [apply b_true in H; auto|apply nb_true in H; auto];
    destruct H as (j & _ & G); exists j; split; auto; apply turn_lt; auto.
Qed.

(** A call that returns false has given the task to nobody, after exactly the number of refused
    attempts that [retry] stands for. *)
Theorem sched_false_delivers_nothing :
  forall (T : Type) (n : nat) (ok : nat -> nat -> bool) (blocking : bool) (fuel retry : nat) (x : T) (s s' : lb T),
  0 < n -> schedule n ok blocking fuel retry x s = Some (s', false) ->
  refused n ok s (if blocking then n * Nat.max 1 retry else Nat.max 1 retry) s'.
Proof.
  intros T n ok blk fuel retry x s s' Hn H. unfold schedule in H. destruct blk.
  - apply b_false in H; auto. unfold bud in H. rewrite !Nat.sub_0_r in H.
    replace (n * Nat.max 1 retry) with (n + n * (Nat.max 1 retry - 1)); auto.
    destruct (Nat.max 1 retry) eqn:E; [lia|]. replace (S n0 - 1) with n0 by lia. lia.
  - apply nb_false in H; auto. rewrite Nat.sub_0_r in H. apply H.
Qed.

Example sched_skips_full :
  exists s, schedule 3 (fun _ w => w =? 2) false 10 5 7 lb_init = Some (s, true) /\ sent s = [(2, 7)] /\ nextw s = 2%Z.
Proof. eexists. repeat (split; [vm_compute; reflexivity|]); vm_compute; reflexivity. Qed.

Example sched_refused_case :
  exists s, schedule 3 (fun _ _ => false) true 10 2 7 lb_init = Some (s, false) /\ sent s = [] /\ clock s = 6.
Proof. eexists. repeat (split; [vm_compute; reflexivity|]); vm_compute; reflexivity. Qed.

(** If some worker has room and the queues do not change, the task is delivered, with any number of
    retries that covers one round; it goes to the first such worker going round. *)
Theorem sched_next_worker_with_room :
  forall (T : Type) (n : nat) (room : nat -> bool) (blocking : bool) (retry : nat) (x : T) (s : lb T) (w : nat),
  w < n -> room w = true -> (blocking = false -> n <= retry) ->
  exists fuel s' j, schedule n (fun _ => room) blocking fuel retry x s = Some (s', true) /\
    j < n /\ goes_to n (fun _ => room) s j x s'.
Proof.
  intros T n room blk retry x s w Hw Hr Hb. assert (Hn : 0 < n) by lia.
  destruct (turn_covers n Hn (nextw s) w Hw) as (j0 & L0 & E0).
  assert (P : exists j, j <= j0 /\ (forall i, i < j -> room (turn n (nextw s) i) = false) /\ room (turn n (nextw s) j) = true).
  { clear L0. subst w. revert Hr. pattern j0. apply lt_wf_ind. intros m IH Hm.
    destruct (existsb (fun i => room (turn n (nextw s) i)) (seq 0 m)) eqn:EX.
    - apply existsb_exists in EX. destruct EX as (i & Hi & R). apply in_seq in Hi.
      destruct (IH i ltac:(lia) R) as (j & A & B & C). exists j. repeat split; auto; lia.
    - exists m. repeat split; auto. intros i Hi. destruct (room (turn n (nextw s) i)) eqn:R; auto.
      rewrite <- EX. symmetry. apply existsb_exists. exists i. split; auto. apply in_seq. lia. }
  destruct P as (j & Lj & F & G).
  assert (Q : exists s', schedule n (fun _ => room) blk (S j) retry x s = Some (s', true)).
  { unfold schedule. destruct blk.
    - apply b_accepts; auto. unfold bud. remember (n * (Nat.max 1 (retry - 0) - 1)) as m. lia.
    - apply nb_accepts; auto. specialize (Hb eq_refl). lia. }
  destruct Q as (s' & E). exists (S j), s'.
  assert (E' := E). unfold schedule in E. destruct blk; [apply b_true in E; auto|apply nb_true in E; auto];
  destruct E as (j' & L' & K); exists j'; (split; [exact E'|split; [lia|exact K]]).
Qed.

(** Whatever the workers do, an attempt that would be accepted is reached: with the default number of
    retries the task is delivered as soon as the worker tried has room. *)
Theorem sched_delivers_when_accepted :
  forall (T : Type) (n : nat) (ok : nat -> nat -> bool) (blocking : bool) (retry : nat) (x : T) (s : lb T) (j : nat),
  0 < n -> (forall i, i < j -> ok (clock s + i) (turn n (nextw s) i) = false) ->
  ok (clock s + j) (turn n (nextw s) j) = true ->
  (if blocking then j < n * retry else n < retry) ->
  exists s', schedule n ok blocking (S j) retry x s = Some (s', true).
Proof.
  intros T n ok blk retry x s j Hn F G H. unfold schedule. destruct blk.
  - apply b_accepts; auto. unfold bud. rewrite !Nat.sub_0_r.
    destruct retry as [|retry]; [lia|]. replace (Nat.max 1 (S retry) - 1) with retry by lia. lia.
  - apply nb_accepts; auto. lia.
Qed.

(** Bounded retries.  Full statement: [bounded_retry n blocking] for every [n] and both modes.  It holds
    in blocking mode; in non-blocking mode it holds for [retry <= n] only. *)
Theorem sched_bounded_retry_blocking : forall (T : Type) (n : nat), bounded_retry (T := T) n true.
Proof.
  intros T n retry x s Hn _.
  destruct (b_gives_up n (fun _ _ => false) Hn (bud n retry 0 0) retry 0 0 x s) as (s' & E); auto.
  exists (bud n retry 0 0), s'. exact E.
Qed.

Theorem sched_bounded_retry_partial :
  forall (T : Type) (n retry : nat) (x : T) (s : lb T), 0 < n -> retry <= n ->
  exists fuel s', schedule n (fun _ _ => false) false fuel retry x s = Some (s', false).
Proof.
  intros T n retry x s Hn Hr.
  destruct (nb_gives_up n (fun _ _ => false) Hn (Nat.max 1 (retry - 0)) retry 0 x s) as (s' & E); auto.
  exists (Nat.max 1 (retry - 0)), s'. exact E.
Qed.

(** Finding: the attempt counter restarts with every round (lb.hpp L275), so a finite number of retries
    larger than the number of workers is never reached: the call does not return while the workers are
    full. *)
Definition sched_bounded_retry_claim : Prop := forall (T : Type) (n : nat), bounded_retry (T := T) n false.

Theorem sched_retry_never_returns :
  forall (T : Type) (n retry : nat) (x : T) (s : lb T) (fuel : nat), 0 < n -> n < retry ->
  schedule n (fun _ _ => false) false fuel retry x s = None.
Proof. intros. apply nb_never; auto. Qed.

Theorem sched_bounded_retry_refuted : ~ sched_bounded_retry_claim.
Proof.
  intros H. destruct (H nat 2 3 0 lb_init) as (fuel & s' & E); [lia|unfold wf; cbn; lia|].
  rewrite sched_retry_never_returns in E by lia. discriminate.
Qed.

(** Sending to a given worker: at most one delivery, to that worker; false means that the given number
    of attempts was refused and nothing was delivered. *)
Theorem sched_send_to_exact :
  forall (T : Type) (ok : nat -> nat -> bool) (blocking : bool) (fuel retry w : nat) (x : T) (s s' : lb T) (b : bool),
  send_to ok blocking fuel retry w x s = Some (s', b) ->
  if b then sent s' = sent s ++ [(w, x)] /\ exists j, ok (clock s + j) w = true
  else sent s' = sent s /\
       forall i, i < (if blocking then Nat.max 1 retry else retry) -> ok (clock s + i) w = false.
Proof.
  intros T ok blk fuel retry w x s s' b H. unfold send_to in H. destruct blk.
  - apply sto_b in H. rewrite Nat.sub_0_r in H. destruct H as (_ & A & B). destruct b.
    + destruct (A eq_refl) as (j & _ & C & D). eauto.
    + destruct (B eq_refl). auto.
  - injection H as H. apply sto_nb in H. destruct H as (_ & A & B). destruct b.
    + destruct (A eq_refl) as (j & _ & C & D). eauto.
    + destruct (B eq_refl). auto.
Qed.

(** ... and it always returns. *)
Theorem sched_send_to_returns :
  forall (T : Type) (ok : nat -> nat -> bool) (blocking : bool) (retry w : nat) (x : T) (s : lb T),
  exists r, send_to ok blocking (Nat.max 1 retry) retry w x s = Some r.
Proof.
  intros. unfold send_to. destruct blocking; [|eauto].
  destruct (sto_b_returns ok (Nat.max 1 retry) retry 0 w x s) as (r & E); [lia|eauto].
Qed.

Example sched_send_to_case :
  exists s, send_to (fun t w => andb (w =? 1) (t =? 2)) true 5 5 1 7 lb_init = Some (s, true) /\ sent s = [(1, 7)].
Proof. eexists. split; vm_compute; reflexivity. Qed.

(** Broadcast: every worker gets the task exactly once; the round-robin position does not move. *)
Theorem sched_broadcast_exactly_once :
  forall (T : Type) (n : nat) (ok : nat -> nat -> bool) (fuel : nat) (x : T) (s s' : lb T),
  broadcast n ok fuel x s = Some s' ->
  nextw s' = nextw s /\
  exists ws, sent s' = sent s ++ map (fun w => (w, x)) ws /\ Permutation ws (seq 0 n).
Proof.
  intros T n ok fuel x s s' H. apply bcast_spec in H. destruct H as (ws & A & B & C). split; eauto.
Qed.

(** ... and the broadcast is completed if every worker has room again and again. *)
Theorem sched_broadcast_completes :
  forall (T : Type) (n : nat) (ok : nat -> nat -> bool) (x : T) (s : lb T),
  (forall t w, w < n -> exists k, ok (t + k) w = true) ->
  exists fuel s', broadcast n ok fuel x s = Some s'.
Proof. intros. apply bcast_returns; auto. Qed.

Example sched_broadcast_case :
  exists s, broadcast 4 (fun t w => orb (Nat.even w) (5 <? t)) 10 7 lb_init = Some s /\
    sent s = [(0, 7); (2, 7); (3, 7); (1, 7)].
Proof. eexists. split; vm_compute; reflexivity. Qed.

(** get_next_free_channel: the channel returned has room, and it is the one that the next scheduled task
    is offered to first; -1 is returned only when all the workers were found full. *)
Theorem sched_next_free_channel :
  forall (T : Type) (n : nat) (free : nat -> nat -> bool) (fuel : nat) (forever : bool) (s s' : lb T) (r : option nat),
  0 < n -> wf n s -> get_next_free n free fuel forever s = Some (s', r) ->
  sent s' = sent s /\ wf n s' /\
  match r with
  | Some w => (exists x, free x w = true) /\
      forall ok blocking retry (y : T), ok (clock s') w = true ->
        exists s'', schedule n ok blocking 1 retry y s' = Some (s'', true) /\ sent s'' = sent s ++ [(w, y)]
  | None => forever = false /\ s' = s /\ forall w, w < n -> exists x, free x w = false
  end.
Proof.
  intros T n free fuel forever s s' r Hn W H. unfold get_next_free in H.
  apply next_free_spec in H; auto. destruct H as (A & B & C & D). repeat split; auto; try apply C.
  destruct r as [w|].
  - destruct D as (j & Lj & Ew & Ef & Et & _). split; [eauto|].
    intros ok blk retry y Hok. rewrite <- Et in Hok. unfold schedule.
    destruct blk; [rewrite b_eq by auto|rewrite nb_eq by auto]; rewrite Hok;
      (eexists; split; [reflexivity|cbn [sent]; rewrite A, Et; reflexivity]).
  - destruct D as (-> & b & Eb & F). destruct forever; [discriminate|]. injection Eb as <-.
    repeat split; auto. intros w Hw. destruct (turn_covers n Hn (nextw s) w Hw) as (j & Lj & Ej).
    exists (S j). rewrite <- Ej. replace j with (S j - 1) at 2 by lia. apply F. lia.
Qed.

Example sched_next_free_case :
  exists s, get_next_free (T := nat) 3 (fun _ w => w =? 2) 10 true lb_init = Some (s, Some 2) /\ nextw s = 1%Z.
Proof. eexists. split; vm_compute; reflexivity. Qed.

Print Assumptions sched_round_robin.
Print Assumptions sched_true_delivers_once.
Print Assumptions sched_false_delivers_nothing.
Print Assumptions sched_next_worker_with_room.
Print Assumptions sched_delivers_when_accepted.
Print Assumptions sched_bounded_retry_blocking.
Print Assumptions sched_bounded_retry_partial.
Print Assumptions sched_retry_never_returns.
Print Assumptions sched_bounded_retry_refuted.
Print Assumptions sched_send_to_exact.
Print Assumptions sched_send_to_returns.
Print Assumptions sched_broadcast_exactly_once.
Print Assumptions sched_broadcast_completes.
Print Assumptions sched_next_free_channel.
