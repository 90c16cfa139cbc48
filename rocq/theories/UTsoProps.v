(** Property C57: the unbounded channel on a TSO machine, without fences. *)
From Coq Require Import List Arith Bool Lia.
From Verif Require Import Base UTsoModel UTsoSpec.
From Verif Require UTsoProofs6.
Import ListNotations.

(** C57.  Whatever the two threads do, however long stores stay in the store buffers, and whichever
    addresses malloc returns: the observations are those of a FIFO queue in which a pushed value
    arrives some time after push returned; pop fails only if the queue held nothing when it was
    called.  The value of a pop is the address together with the content read from the object, so
    this includes: the consumer sees what the producer wrote to the object before pushing it. *)
Theorem utso_delayed_fifo : forall n l s, 1 <= n -> exec (step n) init_st l = Some s ->
  exists p q, delayed_fifo (tr s) p q.
Proof. intros n l s Hn E. exact (UTsoProofs6.main_fifo n Hn l s E). Qed.

(** C57.  At every moment what was popped, what is in the queue and what is on the way are
    together what was pushed, in order. *)
Theorem utso_nothing_lost : forall n l s p q, 1 <= n -> exec (step n) init_st l = Some s ->
  delayed_fifo (tr s) p q -> pushes (tr s) = pops (tr s) ++ q ++ p.
Proof. intros n l s p q Hn E. exact (UTsoProofs6.main_order (tr s) p q). Qed.
Theorem utso_popped_prefix_of_pushed : forall n l s, 1 <= n -> exec (step n) init_st l = Some s ->
  prefix (pops (tr s)) (pushes (tr s)).
Proof. intros n l s Hn E. exact (UTsoProofs6.main_prefix n Hn l s E). Qed.

(** C57.  No value is on the way longer than the stores of the producer are in its store buffer,
    and they can always be drained, whatever the two threads are doing. *)
Theorem utso_on_the_way : forall n l s p q, 1 <= n -> exec (step n) init_st l = Some s ->
  delayed_fifo (tr s) p q -> length p <= length (pbuf s).
Proof. intros n l s p q Hn E. exact (UTsoProofs6.main_drained n Hn l s p q E). Qed.
Theorem utso_drains : forall n s, exists s', exec (step n) s (repeat DrainP (length (pbuf s))) = Some s' /\
  pbuf s' = [] /\ pp s' = pp s /\ cp s' = cp s /\ pushes (tr s') = pushes (tr s) /\ pops (tr s') = pops (tr s).
Proof. intros n s. exact (UTsoProofs6.drain_steps n _ s eq_refl). Qed.

(** C57.  No access, by a thread or by a store leaving a store buffer, touches a freed segment. *)
Theorem utso_no_use_after_free : forall n l s, 1 <= n -> exec (step n) init_st l = Some s -> uaf s = false.
Proof. intros n l s Hn E. exact (UTsoProofs6.main_uaf n Hn l s E). Qed.

(** C57.  push and pop are wait-free: a call that has begun can always take its next step, and needs
    at most 7 (push with the write of the object) or 9 (pop with its read) own steps. *)
Definition pleft (s : st) : nat :=
  match pp s with PIdle => 0 | PPay _ => 7 | PAvail _ => 6 | PTake _ => 5 | PInit _ _ => 4 | PLink _ _ => 3 | PSet _ _ => 2 | PPut _ => 1 end.
Definition cleft (s : st) : nat :=
  match cp s with CIdle => 0 | CEmp1 => 9 | CCmp => 8 | CEmp2 => 7 | CNext => 6 | CRst _ => 5 | CRel _ => 4 | CSet _ => 3 | CPop => 2 | CUse _ => 1 end.
Theorem utso_push_wait_free : forall n s m, pp s <> PIdle -> alive s m = false ->
  pleft s <= 7 /\ exists s', step n s (P m) = Some s' /\ pleft s' < pleft s.
Proof.
  intros n s m N AM. split; [unfold pleft; destruct (pp s); lia|]. cbn [step]. unfold pstep, pleft.
  destruct (pp s) as [|x|x|x|x g|x g|x g|x]; [congruence|..]; try (eexists; split; [reflexivity|cbn; lia]).
  - eexists. split; [reflexivity|]. cbn [pp goP touch]. match goal with |- context [?k <? n] => destruct (k <? n) end; cbn; lia.
  - destruct (pcache s); [rewrite AM|]; (eexists; split; [reflexivity|cbn; lia]).
Qed.
Theorem utso_pop_wait_free : forall n s, cp s <> CIdle -> cleft s <= 9 /\ exists s', step n s C = Some s' /\ cleft s' < cleft s.
Proof.
  intros n s N. split; [unfold cleft; destruct (cp s); lia|]. cbn [step]. unfold cstep, cleft.
  destruct (cp s) as [| | | | |g|g|g| |x]; [congruence|..]; try (eexists; split; [reflexivity|cbn; lia]).
  - eexists. split; [reflexivity|]. cbn [cp goC touch]. match goal with |- context [cview ?a ?b] => destruct (cview a b) end; cbn; lia.
  - destruct (bufr s =? bufw s); (eexists; split; [reflexivity|cbn; lia]).
  - eexists. split; [reflexivity|]. cbn [cp goC touch]. match goal with |- context [cview ?a ?b] => destruct (cview a b) end; cbn; lia.
  - destruct (inuse s); (eexists; split; [reflexivity|cbn; lia]).
  - cbv zeta. match goal with |- context [cview ?a ?b] => destruct (cview a b) end; (eexists; split; [reflexivity|cbn; lia]).
Qed.

(** Sequential consistency does not hold: pop may fail after a push has returned. *)
Definition utso_immediate_claim : Prop := forall n l s, 1 <= n -> exec (step n) init_st l = Some s ->
  forall t1 t2, tr s = t1 ++ EPopEmpty :: t2 -> pushes t1 = pops t1.
Definition push_room (a v : nat) : list act := CallPush a v :: repeat (P 0) 3.
Definition push_new (a v m : nat) : list act := CallPush a v :: repeat (P m) 7.
Definition pop_fail : list act := [CallPop; C; C].
Definition pop_here : list act := [CallPop; C; C; C].
Definition pop_next : list act := CallPop :: repeat C 9.
Theorem utso_immediate_refuted : ~ utso_immediate_claim.
Proof.
  intros H. assert (X : option_map tr (exec (step 2) init_st (push_room 7 70 ++ pop_fail)) = Some [EPush (7, 70); ECallPop; EPopEmpty]) by reflexivity.
  destruct (exec (step 2) init_st (push_room 7 70 ++ pop_fail)) as [s|] eqn:E; [|discriminate]. injection X as X.
  specialize (H 2 _ s ltac:(lia) E [EPush (7, 70); ECallPop] [] X). discriminate.
Qed.

Print Assumptions utso_delayed_fifo.
Print Assumptions utso_nothing_lost.
Print Assumptions utso_popped_prefix_of_pushed.
Print Assumptions utso_on_the_way.
Print Assumptions utso_drains.
Print Assumptions utso_no_use_after_free.
Print Assumptions utso_push_wait_free.
Print Assumptions utso_pop_wait_free.
Print Assumptions utso_immediate_refuted.

(** Non-vacuity: one-slot segments; three pushes use three segments, the stores of the third are
    drained only up to the link of its segment; the consumer empties the two first segments, gives
    them to the cache, and fails; a fourth push takes a segment back from the cache. *)
Definition demo : list act :=
  push_room 10 1 ++ push_new 11 2 5 ++ push_new 12 3 6 ++ repeat DrainP 11 ++
  pop_here ++ pop_next ++ (CallPop :: repeat C 8) ++ repeat DrainC 4 ++ (CallPush 13 4 :: repeat (P 9) 6).
Example demo_ok : option_map tr (exec (step 1) init_st demo) =
  Some ([EPush (10, 1); EPush (11, 2); EPush (12, 3); EVis; EVis] ++
        [ECallPop; EPop (10, 1); ECallPop; EPop (11, 2); ECallPop; EPopEmpty; EPush (13, 4)]).
Proof. vm_compute. reflexivity. Qed.
