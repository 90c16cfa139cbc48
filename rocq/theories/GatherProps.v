(** C19: a collector or multi-input node ends exactly when all of its inputs have ended. *)
From Coq Require Import List Arith Bool Lia.
From Verif Require Import Base FarmSpec GatherModel GatherSpec GatherProofs.
Import ListNotations.

(** When the node stops, every channel has been read completely, up to and including its mark; the
    output is the filter applied to an interleaving of the channels' tasks, followed by at most one
    end-of-stream; the counters are ready for another run.  For any mix of marks. *)
Theorem gather_stops_only_when_all_ended :
  forall (A B St : Type) (n : nat) (svc : St -> A -> St * fres B) (ks : list mark) (cs : list (list (msg A)))
         (f0 : St) (r : nat) (l : list act) (s : gst A B St) (res : result),
  0 < n -> length ks = n -> Forall2 stream ks cs -> stays svc ->
  exec (step n svc) (start n r 0 0 f0 cs) l = Some s -> stop s = Some res ->
  chans s = repeat [] n /\ neos s = 0 /\ neosnf s = 0 /\
  exists tasks tail, interleaving (map tasks_of cs) tasks /\ out s = filtered svc f0 tasks ++ tail /\
    (tail = [] \/ tail = [OEos]).
Proof.
  intros A B St n svc ks cs f0 r l s res Hn Lk F Hs E Er. destruct (streams _ _ _ _ Lk F) as [Lc Hst].
  pose proof (exec_ginv n svc Hn ks cs f0 Lk Lc Hst Hs r l s E) as I.
  destruct (stopped_all n svc Hn ks cs f0 Lk Lc s res I Er) as (H1 & ts & k & H2 & _ & _ & H3 & _ & _ & H4 & H5).
  repeat split; auto. exists ts, (tail k). repeat split; auto. destruct k; cbn; auto.
Qed.

(** At any moment what has been sent is the filter applied to an interleaving of initial parts of the
    channels: nothing is invented, duplicated or reordered within a channel. *)
Theorem gather_output_is_interleaving :
  forall (A B St : Type) (n : nat) (svc : St -> A -> St * fres B) (ks : list mark) (cs : list (list (msg A)))
         (f0 : St) (r : nat) (l : list act) (s : gst A B St),
  0 < n -> length ks = n -> Forall2 stream ks cs -> stays svc ->
  exec (step n svc) (start n r 0 0 f0 cs) l = Some s ->
  exists parts tasks, interleaving parts tasks /\ Forall2 prefix parts (map tasks_of cs) /\
    exists t, out s = filtered svc f0 tasks ++ t /\ (stop s = None -> t = []).
Proof.
  intros A B St n svc ks cs f0 r l s Hn Lk F Hs E. destruct (streams _ _ _ _ Lk F) as [Lc Hst].
  eapply always_prefix; eauto. eapply exec_ginv; eauto.
Qed.

(** Termination.  Full statement: for every mix of marks (see [gather_terminates_claim]).  It holds when
    the marks are all of one family: while the node has not stopped it can poll, no execution sees more
    messages than there are, and the stop can always be reached. *)
Theorem gather_terminates_partial :
  forall (A B St : Type) (n : nat) (svc : St -> A -> St * fres B) (ks : list mark) (cs : list (list (msg A)))
         (f0 : St) (r : nat) (l : list act) (s : gst A B St),
  0 < n -> length ks = n -> Forall2 stream ks cs -> stays svc -> one_family ks ->
  exec (step n svc) (start n r 0 0 f0 cs) l = Some s ->
  length (filter (fun '(Poll v) => v) l) <= list_sum (map (@length _) cs) /\
  (stop s = None -> forall v, exists s', step n svc s (Poll v) = Some s') /\
  (exists l' s', exec (step n svc) s l' = Some s' /\ stop s' <> None).
Proof.
  intros A B St n svc ks cs f0 r l s Hn Lk F Hs Hk E. destruct (streams _ _ _ _ Lk F) as [Lc Hst].
  pose proof (exec_ginv n svc Hn ks cs f0 Lk Lc Hst Hs r l s E) as I. repeat split.
  - pose proof (seen_bound n svc Hn ks cs f0 Lk Lc Hs l _ _ (init_inv n svc Hn ks cs f0 Lk Lc Hst r) E) as H.
    unfold seen, pending in H. cbn [chans start] in H. lia.
  - intros. eapply enabled; eauto.
  - eapply finishes; eauto.
Qed.

(** What follows the tasks: one EOS when all the channels ended with EOS, nothing when they all ended
    with EOS_NOFREEZE, or all with EOSW. *)
Theorem gather_forwards_eos_partial :
  forall (A B St : Type) (n : nat) (svc : St -> A -> St * fres B) (k : mark) (cs : list (list (msg A)))
         (f0 : St) (r : nat) (l : list act) (s : gst A B St) (res : result),
  0 < n -> length cs = n -> Forall (stream k) cs -> stays svc ->
  exec (step n svc) (start n r 0 0 f0 cs) l = Some s -> stop s = Some res ->
  res = match k with EosNF => RMark EosNF | _ => RMark Eos end /\
  exists tasks, interleaving (map tasks_of cs) tasks /\
    out s = filtered svc f0 tasks ++ match k with Eos => [OEos] | _ => [] end.
Proof.
  intros A B St n svc k cs f0 r l s res Hn Lc F Hs E Er.
  assert (Lk : length (repeat k n) = n) by apply repeat_length.
  assert (Hst : forall i k0 c, nth_error (repeat k n) i = Some k0 -> nth_error cs i = Some c -> stream k0 c).
  { intros i k0 c K C. apply nth_error_In, repeat_spec in K. subst. rewrite Forall_forall in F. apply F.
    eapply nth_error_In; eauto. }
  pose proof (exec_ginv n svc Hn (repeat k n) cs f0 Lk Lc Hst Hs r l s E) as I.
  destruct (stopped_all n svc Hn _ cs f0 Lk Lc s res I Er) as (H1 & ts & k' & H2 & Hk & Hr & H3 & _).
  apply repeat_spec in Hk. subst k'. split; [destruct k; exact Hr|]. exists ts. split; auto.
Qed.

(** A run of three channels with the identity filter: all tasks and one EOS. *)
Example gather_case :
  let cs := [[Task 1; Task 2; Mark Eos]; [GoOn; Task 10; Mark Eos]; [Mark Eos]] in
  Forall2 stream [Eos; Eos; Eos] cs /\
  option_map (fun s => (stop s, out s)) (exec (step 3 (fun (s : unit) (x : nat) => (s, FOut x))) (start 3 2 0 0 tt cs)
    [Poll true; Poll true; Poll true; Poll true; Poll true; Poll false; Poll true; Poll true]) =
  Some (Some (RMark Eos), [OTask 1; OTask 2; OTask 10; OEos]).
Proof. split; [repeat constructor|]. vm_compute. reflexivity. Qed.

(** Finding: EOS and EOS_NOFREEZE are counted separately (gt.hpp L608, L614, L652).  When both kinds
    arrive, neither counter reaches the number of channels: the node never stops; after the last mark
    selectworker (L134-L139) spins for ever. *)
Definition gather_terminates_claim : Prop :=
  forall (n : nat) (ks : list mark) (cs : list (list (msg nat))) (r : nat) (l : list act) (s : gst nat nat unit),
  0 < n -> length ks = n -> Forall2 stream ks cs ->
  exec (step n (fun f x => (f, FOut x))) (start n r 0 0 tt cs) l = Some s ->
  exists l' s', exec (step n (fun f x => (f, FOut x))) s l' = Some s' /\ stop s' <> None.

Theorem gather_mixed_never_stops :
  forall (A B St : Type) (n : nat) (svc : St -> A -> St * fres B) (ks : list mark) (cs : list (list (msg A)))
         (f0 : St) (r : nat) (l : list act) (s : gst A B St),
  0 < n -> length ks = n -> Forall2 stream ks cs -> stays svc -> ~ one_family ks ->
  exec (step n svc) (start n r 0 0 f0 cs) l = Some s ->
  stop s = None /\
  exists l' s', exec (step n svc) s l' = Some s' /\ stop s' = None /\ forall v, step n svc s' (Poll v) = None.
Proof.
  intros A B St n svc ks cs f0 r l s Hn Lk F Hs Hk E. destruct (streams _ _ _ _ Lk F) as [Lc Hst].
  pose proof (exec_ginv n svc Hn ks cs f0 Lk Lc Hst Hs r l s E) as I. split.
  - destruct (stop s) as [res|] eqn:Er; auto. exfalso. apply Hk.
    destruct (stopped_all n svc Hn ks cs f0 Lk Lc s res I Er) as (_ & ts & k & _ & _ & _ & _ & _ & H & _). exact H.
  - eapply gets_stuck; eauto.
Qed.

Theorem gather_terminates_refuted : ~ gather_terminates_claim.
Proof.
  intros H.
  assert (M : ~ one_family [Eos; EosNF]).
  { intros [X|X]; inversion X as [|? ? H1 H2]; subst; [inversion H2; congruence|discriminate]. }
  assert (F : Forall2 (@stream nat) [Eos; EosNF] [[Mark Eos]; [Mark EosNF]]) by repeat constructor.
  destruct (H 2 [Eos; EosNF] [[Mark Eos]; [Mark EosNF]] 1 [] (start 2 1 0 0 tt [[Mark Eos]; [Mark EosNF]]))
    as (l' & s' & E & N); auto.
  assert (Y : stays (fun (f : unit) (x : nat) => (f, FOut x))) by (intros f x; exists f, (FOut x); auto).
  apply N. exact (proj1 (gather_mixed_never_stops _ _ _ 2 _ [Eos; EosNF] _ tt 1 l' s' ltac:(lia) eq_refl F Y M E)).
Qed.

(** Finding: when channels end with EOS and with EOSW, whether an EOS is sent downstream depends on
    which mark arrives last (ret is overwritten, gt.hpp L609). *)
Definition gather_eosw_claim : Prop :=
  forall (n : nat) (cs : list (list (msg nat))) (l1 l2 : list act) (s1 s2 : gst nat nat unit),
  exec (step n (fun f x => (f, FOut x))) (start n (n - 1) 0 0 tt cs) l1 = Some s1 -> stop s1 <> None ->
  exec (step n (fun f x => (f, FOut x))) (start n (n - 1) 0 0 tt cs) l2 = Some s2 -> stop s2 <> None ->
  (In OEos (out s1) <-> In OEos (out s2)).

Theorem gather_eosw_refuted : ~ gather_eosw_claim.
Proof.
  intros H.
  destruct (exec (step 2 (fun (f : unit) (x : nat) => (f, FOut x))) (start 2 1 0 0 tt [[Mark Eos]; [Mark EosW]])
              [Poll true; Poll true]) as [s1|] eqn:E1; [|vm_compute in E1; discriminate].
  destruct (exec (step 2 (fun (f : unit) (x : nat) => (f, FOut x))) (start 2 1 0 0 tt [[Mark Eos]; [Mark EosW]])
              [Poll false; Poll true; Poll true]) as [s2|] eqn:E2; [|vm_compute in E2; discriminate].
  assert (K := fun N1 N2 => H 2 [[Mark Eos]; [Mark EosW]] _ _ s1 s2 E1 N1 E2 N2). clear H.
  vm_compute in E1, E2. injection E1 as <-. injection E2 as <-.
  cbn in K. destruct K as [_ K]; try discriminate. destruct K. left; reflexivity.
Qed.

(** Finding: a filter that leaves the loop early (GO_OUT, EOS, NULL) after some channels have ended
    leaves the count of ended channels behind (it is reset only when complete, gt.hpp L671); the next
    run then stops although a channel has not ended, and loses its tasks. *)
Definition gather_rerun_claim : Prop :=
  forall (svc : nat -> nat -> nat * fres nat) (cs cs' : list (list (msg nat))) (n r : nat) (l l' : list act) s s',
  length cs = n -> length cs' = n -> Forall (stream Eos) cs -> Forall (stream Eos) cs' ->
  exec (step n svc) (start n r 0 0 0 cs) l = Some s -> stop s <> None ->
  exec (step n svc) (start n (nextr s) (neos s) (neosnf s) (fst_ s) cs') l' = Some s' ->
  (forall f x, (f = 1)%nat -> exists f' y, svc f x = (f', FOut y)) -> fst_ s = 1 ->
  stop s' <> None -> chans s' = repeat [] n.

Theorem gather_rerun_refuted : ~ gather_rerun_claim.
Proof.
  intros H.
  set (svc := fun (f x : nat) => if f =? 0 then (1, FGoOut) else (1, @FOut nat x)).
  set (cs := [[Mark Eos]; [Task 5; Mark Eos]]). set (cs' := [[Mark Eos]; [Task 6; Mark Eos]]).
  destruct (exec (step 2 svc) (start 2 1 0 0 0 cs) [Poll true; Poll true]) as [s|] eqn:E1; [|vm_compute in E1; discriminate].
  destruct (exec (step 2 svc) (start 2 (nextr s) (neos s) (neosnf s) (fst_ s) cs') [Poll true]) as [s'|] eqn:E2;
    [|vm_compute in E1; injection E1 as <-; vm_compute in E2; discriminate].
  assert (F : Forall (stream Eos) cs) by repeat constructor.
  assert (F' : Forall (stream Eos) cs') by repeat constructor.
  assert (N : stop s <> None) by (vm_compute in E1; injection E1 as <-; discriminate).
  assert (K := H svc cs cs' 2 1 _ _ s s' eq_refl eq_refl F F' E1 N E2). clear H. vm_compute in E1. injection E1 as <-. vm_compute in E2. injection E2 as <-.
  assert (C : chans (mkG (A := nat) (B := nat) (St := nat) 0 [true; false] 0 0 Eos 1 [[]; [Task 6; Mark Eos]] [OEos] (Some (RMark Eos))) = repeat [] 2).
  { apply K; try reflexivity; try discriminate. intros f x ->. exists 1, x. reflexivity. }
  discriminate C.
Qed.

Print Assumptions gather_stops_only_when_all_ended.
Print Assumptions gather_output_is_interleaving.
Print Assumptions gather_terminates_partial.
Print Assumptions gather_forwards_eos_partial.
Print Assumptions gather_mixed_never_stops.
Print Assumptions gather_terminates_refuted.
Print Assumptions gather_eosw_refuted.
Print Assumptions gather_rerun_refuted.
