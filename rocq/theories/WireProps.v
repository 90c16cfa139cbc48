(** The channels of a pipeline of nodes, farms and all-to-alls: the theorems.  Vocabulary in WireSpec.v. *)
From Coq Require Import List Arith Bool Lia.
From Verif Require Import Base WireModel WireSpec WireProofs6 WireProofs7 WireProofs8 WireProofs9.
From Verif Require NetModel NetSpec NetProps.
Import ListNotations.

(** A pipeline is accepted exactly when its stages fit together. *)
Theorem wire_succeeds : forall l, Forall ordered_coll l -> ((exists h, wire l = Some h) <-> connectable l = true).
Proof.
  intros l O. pose proof (wire_spec l O) as W. destruct (connectable l).
  - destruct W as (h & B & C & E & _). split; eauto.
  - split; [intros (h & E); congruence|discriminate].
Qed.

Lemma wired : forall l h, Forall ordered_coll l -> wire l = Some h -> exists B C, final l h B C.
Proof.
  intros l h O E. pose proof (wire_spec l O) as W. destruct (connectable l); [|congruence].
  destruct W as (h' & B & C & E' & F). assert (h' = h) by congruence. subst h'. eauto.
Qed.

(** Once a pipeline is accepted there is one channel for every pair of threads (x, y) where x sends to y, a
    different one for every pair; output number j of x is the channel to its j-th successor, input
    number j of x is the channel from its j-th predecessor, and x has no other channel. *)
Theorem wire_channels : forall l h, Forall ordered_coll l -> wire l = Some h ->
  exists ch : id -> id -> nat,
    (forall x y x' y', thread l x -> thread l x' -> In y (succs l x) -> In y' (succs l x') -> ch x y = ch x' y' -> x = x' /\ y = y') /\
    forall x s, nth_error l (fst x) = Some s -> In x (threads_of (fst x) s) ->
      outputs s h x = map (fun y => Some (ch x y)) (succs l x) /\
      inputs s h x = map (fun p => Some (ch p x)) (preds l x).
Proof.
  intros l h O E. destruct (wired l h O E) as (B & C & F). exists (ch l B C). split.
  - intros. eapply ch_inj; eauto.
  - intros x s ES Hx. split; [eapply outputs_ok; eauto|eapply inputs_ok; eauto].
Qed.

(** The two halves of the specification say the same thing. *)
Theorem wire_succs_preds : forall l x y, thread l x /\ In y (succs l x) <-> thread l y /\ In x (preds l y).
Proof. exact succs_preds_both. Qed.

(** Every channel that a thread writes is read by exactly one thread, on one of its inputs, and is written by
    no other thread and on no other output; and the same from the side of the reader. *)
Definition writes_to (l : list stage) (h : heap) (x : id) (j b : nat) : Prop :=
  exists s, nth_error l (fst x) = Some s /\ In x (threads_of (fst x) s) /\ nth_error (outputs s h x) j = Some (Some b).
Definition reads_from (l : list stage) (h : heap) (x : id) (j b : nat) : Prop :=
  exists s, nth_error l (fst x) = Some s /\ In x (threads_of (fst x) s) /\ nth_error (inputs s h x) j = Some (Some b).

Lemma succs_nodup : forall l x, thread l x -> NoDup (succs l x).
Proof.
  intros l x (s & ES & Hx). unfold succs. rewrite ES. assert (A : NoDup (after l (fst x) s x)).
  { unfold after. destruct (nth_error l (S (fst x))) as [c|]; [|constructor].
    assert (D : NoDup (entry (S (fst x)) c)) by (apply WireProofs.posd_nodup, WireProofs.posd_entry).
    destruct (full s c); auto. destruct (skipn (pos x) (entry (S (fst x)) c)); simpl; repeat constructor; auto. }
  destruct s as [k|n kw [| |kc] o|n1 k1 n2 k2]; auto; destruct (snd x); auto;
    try (apply WireProofs.posd_nodup; first [apply WireProofs.posd_wk|apply WireProofs.posd_rw]); repeat constructor; auto.
Qed.
Lemma preds_nodup : forall l x, thread l x -> NoDup (preds l x).
Proof.
  intros l x (s & ES & Hx). unfold preds. rewrite ES. assert (A : NoDup (before l (fst x) s x)).
  { unfold before. destruct (fst x) as [|i]; [constructor|]. destruct (nth_error l i) as [c|]; [|constructor].
    assert (D : NoDup (exit i c)) by (apply WireProofs.posd_nodup, WireProofs.posd_exit).
    destruct (full c s); auto. destruct (skipn (pos x) (exit i c)); simpl; repeat constructor; auto. }
  destruct s as [k|n kw [| |kc] o|n1 k1 n2 k2]; auto; destruct (snd x); auto;
    try (apply WireProofs.posd_nodup; first [apply WireProofs.posd_wk|apply WireProofs.posd_lw]); repeat constructor; auto.
Qed.

Theorem wire_one_to_one : forall l h, Forall ordered_coll l -> wire l = Some h -> forall b,
  (forall x j x' j', writes_to l h x j b -> writes_to l h x' j' b -> x = x' /\ j = j') /\
  (forall x j x' j', reads_from l h x j b -> reads_from l h x' j' b -> x = x' /\ j = j') /\
  ((exists x j, writes_to l h x j b) <-> (exists y j, reads_from l h y j b)).
Proof.
  intros l h O E b. destruct (wire_channels l h O E) as (c & INJ & P).
  assert (WR : forall x j, writes_to l h x j b -> thread l x /\ exists y, nth_error (succs l x) j = Some y /\ c x y = b).
  { intros x j (s & ES & Hx & Q). split; [exists s; auto|]. rewrite (proj1 (P x s ES Hx)) in Q. rewrite nth_error_map in Q.
    destruct (nth_error (succs l x) j) as [y|]; [|discriminate]. injection Q as Q. eauto. }
  assert (RD : forall x j, reads_from l h x j b -> thread l x /\ exists y, nth_error (preds l x) j = Some y /\ c y x = b).
  { intros x j (s & ES & Hx & Q). split; [exists s; auto|]. rewrite (proj2 (P x s ES Hx)) in Q. rewrite nth_error_map in Q.
    destruct (nth_error (preds l x) j) as [y|]; [|discriminate]. injection Q as Q. eauto. }
  split; [|split].
  - intros x j x' j' W W'. apply WR in W, W'. destruct W as (T & y & N1 & Q1). destruct W' as (T' & y' & N2 & Q2).
    destruct (INJ x y x' y') as [-> ->]; auto; try (eapply nth_error_In; eauto; fail); [congruence|]. split; auto.
    pose proof (succs_nodup l x' T') as ND. apply (proj1 (NoDup_nth_error _) ND); [apply nth_error_Some; congruence|congruence].
  - intros x j x' j' W W'. apply RD in W, W'. destruct W as (T & y & N1 & Q1). destruct W' as (T' & y' & N2 & Q2).
    assert (A1 : thread l y /\ In x (succs l y)) by (apply wire_succs_preds; split; auto; eapply nth_error_In; eauto).
    assert (A2 : thread l y' /\ In x' (succs l y')) by (apply wire_succs_preds; split; auto; eapply nth_error_In; eauto).
    destruct (INJ y x y' x') as [-> ->]; try tauto; [congruence|]. split; auto.
    pose proof (preds_nodup l x' T') as ND. apply (proj1 (NoDup_nth_error _) ND); [apply nth_error_Some; congruence|congruence].
  - split.
    + intros (x & j & W). apply WR in W. destruct W as (T & y & N1 & Q1).
      assert (A : thread l y /\ In x (preds l y)) by (apply wire_succs_preds; split; auto; eapply nth_error_In; eauto).
      destruct A as [(s & ES & Hy) A]. apply In_nth_error in A. destruct A as (k & A). exists y, k, s. split; [auto|]. split; [auto|].
      rewrite (proj2 (P y s ES Hy)), nth_error_map, A. simpl. congruence.
    + intros (y & j & W). apply RD in W. destruct W as (T & x & N1 & Q1).
      assert (A : thread l x /\ In y (succs l x)) by (apply wire_succs_preds; split; auto; eapply nth_error_In; eauto).
      destruct A as [(s & ES & Hy) A]. apply In_nth_error in A. destruct A as (k & A). exists x, k, s. split; [auto|]. split; [auto|].
      rewrite (proj1 (P x s ES Hy)), nth_error_map, A. simpl. congruence.
Qed.

(** For every accepted pipeline, and every code of its nodes and capacity of its channels, there is a network of
    threads with these channels. *)
Theorem wire_network : forall (X St : Type) l h, Forall ordered_coll l -> wire l = Some h ->
  forall (cp : option nat) start boot svc eosn, exists N : NetModel.net X St,
    runs l h N /\ NetModel.start N = start /\ NetModel.boot N = boot /\ NetModel.svc N = svc /\ NetModel.eosn N = eosn /\
    forall k, In k (NetModel.chans N) -> NetModel.cap k = cp.
Proof.
  intros X St l h O E cp start boot svc eosn. destruct (wired l h O E) as (B & C & F).
  exists (net_of l (fun _ _ => cp) start boot svc eosn). split; [eapply net_runs; eauto|]. repeat (split; [reflexivity|]).
  intros k Hk. simpl in Hk. unfold net_chans in Hk. apply in_flat_map in Hk. destruct Hk as (v & _ & Hk). apply in_map_iff in Hk.
  destruct Hk as (w & <- & _). reflexivity.
Qed.

(** Whatever the code of the nodes sends (to outputs that exist), the threads of an accepted pipeline, connected by
    these channels, never deadlock, and there is no infinite execution. *)
Theorem wire_no_deadlock : forall (X St : Type) l h (N : NetModel.net X St), Forall ordered_coll l -> wire l = Some h ->
  runs l h N -> NetSpec.wf N ->
  (forall c k b, NetModel.chan_of N c = Some k -> NetModel.cap k = Some b -> NetSpec.patient N (NetModel.dst k)) ->
  forall t s, exec (NetModel.step N) (NetModel.init_st N) t = Some s ->
    NetSpec.all_done N s \/ exists a s', NetModel.step N s a = Some s'.
Proof.
  intros X St l h N O E R W PT t s ES. destruct (wired l h O E) as (B & C & F). eapply NetProps.net_no_deadlock; eauto.
  eapply net_acyclic; eauto.
Qed.
Theorem wire_terminates : forall (X St : Type) l h (N : NetModel.net X St), Forall ordered_coll l -> wire l = Some h ->
  runs l h N -> NetSpec.wf N ->
  forall f : nat -> NetModel.act, exists k, exec (NetModel.step N) (NetModel.init_st N) (map f (seq 0 k)) = None.
Proof.
  intros X St l h N O E R W. destruct (wired l h O E) as (B & C & F). apply NetProps.net_terminates. eapply net_acyclic; eauto.
Qed.

(** ** Finding: set_ordered() on a farm without a collector.  The stages fit, but the pipeline is refused: the farm
    says that it has a collector (ff/farm.hpp:1282) although there is none, and is connected as a stage with one
    producer. *)
Definition wire_ordered_claim : Prop := forall l, connectable l = true -> exists h, wire l = Some h.
Definition k_std := {| mi := false; mo := false |}.
Definition k_mi := {| mi := true; mo := false |}.
Definition k_mo := {| mi := false; mo := true |}.
Definition k_mm := {| mi := true; mo := true |}.
Theorem wire_ordered_refuted : ~ wire_ordered_claim.
Proof.
  intros H. destruct (H [SFarm 2 k_std NoColl true; SNode k_mi] eq_refl) as (h & E). vm_compute in E. discriminate.
Qed.
(** Without set_ordered the same pipeline is accepted. *)
Example wire_unordered : exists h, wire [SFarm 2 k_std NoColl false; SNode k_mi] = Some h.
Proof. eexists. vm_compute. reflexivity. Qed.

(** ** A pipeline with all kinds of stages *)
Definition big : list stage :=
  [SNode k_std; SFarm 3 k_std NoColl false; SA2A 3 k_std 2 k_mm; SA2A 4 k_mm 2 k_mi; SFarm 2 k_std (UsrColl k_mo) true; SFarm 2 k_mm DefColl false;
   SNode k_std].
Example big_ordered : Forall ordered_coll big.
Proof. repeat constructor. Qed.
Definition show (l : list stage) (x : id) : option (list (option nat) * list (option nat)) :=
  match wire l, nth_error l (fst x) with Some h, Some s => Some (inputs s h x, outputs s h x) | _, _ => None end.
Example big_wired : connectable big = true /\ length (threads big) = 25 /\
  map (show big) [(0, Self); (1, Em); (1, Wk 2); (2, Lw 2); (2, Rw 1); (3, Lw 0); (3, Rw 1); (4, Em); (4, Co); (5, Co); (6, Self)] =
  [Some ([], [Some 0]);
   Some ([Some 0], [Some 16; Some 17; Some 18]);
   Some ([Some 18], [Some 3]);
   Some ([Some 3], [Some 21; Some 24]);
   Some ([Some 22; Some 23; Some 24], [Some 5; Some 7; Some 9; Some 11]);
   Some ([Some 4; Some 5], [Some 25; Some 29]);
   Some ([Some 29; Some 30; Some 31; Some 32], [Some 13]);
   Some ([Some 12; Some 13], [Some 33; Some 35]);
   Some ([Some 34; Some 36], [Some 14]);
   Some ([Some 38; Some 40], [Some 15]);
   Some ([Some 15], [])].
Proof. vm_compute. auto. Qed.
(** A stage that does not fit: a standard node after a farm without collector; two producers for three consumers. *)
Example misfits : connectable [SFarm 2 k_std NoColl false; SNode k_std] = false /\ wire [SFarm 2 k_std NoColl false; SNode k_std] = None /\
  connectable [SFarm 2 k_std NoColl false; SA2A 3 k_std 1 k_mi] = false /\ wire [SFarm 2 k_std NoColl false; SA2A 3 k_std 1 k_mi] = None.
Proof. vm_compute. auto. Qed.

(** ** A network that runs a pipeline: the source sends 1, 2, 3; the emitter sends each to any worker; the
    workers double; the last node receives.  All channels have room for one item. *)
Definition pl : list stage := [SNode k_std; SFarm 2 k_std NoColl false; SNode k_mi].
Definition pl_svc (v u c x : nat) : nat * list (list (NetModel.req nat)) * bool :=
  match v with
  | 1 => (u, [[NetModel.Any x]], false)
  | 2 | 3 => (u, [[NetModel.To 0 (NetModel.Item (2 * x))]], false)
  | _ => (u + x, [], false)
  end.
Definition pl_net : NetModel.net nat nat :=
  net_of pl (fun _ _ => Some 1) (fun _ => 0)
    (fun v => match v with 0 => [[NetModel.Any 1]; [NetModel.Any 2]; [NetModel.To 0 (NetModel.Item 3)]] | _ => [] end) pl_svc (fun _ u _ => (u, [])).
Example pl_chans : NetModel.nodes pl_net = 5 /\
  map (fun k => (NetModel.src k, NetModel.dst k)) (NetModel.chans pl_net) = [(0, 1); (1, 2); (1, 3); (2, 4); (3, 4)].
Proof. vm_compute. auto. Qed.
Lemma pl_cap : forall c k, NetModel.chan_of pl_net c = Some k -> NetModel.cap k = Some 1 /\ NetModel.src k < 5 /\ NetModel.dst k < 5.
Proof.
  intros c k H. unfold NetModel.chan_of in H. change (NetModel.chans pl_net) with (net_chans pl (fun _ _ => Some 1)) in H.
  replace (net_chans pl (fun _ _ => Some 1)) with
    [NetModel.mkChan 0 1 (Some 1); NetModel.mkChan 1 2 (Some 1); NetModel.mkChan 1 3 (Some 1); NetModel.mkChan 2 4 (Some 1); NetModel.mkChan 3 4 (Some 1)] in H
    by (vm_compute; reflexivity).
  do 5 (destruct c as [|c]; [injection H as <-; split; [reflexivity|simpl; lia]|]). destruct c; discriminate.
Qed.
Example pl_wf : NetSpec.wf pl_net.
Proof.
  assert (O : forall v, v < 4 -> NetModel.outs pl_net v <> []).
  { intros v Hv. do 4 (destruct v as [|v]; [vm_compute; discriminate|]). lia. }
  assert (Z : forall v, v < 4 -> 0 < length (NetModel.outs pl_net v)).
  { intros v Hv. specialize (O v Hv). destruct (NetModel.outs pl_net v); [congruence|simpl; lia]. }
  constructor.
  - intros c k H. apply pl_cap in H. destruct pl_chans as [-> _]. tauto.
  - intros c k b H E. apply pl_cap in H. destruct H as [H _]. rewrite H in E. injection E as <-. lia.
  - intros v Hv. simpl. destruct v as [|v]; [|constructor].
    repeat constructor; simpl; first [apply O; lia|apply Z; lia].
  - intros v u c x Hv. simpl. unfold pl_svc. destruct v as [|[|[|[|v]]]]; simpl; repeat constructor; simpl; first [apply O; lia|apply Z; lia].
  - constructor.
Qed.
Example pl_runs : exists h, wire pl = Some h /\ Forall ordered_coll pl /\ runs pl h pl_net.
Proof.
  assert (O : Forall ordered_coll pl) by (repeat constructor).
  destruct (proj2 (wire_succeeds pl O) eq_refl) as (h & E). exists h. split; [auto|]. split; [auto|].
  destruct (wired pl h O E) as (B & C & F). eapply net_runs; eauto.
Qed.
Example pl_patient : forall v, NetSpec.patient pl_net v.
Proof. intros v u c x. simpl. unfold pl_svc. destruct v as [|[|[|[|v]]]]; reflexivity. Qed.
Example pl_done : forall t s, exec (NetModel.step pl_net) (NetModel.init_st pl_net) t = Some s ->
  NetSpec.all_done pl_net s \/ exists a s', NetModel.step pl_net s a = Some s'.
Proof.
  destruct pl_runs as (h & E & O & R). apply (wire_no_deadlock nat nat pl h pl_net O E R pl_wf). intros c k b _ _. apply pl_patient.
Qed.

Print Assumptions wire_succeeds.
Print Assumptions wire_channels.
Print Assumptions wire_succs_preds.
Print Assumptions wire_one_to_one.
Print Assumptions wire_network.
Print Assumptions wire_no_deadlock.
Print Assumptions wire_terminates.
Print Assumptions wire_ordered_refuted.
