(** C69, running: the threads of a wrapped pipeline.  Vocabulary in NetSpec.v; [wruns] and [goes_back] in WrapNet.v. *)
From Coq Require Import List Arith Bool Lia.
From Verif Require Import Base WireModel WireSpec WireProps WrapModel WrapSpec WrapProps WrapNet.
From Verif Require NetModel NetSpec NetProps WrapProofs3.
Import ListNotations.

(** For every accepted pipeline, code of its nodes and capacity of its forward channels there is a network of threads
    with these channels, the feedback channels being unbounded (ff/pipeline.hpp:157-380 creates them with
    fixedsize = false). *)
Theorem wrap_network_partial : forall (X St : Type) l w h, Forall ordered_coll l -> ~ collector_mo l -> wrap_wire l = Some (w, h) ->
  forall (cp : option nat) start boot svc eosn, exists N : NetModel.net X St,
    wruns l w h N /\ NetModel.start N = start /\ NetModel.boot N = boot /\ NetModel.svc N = svc /\ NetModel.eosn N = eosn /\
    forall c k, NetModel.chan_of N c = Some k -> (goes_back l k -> NetModel.cap k = None) /\ (~ goes_back l k -> NetModel.cap k = cp).
Proof.
  intros X St l w h O NC E cp start boot svc eosn. exists (wnet l cp start boot svc eosn).
  split; [apply wnet_runs; eapply wrap_channels_partial; eauto|]. repeat (split; [reflexivity|]).
  intros c k K. apply nth_error_In in K. apply (wchans_cap l cp); auto.
  destruct (wrappable l) eqn:WR.
  - unfold wrappable in WR. destruct (Nat.leb_spec 2 (length l)); [auto|discriminate].
  - pose proof (WrapProofs3.wrap_wire_spec l O) as W. rewrite WR in W. congruence.
Qed.

(** Whatever the code of the nodes sends (to outputs that exist): if the feedback channels are unbounded, and the
    nodes fed by a bounded channel read their whole input, then no thread is ever blocked for ever by a full channel.
    When nothing can move any more, each thread has ended or waits for a message, all its input channels being
    empty. *)
Theorem wrap_stuck_is_idle_partial : forall (X St : Type) l w h (N : NetModel.net X St),
  Forall ordered_coll l -> ~ collector_mo l -> wrap_wire l = Some (w, h) -> wruns l w h N -> NetSpec.wf N ->
  (forall c k, NetModel.chan_of N c = Some k -> goes_back l k -> NetModel.cap k = None) ->
  (forall c k b, NetModel.chan_of N c = Some k -> NetModel.cap k = Some b -> NetSpec.patient N (NetModel.dst k)) ->
  forall t s, exec (NetModel.step N) (NetModel.init_st N) t = Some s -> NetSpec.stuck N s ->
  forall v, v < NetModel.nodes N -> NetModel.ph (NetModel.nd s v) = NetModel.Done \/
    (NetModel.ph (NetModel.nd s v) = NetModel.Running /\ NetModel.pend (NetModel.nd s v) = [] /\
     forall c k, NetModel.chan_of N c = Some k -> NetModel.dst k = v -> NetModel.q s c = []).
Proof.
  intros X St l w h N O NC E R W UB PT. apply NetProps.net_stuck_is_idle; auto.
  intros c k b K C. split; [|eapply PT; eauto].
  destruct (wnet_up l w h N (wrap_channels_partial l w h O NC E) R W c k K) as [G|G]; [|auto].
  rewrite (UB c k K G) in C. discriminate.
Qed.
(** ** A run: two stages.  The first node sends 1, a farm of two workers adds 1 and sends back, until the first node
    has seen 3 and stops. *)
Definition loopl : list stage := [SNode k_mi; SFarm 2 k_std NoColl false].
Definition loop_svc (v u c x : nat) : nat * list (list (NetModel.req nat)) * bool :=
  match v with
  | 0 => if x <? 3 then (x, [[NetModel.To 0 (NetModel.Item x)]], false) else (x, [], true)
  | 1 => (u, [[NetModel.Any x]], false)
  | _ => (u, [[NetModel.To 0 (NetModel.Item (S x))]], false)
  end.
Definition loop_net : NetModel.net nat nat :=
  wnet loopl (Some 1) (fun _ => 0) (fun v => match v with 0 => [[NetModel.To 0 (NetModel.Item 1)]] | _ => [] end) loop_svc (fun _ u _ => (u, [])).
Example loop_chans : NetModel.nodes loop_net = 4 /\
  map (fun k => (NetModel.src k, NetModel.dst k, NetModel.cap k)) (NetModel.chans loop_net) =
  [(2, 0, None); (3, 0, None); (0, 1, Some 1); (1, 2, Some 1); (1, 3, Some 1)].
Proof. vm_compute. auto. Qed.

Lemma loop_chan : forall c k, NetModel.chan_of loop_net c = Some k ->
  In k [NetModel.mkChan 2 0 None; NetModel.mkChan 3 0 None; NetModel.mkChan 0 1 (Some 1); NetModel.mkChan 1 2 (Some 1); NetModel.mkChan 1 3 (Some 1)].
Proof. intros c k H. apply nth_error_In in H. vm_compute in H. exact H. Qed.
Example loop_wf : NetSpec.wf loop_net /\
  (forall c k, NetModel.chan_of loop_net c = Some k -> goes_back loopl k -> NetModel.cap k = None) /\
  (forall c k b, NetModel.chan_of loop_net c = Some k -> NetModel.cap k = Some b -> NetSpec.patient loop_net (NetModel.dst k)).
Proof.
  assert (O : forall v, v < 4 -> 0 < length (NetModel.outs loop_net v)).
  { intros v Hv. do 4 (destruct v as [|v]; [vm_compute; lia|]). lia. }
  split; [|split].
  - constructor.
    + intros c k H. apply loop_chan in H. change (NetModel.nodes loop_net) with 4. simpl in H. intuition subst; simpl; lia.
    + intros c k b H E. apply loop_chan in H. simpl in H. intuition subst; simpl in E; try discriminate E; injection E as <-; lia.
    + intros v Hv. simpl. destruct v as [|v]; [|constructor]. repeat constructor.
    + intros v u c x Hv. simpl. unfold loop_svc. destruct v as [|[|v]].
      * destruct (x <? 3); repeat constructor.
      * repeat constructor. simpl. specialize (O 1 ltac:(lia)). destruct (NetModel.outs loop_net 1); [simpl in O; lia|discriminate].
      * repeat constructor. simpl. apply O. exact Hv.
    + intros v u c Hv. constructor.
  - intros c k H (x & y & EX & EY & LX & LY). apply loop_chan in H. simpl in H. intuition subst; auto; vm_compute in EX; injection EX as <-;
      vm_compute in EY; injection EY as <-; vm_compute in LX, LY; discriminate.
  - intros c k b H E. apply loop_chan in H. simpl in H. intuition subst; try discriminate E; intros u c' x; reflexivity.
Qed.
Example loop_hyps : exists w h, Forall ordered_coll loopl /\ ~ collector_mo loopl /\ wrap_wire loopl = Some (w, h) /\ wruns loopl w h loop_net.
Proof.
  assert (O : Forall ordered_coll loopl) by repeat constructor.
  assert (NC : ~ collector_mo loopl).
  { intros (n & p & c & E & H). vm_compute in E. injection E as <- <- <-. exact H. }
  destruct (proj2 (wrap_succeeds loopl O) eq_refl) as ([w h] & E). exists w, h. repeat (split; [assumption|]).
  apply wnet_runs. eapply wrap_channels_partial; eauto.
Qed.
Example loop_run : exists t s, exec (NetModel.step loop_net) (NetModel.init_st loop_net) t = Some s /\ NetSpec.all_done loop_net s /\
  NetModel.ust (NetModel.nd s 0) = 3 /\ NetModel.q s 0 = [NetModel.Eos] /\ NetModel.q s 1 = [NetModel.Eos].
Proof.
  exists [NetModel.Put 0 0 0; NetModel.Next 0; NetModel.Get 1 2; NetModel.Put 1 0 0; NetModel.Next 1; NetModel.Get 2 3; NetModel.Put 2 0 0; NetModel.Next 2;
          NetModel.Get 0 0; NetModel.Put 0 0 0; NetModel.Next 0; NetModel.Get 1 2; NetModel.Put 1 0 1; NetModel.Next 1; NetModel.Get 3 4; NetModel.Put 3 0 0; NetModel.Next 3;
          NetModel.Get 0 1; NetModel.Put 0 0 0; NetModel.Next 0; NetModel.Fin 0; NetModel.Get 1 2; NetModel.Put 1 0 0; NetModel.Put 1 0 0; NetModel.Next 1; NetModel.Fin 1;
          NetModel.Get 2 3; NetModel.Put 2 0 0; NetModel.Next 2; NetModel.Fin 2; NetModel.Get 3 4; NetModel.Put 3 0 0; NetModel.Next 3; NetModel.Fin 3].
  eexists. split; [vm_compute; reflexivity|]. split; [|vm_compute; auto].
  intros v Hv. change (NetModel.nodes loop_net) with 4 in Hv. do 4 (destruct v as [|v]; [reflexivity|]). lia.
Qed.

Print Assumptions wrap_network_partial.
Print Assumptions wrap_stuck_is_idle_partial.
