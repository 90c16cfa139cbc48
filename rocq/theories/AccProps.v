(** C53: accelerator mode. *)
From Coq Require Import List Arith Bool Lia.
From Verif Require Import Base NetModel NetSpec NetProofs AccModel AccSpec AccProofs AccProofs2 AccProofs3.
Import ListNotations.

Section Props.
  Context {X St : Type}.
  Variables (n : nat) (chs : list chan) (st0 : nat -> St) (boot0 : nat -> list (list (req X)))
            (svc0 : nat -> St -> nat -> X -> St * list (list (req X)) * bool)
            (eosn0 : nat -> St -> nat -> St * list (list (req X))).
  Notation N := (N n chs st0 boot0 svc0 eosn0).
  Notation stream := (stream n chs st0 boot0 svc0 eosn0).
  Notation astep := (astep n chs st0 boot0 svc0 eosn0).
  Notation a_init := (a_init n chs st0 boot0 svc0 eosn0).
  Notation co := (out_chan n chs st0 boot0 svc0 eosn0).

  (** Whatever the calling thread and the threads of the accelerator do, what was loaded so far is
      what the last node of the same network reads in some run where a source sends the values
      offloaded so far, followed by any others still to come. *)
  Theorem acc_as_stream : acc_ok n chs st0 boot0 svc0 eosn0 -> forall l s, exec astep a_init l = Some s ->
    forall later, (In Eos (offloaded (hist s)) -> later = []) ->
    let xs := items (offloaded (hist s)) ++ later in
    exists l' t, exec (step (stream xs)) (init_st (stream xs)) l' = Some t /\
      map snd (hl t (host_in n)) = loaded (hist s) /\ map snd (hp t host_out) = offloaded (hist s) /\
      forall c, q t c = q (net s) c.
  Proof.
    intros OK l s E later HL xs. destruct (acc_reach _ _ _ _ _ _ OK l s E) as [K SI].
    destruct (SI later) as (l' & t & EX & SM).
    { intros C. apply HL. apply (closed_in _ _ _ _ _ _ s K). auto. }
    exists l', t. split; auto. destruct SM as [A1 A2 A3 A4 A5 A6 A7]. split; [|split].
    - rewrite A3, (c_ld _ _ _ _ _ _ _ K). apply items_snd.
    - rewrite A4, (c_off _ _ _ _ _ _ _ K). apply items_snd.
    - intros c. rewrite A1. auto.
  Qed.

  (** Once EOS was loaded, what was loaded is all that the last node reads in a complete run on the
      values offloaded: nothing is missing, and EOS comes last. *)
  Theorem acc_complete : acc_ok n chs st0 boot0 svc0 eosn0 -> forall l s, exec astep a_init l = Some s -> In Eos (loaded (hist s)) ->
    let xs := items (offloaded (hist s)) in
    exists l' t, exec (step (stream xs)) (init_st (stream xs)) l' = Some t /\ all_done (stream xs) t /\
      map snd (hl t (host_in n)) = loaded (hist s) /\ loaded (hist s) = map Item (items (loaded (hist s))) ++ [Eos].
  Proof.
    intros OK l s E HE xs. destruct (acc_reach _ _ _ _ _ _ OK l s E) as [K SI]. apply (drained_in _ _ _ _ _ _ s K) in HE as D.
    destruct (complete_run _ _ _ _ _ _ OK l s E D) as (l' & t & EX & AD & HL). exists l', t. split; auto. split; auto.
    assert (HM : map snd (hl t (host_in n)) = loaded (hist s)) by (rewrite HL; apply items_snd). split; auto.
    destruct (co_dst _ _ _ _ _ _ OK) as (k & KC & DK). pose proof (reach _ _ _ EX) as I.
    pose proof (i_read _ _ I co k KC) as R. rewrite DK in R.
    assert (ON : on co (hl t (host_in n)) = loaded (hist s)).
    { rewrite HL, on_all; [apply items_snd|]. intros d m HI. apply in_map_iff in HI. destruct HI as (m' & F & _). congruence. }
    rewrite ON in R. destruct (NetProofs2.reach_shape _ (stream_wf _ _ _ _ _ _ OK xs) _ t EX co) as (ys & [HY|HY]); rewrite HY in R.
    - exfalso. assert (J : In Eos (map Item ys)) by (rewrite R; apply in_or_app; auto). apply in_map_iff in J. destruct J as (y & F & _). discriminate.
    - assert (Q : q t co = []).
      { destruct (q t co) as [|m r] eqn:EQ; auto. exfalso. apply in_split in HE. destruct HE as (a & b & HE). rewrite HE in R.
        rewrite <- app_assoc in R. cbn [app] in R.
        assert (G : forall (a c : list (msg X)) ys, map Item ys ++ [Eos] = a ++ Eos :: c -> c = []).
        { clear. induction a as [|x a IH]; intros c ys H; destruct ys as [|y ys]; simpl in H; try discriminate.
          - injection H as <-. auto.
          - injection H as _ H. destruct a; discriminate.
          - injection H as _ H. eapply IH; eauto. }
        apply G in R. destruct b; discriminate. }
      rewrite Q, app_nil_r in R. rewrite <- R. unfold items. rewrite flat_map_app. fold (items (map Item ys)). rewrite items_map. simpl. rewrite app_nil_r. auto.
  Qed.

  (** No deadlock.  A call of offload that is not accepted yet waits for a thread that can move:
      when no thread can move, the next attempt succeeds; even if the caller never loads results. *)
  Theorem acc_offload_no_deadlock : acc_ok n chs st0 boot0 svc0 eosn0 -> forall l s m r, exec astep a_init l = Some s ->
    cur s = Some (Off m r) -> r <> Some 0 -> (forall b, astep s (Thr b) = None) ->
    exists s', astep s Try = Some s' /\ cur s' = None /\ offloaded (hist s') = offloaded (hist s) ++ [m].
  Proof.
    intros OK l s m r E C R QT. pose proof (offload_room _ _ _ _ _ _ OK l s m r E C QT) as RM.
    cbn [AccModel.astep]. rewrite C, RM. assert (OV : over r = false) by (destruct r as [[|]|]; auto; congruence). rewrite OV.
    eexists. split; [reflexivity|]. split; [reflexivity|]. unfold returns. cbn [hist]. rewrite offloaded_snoc. auto.
  Qed.

  (** A call of load_result after offload(EOS): the same. *)
  Theorem acc_load_no_deadlock : acc_ok n chs st0 boot0 svc0 eosn0 -> forall l s r, exec astep a_init l = Some s ->
    cur s = Some (Load r) -> r <> Some 0 -> In Eos (offloaded (hist s)) -> (forall b, astep s (Thr b) = None) ->
    exists s' m, astep s Try = Some s' /\ cur s' = None /\ loaded (hist s') = loaded (hist s) ++ [m].
  Proof.
    intros OK l s r E C R HE QT. destruct (acc_reach _ _ _ _ _ _ OK l s E) as [K _]. apply (closed_in _ _ _ _ _ _ s K) in HE.
    assert (Q : q (net s) co <> []) by (eapply load_ready; eauto; discriminate).
    cbn [AccModel.astep]. rewrite C. assert (OV : over r = false) by (destruct r as [[|]|]; auto; congruence). rewrite OV.
    destruct (q (net s) co) as [|m q'] eqn:EQ; [congruence|]. eexists. exists m. split; [reflexivity|]. split; [reflexivity|].
    unfold returns. cbn [hist]. rewrite loaded_snoc. auto.
  Qed.

  (** The threads cannot move forever between two actions of the calling thread. *)
  Theorem acc_threads_stop : acc_ok n chs st0 boot0 svc0 eosn0 -> forall (s : ast X St) (f : nat -> act),
    exists k, exec astep s (map (fun i => Thr (f i)) (seq 0 k)) = None.
  Proof. intros OK. apply (thr_finite _ _ _ _ _ _ OK). Qed.

  (** Before offload(EOS): when the threads have stopped, each has ended or waits on empty channels:
      everything offloaded was processed, nothing is held back. *)
  Theorem acc_threads_idle : acc_ok n chs st0 boot0 svc0 eosn0 -> forall l s, exec astep a_init l = Some s ->
    (forall b, astep s (Thr b) = None) -> forall v, 0 < v -> v <= n ->
    ph (nd (net s) v) = Done \/
    (ph (nd (net s) v) = Running /\ pend (nd (net s) v) = [] /\ forall c k, chan_of N c = Some k -> dst k = v -> q (net s) c = []).
  Proof. intros OK l s E QT v V0 VN. eapply (quiet_nodes _ _ _ _ _ _ OK); eauto. Qed.

  (** What the calls return.  Without a limit on the attempts: offload returns true; load_result
      returns true with a value, or false with EOS.  load_result_nb returns true with a value or EOS. *)
  Theorem acc_returns : forall l s, exec astep a_init l = Some s ->
    (forall m r, In (Off m None, r) (hist s) -> ok r = true) /\
    (forall r, In (Load None, r) (hist s) -> exists m, got r = Some m /\ (ok r = true <-> m <> Eos)) /\
    (forall r, In (LoadNb, r) (hist s) -> (ok r = true <-> exists m, got r = Some m)).
  Proof.
    intros l s E. pose proof (honest_reach _ _ _ _ _ _ l s E) as H. split; [|split].
    - intros m r HI. apply (H _ _ HI).
    - intros r HI. destruct (H _ _ HI) as (m & G & O). exists m. split; auto. rewrite O. destruct m; simpl; split; congruence.
    - intros r HI. pose proof (H _ _ HI) as O. simpl in O. rewrite O. destruct (got r); split; intros; eauto; try discriminate. destruct H0; discriminate.
  Qed.
  (** A call with a limit of k attempts has returned once its thread made k + 1 steps in it, whatever
      the channels hold and however the threads of the accelerator are scheduled; load_result_nb
      returns in its first step. *)
  Theorem acc_limit_returns : forall l s t c k, cur s = Some c ->
    match c with Off _ r => r = Some k | Load r => r = Some k | LoadNb => k = 0 end ->
    exec astep s l = Some t ->
    k < length (filter (fun a => match a with Try => true | _ => false end) l) ->
    length (hist s) < length (hist t).
  Proof.
    assert (MONO : forall l s t, exec astep s l = Some t -> length (hist s) <= length (hist t)).
    { induction l as [|a l IH]; intros s t E; simpl in E; [injection E as <-; auto|].
      destruct (astep s a) as [u|] eqn:EA; [|discriminate]. apply IH in E.
      enough (length (hist s) <= length (hist u)) by lia. clear E.
      destruct a as [b|c|]; simpl in EA.
      - destruct (_ || _); [discriminate|]. destruct (step _ _ _); [|discriminate]. injection EA as <-. auto.
      - destruct (cur s); [discriminate|]. destruct (match c with Off _ _ => _ | _ => _ end); [discriminate|]. injection EA as <-. auto.
      - destruct (cur s) as [[m r|r|]|]; [| | |discriminate].
        + destruct (over r); [|destruct (room _ _ _)]; injection EA as <-; simpl; rewrite ?app_length; lia.
        + destruct (over r); [|destruct (q _ _)]; injection EA as <-; simpl; rewrite ?app_length; lia.
        + destruct (q _ _); injection EA as <-; simpl; rewrite ?app_length; lia. }
    induction l as [|a l IH]; intros s t c k HC HK E HT; simpl in E; [simpl in HT; lia|].
    destruct (astep s a) as [u|] eqn:EA; [|discriminate].
    assert (W : length (hist s) < length (hist u) -> length (hist s) < length (hist t)) by (apply MONO in E; lia).
    destruct a as [b|c'|]; simpl in EA, HT.
    - destruct (_ || _); [discriminate|]. destruct (step _ _ _) as [v|]; [|discriminate]. injection EA as <-.
      exact (IH (mkA v (cur s) (hist s)) t c k HC HK E HT).
    - rewrite HC in EA. discriminate.
    - rewrite HC in EA. destruct c as [m r|r|].
      + subst r. destruct k as [|k]; simpl in EA; [|rewrite Nat.sub_0_r in EA; destruct (room _ _ _)];
          injection EA as <-; try (apply W; simpl; rewrite app_length; simpl; lia).
        refine (IH (mkA (net s) (Some (Off m (Some k))) (hist s)) t (Off m (Some k)) k eq_refl eq_refl E _). lia.
      + subst r. destruct k as [|k]; simpl in EA; [|rewrite Nat.sub_0_r in EA; destruct (q _ _)];
          injection EA as <-; try (apply W; simpl; rewrite app_length; simpl; lia).
        refine (IH (mkA (net s) (Some (Load (Some k))) (hist s)) t (Load (Some k)) k eq_refl eq_refl E _). lia.
      + destruct (q _ _); injection EA as <-; apply W; simpl; rewrite app_length; simpl; lia.
  Qed.
End Props.

(** ** Pipelines of stages that send any number of values for each input *)
Section Pipe.
  Context {X St : Type}.
  Variables (n : nat) (cp : nat -> option nat) (st0 : nat -> St) (f : nat -> St -> X -> St * list X).
  Hypothesis CP : forall i b, cp i = Some b -> 1 <= b.
  Notation boot0 := (fun _ : nat => @nil (list (req X))).
  Notation eosn0 := (fun (_ : nat) (u : St) (_ : nat) => (u, @nil (list (req X)))).
  Notation astep := (astep n (pipe_chans n cp) st0 boot0 (pipe_svc f) eosn0).
  Notation a_init := (a_init n (pipe_chans n cp) st0 boot0 (pipe_svc f) eosn0).

  (** At any time the values loaded are the first ones of the composition of the stages on the
      values offloaded, in order; when EOS was loaded, all of them. *)
  Theorem acc_pipeline : forall l s, exec astep a_init l = Some s ->
    prefix (items (loaded (hist s))) (through f st0 n (items (offloaded (hist s)))) /\
    (In Eos (loaded (hist s)) -> items (loaded (hist s)) = through f st0 n (items (offloaded (hist s)))).
  Proof using CP.
    intros l s E. pose proof (pipe_ok n cp st0 f CP) as OK. split.
    - destruct (acc_as_stream _ _ _ _ _ _ OK l s E [] (fun _ => eq_refl)) as (l' & t & EX & HL & _). rewrite app_nil_r in EX.
      rewrite <- HL. eapply prefix_trans; [|eapply (code_prefix n cp st0 f CP _ l' t EX n); lia].
      apply items_prefix. exists (q t n). rewrite (chan_hist n cp st0 f CP _ l' t n EX) by lia. auto.
    - intros HE. destruct (acc_complete _ _ _ _ _ _ OK l s E HE) as (l' & t & EX & AD & HL & _).
      rewrite <- HL. apply (code_final n cp st0 f CP _ l' t EX AD n). lia.
  Qed.

  (** The hypotheses of the theorems above hold of these pipelines. *)
  Theorem acc_pipeline_ok : acc_ok n (pipe_chans n cp) st0 boot0 (pipe_svc f) eosn0.
  Proof using CP. apply pipe_ok. auto. Qed.
End Pipe.

(** ** Two stages: the first adds a counter, the second drops odd values *)
Definition two_f (v : nat) (u : nat) (x : nat) : nat * list nat :=
  if v =? 1 then (S u, [u + x]) else (u, if Nat.odd x then [] else [x]).
Definition two_cp (_ : nat) : option nat := Some 1.
Notation two_step := (astep 2 (pipe_chans 2 two_cp) (fun _ => 0) (fun _ => []) (pipe_svc two_f) (fun _ u _ => (u, []))).
Notation two_init := (a_init 2 (pipe_chans 2 two_cp) (fun _ => 0) (fun _ => []) (pipe_svc two_f) (fun _ u _ => (u, []))).
(** Offloads 10, 20 and EOS, and loads 10 and EOS. *)
Definition two_run : list (aact nat) :=
  [Call (Off (Item 10) None); Try; Thr (Get 1 0); Call (Off (Item 20) None); Try; Call (Off Eos None); Try;
   Thr (Put 1 0 0); Thr (Next 1); Thr (Get 1 0); Thr (Get 2 1); Try; Call (Load None); Try; Thr (Put 1 0 0); Thr (Next 1);
   Thr (Put 2 0 0); Try; Thr (Next 2); Thr (Get 2 1); Call (Load None); Try; Thr (Get 1 0); Thr (Put 1 0 0); Thr (Next 1); Thr (Fin 1);
   Thr (Get 2 1); Thr (Put 2 0 0); Try].
Example two_history : option_map (fun s => (offloaded (hist s), loaded (hist s), cur s)) (exec two_step two_init two_run)
  = Some ([Item 10; Item 20; Eos], [Item 10; Eos], None).
Proof. vm_compute. reflexivity. Qed.
Example two_through : through two_f (fun _ => 0) 2 [10; 20] = [10].
Proof. reflexivity. Qed.
Example two_ok : acc_ok 2 (pipe_chans 2 two_cp) (fun _ => 0) (fun _ => []) (pipe_svc two_f) (fun _ u _ => (u, [])).
Proof. apply acc_pipeline_ok. intros i b H. injection H as <-. auto. Qed.
(** Offloading 1, 2, 3 and never loading: the caller waits in the third offload, then it is accepted. *)
Definition two_wait : list (aact nat) :=
  [Call (Off (Item 1) None); Try; Call (Off (Item 2) None); Try; Try].
Example two_waiting : option_map cur (exec two_step two_init two_wait) = Some (Some (Off (Item 2) None)).
Proof. vm_compute. reflexivity. Qed.

(** ** Findings *)
(** "load_result returns false if End-Of-Stream" (ff/pipeline.hpp:1444): not with a limit on the
    attempts, false then also means that no result arrived in time. *)
Definition acc_false_is_eos_claim : Prop := forall l s r (res : ret nat), exec two_step two_init l = Some s ->
  In (Load r, res) (hist s) -> ok res = false -> got res = Some Eos.
Theorem acc_false_is_eos_refuted : ~ acc_false_is_eos_claim.
Proof.
  intros H. destruct (exec two_step two_init [Call (Load (Some 1)); Try; Try]) as [s|] eqn:E; [|vm_compute in E; discriminate].
  assert (HI : option_map hist (exec two_step two_init [Call (Load (Some 1)); Try; Try]) = Some [(Load (Some 0), mkRet false None)]) by (vm_compute; reflexivity).
  rewrite E in HI. injection HI as HI. specialize (H _ s (Some 0) (mkRet false None) E). rewrite HI in H.
  specialize (H (or_introl eq_refl) eq_refl). discriminate.
Qed.

(** The output channel has to be unbounded (ff/pipeline.hpp:750-767): with a bounded one, offloading
    a stream before loading its results can block for ever. *)
Definition acc_bounded_output_claim : Prop :=
  forall n chs st0 boot0 svc0 eosn0, let N := N (X := nat) (St := unit) n chs st0 boot0 svc0 eosn0 in
  wf N -> acyclic N -> (forall v, patient N v) -> length (outs N host_out) = 1 -> length (ins N (host_in n)) = 1 ->
  forall l s m, exec (astep n chs st0 boot0 svc0 eosn0) (a_init n chs st0 boot0 svc0 eosn0) l = Some s -> cur s = Some (Off m None) ->
  (forall b, astep n chs st0 boot0 svc0 eosn0 s (Thr b) = None) ->
  exists s', astep n chs st0 boot0 svc0 eosn0 s Try = Some s' /\ cur s' = None.

Definition bo_chans : list chan := [mkChan 0 1 (Some 1); mkChan 1 2 (Some 1)].
Definition bo_svc (v : nat) (u : unit) (c : nat) (x : nat) : unit * list (list (req nat)) * bool := (u, [[To 0 (Item x)]], false).
Notation bo_step := (astep 1 bo_chans (fun _ => tt) (fun _ => []) bo_svc (fun _ u _ => (u, []))).
Notation bo_init := (a_init 1 bo_chans (fun _ => tt) (fun _ => []) bo_svc (fun _ u _ => (u, []))).
Definition bo_run : list (aact nat) :=
  [Call (Off (Item 1) None); Try; Thr (Get 1 0); Thr (Put 1 0 0); Thr (Next 1);
   Call (Off (Item 2) None); Try; Thr (Get 1 0); Call (Off (Item 3) None); Try; Call (Off (Item 4) None)].
Theorem acc_bounded_output_refuted : ~ acc_bounded_output_claim.
Proof.
  intros H. destruct (exec bo_step bo_init bo_run) as [s|] eqn:E; [|vm_compute in E; discriminate].
  assert (CH : forall c k, chan_of (N 1 bo_chans (fun _ => tt) (fun _ => []) bo_svc (fun _ u _ => (u, []))) c = Some k ->
     (c = 0 /\ k = mkChan 0 1 (Some 1)) \/ (c = 1 /\ k = mkChan 1 2 (Some 1))).
  { intros [|[|c]] k K; [injection K as <-; auto|injection K as <-; auto|]. unfold chan_of in K. simpl in K. destruct c; discriminate. }
  destruct (H 1 bo_chans (fun _ => tt) (fun _ => []) bo_svc (fun _ u _ => (u, []))) with (l := bo_run) (s := s) (m := Item 4) as (s' & S1 & S2).
  - constructor.
    + intros c k K. destruct (CH c k K) as [[-> ->]|[-> ->]]; simpl; lia.
    + intros c k b K C. destruct (CH c k K) as [[-> ->]|[-> ->]]; simpl in C; injection C as <-; lia.
    + intros [|[|[|v]]] Hv; simpl; apply Forall_nil.
    + intros [|[|[|v]]] u c x Hv; [| | |simpl in Hv; lia]; simpl; try apply Forall_nil; repeat constructor.
    + intros [|[|[|v]]] u c Hv; simpl; apply Forall_nil.
  - intros c k K. destruct (CH c k K) as [[-> ->]|[-> ->]]; simpl; lia.
  - intros v u c x. simpl. destruct (v =? host_in 1); auto.
  - reflexivity.
  - reflexivity.
  - exact E.
  - assert (C : option_map cur (exec bo_step bo_init bo_run) = Some (Some (Off (Item 4) None))) by (vm_compute; reflexivity).
    rewrite E in C. injection C as C. exact C.
  - vm_compute in E. injection E as <-. intros [[|[|[|v]]] c|[|[|[|v]]] k j|[|[|[|v]]]|[|[|[|v]]]]; try reflexivity.
    + destruct k as [|[|k]]; reflexivity.
    + destruct k as [|[|k]]; reflexivity.
  - vm_compute in E. injection E as <-. vm_compute in S1. injection S1 as <-. simpl in S2. discriminate.
Qed.

(** A load with two attempts on an empty output channel: it returns false in its third step. *)
Example limit_run : option_map (@hist nat unit) (exec bo_step bo_init [Call (Load (Some 2)); Try; Try; Try]) =
  Some [(Load (Some 0), mkRet false None)].
Proof. vm_compute. reflexivity. Qed.
Example limit_run2 : option_map (fun s => length (hist s)) (exec bo_step bo_init [Call (Load (Some 2)); Try; Try]) = Some 0.
Proof. vm_compute. reflexivity. Qed.

Print Assumptions acc_as_stream.
Print Assumptions acc_complete.
Print Assumptions acc_offload_no_deadlock.
Print Assumptions acc_load_no_deadlock.
Print Assumptions acc_threads_stop.
Print Assumptions acc_threads_idle.
Print Assumptions acc_returns.
Print Assumptions acc_limit_returns.
Print Assumptions acc_pipeline.
Print Assumptions acc_pipeline_ok.
Print Assumptions acc_false_is_eos_refuted.
Print Assumptions acc_bounded_output_refuted.
