(** C59: an emitter with several input channels reads every channel in order, ends when and only
    when all have ended, and starves none. *)
From Coq Require Import List Arith Bool Lia.
From Verif Require Import Base PollModel PollSpec PollProofs PollProofs2 PollProofs3.
Import ListNotations.

Section Thms.
  Context {X : Type}.
  Variable F : cfg.

  (** Each channel's values reach svc in the order they were sent, none twice, none invented. *)
  Theorem poll_order : forall (l : list (act X)) t, avail0 F <> [] -> exec (step F) (init_st F) l = Some t ->
    forall c, prefix (given c (log t)) (vals (sent t c)).
  Proof.
    intros l t N H c. assert (I := exec_inv' F _ _ _ (inv_init F N) H).
    rewrite (i_given _ _ I), (i_fifo _ _ I), vals_app. eexists. reflexivity.
  Qed.

  (** The loop never looks outside its list of channels, whatever was removed: the next turn is
      always defined until svc ends. *)
  Theorem poll_never_stuck : forall (l : list (act X)) t u, avail0 F <> [] -> exec (step F) (init_st F) l = Some t ->
    over t = false -> exists t', step F t (Poll u) = Some t'.
  Proof.
    intros l t u N H O. apply poll_defined; [|assumption]. exact (exec_inv' F _ _ _ (inv_init F N) H).
  Qed.

  (** Unless the user's code ends the stream, the emitter ends exactly when it has read the mark
      of every channel, and then no message is left in any of them. *)
  Theorem poll_ends : forall (l : list (act X)) t, avail0 F <> [] -> Forall goes_on l ->
    exec (step F) (init_st F) l = Some t ->
    (over t = true <-> forall c, In c (sources F) -> closed (got t c)) /\
    (over t = true -> forall c, In c (sources F) -> got t c = sent t c /\ ch t c = [] /\ given c (log t) = vals (sent t c)).
  Proof.
    intros l t N G H. assert (I := exec_inv' F _ _ _ (inv_init F N) H).
    assert (CE : forall m : list (msg X), closed m <-> existsb is_eos m = true).
    { intro m. unfold closed. rewrite existsb_exists. split.
      - intros [J|J]; eexists; (split; [exact J|reflexivity]).
      - intros ([x| |] & J & E); simpl in E; [discriminate|left|right]; assumption. }
    assert (OL : over t = true -> left t = 0).
    { eapply (over_left F l (init_st F) t); eauto. simpl. discriminate. }
    split; [split|].
    - intros O c Ic. apply CE. apply (left_all F t I (OL O) c Ic).
    - intro C. destruct (over t) eqn:O; [reflexivity|]. assert (L := i_go _ _ I O).
      assert (Z : left t = 0); [|lia]. apply (all_left F t I). intros c Ic. apply CE. auto.
    - intros O c Ic. assert (Z := ended_empty F t c I (left_all F t I (OL O) c Ic)).
      assert (E : got t c = sent t c) by (rewrite (i_fifo _ _ I), Z, app_nil_r; reflexivity).
      rewrite (i_given _ _ I), E. auto.
  Qed.

  (** No polled channel is starved: if none is removed meanwhile, a waiting message is read within
      as many turns as there are channels, whatever the others send. *)
  Theorem poll_fair : forall (l1 l2 : list (act X)) s t c, avail0 F <> [] ->
    exec (step F) (init_st F) l1 = Some s -> exec (step F) s l2 = Some t ->
    active s = true -> Forall keeps_on l2 -> In c (avail s) -> ch s c <> [] ->
    avail t = avail s -> length (avail s) <= polls l2 ->
    over t = true \/ length (got s c) < length (got t c).
  Proof.
    intros l1 l2 s t c N H1 H2 Ac K Ic Nc Av Ln. assert (I := exec_inv' F _ _ _ (inv_init F N) H1).
    apply In_nth_error in Ic. destruct Ic as [i Ei].
    eapply (fair_read F l2 s t i c); eauto.
    assert (D := dist_bound s i (i_pos _ _ I) ltac:(apply nth_error_Some; congruence)). lia.
  Qed.

  (** The input queue is read when all polled channels have been found empty for a round. *)
  Theorem poll_queue : forall (l1 l2 : list (act X)) s t, avail0 F <> [] ->
    exec (step F) (init_st F) l1 = Some s -> exec (step F) s l2 = Some t ->
    active s = true -> Forall keeps_on l2 -> polls l2 = length l2 ->
    (forall c, In c (avail s) -> ch s c = []) -> inq F = true -> ch s Inq <> [] ->
    length (avail s) <= length l2 -> length (log s) < length (log t).
  Proof.
    intros l1 l2 s t N H1 H2 Ac K P Em Q Nq Ln. assert (O := exec_ok F _ _ _ (init_ok F N) H1).
    eapply (quiet_read F l2 s t); eauto; [|lia].
    clear - K P. induction K as [|a l Ka K IH]; constructor.
    - destruct a as [c m|u].
      + exfalso. unfold polls in P. simpl in P.
        assert (G : length (filter is_poll l) <= length l).
        { clear. induction l as [|b l IHl]; simpl; [lia|]. destruct (is_poll b); simpl; lia. }
        lia.
      + exists u. simpl in Ka. destruct Ka. auto.
    - apply IH. unfold polls in *. destruct a; simpl in P; [|lia].
      assert (G : length (filter is_poll l) <= length l).
      { clear. induction l as [|b l IHl]; simpl; [lia|]. destruct (is_poll b); simpl; lia. }
      lia.
  Qed.

  (** Once all channels have sent their mark, the emitter ends: it takes at most twice the number
      of channels of turns for each message still waiting, and every turn before is defined. *)
  Theorem poll_terminates : forall (l1 : list (act X)) (us : list reaction) s t, avail0 F <> [] ->
    exec (step F) (init_st F) l1 = Some s -> active s = true ->
    (forall c, In c (sources F) -> closed (sent s c)) ->
    Forall (fun u => act_ u = true /\ stop u = false) us ->
    exec (step F) s (map Poll us) = Some t ->
    length us <= 2 * length (avail0 F) * list_sum (map (fun c => length (ch s c)) (sources F)) /\
    (over t = false -> forall u, exists t', step F t (Poll u) = Some t').
  Proof.
    intros l1 us s t N H1 Ac Cl K H2. assert (O := exec_ok F _ _ _ (init_ok F N) H1). split.
    - rewrite <- (map_length (@Poll X) us). eapply (terminates F _ (map Poll us) s t); eauto.
      + apply Forall_map. eapply Forall_impl; [|exact K]. intros u [A B]. exists u. auto.
      + intros c Ic. destruct (Cl c Ic) as [J|J]; apply existsb_exists; eexists; (split; [exact J|reflexivity]).
    - intros Ov u. apply poll_defined; [|assumption]. eapply exec_inv'; [apply (proj1 O)|exact H2].
  Qed.

  (** Channel numbers: right as long as no channel has been removed from the list, so always when
      the workers freeze at the end of a run; whether a value came from the input or from a worker
      is always right when the input is a single queue.  Missing: the general case, refuted below. *)
  Theorem poll_ids_partial : forall (l : list (act X)) t, avail0 F <> [] -> exec (step F) (init_st F) l = Some t ->
    (avail t = avail0 F -> Forall (right_id F) (log t)) /\
    ((forall i, frz F i = true) -> Forall (right_id F) (log t)) /\
    (nmi F = 0 -> Forall right_side (log t)).
  Proof.
    intros l t N H.
    assert (A : avail t = avail0 F -> Forall (right_id F) (log t)).
    { intro A. eapply (ids_right F l (init_st F) t); eauto. constructor. }
    split; [assumption|]. split.
    - intro Fz. apply A. rewrite (frozen_keep F l _ _ Fz H). reflexivity.
    - intro Z. eapply (sides_right F l (init_st F) t); eauto; [apply inv_init; assumption|constructor].
  Qed.

  (** Input not active, nothing waiting on the feedback channels: svc(NULL) is called after a
      bounded number of turns, provided there is a feedback channel. *)
  Theorem poll_null_partial : forall (l1 : list (act X)) (us : list reaction) s t, 0 < nwk F + nfb F ->
    exec (step F) (init_st F) l1 = Some s -> active s = false ->
    (forall i c, nth_error (avail s) i = Some c -> is_input F i = false -> ch s c = []) ->
    exec (step F) s (map Poll us) = Some t -> length (avail s) * length (avail s) <= length us ->
    In ENull (log t).
  Proof.
    intros l1 us s t N H1 Ac Em H2 Ln.
    assert (N0 : avail0 F <> []).
    { unfold avail0. intro E. apply (f_equal (@length src)) in E. rewrite !app_length, !map_length, !seq_length in E. simpl in E. lia. }
    assert (O := exec_ok F _ _ _ (init_ok F N0) H1).
    assert (G : nulls (log s) < nulls (log t)).
    { eapply (null_call F (map Poll us) s t); eauto.
      - unfold is_input, mis. destruct (nmi F); [reflexivity|]. destruct (Nat.leb_spec (nwk F + nfb F) 0); [lia|reflexivity].
      - unfold polls. clear. induction us as [|u us IH]; simpl; auto.
      - rewrite map_length. destruct O as [I C]. assert (P := i_pos _ _ I). nia. }
    unfold nulls in G. destruct (filter _ (log t)) as [|e r] eqn:E; [simpl in G; lia|].
    assert (J : In e (filter (fun e => match e with ENull => true | _ => false end) (log t))) by (rewrite E; left; reflexivity).
    apply filter_In in J. destruct J as [J B]. destruct e; try discriminate. assumption.
  Qed.

  (** Finding: with input channels only, an emitter that switches input off is never called
      again, whatever is sent and however long one waits. *)
  Theorem poll_inactive_hangs : forall (l1 l2 : list (act X)) s t, nwk F + nfb F = 0 -> nmi F <> 0 ->
    exec (step F) (init_st F) l1 = Some s -> active s = false -> over s = false ->
    exec (step F) s l2 = Some t -> log t = log s /\ over t = false.
  Proof.
    intros l1 l2 s t Z N H1 Ac Ov H2.
    destruct (inactive_stuck F l2 s t Z N Ac H2) as (A & _ & B & _). split; congruence.
  Qed.
End Thms.

(** Three workers with feedback and two input channels; none frozen. *)
Definition F32 : cfg := mkCfg 3 0 2 false 3 (fun _ => false).
Definition yes : reaction := mkR false true.
Definition no : reaction := mkR false false.

(** The full claims: channel numbers are right, a value from the input is never presented as a
    worker's; an emitter that switches input off is called with NULL when nothing is waiting. *)
Definition poll_ids_claim : Prop := forall (F : cfg) (l : list (act nat)) t, avail0 F <> [] ->
  exec (step F) (init_st F) l = Some t -> Forall (right_id F) (log t).
Definition poll_sides_claim : Prop := forall (F : cfg) (l : list (act nat)) t, avail0 F <> [] ->
  exec (step F) (init_st F) l = Some t -> Forall right_side (log t).
Definition poll_null_claim : Prop := forall (F : cfg) (l1 : list (act nat)) s, avail0 F <> [] ->
  exec (step F) (init_st F) l1 = Some s -> active s = false -> over s = false ->
  (forall i c, nth_error (avail s) i = Some c -> is_input F i = false -> ch s c = []) ->
  exists n, forall us t, n <= length us -> exec (step F) s (map Poll us) = Some t -> In ENull (log t).

(** Worker 1 ends (its mark is read first); then worker 2's answer is reported as channel 1. *)
Definition run_ids : list (act nat) :=
  [Send (Wk 1) Eos; Poll yes; Send (Wk 2) (Val 7); Poll yes].
Theorem poll_ids_refuted : ~ poll_ids_claim.
Proof.
  intro C. assert (X : option_map log (exec (step F32) (init_st F32) run_ids) = Some [EEos (Wk 1); ESvc (Wk 2) (Feed 1) 7])
    by (vm_compute; reflexivity).
  destruct (exec (step F32) (init_st F32) run_ids) as [t|] eqn:E; [|discriminate]. simpl in X. injection X as X.
  assert (R := C F32 run_ids t ltac:(discriminate) E). rewrite X in R.
  inversion R as [|? ? _ R2]; subst. inversion R2 as [|? ? R3 _]; subst. simpl in R3. discriminate.
Qed.

(** ... and a value of the first input channel is presented as the answer of worker 2. *)
Definition run_sides : list (act nat) :=
  [Send (Wk 1) Eos; Poll yes; Send (Min 0) (Val 7); Poll yes; Poll yes].
Theorem poll_sides_refuted : ~ poll_sides_claim.
Proof.
  intro C. assert (X : option_map log (exec (step F32) (init_st F32) run_sides) = Some [EEos (Wk 1); ESvc (Min 0) (Feed 2) 7])
    by (vm_compute; reflexivity).
  destruct (exec (step F32) (init_st F32) run_sides) as [t|] eqn:E; [|discriminate]. simpl in X. injection X as X.
  assert (R := C F32 run_sides t ltac:(discriminate) E). rewrite X in R.
  inversion R as [|? ? _ R2]; subst. inversion R2 as [|? ? R3 _]; subst. simpl in R3. exact R3.
Qed.

(** Two input channels, no feedback: after the first value the emitter switches input off. *)
Definition F02 : cfg := mkCfg 0 0 2 false 3 (fun _ => false).
Definition run_off : list (act nat) := [Send (Min 1) (Val 7); Poll no].
Lemma turns_possible : forall n (s : st nat), inv F02 s -> active s = false -> over s = false ->
  exists t, exec (step F02) s (map Poll (repeat yes n)) = Some t.
Proof.
  induction n as [|n IH]; intros s I A O; [exists s; reflexivity|].
  destruct (poll_defined F02 s yes I O) as [m E].
  assert (Q : exec (step F02) s [Poll yes] = Some m) by (cbn [exec]; rewrite E; reflexivity).
  destruct (inactive_stuck F02 [Poll yes] s m eq_refl ltac:(discriminate) A Q) as (_ & _ & B & D).
  destruct (IH m) as [t Et]; [eapply exec_inv'; eauto|assumption|congruence|].
  exists t. change (map Poll (repeat yes (S n))) with ([@Poll nat yes] ++ map Poll (repeat yes n)).
  apply exec_app. eauto.
Qed.
Theorem poll_null_refuted : ~ poll_null_claim.
Proof.
  intro C. assert (X : option_map (fun s => (log s, active s, over s)) (exec (step F02) (init_st F02) run_off) = Some ([ESvc (Min 1) (Inp 1) 7], false, false))
    by (vm_compute; reflexivity).
  destruct (exec (step F02) (init_st F02) run_off) as [s|] eqn:E; [|discriminate]. simpl in X. injection X as X1 X2 X3.
  destruct (C F02 run_off s ltac:(discriminate) E X2 X3) as [n H].
  { intros i c _ Q. exfalso. unfold is_input, mis in Q. simpl in Q. discriminate. }
  assert (I := exec_inv' F02 _ _ _ (inv_init F02 ltac:(discriminate)) E).
  destruct (turns_possible n s I X2 X3) as [t Et].
  assert (J := H (repeat yes n) t ltac:(rewrite repeat_length; lia) Et).
  destruct (poll_inactive_hangs F02 run_off _ s t eq_refl ltac:(discriminate) E X2 X3 Et) as [L _].
  rewrite L, X1 in J. destruct J as [J|[]]. discriminate.
Qed.

(** The hypotheses are met: a complete run of two workers and an input queue.  The queue's value is
    read after a round of empty channels; worker 1's channel is removed; all ends when the last
    mark, that of the queue, is read. *)
Definition F21 : cfg := mkCfg 2 0 0 true 2 (fun _ => false).
Definition run_all : list (act nat) :=
  [Send Inq (Val 1); Poll yes; Poll yes; Send (Wk 1) (Val 2); Send (Wk 1) Eos; Poll yes; Send (Wk 0) (Val 3);
   Poll yes; Poll yes; Send (Wk 0) EosNF; Send Inq Eos; Poll yes; Poll yes].
Example run_all_ok :
  option_map (fun s => (log s, avail s, over s, left s)) (exec (step F21) (init_st F21) run_all)
  = Some ([ESvc Inq Queue 1; ESvc (Wk 1) (Feed 1) 2; ESvc (Wk 0) (Feed 0) 3; EEos (Wk 1); EEos (Wk 0); EEos Inq], [Wk 0], true, 0).
Proof. vm_compute. reflexivity. Qed.
(** A waiting message of worker 0 is read although worker 1 keeps sending. *)
Example run_fair :
  option_map (fun s => (log s, avail s)) (exec (step F21) (init_st F21)
    [Send (Wk 0) (Val 5); Send (Wk 1) (Val 1); Send (Wk 1) (Val 2); Poll yes; Poll yes])
  = Some ([ESvc (Wk 1) (Feed 1) 1; ESvc (Wk 0) (Feed 0) 5], [Wk 0; Wk 1]).
Proof. vm_compute. reflexivity. Qed.

(** svc(NULL) with one worker and one input channel that has a value waiting. *)
Definition F11 : cfg := mkCfg 1 0 1 false 1 (fun _ => false).
Example run_null :
  option_map (fun s => log s) (exec (step F11) (init_st F11)
    ([Send (Wk 0) (Val 5); Poll yes; Poll no; Send (Min 0) (Val 6)] ++ map Poll [no; no; no; no]))
  = Some [ESvc (Wk 0) (Feed 0) 5; ENull].
Proof. vm_compute. reflexivity. Qed.

Print Assumptions poll_order.
Print Assumptions poll_never_stuck.
Print Assumptions poll_ends.
Print Assumptions poll_fair.
Print Assumptions poll_queue.
Print Assumptions poll_terminates.
Print Assumptions poll_ids_partial.
Print Assumptions poll_null_partial.
Print Assumptions poll_inactive_hangs.
Print Assumptions poll_ids_refuted.
Print Assumptions poll_sides_refuted.
Print Assumptions poll_null_refuted.
