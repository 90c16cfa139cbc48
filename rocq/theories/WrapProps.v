(** C69: the channels of a pipeline with wrap_around().  Vocabulary in WireSpec.v and WrapSpec.v. *)
From Coq Require Import List Arith Bool Lia.
From Verif Require Import WireModel WireSpec WireProps WrapModel WrapSpec.
From Verif Require WireProofs WireProofs5 WrapProofs2 WrapProofs3.
Import ListNotations.

(** A pipeline with wrap_around() is accepted exactly when it has two stages or more, they fit together, and the
    last fits the first. *)
Theorem wrap_succeeds : forall l, Forall ordered_coll l -> ((exists r, wrap_wire l = Some r) <-> wrappable l = true).
Proof.
  intros l O. pose proof (WrapProofs3.wrap_wire_spec l O) as W. destruct (wrappable l).
  - destruct W as (w & h & h' & n & p & c & E & _). split; eauto.
  - split; [intros (r & E); congruence|discriminate].
Qed.

(** The two halves of the specification say the same thing. *)
Lemma exit_thread : forall l n p x, nth_error l n = Some p -> In x (exit n p) -> thread l x.
Proof.
  intros l n p x E H. pose proof (WireProofs5.exit_fst _ _ _ H) as F. exists p. rewrite F. split; [exact E|].
  destruct p as [k|m kw [| |k] o|n1 k1 n2 k2]; simpl in *; auto; try (right; apply in_or_app; right; simpl; tauto); try (right; apply in_or_app; left; auto).
  apply in_or_app; right; auto.
Qed.
Lemma entry_thread : forall l n p x, nth_error l n = Some p -> In x (entry n p) -> thread l x.
Proof.
  intros l n p x E H. pose proof (WireProofs5.entry_fst _ _ _ H) as F. exists p. rewrite F. split; [exact E|].
  destruct p as [k|m kw c o|n1 k1 n2 k2]; simpl in *; auto; [tauto|]. apply in_or_app; left; auto.
Qed.
Lemma ends_inv : forall l n p c, ends l = Some (n, p, c) -> nth_error l n = Some p /\ nth_error l 0 = Some c.
Proof.
  intros l n p c H. unfold ends in H. destruct (nth_error l (pred (length l))) eqn:E; [|discriminate].
  destruct (nth_error l 0) eqn:E0; [|discriminate]. injection H as <- <- <-. auto.
Qed.
Lemma fsuccs_iff : forall l x y, In y (fsuccs l x) <-> In x (fpreds l y).
Proof.
  intros l x y. unfold fsuccs, fpreds. destruct (ends l) as [[[n p] c]|]; [|tauto].
  change (if full p c then entry 0 c else firstn 1 (skipn (pos x) (entry 0 c))) with (WrapProofs2.fs p c x).
  change (if full p c then exit n p else firstn 1 (skipn (pos y) (exit n p))) with (WrapProofs2.fp n p c y).
  split; intros H.
  - destruct (inside x (exit n p)) eqn:I; [|contradiction]. apply WrapProofs3.inside_iff in I. pose proof (WrapProofs3.fs_entry _ _ _ _ H) as Y.
    rewrite (proj2 (WrapProofs3.inside_iff y (entry 0 c)) Y). apply WrapProofs3.fs_fp; auto.
  - destruct (inside y (entry 0 c)) eqn:I; [|contradiction]. apply WrapProofs3.inside_iff in I. pose proof (WrapProofs3.fp_exit _ _ _ _ _ H) as X.
    rewrite (proj2 (WrapProofs3.inside_iff x (exit n p)) X). apply (WrapProofs3.fs_fp n p c x y); auto.
Qed.
Lemma fsuccs_threads : forall l x y, In y (fsuccs l x) -> thread l x /\ thread l y.
Proof.
  intros l x y H. pose proof H as H'. rewrite fsuccs_iff in H'. unfold fsuccs, fpreds in H, H'. destruct (ends l) as [[[n p] c]|] eqn:E; [|contradiction].
  destruct (ends_inv _ _ _ _ E) as [EP EC].
  destruct (inside x (exit n p)) eqn:I; [|contradiction]. destruct (inside y (entry 0 c)) eqn:J; [|contradiction].
  apply WrapProofs3.inside_iff in I. apply WrapProofs3.inside_iff in J. split; [exact (exit_thread l n p x EP I)|exact (entry_thread l 0 c y EC J)].
Qed.
Lemma in_tagged : forall b (y : id) m m', In (b, y) (map (pair true) m ++ map (pair false) m') <-> (b = true /\ In y m) \/ (b = false /\ In y m').
Proof.
  intros. rewrite in_app_iff, !in_map_iff. split.
  - intros [(z & E & H)|(z & E & H)]; injection E as <- <-; auto.
  - intros [[-> H]|[-> H]]; [left|right]; eauto.
Qed.
Theorem wrap_succs_preds : forall l x y b, thread l x /\ In (b, y) (wsuccs l x) <-> thread l y /\ In (b, x) (wpreds l y).
Proof.
  intros l x y b. unfold wsuccs, wpreds. rewrite !in_tagged. pose proof (wire_succs_preds l x y) as F. pose proof (fsuccs_iff l x y) as G.
  pose proof (fsuccs_threads l x y) as T. split; intros [A [[-> B]|[-> B]]].
  - split; [tauto|]. left. tauto.
  - split; [tauto|]. right. tauto.
  - split; [tauto|]. left. tauto.
  - split; [tauto|]. right. tauto.
Qed.

(** Once accepted, unless the last stage is a farm with a multi-output collector: there is one channel for every
    connection, a different one for each; the outputs of a thread are the channels to its successors and its inputs
    those from its predecessors, the feedback channels first; and it has no other channel. *)
Definition wired (l : list stage) (w h : heap) : Prop :=
  exists ch : bool -> id -> id -> nat,
    (forall b x y b' x' y', thread l x -> thread l x' -> In (b, y) (wsuccs l x) -> In (b', y') (wsuccs l x') ->
       ch b x y = ch b' x' y' -> b = b' /\ x = x' /\ y = y') /\
    forall x s, nth_error l (fst x) = Some s -> In x (threads_of (fst x) s) ->
      woutputs s w h x = map (fun by_ => Some (ch (fst by_) x (snd by_))) (wsuccs l x) /\
      winputs s w h x = map (fun bx => Some (ch (fst bx) (snd bx) x)) (wpreds l x).

Theorem wrap_channels_partial : forall l w h, Forall ordered_coll l -> ~ collector_mo l -> wrap_wire l = Some (w, h) -> wired l w h.
Proof.
  intros l w h O NC E. pose proof (WrapProofs3.wrap_wire_spec l O) as W. destruct (wrappable l); [|congruence].
  destruct W as (w' & h0 & h' & n & p & c & E' & EW & EN & LL & N0 & EP & EC & D & RR). rewrite E' in E. injection E as -> ->.
  assert (MC : WrapProofs2.is_mocoll p = false).
  { destruct (WrapProofs2.is_mocoll p) eqn:M; auto. exfalso. apply NC. exists n, p, c. split; auto.
    destruct p as [k|m kw [| |k] o|n1 k1 n2 k2]; simpl in M; try discriminate. auto. }
  destruct (wire_channels l h0 O EW) as (ch & INJ & CH).
  exists (fun b x y => if b : bool then WrapProofs3.bwd p c x y else WrapProofs3.fwd w ch x y). split.
  - assert (FB : forall x y, In y (fsuccs l x) -> In x (exit n p) /\ In y (WrapProofs2.fs p c x)).
    { intros x y H. unfold fsuccs in H. rewrite EN in H. destruct (inside x (exit n p)) eqn:I; [|contradiction].
      apply WrapProofs3.inside_iff in I. auto. }
    assert (LT : forall x y, In y (fsuccs l x) -> WrapProofs3.bwd p c x y < nb w).
    { intros x y H. apply FB in H. destruct H as [Hx Hy]. destruct D as (_ & NB & _). rewrite NB.
      eapply WrapProofs3.fb_range; eauto. }
    intros b x y b' x' y' T T' I I' Q. unfold wsuccs in I, I'. rewrite in_tagged in I, I'.
    destruct I as [[-> I]|[-> I]], I' as [[-> I']|[-> I']].
    + split; auto. destruct (FB _ _ I), (FB _ _ I'). eapply WrapProofs3.fb_inj; eauto.
    + exfalso. specialize (LT _ _ I). unfold WrapProofs3.fwd in Q. lia.
    + exfalso. specialize (LT _ _ I'). unfold WrapProofs3.fwd in Q. lia.
    + split; auto. apply INJ; auto. unfold WrapProofs3.fwd in Q. lia.
  - intros x s ES Hx. unfold wsuccs, wpreds. rewrite !map_app, !map_map. cbn [fst snd]. split.
    + eapply WrapProofs3.both_out; eauto.
    + eapply WrapProofs3.both_in; eauto.
Qed.

(** Every channel that a thread writes is read by exactly one thread, on one of its inputs, and is written by no
    other thread and on no other output; and the same from the side of the reader. *)
Definition wwrites (l : list stage) (w h : heap) (x : id) (j b : nat) : Prop :=
  exists s, nth_error l (fst x) = Some s /\ In x (threads_of (fst x) s) /\ nth_error (woutputs s w h x) j = Some (Some b).
Definition wreads (l : list stage) (w h : heap) (x : id) (j b : nat) : Prop :=
  exists s, nth_error l (fst x) = Some s /\ In x (threads_of (fst x) s) /\ nth_error (winputs s w h x) j = Some (Some b).

Lemma tagged_nodup : forall (m m' : list id), NoDup m -> NoDup m' -> NoDup (map (pair true) m ++ map (pair false) m').
Proof.
  intros m m' H H'. assert (G : forall (b : bool) (q : list id), NoDup q -> NoDup (map (pair b) q)).
  { intros b q Q. apply FinFun.Injective_map_NoDup; auto. intros a a' A. congruence. }
  induction m as [|a m IH]; cbn [map app]; [apply G; auto|]. inversion H; subst. constructor; [|apply IH; auto].
  rewrite in_tagged. intros [[_ Q]|[Q _]]; [auto|discriminate].
Qed.
Lemma some_nodup : forall (m : list id) k, NoDup m -> NoDup (firstn 1 (skipn k m)).
Proof. intros m k _. destruct (skipn k m); simpl; repeat constructor; auto. Qed.
Lemma fsuccs_nodup : forall l x, NoDup (fsuccs l x).
Proof.
  intros l x. unfold fsuccs. destruct (ends l) as [[[n p] c]|]; [|constructor]. destruct (inside x (exit n p)); [|constructor].
  assert (D : NoDup (entry 0 c)) by (apply WireProofs.posd_nodup, WireProofs.posd_entry). destruct (full p c); auto. apply some_nodup; auto.
Qed.
Lemma fpreds_nodup : forall l x, NoDup (fpreds l x).
Proof.
  intros l x. unfold fpreds. destruct (ends l) as [[[n p] c]|]; [|constructor]. destruct (inside x (entry 0 c)); [|constructor].
  assert (D : NoDup (exit n p)) by (apply WireProofs.posd_nodup, WireProofs.posd_exit). destruct (full p c); auto. apply some_nodup; auto.
Qed.

Theorem wrap_one_to_one_partial : forall l w h, Forall ordered_coll l -> ~ collector_mo l -> wrap_wire l = Some (w, h) -> forall b,
  (forall x j x' j', wwrites l w h x j b -> wwrites l w h x' j' b -> x = x' /\ j = j') /\
  (forall x j x' j', wreads l w h x j b -> wreads l w h x' j' b -> x = x' /\ j = j') /\
  ((exists x j, wwrites l w h x j b) <-> (exists y j, wreads l w h y j b)).
Proof.
  intros l w h O NC E b. destruct (wrap_channels_partial l w h O NC E) as (c & INJ & P).
  assert (WR : forall x j, wwrites l w h x j b -> thread l x /\ exists t y, nth_error (wsuccs l x) j = Some (t, y) /\ c t x y = b).
  { intros x j (s & ES & Hx & Q). split; [exists s; auto|]. rewrite (proj1 (P x s ES Hx)) in Q. rewrite nth_error_map in Q.
    destruct (nth_error (wsuccs l x) j) as [[t y]|]; [|discriminate]. injection Q as Q. eauto. }
  assert (RD : forall x j, wreads l w h x j b -> thread l x /\ exists t y, nth_error (wpreds l x) j = Some (t, y) /\ c t y x = b).
  { intros x j (s & ES & Hx & Q). split; [exists s; auto|]. rewrite (proj2 (P x s ES Hx)) in Q. rewrite nth_error_map in Q.
    destruct (nth_error (wpreds l x) j) as [[t y]|]; [|discriminate]. injection Q as Q. eauto. }
  split; [|split].
  - intros x j x' j' W W'. apply WR in W, W'. destruct W as (T & t & y & N1 & Q1). destruct W' as (T' & t' & y' & N2 & Q2).
    destruct (INJ t x y t' x' y') as (-> & -> & ->); auto; try (eapply nth_error_In; eauto; fail); [congruence|]. split; auto.
    assert (ND : NoDup (wsuccs l x')) by (apply tagged_nodup; [apply fsuccs_nodup|apply succs_nodup; auto]).
    apply (proj1 (NoDup_nth_error _) ND); [apply nth_error_Some; congruence|congruence].
  - intros x j x' j' W W'. apply RD in W, W'. destruct W as (T & t & y & N1 & Q1). destruct W' as (T' & t' & y' & N2 & Q2).
    assert (A1 : thread l y /\ In (t, x) (wsuccs l y)) by (apply wrap_succs_preds; split; auto; eapply nth_error_In; eauto).
    assert (A2 : thread l y' /\ In (t', x') (wsuccs l y')) by (apply wrap_succs_preds; split; auto; eapply nth_error_In; eauto).
    destruct (INJ t y x t' y' x') as (-> & -> & ->); try tauto; [congruence|]. split; auto.
    assert (ND : NoDup (wpreds l x')) by (apply tagged_nodup; [apply fpreds_nodup|apply preds_nodup; auto]).
    apply (proj1 (NoDup_nth_error _) ND); [apply nth_error_Some; congruence|congruence].
  - split.
    + intros (x & j & W). apply WR in W. destruct W as (T & t & y & N1 & Q1).
      assert (A : thread l y /\ In (t, x) (wpreds l y)) by (apply wrap_succs_preds; split; auto; eapply nth_error_In; eauto).
      destruct A as [(s & ES & Hy) A]. apply In_nth_error in A. destruct A as (k & A). exists y, k, s. split; [auto|]. split; [auto|].
      rewrite (proj2 (P y s ES Hy)), nth_error_map, A. simpl. congruence.
    + intros (y & j & W). apply RD in W. destruct W as (T & t & x & N1 & Q1).
      assert (A : thread l x /\ In (t, y) (wsuccs l x)) by (apply wrap_succs_preds; split; auto; eapply nth_error_In; eauto).
      destruct A as [(s & ES & Hy) A]. apply In_nth_error in A. destruct A as (k & A). exists x, k, s. split; [auto|]. split; [auto|].
      rewrite (proj1 (P x s ES Hy)), nth_error_map, A. simpl. congruence.
Qed.

(** ** Finding: the last stage is a farm with a multi-output collector.  The pipeline is accepted, but the feedback
    channel is put in a list of the farm that ff_farm::prepare does not read when there is a collector: the first
    stage waits for messages (and for the end-of-stream mark) on a channel that nobody writes. *)
Definition wrap_channels_claim : Prop := forall l w h, Forall ordered_coll l -> wrap_wire l = Some (w, h) -> wired l w h.
Definition lost : list stage := [SNode k_mi; SFarm 2 k_std (UsrColl k_mo) false].
Theorem wrap_channels_refuted : ~ wrap_channels_claim.
Proof.
  intros H. destruct (wrap_wire lost) as [[w h]|] eqn:E; [|vm_compute in E; discriminate].
  destruct (H lost w h ltac:(repeat constructor) E) as (ch & _ & P).
  destruct (P (1, Co) (SFarm 2 k_std (UsrColl k_mo) false) eq_refl) as [Q _]; [simpl; auto|].
  vm_compute in E. injection E as <- <-. vm_compute in Q. discriminate.
Qed.
(** What happens there: the channel read by the first node is written by nobody. *)
Theorem wrap_lost_channel : exists w h b j, wrap_wire lost = Some (w, h) /\ wreads lost w h (0, Self) j b /\
  forall x k, ~ wwrites lost w h x k b.
Proof.
  destruct (wrap_wire lost) as [[w h]|] eqn:E; [|vm_compute in E; discriminate]. vm_compute in E. injection E as <- <-.
  eexists _, _, 0, 0. split; [reflexivity|]. split.
  - exists (SNode k_mi). split; [reflexivity|]. split; [left; reflexivity|]. vm_compute. reflexivity.
  - intros x k (s & ES & Hx & Q). destruct x as [i r]. destruct i as [|[|i]]; [| |destruct i; discriminate]; injection ES as <-; cbn [fst] in Hx; cbn in Hx;
      repeat (destruct Hx as [Hx|Hx]; [injection Hx as <-; vm_compute in Q; repeat (destruct k as [|k]; [discriminate|]); discriminate|]); try contradiction.
Qed.

(** ** Pipelines with all kinds of stages *)
Definition shown (l : list stage) (x : id) : option (list (option nat) * list (option nat)) :=
  match wrap_wire l, nth_error l (fst x) with Some (w, h), Some s => Some (winputs s w h x, woutputs s w h x) | _, _ => None end.
Definition ring : list stage := [SA2A 2 k_mm 2 k_std; SFarm 2 k_std NoColl false; SNode k_mm; SA2A 2 k_std 3 k_mm].
Example ring_wired : Forall ordered_coll ring /\ ~ collector_mo ring /\ wrappable ring = true /\
  map (shown ring) [(0, Lw 0); (0, Lw 1); (0, Rw 1); (1, Em); (1, Wk 1); (2, Self); (3, Lw 0); (3, Rw 0); (3, Rw 2)] =
  [Some ([Some 0; Some 1; Some 2], [Some 12; Some 14]);
   Some ([Some 3; Some 4; Some 5], [Some 13; Some 15]);
   Some ([Some 14; Some 15], [Some 7]);
   Some ([Some 6; Some 7], [Some 16; Some 17]);
   Some ([Some 17], [Some 9]);
   Some ([Some 8; Some 9], [Some 10; Some 11]);
   Some ([Some 10], [Some 18; Some 20; Some 22]);
   Some ([Some 18; Some 19], [Some 0; Some 3]);
   Some ([Some 22; Some 23], [Some 2; Some 5])].
Proof.
  split; [repeat constructor|]. split; [|vm_compute; auto].
  intros (n & p & c & E & H). vm_compute in E. injection E as <- <- <-. exact H.
Qed.
(** Two standard nodes; a farm without collector sent back to a multi-input node. *)
Example small_wired :
  map (shown [SNode k_std; SNode k_std]) [(0, Self); (1, Self)] = [Some ([Some 0], [Some 1]); Some ([Some 1], [Some 0])] /\
  map (shown [SNode k_mi; SFarm 2 k_std NoColl false]) [(0, Self); (1, Wk 1)] =
    [Some ([Some 0; Some 1], [Some 2]); Some ([Some 4], [Some 1])].
Proof. vm_compute. auto. Qed.
(** Refused: one stage; the workers of a farm sent back to a standard node; a standard node sent back to an
    all-to-all. *)
Example wrap_misfits :
  wrap_wire [SFarm 2 k_std NoColl false] = None /\ wrap_wire [SNode k_std; SFarm 2 k_std NoColl false] = None /\
  wrap_wire [SA2A 2 k_std 2 k_std; SNode k_mi] = None.
Proof. vm_compute. auto. Qed.

Print Assumptions wrap_succeeds.
Print Assumptions wrap_succs_preds.
Print Assumptions wrap_channels_partial.
Print Assumptions wrap_one_to_one_partial.
Print Assumptions wrap_channels_refuted.
Print Assumptions wrap_lost_channel.
