(** Networks of threads (NetModel.v) that run a wrapped pipeline. *)
From Coq Require Import List Arith Bool Lia.
From Verif Require Import Base WireModel WireSpec WireProps WrapModel WrapSpec WrapProps.
From Verif Require WireProofs5 WireProofs8 WireProofs9 NetModel NetSpec NetProofs.
Import ListNotations.

(** The network [N] runs the pipeline wired in [w], [h]: its nodes are the threads of the pipeline, and output
    (input) number j of every node is the channel that [w] and [h] have there. *)
Definition wruns {X St : Type} (l : list stage) (w h : heap) (N : NetModel.net X St) : Prop :=
  NetModel.nodes N = length (threads l) /\
  exists cid : nat -> nat,
    forall v x s, nth_error (threads l) v = Some x -> nth_error l (fst x) = Some s ->
      woutputs s w h x = map (fun c => Some (cid c)) (NetModel.outs N v) /\
      winputs s w h x = map (fun c => Some (cid c)) (NetModel.ins N v).

(** Channel [k] goes from a thread of the last stage to a thread of the first: a feedback channel. *)
Definition goes_back (l : list stage) (k : NetModel.chan) : Prop :=
  exists x y, nth_error (threads l) (NetModel.src k) = Some x /\ nth_error (threads l) (NetModel.dst k) = Some y /\
    S (fst x) = length l /\ fst y = 0.

Section Edge.
  Context {X St : Type}.
  Variables (l : list stage) (w h : heap) (N : NetModel.net X St).
  Hypothesis WD : wired l w h.
  Hypothesis RUN : wruns l w h N.
  Hypothesis WF : NetSpec.wf N.

  Lemma wnet_edge : forall c k, NetModel.chan_of N c = Some k -> exists b x y,
    nth_error (threads l) (NetModel.src k) = Some x /\ nth_error (threads l) (NetModel.dst k) = Some y /\ thread l x /\ In (b, y) (wsuccs l x).
  Proof using WD RUN WF.
    intros c k K. destruct RUN as (NN & cid & R). destruct (NetSpec.wf_ends N WF c k K) as [Hs Hd]. rewrite NN in Hs, Hd.
    destruct (nth_error (threads l) (NetModel.src k)) as [x|] eqn:EX; [|apply nth_error_None in EX; lia].
    destruct (nth_error (threads l) (NetModel.dst k)) as [y|] eqn:EY; [|apply nth_error_None in EY; lia].
    assert (TX : thread l x) by (apply WireProofs8.in_threads_l; eapply nth_error_In; eauto).
    assert (TY : thread l y) by (apply WireProofs8.in_threads_l; eapply nth_error_In; eauto).
    destruct TX as (sx & SX & HX). destruct TY as (sy & SY & HY).
    destruct WD as (ch & INJ & P). destruct (P x sx SX HX) as [PO _]. destruct (P y sy SY HY) as [_ PI].
    destruct (R _ _ _ EX SX) as [RO _]. destruct (R _ _ _ EY SY) as [_ RI].
    assert (O : In c (NetModel.outs N (NetModel.src k))) by (apply NetProofs.in_outs; eauto).
    assert (I : In c (NetModel.ins N (NetModel.dst k))) by (apply NetProofs.in_ins; eauto).
    apply (in_map (fun c => Some (cid c))) in O. apply (in_map (fun c => Some (cid c))) in I.
    rewrite <- RO, PO in O. rewrite <- RI, PI in I. apply in_map_iff in O, I.
    destruct O as ([b z] & E1 & O). destruct I as ([b' u] & E2 & I). cbn [fst snd] in E1, E2.
    assert (A : thread l u /\ In (b', y) (wsuccs l u)) by (apply wrap_succs_preds; split; [exists sy; auto|auto]).
    destruct A as [TU A]. assert (TX : thread l x) by (exists sx; auto).
    destruct (INJ b x z b' u y) as (-> & -> & ->); auto; [congruence|].
    exists b', u, y. auto.
  Qed.
  Lemma wnet_up : forall c k, NetModel.chan_of N c = Some k -> goes_back l k \/ NetModel.src k < NetModel.dst k.
  Proof using WD RUN WF.
    intros c k K. destruct (wnet_edge c k K) as (b & x & y & EX & EY & TX & I). unfold wsuccs in I. apply in_tagged in I.
    destruct I as [[_ I]|[_ I]].
    - left. exists x, y. split; [auto|]. split; [auto|]. pose proof I as I'. rewrite fsuccs_iff in I'. unfold fsuccs in I. unfold fpreds in I'.
      destruct (ends l) as [[[n p] cc]|] eqn:E; [|contradiction].
      destruct (inside x (exit n p)) eqn:IX; [|contradiction]. destruct (inside y (entry 0 cc)) eqn:IY; [|contradiction].
      apply WrapProofs3.inside_iff in IX. apply WrapProofs3.inside_iff in IY.
      rewrite (WireProofs5.exit_fst _ _ _ IX), (WireProofs5.entry_fst _ _ _ IY). split; [|auto].
      unfold ends in E. destruct (nth_error l (pred (length l))) eqn:E1; [|discriminate]. destruct (nth_error l 0) eqn:E2; [|discriminate].
      injection E as <- _ _. destruct l; [discriminate|reflexivity].
    - right. assert (A : thread l y /\ In x (preds l y)) by (apply wire_succs_preds; auto). destruct A as [TY A].
      apply WireProofs8.preds_edge in A; auto. apply WireProofs8.edge_key in A. eapply WireProofs8.threads_order; eauto.
  Qed.
End Edge.

(** ** Building one *)
Section Rel.
  Variables (sz : nat) (cp : option nat) (r : nat -> nat -> bool).
  Definition rel_chans : list NetModel.chan :=
    flat_map (fun v => map (fun u => NetModel.mkChan v u cp) (filter (r v) (seq 0 sz))) (seq 0 sz).
  Lemma rel_outs : forall v, v < sz -> filter (fun k => NetModel.src k =? v) rel_chans = map (fun u => NetModel.mkChan v u cp) (filter (r v) (seq 0 sz)).
  Proof using Type.
    intros v Hv. unfold rel_chans.
    assert (G : forall m, m = seq 0 v ++ v :: seq (S v) (sz - S v) ->
      filter (fun k => NetModel.src k =? v) (flat_map (fun v => map (fun u => NetModel.mkChan v u cp) (filter (r v) (seq 0 sz))) m) =
      map (fun u => NetModel.mkChan v u cp) (filter (r v) (seq 0 sz))).
    2: { apply G. transitivity (seq 0 (v + S (sz - S v))); [f_equal; lia|rewrite seq_app; auto]. }
    intros m ->. rewrite flat_map_app. simpl. rewrite !filter_app. rewrite (WireProofs9.filter_none _ _ (flat_map _ (seq 0 v))), (WireProofs9.filter_none _ _ (flat_map _ (seq (S v) _))).
    - simpl. rewrite app_nil_r. apply WireProofs9.filter_all. intros k Hk. apply in_map_iff in Hk. destruct Hk as (u & <- & _). simpl. apply Nat.eqb_refl.
    - intros k Hk. apply in_flat_map in Hk. destruct Hk as (u & Hu & Hk). apply in_map_iff in Hk. destruct Hk as (u' & <- & _). simpl. apply in_seq in Hu. apply Nat.eqb_neq. lia.
    - intros k Hk. apply in_flat_map in Hk. destruct Hk as (u & Hu & Hk). apply in_map_iff in Hk. destruct Hk as (u' & <- & _). simpl. apply in_seq in Hu. apply Nat.eqb_neq. lia.
  Qed.
  Lemma rel_ins : forall u, u < sz -> filter (fun k => NetModel.dst k =? u) rel_chans = map (fun v => NetModel.mkChan v u cp) (filter (fun v => r v u) (seq 0 sz)).
  Proof using Type.
    intros u Hu. unfold rel_chans.
    assert (G : forall m, filter (fun k => NetModel.dst k =? u) (flat_map (fun v => map (fun u => NetModel.mkChan v u cp) (filter (r v) (seq 0 sz))) m) =
      map (fun v => NetModel.mkChan v u cp) (filter (fun v => r v u) m)); [|apply G].
    intros m. induction m as [|v m IH]; simpl; auto.
    rewrite filter_app, IH. rewrite WireProofs9.filter_map_comm. simpl.
    rewrite (WireProofs9.filter_filter_eq (r v) sz u Hu). destruct (r v u); auto.
  Qed.
End Rel.

Section Build.
  Context {X St : Type}.
  Variables (l : list stage) (cp : option nat) (start : nat -> St)
    (boot : nat -> list (list (NetModel.req X))) (svc : nat -> St -> nat -> X -> St * list (list (NetModel.req X)) * bool)
    (eosn : nat -> St -> nat -> St * list (list (NetModel.req X))).
  Let sz := length (threads l).
  Let thr := WireProofs9.thr l.
  Definition blinked (v u : nat) : bool := WireProofs9.inb (thr u) (fsuccs l (thr v)).
  Definition flinked (v u : nat) : bool := WireProofs9.inb (thr u) (succs l (thr v)).
  (** Feedback channels, unbounded, then the others. *)
  Definition wchans : list NetModel.chan := rel_chans sz None blinked ++ rel_chans sz cp flinked.
  Definition wnet : NetModel.net X St := NetModel.mkNet sz wchans start boot svc eosn.

  Lemma fsuccs_infix : forall x, WireProofs9.infix (fsuccs l x) (threads l).
  Proof using Type.
    intros x. unfold fsuccs. destruct (ends l) as [[[n p] c]|] eqn:E; [|apply WireProofs9.infix_nil].
    destruct (ends_inv _ _ _ _ E) as [_ EC]. destruct (inside x (exit n p)); [|apply WireProofs9.infix_nil].
    assert (G : WireProofs9.infix (entry 0 c) (threads l)) by (eapply WireProofs9.infix_trans; [apply WireProofs9.entry_infix|apply WireProofs9.stage_infix; auto]).
    destruct (full p c); auto. eapply WireProofs9.infix_trans; [apply WireProofs9.infix_first|auto].
  Qed.
  Lemma fpreds_infix : forall x, WireProofs9.infix (fpreds l x) (threads l).
  Proof using Type.
    intros x. unfold fpreds. destruct (ends l) as [[[n p] c]|] eqn:E; [|apply WireProofs9.infix_nil].
    destruct (ends_inv _ _ _ _ E) as [EP _]. destruct (inside x (entry 0 c)); [|apply WireProofs9.infix_nil].
    assert (G : WireProofs9.infix (exit n p) (threads l)) by (eapply WireProofs9.infix_trans; [apply WireProofs9.exit_infix|apply WireProofs9.stage_infix; auto]).
    destruct (full p c); auto. eapply WireProofs9.infix_trans; [apply WireProofs9.infix_first|auto].
  Qed.
  Lemma sel_succs : forall (ss : id -> list id) v x, (forall x, In x (threads l) -> WireProofs9.infix (ss x) (threads l)) ->
    nth_error (threads l) v = Some x -> map thr (filter (fun u => WireProofs9.inb (thr u) (ss (thr v))) (seq 0 sz)) = ss x.
  Proof using Type.
    intros ss v x IF E. unfold thr. rewrite (WireProofs9.thr_nth l v x E).
    rewrite (WireProofs9.map_filter _ _ (WireProofs9.thr l) (fun y => WireProofs9.inb y (ss x))).
    unfold WireProofs9.thr, sz. rewrite WireProofs9.nth_seq. apply WireProofs9.filter_infix; [apply WireProofs9.threads_nodup|]. apply IF. eapply nth_error_In; eauto.
  Qed.
  Lemma sel_preds : forall (ss pp : id -> list id) u y, (forall x, In x (threads l) -> WireProofs9.infix (pp x) (threads l)) ->
    (forall x, In x (threads l) -> (In y (ss x) <-> In x (pp y))) ->
    nth_error (threads l) u = Some y -> map thr (filter (fun v => WireProofs9.inb (thr u) (ss (thr v))) (seq 0 sz)) = pp y.
  Proof using Type.
    intros ss pp u y IF SP E. unfold thr. rewrite (WireProofs9.thr_nth l u y E).
    rewrite (WireProofs9.map_filter _ _ (WireProofs9.thr l) (fun x => WireProofs9.inb y (ss x))).
    unfold WireProofs9.thr, sz. rewrite WireProofs9.nth_seq. transitivity (filter (fun x => WireProofs9.inb x (pp y)) (threads l)).
    - apply filter_ext_in. intros x Hx. specialize (SP x Hx). destruct (WireProofs9.inb y (ss x)) eqn:E1; symmetry.
      + apply WireProofs9.inb_in. apply WireProofs9.inb_in in E1. apply SP. exact E1.
      + destruct (WireProofs9.inb x (pp y)) eqn:E2; auto. apply WireProofs9.inb_in in E2. apply SP in E2. apply WireProofs9.inb_in in E2. rewrite E2 in E1. discriminate.
    - apply WireProofs9.filter_infix; [apply WireProofs9.threads_nodup|]. apply IF. eapply nth_error_In; eauto.
  Qed.

  Definition dk : NetModel.chan := NetModel.mkChan 0 0 None.
  Definition wchan_at (c : nat) : NetModel.chan := nth c wchans dk.
  Let nbk := length (rel_chans sz None blinked).
  (** The channels selected by [p], with their tag. *)
  Lemma select : forall p : NetModel.chan -> bool,
    map (fun c => (c <? nbk, wchan_at c)) (filter (fun c => match NetModel.chan_of wnet c with Some k => p k | None => false end) (seq 0 (length wchans))) =
    map (pair true) (filter p (rel_chans sz None blinked)) ++ map (pair false) (filter p (rel_chans sz cp flinked)).
  Proof using Type.
    intros p. transitivity (map (fun c => (c <? nbk, wchan_at c)) (filter (fun c => p (snd (c <? nbk, wchan_at c))) (seq 0 (length wchans)))).
    - f_equal. apply filter_ext_in. intros c Hc. apply in_seq in Hc. unfold NetModel.chan_of. cbn [snd NetModel.chans wnet].
      unfold wchan_at. rewrite (nth_error_nth' _ dk); [reflexivity|lia].
    - rewrite (WireProofs9.map_filter _ _ (fun c => (c <? nbk, wchan_at c)) (fun bk => p (snd bk))).
      assert (G : map (fun c => (c <? nbk, wchan_at c)) (seq 0 (length wchans)) = map (pair true) (rel_chans sz None blinked) ++ map (pair false) (rel_chans sz cp flinked)).
      { unfold wchan_at, wchans. rewrite app_length, seq_app, map_app. fold nbk. f_equal.
        - transitivity (map (pair true) (map (fun c => nth c (rel_chans sz None blinked) dk) (seq 0 nbk))).
          + rewrite map_map. apply map_ext_in. intros c Hc. apply in_seq in Hc. destruct (Nat.ltb_spec c nbk); [|lia].
            rewrite app_nth1 by (fold nbk; lia). reflexivity.
          + unfold nbk. rewrite WireProofs9.nth_seq. reflexivity.
        - cbn [plus]. transitivity (map (pair false) (map (fun c => nth c (rel_chans sz cp flinked) dk) (seq 0 (length (rel_chans sz cp flinked))))).
          + rewrite map_map. generalize (length (rel_chans sz cp flinked)). intros m. replace (seq nbk m) with (seq (nbk + 0) m) by (f_equal; lia).
            assert (SH : forall a b k, map (fun c => (c <? a, nth c (rel_chans sz None blinked ++ rel_chans sz cp flinked) dk)) (seq (nbk + b) k) =
                         map (fun c => (nbk + c <? a, nth (nbk + c) (rel_chans sz None blinked ++ rel_chans sz cp flinked) dk)) (seq b k)).
            { intros a b k. revert b. induction k as [|k IH]; intros b; [reflexivity|]. cbn [seq map]. f_equal. rewrite <- IH. f_equal. f_equal. lia. }
            rewrite SH. apply map_ext. intros c. destruct (Nat.ltb_spec (nbk + c) nbk); [lia|]. rewrite app_nth2 by (fold nbk; lia).
            fold nbk. replace (nbk + c - nbk) with c by lia. reflexivity.
          + rewrite WireProofs9.nth_seq. reflexivity. }
      rewrite G, filter_app. f_equal; rewrite WireProofs9.filter_map_comm; reflexivity.
  Qed.

  Variables (w h : heap).
  Lemma wnet_runs : wired l w h -> wruns l w h wnet.
  Proof using Type.
    intros (ch & _ & P). split; [reflexivity|].
    set (lab := fun bk : bool * NetModel.chan => ch (fst bk) (thr (NetModel.src (snd bk))) (thr (NetModel.dst (snd bk)))).
    exists (fun c => lab (c <? nbk, wchan_at c)). intros v x s E ES. assert (Hv : v < sz) by (apply nth_error_Some; congruence).
    assert (TX : thread l x) by (apply WireProofs8.in_threads_l; eapply nth_error_In; eauto).
    assert (Hx : In x (threads_of (fst x) s)) by (destruct TX as (s' & ES' & Hx); congruence).
    assert (TV : thr v = x) by (apply WireProofs9.thr_nth; auto).
    destruct (P x s ES Hx) as [PO PI]. rewrite PO, PI. split.
    - transitivity (map (fun bk => Some (lab bk)) (map (fun c => (c <? nbk, wchan_at c)) (NetModel.outs wnet v))).
      + unfold NetModel.outs. change (NetModel.chans wnet) with wchans. rewrite (select (fun k => NetModel.src k =? v)), !rel_outs by auto.
        unfold wsuccs. rewrite !map_app, !map_map. unfold lab. cbn [fst snd NetModel.src NetModel.dst]. rewrite TV. f_equal.
        * rewrite <- (sel_succs (fsuccs l) v x) by (auto; intros; apply fsuccs_infix). rewrite map_map. reflexivity.
        * rewrite <- (sel_succs (succs l) v x) at 1; [rewrite map_map; reflexivity| |auto].
          intros y Hy. apply WireProofs9.succs_infix. apply WireProofs8.in_threads_l. auto.
      + rewrite map_map. reflexivity.
    - transitivity (map (fun bk => Some (lab bk)) (map (fun c => (c <? nbk, wchan_at c)) (NetModel.ins wnet v))).
      + unfold NetModel.ins. change (NetModel.chans wnet) with wchans. rewrite (select (fun k => NetModel.dst k =? v)), !rel_ins by auto.
        unfold wpreds. rewrite !map_app, !map_map. unfold lab. cbn [fst snd NetModel.src NetModel.dst]. rewrite TV. f_equal.
        * rewrite <- (sel_preds (fsuccs l) (fpreds l) v x); [rewrite map_map; reflexivity| | |auto].
          -- intros; apply fpreds_infix.
          -- intros; apply fsuccs_iff.
        * rewrite <- (sel_preds (succs l) (preds l) v x); [rewrite map_map; reflexivity| | |auto].
          -- intros y Hy. apply WireProofs9.preds_infix. apply WireProofs8.in_threads_l. auto.
          -- intros y Hy. apply WireProofs8.in_threads_l in Hy. pose proof (wire_succs_preds l y x). tauto.
      + rewrite map_map. reflexivity.
  Qed.
  Lemma wchans_cap : 2 <= length l -> forall k, In k wchans -> (goes_back l k -> NetModel.cap k = None) /\ (~ goes_back l k -> NetModel.cap k = cp).
  Proof using Type.
    assert (F : forall c r k, In k (rel_chans sz c r) -> exists v u, k = NetModel.mkChan v u c /\ v < sz /\ u < sz /\ r v u = true).
    { intros c r k H. apply in_flat_map in H. destruct H as (v & Hv & H). apply in_map_iff in H. destruct H as (u & <- & Hu).
      apply filter_In in Hu. destruct Hu as [Hu R]. apply in_seq in Hv, Hu. exists v, u. repeat split; auto; lia. }
    assert (NX : forall v, v < sz -> nth_error (threads l) v = Some (thr v)).
    { intros v Hv. apply nth_error_nth'. auto. }
    intros L2 k Hk. apply in_app_or in Hk. destruct Hk as [Hk|Hk]; apply F in Hk; destruct Hk as (v & u & -> & Hv & Hu & R); cbn [NetModel.cap].
    - split; [auto|]. intros NG. exfalso. apply NG. exists (thr v), (thr u). cbn [NetModel.src NetModel.dst]. split; [auto|]. split; [auto|].
      apply WireProofs9.inb_in in R. pose proof R as R'. rewrite fsuccs_iff in R'. unfold fsuccs in R. unfold fpreds in R'.
      destruct (ends l) as [[[n p] cc]|] eqn:E; [|contradiction].
      destruct (inside (thr v) (exit n p)) eqn:IX; [|contradiction]. destruct (inside (thr u) (entry 0 cc)) eqn:IY; [|contradiction].
      apply WrapProofs3.inside_iff in IX. apply WrapProofs3.inside_iff in IY.
      rewrite (WireProofs5.exit_fst _ _ _ IX), (WireProofs5.entry_fst _ _ _ IY). split; [|auto].
      unfold ends in E. destruct (nth_error l (pred (length l))) eqn:E1; [|discriminate]. destruct (nth_error l 0) eqn:E2; [|discriminate].
      injection E as <- _ _. destruct (length l) eqn:EL; [|reflexivity]. apply length_zero_iff_nil in EL. rewrite EL in E2. discriminate.
    - split; [|auto]. intros (x & y & EX & EY & LX & LY). exfalso. cbn [NetModel.src NetModel.dst] in EX, EY.
      rewrite (NX v Hv) in EX. rewrite (NX u Hu) in EY. injection EX as EX. injection EY as EY. apply WireProofs9.inb_in in R.
      rewrite EX, EY in R. assert (TX : thread l x) by (apply WireProofs8.in_threads_l; rewrite <- EX; eapply nth_error_In; exact (NX v Hv)).
      assert (A : thread l y /\ In x (preds l y)) by (apply wire_succs_preds; auto). destruct A as [TY A].
      apply WireProofs8.preds_edge in A; auto. apply WireProofs8.edge_key in A. unfold WireProofs8.key in A.
      assert (WireProofs8.rank (snd y) <= 2) by (destruct (snd y); simpl; lia). lia.
  Qed.
End Build.
