(** The successors and predecessors of the specification agree; the threads are in data-flow order. *)
From Coq Require Import List Arith Bool Lia Sorted.
From Verif Require Import Base WireModel WireSpec WireProofs WireProofs2 WireProofs3 WireProofs4 WireProofs5 WireProofs6 WireProofs7.
From Verif Require NetModel NetSpec NetProofs.
Import ListNotations.

Lemma exit_threads : forall i s x, In x (exit i s) -> In x (threads_of i s).
Proof. intros i [k|n kw [| |kc] o|n1 k1 n2 k2] x H; simpl in *; auto; rewrite ?in_app_iff in *; simpl; auto; intuition. Qed.
Lemma entry_threads : forall i s x, In x (entry i s) -> In x (threads_of i s).
Proof. intros i [k|n kw [| |kc] o|n1 k1 n2 k2] x H; simpl in *; auto; rewrite ?in_app_iff in *; simpl; auto; intuition. Qed.

(** [edge_of] from the side of the consumer. *)
Lemma aft_bef : forall i p c x y, In x (exit i p) -> In y (entry (S i) c) -> (In y (aft i p c x) <-> In x (bef i p c y)).
Proof.
  assert (G : forall (m : list id) y k, posd m -> In y m -> (In y (firstn 1 (skipn k m)) <-> pos y = k)).
  { intros m y k P Hy. destruct (posd_in _ _ P Hy) as [E L]. split.
    - intros H. destruct (skipn k m) as [|a r] eqn:Q; simpl in H; [contradiction|]. destruct H as [->|[]].
      assert (K : k < length m) by (destruct (le_lt_dec (length m) k) as [L'|L']; auto; rewrite skipn_all2 in Q by auto; discriminate).
      apply (P k y). rewrite <- (firstn_skipn k m). rewrite nth_error_app2 by (rewrite firstn_length; lia).
      rewrite firstn_length, Nat.min_l by lia. rewrite Nat.sub_diag, Q. auto.
    - intros <-. rewrite <- (firstn_skipn (pos y) m) in E. rewrite nth_error_app2 in E by (rewrite firstn_length; lia).
      rewrite firstn_length, Nat.min_l in E by lia. rewrite Nat.sub_diag in E. destruct (skipn (pos y) m); [discriminate|].
      injection E as ->. simpl. auto. }
  intros i p c x y Hx Hy. unfold aft, bef. destruct (full p c); [tauto|].
  rewrite (G _ y (pos x) (posd_entry (S i) c) Hy). rewrite (G _ x (pos y) (posd_exit i p) Hx). split; auto.
Qed.

Lemma edge_thread : forall l x y, edge_of l x y -> thread l x /\ thread l y.
Proof.
  intros l x y [i p c EP EC Hx Hy|i n kw c o j ES -> -> J|i n kw c o j ES NC -> -> J|i n1 k1 n2 k2 j k ES -> -> J K].
  - apply aft_entry in Hy. split; [exists p|exists c].
    + rewrite (exit_fst _ _ _ Hx). split; auto. apply exit_threads; auto.
    + rewrite (entry_fst _ _ _ Hy). split; auto. apply entry_threads; auto.
  - split; exists (SFarm n kw c o); (split; [auto|]); simpl; auto. right. apply in_or_app. left. apply in_wk. auto.
  - split; exists (SFarm n kw c o); (split; [auto|]); simpl; right; apply in_or_app; [left; apply in_wk; auto|].
    right. destruct c; [congruence|left; auto|left; auto].
  - split; exists (SA2A n1 k1 n2 k2); (split; [auto|]); simpl; apply in_or_app; [left|right]; unfold lw, rw; apply in_map_iff.
    + exists j. split; auto. apply in_seq. lia.
    + exists k. split; auto. apply in_seq. lia.
Qed.
Lemma edge_succs : forall l x y, edge_of l x y -> In y (succs l x).
Proof.
  intros l x y H. pose proof (edge_thread _ _ _ H) as [_ _].
  destruct H as [i p c EP EC Hx Hy|i n kw c o j ES -> -> J|i n kw c o j ES NC -> -> J|i n1 k1 n2 k2 j k ES -> -> J K].
  - unfold succs. assert (F : fst x = i) by apply (exit_fst _ _ _ Hx). rewrite F, EP.
    assert (A : In y (after l i p x)) by (unfold after; rewrite EC; auto).
    destruct p as [k|n kw [| |kc] o|n1 k1 n2 k2]; simpl in Hx;
      try (destruct Hx as [<-|[]]; exact A).
    + apply in_wk_inv in Hx. destruct Hx as (j & -> & _). exact A.
    + apply in_rw_inv in Hx. destruct Hx as (j & -> & _). exact A.
  - unfold succs. simpl fst. rewrite ES. simpl snd. apply (in_wk i) in J. destruct c; apply J.
  - unfold succs. simpl fst. rewrite ES. simpl snd. destruct c; [congruence|left; auto|left; auto].
  - unfold succs. simpl fst. rewrite ES. simpl. unfold rw. apply in_map_iff. exists k. split; auto. apply in_seq. lia.
Qed.
Lemma edge_preds : forall l x y, edge_of l x y -> In x (preds l y).
Proof.
  intros l x y H.
  destruct H as [i p c EP EC Hx Hy|i n kw c o j ES -> -> J|i n kw c o j ES NC -> -> J|i n1 k1 n2 k2 j k ES -> -> J K].
  - pose proof (aft_entry _ _ _ _ _ Hy) as Hy'. apply (aft_bef i p c x y Hx Hy') in Hy.
    unfold preds. assert (F : fst y = S i) by apply (entry_fst _ _ _ Hy'). rewrite F, EC.
    assert (A : In x (before l (S i) c y)) by (unfold before; rewrite EP; auto).
    destruct c as [k|n kw cc o|n1 k1 n2 k2]; simpl in Hy'.
    + destruct Hy' as [<-|[]]; exact A.
    + destruct Hy' as [<-|[]]; exact A.
    + apply in_lw_inv in Hy'. destruct Hy' as (j & -> & _). exact A.
  - unfold preds. simpl fst. rewrite ES. simpl. auto.
  - unfold preds. simpl fst. rewrite ES. simpl. apply in_wk. auto.
  - unfold preds. simpl fst. rewrite ES. simpl. unfold lw. apply in_map_iff. exists j. split; auto. apply in_seq. lia.
Qed.
Lemma preds_edge : forall l x y, thread l y -> In x (preds l y) -> edge_of l x y.
Proof.
  intros l x y (s & ES & Hy) Hx. unfold preds in Hx. rewrite ES in Hx. destruct y as [i r]. cbn [fst snd] in *.
  assert (BND : In (i, r) (entry i s) -> In x (before l i s (i, r)) -> edge_of l x (i, r)).
  { intros Hy' A. unfold before in A. destruct i as [|i]; [contradiction|]. destruct (nth_error l i) as [p|] eqn:EP; [|contradiction].
    change (In x (bef i p s (S i, r))) in A. pose proof (bef_exit _ _ _ _ _ A) as Hx'.
    apply (Ebound l x (S i, r) i p s EP ES Hx'). apply aft_bef; auto. }
  destruct s as [k|n kw c o|n1 k1 n2 k2]; simpl in Hy.
  - destruct Hy as [E|[]]. injection E as <-. apply BND; auto. left; auto.
  - destruct Hy as [E|Hy]; [injection E as <-|apply in_app_or in Hy; destruct Hy as [Hy|Hy]].
    + apply BND; auto. left; auto.
    + apply in_wk_inv in Hy. destruct Hy as (j & E & Hj). injection E as ->. destruct Hx as [<-|[]]. eapply Eemit; eauto.
    + destruct c; simpl in Hy; try contradiction; destruct Hy as [E|[]]; injection E as <-;
        apply in_wk_inv in Hx; destruct Hx as (j & -> & Hj); eapply Ecoll; eauto; discriminate.
  - apply in_app_or in Hy. destruct Hy as [Hy|Hy].
    + pose proof Hy as Hy'. apply in_lw_inv in Hy. destruct Hy as (j & E & Hj). injection E as ->. apply BND; auto.
    + apply in_rw_inv in Hy. destruct Hy as (j & E & Hj). injection E as ->. apply in_lw_inv in Hx. destruct Hx as (j' & -> & Hj').
      eapply Ea2a; eauto.
Qed.

Lemma succs_preds_both : forall l x y, thread l x /\ In y (succs l x) <-> thread l y /\ In x (preds l y).
Proof.
  intros l x y. split; intros [T H].
  - apply edges in H; auto. split; [apply (edge_thread _ _ _ H)|apply edge_preds; auto].
  - apply preds_edge in H; auto. split; [apply (edge_thread _ _ _ H)|apply edge_succs; auto].
Qed.

(** ** Order of the threads *)
Definition rank (r : role) : nat := match r with Wk _ | Rw _ => 1 | Co => 2 | _ => 0 end.
Definition key (x : id) : nat := 3 * fst x + rank (snd x).
Lemma edge_key : forall l x y, edge_of l x y -> key x < key y.
Proof.
  intros l x y [i p c EP EC Hx Hy|i n kw c o j ES -> -> J|i n kw c o j ES NC -> -> J|i n1 k1 n2 k2 j k ES -> -> J K]; try (unfold key; simpl; lia).
  apply aft_entry in Hy. pose proof (exit_fst _ _ _ Hx). pose proof (entry_fst _ _ _ Hy). unfold key.
  assert (rank (snd x) <= 2) by (destruct (snd x); simpl; lia). lia.
Qed.
Definition kle (x y : id) : Prop := key x <= key y.
Lemma ssorted_app : forall a b, StronglySorted kle a -> StronglySorted kle b -> (forall x y, In x a -> In y b -> kle x y) -> StronglySorted kle (a ++ b).
Proof.
  induction a as [|x a IH]; simpl; intros b SA SB H; auto. inversion SA; subst. constructor.
  - apply IH; auto.
  - apply Forall_app. split; auto. apply Forall_forall. auto.
Qed.
Lemma ssorted_const : forall a k, (forall x, In x a -> key x = k) -> StronglySorted kle a.
Proof.
  induction a as [|x a IH]; intros k H; constructor.
  - apply (IH k). intros y Hy. apply H. right; auto.
  - apply Forall_forall. intros y Hy. unfold kle. rewrite (H x) by (left; auto). rewrite (H y) by (right; auto). auto.
Qed.
Lemma key_range : forall i s x, In x (threads_of i s) -> 3 * i <= key x < 3 * S i.
Proof.
  intros i s x H. assert (F : fst x = i).
  { destruct s as [k|n kw [| |kc] o|n1 k1 n2 k2]; simpl in H; rewrite ?in_app_iff in H; simpl in H;
      repeat match goal with H : _ \/ _ |- _ => destruct H as [H|H] end; try contradiction; subst; auto;
      try (apply in_wk_inv in H; destruct H as (j & -> & _); auto);
      try (apply in_lw_inv in H; destruct H as (j & -> & _); auto);
      try (apply in_rw_inv in H; destruct H as (j & -> & _); auto). }
  unfold key. rewrite F. assert (rank (snd x) <= 2) by (destruct (snd x); simpl; lia). lia.
Qed.
Lemma wk_key : forall i n x, In x (wk i n) -> key x = 3 * i + 1.
Proof. intros i n x H. apply in_wk_inv in H. destruct H as (j & -> & _). auto. Qed.
Lemma lw_key : forall i n x, In x (lw i n) -> key x = 3 * i + 0.
Proof. intros i n x H. apply in_lw_inv in H. destruct H as (j & -> & _). auto. Qed.
Lemma rw_key : forall i n x, In x (rw i n) -> key x = 3 * i + 1.
Proof. intros i n x H. apply in_rw_inv in H. destruct H as (j & -> & _). auto. Qed.
Lemma threads_of_sorted : forall i s, StronglySorted kle (threads_of i s).
Proof.
  intros i [k|n kw c o|n1 k1 n2 k2].
  - repeat constructor.
  - unfold threads_of. apply ssorted_app; [repeat constructor| |].
    + apply ssorted_app; [apply (ssorted_const _ (3 * i + 1)); apply wk_key|destruct c; repeat constructor|].
      intros x y Hx Hy. unfold kle. rewrite (wk_key _ _ _ Hx). destruct c; simpl in Hy; try contradiction; destruct Hy as [<-|[]]; unfold key; simpl; lia.
    + intros x y [<-|[]] Hy. unfold kle. apply in_app_or in Hy. destruct Hy as [Hy|Hy].
      * rewrite (wk_key _ _ _ Hy). unfold key; simpl; lia.
      * destruct c; simpl in Hy; try contradiction; destruct Hy as [<-|[]]; unfold key; simpl; lia.
  - unfold threads_of. apply ssorted_app; [apply (ssorted_const _ (3 * i + 0)); apply lw_key|apply (ssorted_const _ (3 * i + 1)); apply rw_key|].
    intros x y Hx Hy. unfold kle. rewrite (lw_key _ _ _ Hx), (rw_key _ _ _ Hy). lia.
Qed.
Lemma threads_sorted : forall l, StronglySorted kle (threads l).
Proof.
  intros l. unfold threads. assert (G : forall n b, StronglySorted kle (flat_map (fun i => match nth_error l i with Some s => threads_of i s | None => [] end) (seq b n)) /\
    forall x, In x (flat_map (fun i => match nth_error l i with Some s => threads_of i s | None => [] end) (seq b n)) -> 3 * b <= key x); [|apply G].
  induction n as [|n IH]; simpl; intros b; [split; [constructor|contradiction]|]. destruct (IH (S b)) as [S1 S2]. split.
  - apply ssorted_app; auto.
    + destruct (nth_error l b); [apply threads_of_sorted|constructor].
    + intros x y Hx Hy. apply S2 in Hy. destruct (nth_error l b) as [s|]; [|contradiction]. apply key_range in Hx. unfold kle. lia.
  - intros x Hx. apply in_app_or in Hx. destruct Hx as [Hx|Hx].
    + destruct (nth_error l b) as [s|]; [|contradiction]. apply key_range in Hx. lia.
    + apply S2 in Hx. lia.
Qed.
Lemma threads_order : forall l v w x y, nth_error (threads l) v = Some x -> nth_error (threads l) w = Some y -> key x < key y -> v < w.
Proof.
  intros l v w x y EX EY K. destruct (le_lt_dec w v) as [L|L]; auto. exfalso.
  assert (G : forall m, StronglySorted kle m -> forall w v x y, w <= v -> nth_error m v = Some x -> nth_error m w = Some y -> kle y x).
  { induction m as [|a m IH]; intros SS w' v' x' y' L' E1 E2; [destruct v'; discriminate|]. inversion SS; subst. destruct w' as [|w'].
    - injection E2 as ->. destruct v' as [|v'].
      + injection E1 as ->. unfold kle; lia.
      + simpl in E1. eapply Forall_forall; eauto. eapply nth_error_In; eauto.
    - destruct v' as [|v']; [lia|]. simpl in *. apply (IH H1 w' v'); auto. lia. }
  pose proof (G _ (threads_sorted l) w v x y L EX EY) as Q. unfold kle in Q. lia.
Qed.
Lemma in_threads_l : forall l x, In x (threads l) <-> thread l x.
Proof.
  intros l x. unfold threads. rewrite in_flat_map. split.
  - intros (i & Hi & H). destruct (nth_error l i) as [s|] eqn:ES; [|contradiction]. assert (F : fst x = i).
    { pose proof (key_range _ _ _ H) as K. unfold key in K. assert (rank (snd x) <= 2) by (destruct (snd x); simpl; lia). lia. }
    exists s. rewrite F. auto.
  - intros (s & ES & H). exists (fst x). rewrite ES. split; auto. apply in_seq. assert (fst x < length l) by (apply nth_error_Some; congruence). lia.
Qed.

(** ** The network that runs a wired pipeline *)
Section Net.
  Context {X St : Type}.
  Variables (l : list stage) (h : heap) (B C : nat -> nat) (N : NetModel.net X St).
  Hypothesis FIN : final l h B C.
  Hypothesis RUN : runs l h N.
  Hypothesis WF : NetSpec.wf N.

  Lemma net_edge : forall c k, NetModel.chan_of N c = Some k -> exists x y,
    nth_error (threads l) (NetModel.src k) = Some x /\ nth_error (threads l) (NetModel.dst k) = Some y /\ edge_of l x y.
  Proof using FIN RUN WF.
    intros c k K. destruct RUN as [NN (cid & R)]. destruct (NetSpec.wf_ends _ WF c k K) as [LS LD].
    destruct (nth_error (threads l) (NetModel.src k)) as [x|] eqn:EX; [|apply nth_error_None in EX; lia].
    destruct (nth_error (threads l) (NetModel.dst k)) as [y|] eqn:EY; [|apply nth_error_None in EY; lia].
    assert (TX : thread l x) by (apply in_threads_l; eapply nth_error_In; eauto).
    assert (TY : thread l y) by (apply in_threads_l; eapply nth_error_In; eauto).
    destruct TX as (sx & ESX & HX). destruct TY as (sy & ESY & HY).
    assert (TX : thread l x) by (exists sx; auto). assert (TY : thread l y) by (exists sy; auto).
    destruct (R _ _ _ EX ESX) as [RO _]. destruct (R _ _ _ EY ESY) as [_ RI].
    rewrite (outputs_ok l h B C FIN x sx ESX HX) in RO. rewrite (inputs_ok l h B C FIN y sy ESY HY) in RI.
    assert (CO : In (Some (cid c)) (map (fun y => Some (ch l B C x y)) (succs l x))).
    { rewrite RO. apply in_map_iff. exists c. split; auto. apply NetProofs.in_outs. eauto. }
    assert (CI : In (Some (cid c)) (map (fun p => Some (ch l B C p y)) (preds l y))).
    { rewrite RI. apply in_map_iff. exists c. split; auto. apply NetProofs.in_ins. eauto. }
    apply in_map_iff in CO. destruct CO as (y' & E1 & Hy'). apply in_map_iff in CI. destruct CI as (p & E2 & Hp).
    apply preds_edge in Hp; auto.
    destruct (ch_inj l h B C FIN x y' p y) as [-> ->]; auto.
    - apply (edge_thread _ _ _ Hp).
    - apply edge_succs; auto.
    - congruence.
    - exists p, y. auto.
  Qed.
  Lemma net_acyclic : NetSpec.acyclic N.
  Proof using FIN RUN WF.
    intros c k K. destruct (net_edge c k K) as (x & y & EX & EY & E). apply edge_key in E. eapply threads_order; eauto.
  Qed.
End Net.
