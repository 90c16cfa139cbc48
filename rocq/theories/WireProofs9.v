(** Every wired pipeline is run by a network, whatever the code of its nodes. *)
From Coq Require Import List Arith Bool Lia.
From Verif Require Import Base WireModel WireSpec WireProofs WireProofs2 WireProofs3 WireProofs4 WireProofs5 WireProofs6 WireProofs7 WireProofs8.
From Verif Require NetModel.
Import ListNotations.

Definition infix {T} (m t : list T) : Prop := exists a b, t = a ++ m ++ b.
Lemma infix_refl : forall T (m : list T), infix m m.
Proof. intros. exists [], []. rewrite app_nil_r. auto. Qed.
Lemma infix_trans : forall T (a b c : list T), infix a b -> infix b c -> infix a c.
Proof. intros T a b c (x & y & ->) (u & v & ->). exists (u ++ x), (y ++ v). rewrite <- !app_assoc. auto. Qed.
Lemma infix_nil : forall T (m : list T), infix [] m.
Proof. intros. exists [], m. auto. Qed.
Lemma infix_first : forall T n k (m : list T), infix (firstn n (skipn k m)) m.
Proof. intros. exists (firstn k m), (skipn n (skipn k m)). rewrite firstn_skipn, firstn_skipn. auto. Qed.

Lemma exit_infix : forall i s, infix (exit i s) (threads_of i s).
Proof.
  intros i [k|n kw [| |kc] o|n1 k1 n2 k2]; simpl.
  - apply infix_refl.
  - exists [(i, Em)], []. auto.
  - exists ((i, Em) :: wk i n), []. auto.
  - exists ((i, Em) :: wk i n), []. auto.
  - exists (lw i n1), []. rewrite app_nil_r. auto.
Qed.
Lemma entry_infix : forall i s, infix (entry i s) (threads_of i s).
Proof.
  intros i [k|n kw c o|n1 k1 n2 k2]; simpl.
  - apply infix_refl.
  - eexists [], _. simpl. reflexivity.
  - exists [], (rw i n2). auto.
Qed.
Lemma stage_infix : forall l i s, nth_error l i = Some s -> infix (threads_of i s) (threads l).
Proof.
  intros l i s E. assert (L : i < length l) by (apply nth_error_Some; congruence). unfold threads.
  replace (length l) with (i + S (length l - S i)) by lia. rewrite seq_app, flat_map_app. simpl. rewrite E. eexists _, _. reflexivity.
Qed.
Lemma succs_infix : forall l x, thread l x -> infix (succs l x) (threads l).
Proof.
  intros l x (s & ES & Hx). assert (A : infix (after l (fst x) s x) (threads l)).
  { unfold after. destruct (nth_error l (S (fst x))) as [c|] eqn:EC; [|apply infix_nil].
    assert (G : infix (entry (S (fst x)) c) (threads l)) by (eapply infix_trans; [apply entry_infix|apply stage_infix; auto]).
    destruct (full s c); auto. eapply infix_trans; [apply infix_first|auto]. }
  assert (T : infix (threads_of (fst x) s) (threads l)) by (apply stage_infix; auto).
  unfold succs. rewrite ES. destruct s as [k|n kw c o|n1 k1 n2 k2]; [auto| |].
  - destruct (snd x) eqn:R; try (destruct c; exact A).
    + assert (G : infix (wk (fst x) n) (threads l)); [|destruct c; exact G].
      eapply infix_trans; [|exact T]. exists [(fst x, Em)]. eexists. reflexivity.
    + destruct c; auto; (eapply infix_trans; [|exact T]); exists ((fst x, Em) :: wk (fst x) n), []; auto.
  - destruct (snd x) eqn:R; auto. eapply infix_trans; [|exact T]. exists (lw (fst x) n1), []. rewrite app_nil_r. auto.
Qed.
Lemma preds_infix : forall l x, thread l x -> infix (preds l x) (threads l).
Proof.
  intros l x (s & ES & Hx). assert (A : infix (before l (fst x) s x) (threads l)).
  { unfold before. destruct (fst x) as [|i]; [apply infix_nil|]. destruct (nth_error l i) as [c|] eqn:EC; [|apply infix_nil].
    assert (G : infix (exit i c) (threads l)) by (eapply infix_trans; [apply exit_infix|apply stage_infix; auto]).
    destruct (full c s); auto. eapply infix_trans; [apply infix_first|auto]. }
  assert (T : infix (threads_of (fst x) s) (threads l)) by (apply stage_infix; auto).
  unfold preds. rewrite ES. destruct s as [k|n kw c o|n1 k1 n2 k2]; [auto| |].
  - destruct (snd x) eqn:R; auto.
    + eapply infix_trans; [|exact T]. exists []. eexists. reflexivity.
    + eapply infix_trans; [|exact T]. exists [(fst x, Em)]. eexists. reflexivity.
  - destruct (snd x) eqn:R; auto. eapply infix_trans; [|exact T]. exists [], (rw (fst x) n2). auto.
Qed.

(** ** No thread twice *)
Lemma threads_of_nodup : forall i s, NoDup (threads_of i s).
Proof.
  assert (AP : forall a b : list id, NoDup a -> NoDup b -> (forall x, In x a -> In x b -> False) -> NoDup (a ++ b)).
  { induction a as [|x a IH]; simpl; intros b NA NB H; auto. inversion NA; subst. constructor.
    - rewrite in_app_iff. intros [Q|Q]; [auto|apply (H x); auto].
    - apply IH; auto. intros y Y1 Y2. apply (H y); auto. }
  intros i [k|n kw c o|n1 k1 n2 k2]; unfold threads_of.
  - repeat constructor; auto.
  - apply AP.
    + repeat constructor; auto.
    + apply AP; [apply posd_nodup, posd_wk|destruct c; repeat constructor; auto|].
      intros x Hx Hy. apply in_wk_inv in Hx. destruct Hx as (j & -> & _). destruct c; simpl in Hy; try contradiction; destruct Hy as [E|[]]; discriminate.
    + intros x [<-|[]] Hy. apply in_app_or in Hy. destruct Hy as [Hy|Hy].
      * apply in_wk_inv in Hy. destruct Hy as (j & E & _). discriminate.
      * destruct c; simpl in Hy; try contradiction; destruct Hy as [E|[]]; discriminate.
  - apply AP; [apply posd_nodup, posd_lw|apply posd_nodup, posd_rw|].
    intros x Hx Hy. apply in_lw_inv in Hx. destruct Hx as (j & -> & _). apply in_rw_inv in Hy. destruct Hy as (j' & E & _). discriminate.
Qed.
Lemma threads_nodup : forall l, NoDup (threads l).
Proof.
  intros l. unfold threads. assert (G : forall n b, NoDup (flat_map (fun i => match nth_error l i with Some s => threads_of i s | None => [] end) (seq b n)) /\
    forall x, In x (flat_map (fun i => match nth_error l i with Some s => threads_of i s | None => [] end) (seq b n)) -> b <= fst x); [|apply G].
  assert (F : forall i s x, In x (threads_of i s) -> fst x = i).
  { intros i s x H. pose proof (key_range _ _ _ H) as K. unfold key in K. assert (rank (snd x) <= 2) by (destruct (snd x); simpl; lia). lia. }
  induction n as [|n IH]; simpl; intros b; [split; [constructor|contradiction]|]. destruct (IH (S b)) as [S1 S2]. split.
  - destruct (nth_error l b) as [s|]; [|exact S1]. pose proof (threads_of_nodup b s) as ND. revert ND. generalize (F b s). induction (threads_of b s) as [|a m IHm]; simpl; intros Hm ND; auto.
    inversion ND; subst. constructor.
    + rewrite in_app_iff. intros [Q|Q]; [auto|]. apply S2 in Q. rewrite (Hm a) in Q by auto. lia.
    + apply IHm; auto.
  - intros x Hx. apply in_app_or in Hx. destruct Hx as [Hx|Hx].
    + destruct (nth_error l b) as [s|]; [|contradiction]. apply F in Hx. lia.
    + apply S2 in Hx. lia.
Qed.

Definition id_eqd : forall x y : id, {x = y} + {x <> y}.
Proof. intros [i r] [j q]. destruct (Nat.eq_dec i j) as [->|N]; [|right; congruence].
  destruct r, q; try (left; congruence); try (right; congruence);
    destruct (Nat.eq_dec j0 j1); first [left; congruence|right; congruence].
Defined.
Definition idb (x y : id) : bool := if id_eqd x y then true else false.
Definition inb (x : id) (m : list id) : bool := existsb (idb x) m.
Lemma inb_in : forall x m, inb x m = true <-> In x m.
Proof.
  intros x m. unfold inb. rewrite existsb_exists. split.
  - intros (y & H & E). unfold idb in E. destruct (id_eqd x y); [subst; auto|discriminate].
  - intros H. exists x. split; auto. unfold idb. destruct (id_eqd x x); auto.
Qed.
Lemma filter_infix : forall t m, NoDup t -> infix m t -> filter (fun x => inb x m) t = m.
Proof.
  intros t m ND (a & b & ->).
  assert (FN : forall q, (forall x, In x q -> ~ In x m) -> filter (fun x => inb x m) q = []).
  { induction q as [|x q IH]; simpl; intros H; auto. destruct (inb x m) eqn:E; [apply inb_in in E; exfalso; apply (H x); auto|]. apply IH. intros y Hy. apply H; auto. }
  assert (FA : forall q, (forall x, In x q -> In x m) -> filter (fun x => inb x m) q = q).
  { induction q as [|x q IH]; simpl; intros H; auto. rewrite (proj2 (inb_in x m)) by auto. f_equal. apply IH. auto. }
  rewrite !filter_app, (FA m), (FN a), (FN b).
  - simpl. apply app_nil_r.
  - intros x Hx Hm. clear FN FA. induction a as [|y a IH]; simpl in ND.
    + revert Hm ND. clear -Hx. induction m as [|z m IH]; simpl; intros Hm ND; [contradiction|]. inversion ND; subst. destruct Hm as [->|Hm]; [|auto].
      apply H1. apply in_or_app. auto.
    + inversion ND; subst. auto.
  - intros x Hx Hm. clear FN FA. induction a as [|y a IH]; simpl in *; [contradiction|]. inversion ND; subst. destruct Hx as [->|Hx]; [|auto].
    apply H1. apply in_or_app. right. apply in_or_app. auto.
  - auto.
Qed.

(** ** The network *)
Section Build.
  Context {X St : Type}.
  Variables (l : list stage) (cp : nat -> nat -> option nat) (start : nat -> St)
    (boot : nat -> list (list (NetModel.req X))) (svc : nat -> St -> nat -> X -> St * list (list (NetModel.req X)) * bool)
    (eosn : nat -> St -> nat -> St * list (list (NetModel.req X))).

  Definition thr (v : nat) : id := nth v (threads l) (0, Obj).
  Definition linked (v w : nat) : bool := inb (thr w) (succs l (thr v)).
  Definition size : nat := length (threads l).
  (** One channel for every pair of threads where the first sends to the second, in order. *)
  Definition net_chans : list NetModel.chan :=
    flat_map (fun v => map (fun w => NetModel.mkChan v w (cp v w)) (filter (linked v) (seq 0 size))) (seq 0 size).
  Definition net_of : NetModel.net X St := NetModel.mkNet size net_chans start boot svc eosn.

  Lemma map_filter : forall (T U : Type) (f : T -> U) (p : U -> bool) m, map f (filter (fun x => p (f x)) m) = filter p (map f m).
  Proof using Type. induction m as [|x m IH]; simpl; auto. destruct (p (f x)); simpl; congruence. Qed.
  Lemma nth_seq : forall T (d : T) m, map (fun c => nth c m d) (seq 0 (length m)) = m.
  Proof using Type.
    intros T d m. induction m as [|x m IH]; simpl; auto. f_equal. rewrite <- seq_shift, map_map. exact IH.
  Qed.
  Lemma filter_map_comm : forall (T U : Type) (f : T -> U) (p : U -> bool) m, filter p (map f m) = map f (filter (fun x => p (f x)) m).
  Proof using Type. intros. symmetry. apply map_filter. Qed.

  Definition dk : NetModel.chan := NetModel.mkChan 0 0 None.
  Definition chan_at (c : nat) : NetModel.chan := nth c net_chans dk.
  Lemma select_chans : forall p : NetModel.chan -> bool,
    map chan_at (filter (fun c => match NetModel.chan_of net_of c with Some k => p k | None => false end) (seq 0 (length net_chans))) = filter p net_chans.
  Proof using Type.
    intros p. transitivity (map chan_at (filter (fun c => p (chan_at c)) (seq 0 (length net_chans)))).
    - f_equal. apply filter_ext_in. intros c Hc. apply in_seq in Hc. unfold NetModel.chan_of. simpl.
      unfold chan_at. rewrite (nth_error_nth' _ dk); [reflexivity|lia].
    - rewrite (map_filter _ _ chan_at p). unfold chan_at. rewrite nth_seq. auto.
  Qed.
  Lemma filter_none : forall T (p : T -> bool) m, (forall x, In x m -> p x = false) -> filter p m = [].
  Proof using Type. induction m as [|x m IH]; simpl; intros H; auto. rewrite H by auto. apply IH. auto. Qed.
  Lemma filter_all : forall T (p : T -> bool) m, (forall x, In x m -> p x = true) -> filter p m = m.
  Proof using Type. induction m as [|x m IH]; simpl; intros H; auto. rewrite H by auto. f_equal. apply IH. auto. Qed.

  Lemma outs_chans : forall v, v < size -> filter (fun k => NetModel.src k =? v) net_chans = map (fun w => NetModel.mkChan v w (cp v w)) (filter (linked v) (seq 0 size)).
  Proof using Type.
    intros v Hv. unfold net_chans.
    assert (G : forall m, m = seq 0 v ++ v :: seq (S v) (size - S v) ->
      filter (fun k => NetModel.src k =? v) (flat_map (fun v => map (fun w => NetModel.mkChan v w (cp v w)) (filter (linked v) (seq 0 size))) m) =
      map (fun w => NetModel.mkChan v w (cp v w)) (filter (linked v) (seq 0 size))).
    2: { apply G. transitivity (seq 0 (v + S (size - S v))); [f_equal; lia|rewrite seq_app; auto]. }
    intros m ->. rewrite flat_map_app. simpl. rewrite !filter_app. rewrite (filter_none _ _ (flat_map _ (seq 0 v))), (filter_none _ _ (flat_map _ (seq (S v) _))).
    - simpl. rewrite app_nil_r. apply filter_all. intros k Hk. apply in_map_iff in Hk. destruct Hk as (w & <- & _). simpl. apply Nat.eqb_refl.
    - intros k Hk. apply in_flat_map in Hk. destruct Hk as (u & Hu & Hk). apply in_map_iff in Hk. destruct Hk as (w & <- & _). simpl. apply in_seq in Hu. apply Nat.eqb_neq. lia.
    - intros k Hk. apply in_flat_map in Hk. destruct Hk as (u & Hu & Hk). apply in_map_iff in Hk. destruct Hk as (w & <- & _). simpl. apply in_seq in Hu. apply Nat.eqb_neq. lia.
  Qed.
  Lemma filter_filter_eq : forall (p : nat -> bool) n w, w < n -> filter (fun u => u =? w) (filter p (seq 0 n)) = if p w then [w] else [].
  Proof using Type.
    intros p n w Hw. replace (seq 0 n) with (seq 0 w ++ w :: seq (S w) (n - S w)).
    2: { transitivity (seq 0 (w + S (n - S w))); [rewrite seq_app; auto|f_equal; lia]. }
    rewrite filter_app. simpl. rewrite filter_app. rewrite (filter_none _ _ (filter p (seq 0 w))).
    - destruct (p w); simpl; rewrite ?Nat.eqb_refl; rewrite (filter_none _ _ (filter p (seq (S w) _))); auto;
        intros u Hu; apply filter_In in Hu; destruct Hu as [Hu _]; apply in_seq in Hu; apply Nat.eqb_neq; lia.
    - intros u Hu; apply filter_In in Hu; destruct Hu as [Hu _]; apply in_seq in Hu; apply Nat.eqb_neq; lia.
  Qed.
  Lemma ins_chans : forall w, w < size -> filter (fun k => NetModel.dst k =? w) net_chans = map (fun v => NetModel.mkChan v w (cp v w)) (filter (fun v => linked v w) (seq 0 size)).
  Proof using Type.
    intros w Hw. unfold net_chans.
    assert (G : forall m, filter (fun k => NetModel.dst k =? w) (flat_map (fun v => map (fun w => NetModel.mkChan v w (cp v w)) (filter (linked v) (seq 0 size))) m) =
      map (fun v => NetModel.mkChan v w (cp v w)) (filter (fun v => linked v w) m)); [|apply G].
    intros m. induction m as [|v m IH]; simpl; auto.
    rewrite filter_app, IH. rewrite filter_map_comm. simpl.
    rewrite (filter_filter_eq (linked v) size w Hw). destruct (linked v w); auto.
  Qed.

  Lemma thr_nth : forall v x, nth_error (threads l) v = Some x -> thr v = x.
  Proof using Type. intros v x E. unfold thr. erewrite nth_error_nth; eauto. Qed.
  Lemma linked_succs : forall v x, nth_error (threads l) v = Some x -> map thr (filter (linked v) (seq 0 size)) = succs l x.
  Proof using Type.
    intros v x E. unfold linked. rewrite (thr_nth v x E). rewrite (map_filter _ _ thr (fun y => inb y (succs l x))).
    unfold thr, size. rewrite nth_seq. apply filter_infix; [apply threads_nodup|]. apply succs_infix. apply in_threads_l. eapply nth_error_In; eauto.
  Qed.
  Lemma linked_preds : forall w y, nth_error (threads l) w = Some y -> map thr (filter (fun v => linked v w) (seq 0 size)) = preds l y.
  Proof using Type.
    intros w y E. unfold linked. rewrite (thr_nth w y E). rewrite (map_filter _ _ thr (fun x => inb y (succs l x))).
    assert (TY : thread l y) by (apply in_threads_l; eapply nth_error_In; eauto).
    unfold thr, size. rewrite nth_seq. transitivity (filter (fun x => inb x (preds l y)) (threads l)).
    - apply filter_ext_in. intros x Hx. apply in_threads_l in Hx. destruct (inb y (succs l x)) eqn:E1; symmetry.
      + apply inb_in. apply inb_in in E1. apply succs_preds_both. auto.
      + destruct (inb x (preds l y)) eqn:E2; auto. apply inb_in in E2. assert (In y (succs l x)) as Q by (apply succs_preds_both; auto).
        apply inb_in in Q. congruence.
    - apply filter_infix; [apply threads_nodup|]. apply preds_infix; auto.
  Qed.

  Lemma net_runs : forall h B C, final l h B C -> runs l h net_of.
  Proof using Type.
    intros h B C FIN. split; [reflexivity|]. exists (fun c => ch l B C (thr (NetModel.src (chan_at c))) (thr (NetModel.dst (chan_at c)))).
    intros v x s E ES. assert (Hv : v < size) by (apply nth_error_Some; congruence).
    assert (Hx : In x (threads_of (fst x) s)).
    { assert (T : thread l x) by (apply in_threads_l; eapply nth_error_In; eauto). destruct T as (s' & ES' & Hx). congruence. }
    rewrite (outputs_ok l h B C FIN x s ES Hx), (inputs_ok l h B C FIN x s ES Hx). split.
    - rewrite <- (linked_succs v x E). rewrite map_map.
      transitivity (map (fun k => Some (ch l B C (thr (NetModel.src k)) (thr (NetModel.dst k)))) (map chan_at (NetModel.outs net_of v))).
      + unfold NetModel.outs. change (NetModel.chans net_of) with net_chans. rewrite (select_chans (fun k => NetModel.src k =? v)), outs_chans by auto.
        rewrite map_map. simpl. rewrite (thr_nth v x E). auto.
      + rewrite map_map. auto.
    - rewrite <- (linked_preds v x E). rewrite map_map.
      transitivity (map (fun k => Some (ch l B C (thr (NetModel.src k)) (thr (NetModel.dst k)))) (map chan_at (NetModel.ins net_of v))).
      + unfold NetModel.ins. change (NetModel.chans net_of) with net_chans. rewrite (select_chans (fun k => NetModel.dst k =? v)), ins_chans by auto.
        rewrite map_map. simpl. rewrite (thr_nth v x E). auto.
      + rewrite map_map. auto.
  Qed.
End Build.
