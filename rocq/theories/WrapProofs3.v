(** Feedback and forward channels together. *)
From Coq Require Import List Arith Bool Lia.
From Verif Require Import WireModel WireSpec WireProofs WireProofs2 WireProofs5 WireProofs6 WireProofs7 WireProofs8 WireProps.
From Verif Require Import WrapModel WrapSpec WrapProofs1 WrapProofs2.
Import ListNotations.

Lemma inside_iff : forall x m, inside x m = true <-> In x m.
Proof.
  intros x m. unfold inside. rewrite existsb_exists. split.
  - intros (y & H & E). apply id_eqb_iff in E. subst y. auto.
  - intros H. exists x. split; [auto|]. apply id_eqb_iff. auto.
Qed.
Lemma in_first : forall (m : list id) k y, In y (firstn 1 (skipn k m)) -> In y m /\ nth_error m k = Some y.
Proof.
  intros m k. revert m. induction k as [|k IH]; intros [|a m] y H; simpl in *; try contradiction.
  - destruct H as [<-|[]]; auto.
  - destruct (IH m y H); auto.
Qed.
Lemma fs_entry : forall p c x y, In y (fs p c x) -> In y (entry 0 c).
Proof. intros p c x y H. unfold fs in H. destruct (full p c); auto. apply in_first in H. tauto. Qed.
Lemma fp_exit : forall n p c x y, In x (fp n p c y) -> In x (exit n p).
Proof. intros n p c x y H. unfold fp in H. destruct (full p c); auto. apply in_first in H. tauto. Qed.
Lemma fs_pos : forall n p c x y, In x (exit n p) -> In y (fs p c x) -> pos x < np p /\ pos y < nc c /\
  nth_error (exit n p) (pos x) = Some x /\ nth_error (entry 0 c) (pos y) = Some y.
Proof.
  intros n p c x y Hx Hy. apply fs_entry in Hy. destruct (posd_in _ _ (posd_exit n p) Hx) as [A1 A2].
  destruct (posd_in _ _ (posd_entry 0 c) Hy) as [A3 A4]. rewrite length_exit in A2. rewrite length_entry in A4. auto.
Qed.
Lemma fb_range : forall n p c x y, In x (exit n p) -> In y (fs p c x) -> blab p c 0 x y < bcnt p c.
Proof. intros n p c x y Hx Hy. destruct (fs_pos n p c x y Hx Hy) as (A1 & A2 & _). unfold blab, bcnt. destruct (full p c); nia. Qed.
Lemma fb_inj : forall n p c x y x' y', In x (exit n p) -> In y (fs p c x) -> In x' (exit n p) -> In y' (fs p c x') ->
  blab p c 0 x y = blab p c 0 x' y' -> x = x' /\ y = y'.
Proof.
  intros n p c x y x' y' Hx Hy Hx' Hy' E. destruct (fs_pos n p c x y Hx Hy) as (A1 & A2 & A3 & A4).
  destruct (fs_pos n p c x' y' Hx' Hy') as (A1' & A2' & A3' & A4'). unfold blab in E. destruct (full p c) eqn:F.
  - destruct (mulpos (np p) (pos x) (pos y) (pos x') (pos y')) as [Q1 Q2]; auto; try lia. rewrite Q1 in A3. rewrite Q2 in A4. split; congruence.
  - assert (Q : pos x = pos x') by lia. rewrite Q in A3. assert (x = x') by congruence. subst x'. split; auto.
    unfold fs in Hy, Hy'. rewrite F in Hy, Hy'. apply in_first in Hy, Hy'. destruct Hy as [_ Hy], Hy' as [_ Hy']. congruence.
Qed.
Lemma fs_fp : forall n p c x y, In x (exit n p) -> In y (entry 0 c) -> (In y (fs p c x) <-> In x (fp n p c y)).
Proof.
  intros n p c x y Hx Hy. unfold fs, fp. destruct (full p c); [tauto|].
  destruct (posd_in _ _ (posd_exit n p) Hx) as [A1 A2]. destruct (posd_in _ _ (posd_entry 0 c) Hy) as [A3 A4].
  assert (G : forall (m : list id) k z, nth_error m k = Some z -> firstn 1 (skipn k m) = [z]) by (intros; apply firstn_nth; auto).
  split; intros H; apply in_first in H; destruct H as [_ H].
  - assert (pos y = pos x) by (apply (posd_entry 0 c _ _ H)). rewrite H0, (G _ _ _ A1). left; auto.
  - assert (pos x = pos y) by (apply (posd_exit n p _ _ H)). rewrite H0, (G _ _ _ A3). left; auto.
Qed.

Lemma ends_ex : forall l, 2 <= length l -> exists n p c, ends l = Some (n, p, c) /\ length l = S n /\ 0 < n /\ nth_error l n = Some p /\ nth_error l 0 = Some c.
Proof.
  intros l H. unfold ends. destruct (nth_error l (pred (length l))) as [p|] eqn:E1; [|apply nth_error_None in E1; lia].
  destruct (nth_error l 0) as [c|] eqn:E2; [|apply nth_error_None in E2; lia]. exists (pred (length l)), p, c. repeat split; auto; lia.
Qed.

(** Threads of the last stage: which outputs belong to the feedback. *)
Lemma exit_outS : forall n pl x, In x (exit n pl) -> outS n pl x = true.
Proof.
  intros n pl x. destruct pl as [k|m kw [| |k] o|n1 k1 n2 k2]; simpl; intros H; try (destruct H as [<-|[]]; unfold outS; simpl; rewrite Nat.eqb_refl; auto; fail);
    apply in_map_iff in H; destruct H as (j & <- & _); unfold outS; simpl; rewrite Nat.eqb_refl; auto.
Qed.
Lemma entry_inS : forall c y, In y (entry 0 c) -> inS y = true.
Proof.
  intros c y. destruct c as [k|m kw cc o|n1 k1 n2 k2]; simpl; intros H; try (destruct H as [<-|[]]; auto; fail).
  apply in_map_iff in H. destruct H as (j & <- & _). auto.
Qed.
Lemma thread_outS : forall n pl i s x, (i = n -> s = pl) -> In x (threads_of i s) -> outS n pl x = true -> i = n /\ In x (exit n pl).
Proof.
  intros n pl i s x HS Hx O. unfold outS in O. apply andb_prop in O. destruct O as [O1 O2]. apply Nat.eqb_eq in O1.
  assert (I : i = n).
  { rewrite <- O1. destruct s as [k|m kw c o|n1 k1 n2 k2]; simpl in Hx.
    - destruct Hx as [<-|[]]; auto.
    - destruct Hx as [<-|Hx]; auto. apply in_app_or in Hx. destruct Hx as [Hx|Hx].
      + apply in_map_iff in Hx. destruct Hx as (j & <- & _). auto.
      + destruct c; simpl in Hx; [contradiction| |]; destruct Hx as [<-|[]]; auto.
    - apply in_app_or in Hx. destruct Hx as [Hx|Hx]; apply in_map_iff in Hx; destruct Hx as (j & <- & _); auto. }
  split; auto. specialize (HS I). subst s i. clear O1. destruct pl as [k|m kw c o|n1 k1 n2 k2]; simpl in Hx.
  - destruct Hx as [<-|[]]. left; auto.
  - destruct Hx as [<-|Hx]; [discriminate|]. apply in_app_or in Hx. destruct Hx as [Hx|Hx].
    + pose proof Hx as Hx'. apply in_map_iff in Hx'. destruct Hx' as (j & <- & _). simpl in O2. destruct c; try discriminate. simpl. auto.
    + destruct c; simpl in Hx; [contradiction| |]; destruct Hx as [<-|[]]; simpl; auto.
  - apply in_app_or in Hx. destruct Hx as [Hx|Hx]; [|simpl; auto]. apply in_map_iff in Hx. destruct Hx as (j & <- & _). discriminate.
Qed.
Lemma thread_inS : forall c i s x, (i = 0 -> s = c) -> In x (threads_of i s) -> inS x = true -> i = 0 /\ In x (entry 0 c).
Proof.
  intros c i s x HS Hx O. unfold inS in O. apply andb_prop in O. destruct O as [O1 O2]. apply Nat.eqb_eq in O1.
  assert (I : i = 0).
  { rewrite <- O1. destruct s as [k|m kw cc o|n1 k1 n2 k2]; simpl in Hx.
    - destruct Hx as [<-|[]]; auto.
    - destruct Hx as [<-|Hx]; auto. apply in_app_or in Hx. destruct Hx as [Hx|Hx].
      + apply in_map_iff in Hx. destruct Hx as (j & <- & _). auto.
      + destruct cc; simpl in Hx; [contradiction| |]; destruct Hx as [<-|[]]; auto.
    - apply in_app_or in Hx. destruct Hx as [Hx|Hx]; apply in_map_iff in Hx; destruct Hx as (j & <- & _); auto. }
  split; auto. specialize (HS I). subst s i. clear O1. destruct c as [k|m kw cc o|n1 k1 n2 k2]; simpl in Hx.
  - destruct Hx as [<-|[]]. left; auto.
  - destruct Hx as [<-|Hx]; [left; auto|]. apply in_app_or in Hx. destruct Hx as [Hx|Hx].
    + apply in_map_iff in Hx. destruct Hx as (j & <- & _). discriminate.
    + destruct cc; simpl in Hx; [contradiction| |]; destruct Hx as [<-|[]]; discriminate.
  - apply in_app_or in Hx. destruct Hx as [Hx|Hx]; [simpl; auto|]. apply in_map_iff in Hx. destruct Hx as (j & <- & _). discriminate.
Qed.
Lemma exit_kind : forall i s x, In x (exit i s) -> out_kind s (snd x) = exit_mo s.
Proof.
  intros i [k|m kw [| |k] o|n1 k1 n2 k2] x; simpl; intros H; try (destruct H as [<-|[]]; auto; fail);
    apply in_map_iff in H; destruct H as (j & <- & _); auto.
Qed.
Lemma entry_kind : forall i s x, In x (entry i s) -> in_kind s (snd x) = entry_mi s.
Proof.
  intros i [k|m kw c o|n1 k1 n2 k2] x; simpl; intros H; try (destruct H as [<-|[]]; auto; fail);
    apply in_map_iff in H; destruct H as (j & <- & _); auto.
Qed.

Definition oequiv (n : nat) (pl : stage) (w : heap) (o : option heap) (o' : option heap) : Prop := orel w n pl o o'.

(** prepare with wrap_around: outcome, and relation with prepare without. *)
Lemma wrap_wire_spec : forall l, Forall ordered_coll l ->
  if wrappable l then
    exists w h h' n p c, wrap_wire l = Some (w, h') /\ wire l = Some h /\ ends l = Some (n, p, c) /\ length l = S n /\ 0 < n /\
      nth_error l n = Some p /\ nth_error l 0 = Some c /\ fdone n p c w /\ R w n p h h'
  else wrap_wire l = None.
Proof.
  intros l OC. unfold wrappable. destruct (Nat.leb_spec 2 (length l)) as [L|L].
  2:{ simpl. destruct l as [|a [|b l]]; simpl in *; auto. lia. }
  destruct (ends_ex l L) as (n & p & c & EN & LL & N0 & EP & EC). rewrite EN. cbn [andb].
  pose proof (wire_spec l OC) as W.
  assert (OP : ordered_coll p) by (eapply Forall_forall; [exact OC|eapply nth_error_In; eauto]).
  destruct l as [|c' [|b l']]; simpl in L; try lia. simpl in EC. injection EC as <-. set (t := b :: l') in *. assert (LT : length t = n) by (simpl in LL; simpl; lia).
  assert (E : wrap_wire (c' :: t) = if forallb populated (c' :: t) then
        match wrap n p c' heap0 with
        | None => None
        | Some w => match bind (connect_all 0 c' t (forward0 w)) (prep_all 0 (c' :: t)) with Some h => Some (w, h) | None => None end
        end else None).
  { unfold wrap_wire, t. fold t. rewrite LT. rewrite EP. auto. }
  rewrite E. clear E. unfold wire in W. destruct (forallb populated (c' :: t)) eqn:PO.
  2:{ destruct (connectable (c' :: t)); [|reflexivity]. destruct W as (h & B & C & F & _). discriminate. }
  assert (PP : populated p = true) by (eapply forallb_forall; [exact PO|eapply nth_error_In; eauto]).
  assert (PC : populated c' = true) by (eapply forallb_forall; [exact PO|left; auto]).
  pose proof (wrap_form n p c' PP PC OP) as WF. destruct (wrap_ok p c') eqn:WO.
  - destruct WF as (w & EW & D). rewrite EW, andb_true_r.
    assert (RR : orel w n p (bind (connect_all 0 c' t heap0) (prep_all 0 (c' :: t))) (bind (connect_all 0 c' t (forward0 w)) (prep_all 0 (c' :: t)))).
    { apply orel_bind.
      - apply (r_connect_all (c' :: t)); auto; [lia|]. destruct D as (_ & _ & KO & KI). apply (R0 (c' :: t)); auto.
        + intros x Hx. apply (KI x). intros A. apply entry_inS in A. congruence.
        + intros x Hx. apply (KO x). intros A. apply in_app_or in A. destruct A as [A|[<-|[]]]; [apply exit_outS in A; congruence|].
          unfold outS in Hx. simpl in Hx. rewrite Nat.eqb_refl in Hx. discriminate.
      - intros h1 h1' R1. apply (r_prep_all (c' :: t)); auto. }
    destruct (connectable (c' :: t)).
    + destruct W as (h & B & C & EH & F). rewrite EH in *. cbn [orel] in RR.
      destruct (bind (connect_all 0 c' t (forward0 w)) (prep_all 0 (c' :: t))) as [h'|]; [|contradiction].
      exists w, h, h', n, p, c'. split; [auto|]. split; [unfold wire; rewrite PO; exact EH|]. repeat (split; [solve [auto]|]). auto.
    + rewrite W in RR. cbn [orel] in RR. destruct (bind (connect_all 0 c' t (forward0 w)) (prep_all 0 (c' :: t))); [contradiction|auto].
  - rewrite WF, andb_false_r. auto.
Qed.

Lemma map_shift : forall k (f : id -> nat) m, map (sh k) (map (fun y => Some (f y)) m) = map (fun y => Some (nb k + f y)) m.
Proof. intros. rewrite map_map. auto. Qed.

Section Both.
  Variables (l : list stage) (w h h' : heap) (n : nat) (p c : stage) (ch : id -> id -> nat).
  Hypothesis EN : ends l = Some (n, p, c).
  Hypothesis LL : length l = S n.
  Hypothesis N0 : 0 < n.
  Hypothesis EP : nth_error l n = Some p.
  Hypothesis EC : nth_error l 0 = Some c.
  Hypothesis D : fdone n p c w.
  Hypothesis MC : is_mocoll p = false.
  Hypothesis RR : R w n p h h'.
  Hypothesis CH : forall x s, nth_error l (fst x) = Some s -> In x (threads_of (fst x) s) ->
      outputs s h x = map (fun y => Some (ch x y)) (succs l x) /\ inputs s h x = map (fun y => Some (ch y x)) (preds l x).

  Let hyb : heap := mkHeap 0 (nin h') (nout h') (inN w) (outN w).
  Lemma hyb_bundle : bundle (exit n p) (entry 0 c) [(n, Obj)] (exit_mo p) (entry_mi c) (blab p c 0) (fs p c) (fp n p c) hyb.
  Proof using D MC RR.
    destruct D as (FB & _). specialize (FB MC). eapply bundle_frame; [| |exact FB].
    - intros x Hx. simpl. split; [|auto]. rewrite (Rnout _ _ _ _ _ RR).
      assert (O : outS n p x = true).
      { apply in_app_or in Hx. destruct Hx as [Hx|[<-|[]]]; [apply exit_outS; auto|]. unfold outS. simpl. rewrite Nat.eqb_refl. auto. }
      rewrite O. auto.
    - intros y Hy. simpl. split; [|auto]. rewrite (Rnin _ _ _ _ _ RR), (entry_inS _ _ Hy). auto.
  Qed.

  Lemma fwd_out : forall x, map (refin h') (outN h' x) = map (sh w) (map (refin h) (outN h x)).
  Proof using RR.
    intros x. rewrite (Rout _ _ _ _ _ RR), !map_map. apply map_ext_in. intros r Hr. apply R_refin with (1 := RR). intros z ->. eapply (Rro _ _ _ _ _ RR); eauto.
  Qed.
  Lemma fwd_in : forall x, map (refout h') (inN h' x) = map (sh w) (map (refout h) (inN h x)).
  Proof using RR.
    intros x. rewrite (Rin _ _ _ _ _ RR), !map_map. apply map_ext_in. intros r Hr. apply R_refout with (1 := RR). intros z ->. eapply (Rri _ _ _ _ _ RR); eauto.
  Qed.

  Lemma last_succs : forall x, In x (exit n p) -> succs l x = [].
  Proof using EP LL N0.
    intros x Hx. pose proof (exit_fst _ _ _ Hx) as FX. unfold succs. rewrite FX, EP.
    assert (A : after l n p x = []).
    { unfold after. destruct (nth_error l (S n)) eqn:E; auto. assert (S n < length l) by (apply nth_error_Some; congruence). lia. }
    clear - Hx A. destruct p as [k0|m kw [| |k0] o|n1 k1 n2 k2]; simpl in Hx; try (destruct Hx as [<-|[]]; simpl in *; auto; fail);
      apply in_map_iff in Hx; destruct Hx as (j & <- & _); simpl in *; auto.
  Qed.
  Lemma first_preds : forall y, In y (entry 0 c) -> preds l y = [].
  Proof using EC.
    intros y Hy. pose proof (entry_fst _ _ _ Hy) as FY. unfold preds. rewrite FY, EC. clear - Hy.
    destruct c as [k0|m kw cc o|n1 k1 n2 k2]; simpl in Hy; try (destruct Hy as [<-|[]]; simpl in *; auto; fail);
      apply in_map_iff in Hy; destruct Hy as (j & <- & _); simpl in *; auto.
  Qed.

  Definition fwd (x y : id) : nat := nb w + ch x y.
  Definition bwd (x y : id) : nat := blab p c 0 x y.

  Lemma both_out : forall x s, nth_error l (fst x) = Some s -> In x (threads_of (fst x) s) ->
    woutputs s w h' x = map (fun y => Some (bwd x y)) (fsuccs l x) ++ map (fun y => Some (fwd x y)) (succs l x).
  Proof using EN LL N0 EP D MC RR CH.
    intros x s ES Hx. destruct (CH x s ES Hx) as [CO _]. unfold fsuccs. rewrite EN. destruct (inside x (exit n p)) eqn:IX.
    - apply inside_iff in IX. pose proof (exit_fst _ _ _ IX) as FX. assert (s = p) by (rewrite FX in ES; congruence). subst s.
      rewrite (last_succs x IX) in *. simpl in CO. rewrite app_nil_r. destruct hyb_bundle as [BX _]. destruct (BX x IX) as [W _].
      unfold bwd. unfold fs in W. rewrite <- W. unfold woutputs, writes. rewrite (exit_kind _ _ _ IX). unfold outputs, writes in CO. rewrite (exit_kind _ _ _ IX) in CO.
      destruct (exit_mo p); auto. rewrite fwd_out, CO. simpl. rewrite app_nil_r. apply map_ext. intros [z|b]; auto.
    - assert (NX : ~ In x (exit n p)) by (intros A; apply inside_iff in A; congruence). simpl.
      assert (O : outS n p x = false).
      { destruct (outS n p x) eqn:O; auto. exfalso. apply NX. destruct (thread_outS n p (fst x) s x) as [_ Q]; auto. intros E. rewrite E in ES. congruence. }
      assert (XO : x <> (n, Obj)).
      { intros ->. unfold outS in O. simpl in O. rewrite Nat.eqb_refl in O. discriminate. }
      destruct D as (_ & _ & KO & _). destruct (KO x) as [_ K2]; [intros A; apply in_app_or in A; destruct A as [A|[A|[]]]; [auto|congruence]|]. simpl in K2.
      unfold woutputs. rewrite K2. simpl. unfold outputs, writes in CO. unfold fwd, k in *. rewrite <- (map_shift w), <- CO. destruct (out_kind s (snd x)); [apply fwd_out|].
      rewrite (Rnout _ _ _ _ _ RR), O. destruct (nout h x); auto.
  Qed.
  Lemma both_in : forall x s, nth_error l (fst x) = Some s -> In x (threads_of (fst x) s) ->
    winputs s w h' x = map (fun y => Some (bwd y x)) (fpreds l x) ++ map (fun y => Some (fwd y x)) (preds l x).
  Proof using EN EC D MC RR CH.
    intros x s ES Hx. destruct (CH x s ES Hx) as [_ CO]. unfold fpreds. rewrite EN. destruct (inside x (entry 0 c)) eqn:IX.
    - apply inside_iff in IX. pose proof (entry_fst _ _ _ IX) as FX. assert (s = c) by (rewrite FX in ES; congruence). subst s.
      rewrite (first_preds x IX) in *. simpl in CO. rewrite app_nil_r. destruct hyb_bundle as [_ BX]. destruct (BX x IX) as [W _].
      unfold bwd. unfold fp in W. rewrite <- W. unfold winputs, reads. rewrite (entry_kind _ _ _ IX). unfold inputs, reads in CO. rewrite (entry_kind _ _ _ IX) in CO.
      destruct (entry_mi c); auto. rewrite fwd_in, CO. simpl. rewrite app_nil_r. apply map_ext. intros [z|b]; auto.
    - assert (NX : ~ In x (entry 0 c)) by (intros A; apply inside_iff in A; congruence). simpl.
      assert (O : inS x = false).
      { destruct (inS x) eqn:O; auto. exfalso. apply NX. destruct (thread_inS c (fst x) s x) as [_ Q]; auto. intros E. rewrite E in ES. congruence. }
      destruct D as (_ & _ & _ & KI). destruct (KI x NX) as [_ K2]. simpl in K2.
      unfold winputs. rewrite K2. simpl. unfold inputs, reads in CO. unfold fwd, k in *. rewrite <- (map_shift w), <- CO. destruct (in_kind s (snd x)); [apply fwd_in|].
      rewrite (Rnin _ _ _ _ _ RR), O. destruct (nin h x); auto.
  Qed.
End Both.
