From Coq Require Import List Arith Bool Lia.
From Verif Require Import Base UTsoModel UTsoSpec UTsoProofs.
Import ListNotations.

Section Proofs.
Variable n : nat.

Definition fetch (c : cpc) : option nat := match c with CRst g | CRel g | CSet g => Some g | _ => None end.
Definition first (c : cpc) (r : nat) : nat := match fetch c with Some g => g | None => r end.
Definition oldc (c : cpc) (r : nat) : list nat := match c with CRst _ | CRel _ => [r] | _ => [] end.
Definition cur (c : cpc) (r : nat) : list nat := match c with CSet _ => [] | _ => [r] end.
Definition cur2 (c : cpc) (r : nat) : list nat := match c with CRel _ => [r] | _ => [] end.
Definition heldc (c : cpc) : list item := match c with CUse x => [x] | _ => [] end.
Definition incall (c : cpc) : Prop := match c with CIdle | CUse _ => False | _ => True end.
Definition heldp (p : ppc) : list nat := match p with PInit _ g | PLink _ g => [g] | _ => [] end.
Definition readyp (p : ppc) : list nat := match p with PLink _ g => [g] | _ => [] end.
Definition linkp (p : ppc) : list nat := match p with PSet _ g => [g] | _ => [] end.
Definition bp (p : ppc) : Prop := match p with PTake _ | PInit _ _ | PLink _ _ | PSet _ _ => True | _ => False end.

(** The segments the consumer can reach, all linked segments, all segments. *)
Definition vchain (s : st) : list nat := first (cp s) (bufr s) :: inuse s.
Definition chain (s : st) : list nat := vchain s ++ links (pbuf s).
Definition own (s : st) (g : nat) : nat :=
  cc (vchain s) g + cc (links (pbuf s)) g + cc (pcache s) g + cc (gives (cbuf s)) g + cc (frees (cbuf s)) g +
  cc (oldc (cp s) (bufr s)) g + cc (heldp (pp s)) g.
Definition consumable (s : st) (g : nat) : Prop := fetch (cp s) = None /\ g = bufr s.
Definition vstored (s : st) : list item := heldc (cp s) ++ flat_map (cview s) (vchain s).

Record Inv (s : st) (saw : bool) : Prop := {
  i_own : forall g, own s g = if alive s g then 1 else 0;
  i_tak : takes (pbuf s) <= length (cache s);
  i_ct : ctouch (cur (cp s) (bufr s)) (cur2 (cp s) (bufr s)) (cbuf s);
  i_new : newok (heldp (pp s)) (pbuf s);
  i_enq : enqok (pbuf s) (bufw s) (wreg s);
  i_chn : exists pre p, vchain s = pre ++ bufw s :: p /\ p ++ links (pbuf s) = wsets (pbuf s) ++ linkp (pp s);
  i_wl : wlok (linkp (pp s)) (pbuf s);
  i_blk : forall g, In g (wsets (pbuf s) ++ linkp (pp s) ++ readyp (pp s)) -> In (SNew g) (pbuf s) \/ cont s g = [];
  i_cac : forall g, In g (pcache s) \/ In g (gives (cbuf s)) -> cview s g = [];
  i_cap : forall g, In g (chain s) -> length (pview s g) <= n;
  i_ne : forall g, In g (chain s) -> g <> wreg s -> ~ In g (linkp (pp s)) -> ~ consumable s g -> pview s g <> [];
  i_busy : bp (pp s) -> ~ consumable s (wreg s) -> pview s (wreg s) <> [];
  i_room : match pp s with PPut _ => length (pview s (wreg s)) < n | _ => True end;
  i_deq : fetch (cp s) = None -> deqn (cbuf s) (bufr s) <= length (cont s (bufr s));
  i_cons : match cp s with
           | CCmp => bufr s = bufw s -> saw = true
           | CEmp2 => bufr s <> bufw s
           | CNext => bufr s <> bufw s /\ cview s (bufr s) = []
           | CRel _ => cview s (bufr s) = []
           | CPop => cview s (bufr s) <> [] \/ saw = true
           | _ => True end;
  i_rep : replay (tr s) [] [] false (enqs (pbuf s)) (vstored s) saw;
  i_saw : incall (cp s) -> vstored s = [] -> saw = true;
  i_pyo : payok (pbuf s) (pay s) (map fst (vstored s));
  i_pyv : forall x, In x (vstored s) -> pay s (fst x) = snd x;
  i_cur : match pp s with
          | PIdle => True
          | PPay x => In (fst x) (used s) /\ ~ In (fst x) (map fst (vstored s)) /\ ~ In (fst x) (map fst (enqs (pbuf s)))
          | PAvail x | PTake x | PInit x _ | PLink x _ | PSet x _ | PPut x =>
              In (fst x) (used s) /\ endpay (pbuf s) (pay s) (fst x) = snd x end;
  i_usd : forall x, In x (vstored s) \/ In x (enqs (pbuf s)) -> In (fst x) (used s);
  i_uaf : uaf s = false }.

Lemma Inv0 : Inv init_st false.
Proof.
  constructor; cbn; auto; try tauto; try discriminate; try lia.
  - intros g. destruct g; reflexivity.
  - exists [], []. auto.
  - split; auto. exists []. auto.
Qed.

(** Consequences. *)
Lemma own_le : forall s saw g, Inv s saw -> own s g <= 1.
Proof. intros s saw g I. rewrite (i_own _ _ I). destruct (alive s g); lia. Qed.
Lemma own_alive : forall s saw g, Inv s saw -> 1 <= own s g -> alive s g = true.
Proof. intros s saw g I H. rewrite (i_own _ _ I) in H. destruct (alive s g); [auto|lia]. Qed.
Lemma cc_vchain : forall s g, In g (vchain s) -> 1 <= cc (vchain s) g.
Proof. intros. apply in_cc. auto. Qed.

Lemma bufw_in : forall s saw, Inv s saw -> In (bufw s) (vchain s).
Proof. intros s saw I. destruct (i_chn _ _ I) as (pre & p & E & _). rewrite E. apply in_or_app. right. left. auto. Qed.
Lemma first_in : forall s, In (first (cp s) (bufr s)) (vchain s).
Proof. intros. left. auto. Qed.
Lemma vchain_alive : forall s saw g, Inv s saw -> In g (vchain s) -> alive s g = true.
Proof. intros s saw g I H. apply (own_alive s saw); auto. unfold own. apply in_cc in H. lia. Qed.
Lemma chain_alive : forall s saw g, Inv s saw -> In g (chain s) -> alive s g = true.
Proof. intros s saw g I H. apply (own_alive s saw); auto. unfold own. apply in_cc in H. unfold chain in H. rewrite cc_app in H. lia. Qed.

(** [wreg] is linked; so are the segments [buf_w] will designate. *)
Lemma after_in : forall s saw g, Inv s saw -> In g (wsets (pbuf s) ++ linkp (pp s)) -> In g (chain s).
Proof.
  intros s saw g I H. destruct (i_chn _ _ I) as (pre & p & E & E2). rewrite <- E2 in H. unfold chain. rewrite E.
  rewrite !in_app_iff in *. cbn. tauto.
Qed.
Lemma wreg_in : forall s saw, Inv s saw -> In (wreg s) (chain s).
Proof.
  intros s saw I. destruct (enqok_last _ _ _ (i_enq _ _ I)) as [->|H].
  - unfold chain. apply in_or_app. left. eapply bufw_in; eauto.
  - eapply after_in; eauto. apply in_or_app. auto.
Qed.
(** Segments after [buf_w] are not the first one, and not [buf_w]. *)
Lemma after_ne : forall s saw g, Inv s saw -> In g (wsets (pbuf s) ++ linkp (pp s)) -> g <> first (cp s) (bufr s) /\ g <> bufw s.
Proof.
  intros s saw g I H. destruct (i_chn _ _ I) as (pre & p & E & E2). pose proof (own_le s saw g I) as L. unfold own in L.
  rewrite <- E2 in H. apply in_cc in H. rewrite cc_app in H. rewrite E in L. rewrite cc_app in L. cbn [cc] in L.
  split.
  - intros Q. assert (X : cc (vchain s) g = cc pre g + ((if bufw s =? g then 1 else 0) + cc p g)) by (rewrite E, cc_app; reflexivity).
    destruct pre as [|a pre]; unfold vchain in E; cbn [app] in E; injection E as E1 E3; rewrite <- Q in *.
    + rewrite <- E1, Nat.eqb_refl in L. lia.
    + subst a. cbn [cc] in L. rewrite Nat.eqb_refl in L. lia.
  - intros ->. rewrite Nat.eqb_refl in L. lia.
Qed.

(** The consumer has no store on its way to a segment it does not hold. *)
Lemma notouch : forall s saw g, Inv s saw -> In g (chain s) -> ~ consumable s g -> ~ In (SRst g) (cbuf s) /\ deqn (cbuf s) g = 0.
Proof.
  intros s saw g I H N. pose proof (own_le s saw g I) as L. unfold own in L. apply in_cc in H. unfold chain in H. rewrite cc_app in H.
  assert (O : ~ In g (cur (cp s) (bufr s))).
  { intros X. apply in_cc in X. unfold vchain, first in *. unfold consumable in N.
    destruct (cp s) eqn:EC; cbn [cur cc fetch oldc] in *; try lia; destruct (Nat.eqb_spec (bufr s) g) as [Q|Q]; try lia; apply N; auto. }
  assert (O2 : ~ In g (cur2 (cp s) (bufr s))).
  { intros X. apply O. destruct (cp s); cbn in *; tauto. }
  split.
  - intros X. destruct (ctouch_rst _ _ _ _ (i_ct _ _ I) X) as [Y|[Y|Y]]; [apply in_cc in Y; lia|apply in_cc in Y; lia|auto].
  - destruct (deqn (cbuf s) g) eqn:ED; auto. destruct (ctouch_deq _ _ _ g (i_ct _ _ I) ltac:(lia)) as [Y|[Y|Y]]; [apply in_cc in Y; lia|apply in_cc in Y; lia|contradiction].
Qed.
Lemma untouched : forall s saw g, Inv s saw -> In g (chain s) -> ~ consumable s g -> forall l, cview s g = l -> cont s g = l.
Proof.
  intros s saw g I H N l <-. destruct (notouch s saw g I H N) as [R D]. unfold cview. rewrite ccont_skip; auto; rewrite D; [reflexivity|lia].
Qed.

(** No store of the producer on its way to a reachable segment, except values for the last ones. *)
Lemma nonew : forall s saw g, Inv s saw -> In g (vchain s) -> ~ In (SNew g) (pbuf s).
Proof.
  intros s saw g I H X. pose proof (own_le s saw g I) as L. unfold own in L. apply in_cc in H.
  destruct (newok_in _ _ _ (i_new _ _ I) X) as [Y|Y]; apply in_cc in Y; lia.
Qed.
Lemma noenq : forall s saw g x, Inv s saw -> In (SEnq g x) (pbuf s) -> g = bufw s \/ In g (wsets (pbuf s)).
Proof. intros s saw g x I X. eapply enqok_in; eauto. apply (i_enq _ _ I). Qed.

(** The segments after [buf_w] look empty to the consumer. *)
Lemma cview_after : forall s saw g, Inv s saw -> In g (vchain s) -> In g (wsets (pbuf s) ++ linkp (pp s)) -> cview s g = [].
Proof.
  intros s saw g I H A. assert (NC : ~ consumable s g).
  { intros [F Q]. destruct (after_ne s saw g I A) as [X _]. apply X. unfold first. rewrite F. auto. }
  pose proof (untouched s saw g I (in_or_app _ _ _ (or_introl H)) NC _ eq_refl) as U. rewrite <- U.
  destruct (i_blk _ _ I g) as [B|B]; auto.
  - rewrite app_assoc. apply in_or_app. auto.
  - destruct (nonew s saw g I H B).
Qed.

Lemma flat_nil : forall (f : nat -> list item) l, (forall g, In g l -> f g = []) -> flat_map f l = [].
Proof. induction l as [|a l IH]; intros H; cbn; auto. rewrite (H a) by (left; auto). apply IH. intros. apply H. right. auto. Qed.
Lemma flat_ext : forall (f h : nat -> list item) l, (forall g, In g l -> f g = h g) -> flat_map f l = flat_map h l.
Proof. induction l as [|a l IH]; intros H; cbn; auto. rewrite (H a) by (left; auto). f_equal. apply IH. intros. apply H. right. auto. Qed.

(** If [buf_w] is the first segment and looks empty, nothing is visible. *)
Lemma visible_nil : forall s saw, Inv s saw -> heldc (cp s) = [] -> bufw s = first (cp s) (bufr s) -> cview s (bufw s) = [] -> vstored s = [].
Proof.
  intros s saw I HC B CV. unfold vstored. rewrite HC. cbn [app]. apply flat_nil. intros g H.
  destruct (i_chn _ _ I) as (pre & p & E & E2). pose proof H as H'. rewrite E in H. apply in_app_or in H as [H|[<-|H]]; auto.
  - exfalso. pose proof (own_le s saw (bufw s) I) as L. unfold own in L. rewrite E in L. rewrite cc_app in L. cbn [cc] in L. rewrite Nat.eqb_refl in L.
    destruct pre as [|a pre]; [destruct H|]. unfold vchain in E. injection E as E1 _. cbn [cc] in L. rewrite <- E1, B, Nat.eqb_refl in L. lia.
  - eapply cview_after; eauto. rewrite <- E2. apply in_or_app. auto.
Qed.

(** A segment before [buf_w]: all its values are in memory. *)
Lemma before_view : forall s saw g, Inv s saw -> In g (vchain s) -> g <> bufw s -> ~ In g (wsets (pbuf s) ++ linkp (pp s)) -> pview s g = cont s g.
Proof.
  intros s saw g I H N A. unfold pview. apply pcont_other.
  - eapply nonew; eauto.
  - intros x X. destruct (noenq s saw g x I X); [auto|]. apply A. apply in_or_app. auto.
Qed.
End Proofs.
