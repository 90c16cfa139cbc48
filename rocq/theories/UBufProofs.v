From Coq Require Import List Arith Bool ZArith Lia Permutation.
From Verif Require Import Base UBufModel UBufSpec.
Import ListNotations.

Section Proofs.
Context {A : Type}.
Variables (n : nat) (fixedsize : bool).
Hypothesis Hn : 1 <= n.
Definition bound : option nat := if fixedsize then Some n else None.

Lemma replay_app : forall bd (t1 t2 : list (event A)) q b q' b',
  replay bd (t1 ++ t2) q b q' b' <-> exists qm bm, replay bd t1 q b qm bm /\ replay bd t2 qm bm q' b'.
Proof.
  induction t1 as [|e t1 IH]; intros t2 q b q' b'; cbn [app replay].
  - split; [intros H; exists q, b; auto | intros (qm & bm & [-> ->] & H); auto].
  - destruct e; try apply IH.
    + rewrite IH. firstorder.
    + split.
      * intros (q1 & E & H). apply IH in H as (qm & bm & H1 & H2). exists qm, bm. eauto.
      * intros (qm & bm & (q1 & E & H1) & H2). exists q1. split; auto. apply IH. eauto.
    + rewrite IH. firstorder.
Qed.

Definition fetch (c : @cpc) : option nat :=
  match c with CRst g | CRel g | CDec g | CDec2 g _ | CSet g => Some g | _ => None end.
Definition oldc (c : @cpc) (r : nat) : list nat := match c with CRst _ | CRel _ => [r] | _ => [] end.
Definition heldp (p : @ppc A) : list nat := match p with PLink _ g => [g] | _ => [] end.
Definition linkp (p : @ppc A) : option nat := match p with PSet _ g => Some g | _ => None end.
Definition bp (p : @ppc A) : Prop := match p with PTake _ | PLink _ _ | PSet _ _ => True | _ => False end.
Definition first (c : @cpc) (r : nat) : nat := match fetch c with Some g => g | None => r end.

Definition fetching (s : st A) : option nat := fetch (cp s).
Definition chain (s : st A) : list nat := first (cp s) (bufr s) :: inuse s.
Definition consumable (s : st A) (g : nat) : Prop := fetch (cp s) = None /\ g = bufr s.
Definition stored (s : st A) : list A := flat_map (cont s) (chain s).
Definition old (s : st A) : list nat := oldc (cp s) (bufr s).
Definition held (s : st A) : list nat := heldp (pp s).
Definition owned (s : st A) : list nat := chain s ++ cache s ++ old s ++ held s.
Definition linked (s : st A) : option nat := linkp (pp s).
Definition busyp (s : st A) : Prop := bp (pp s).

Record Inv (s : st A) (saw : bool) : Prop := {
  i_nodup : NoDup (owned s);
  i_alive : forall g, In g (owned s) <-> alive s g = true;
  i_cap : forall g, In g (chain s) -> length (cont s g) <= n;
  i_full : forall g, In g (chain s) -> g <> bufw s -> linked s <> Some g -> ~ consumable s g -> length (cont s g) = n;
  i_empty : forall g, In g (cache s ++ held s) -> cont s g = [];
  i_w : exists l, chain s = l ++ bufw s :: match linked s with Some g => [g] | None => [] end;
  i_l : forall g, linked s = Some g -> cont s g = [];
  i_busy : busyp s -> ~ consumable s (bufw s) -> length (cont s (bufw s)) = n;
  i_room : match pp s with PCnt _ | PCnt2 _ _ | PPut _ => length (cont s (bufw s)) < n | _ => True end;
  i_cons : match cp s with
           | CCmp => bufr s = bufw s -> saw = true
           | CEmp2 => bufr s <> bufw s
           | CNext => bufr s <> bufw s /\ cont s (bufr s) = []
           | CRst _ | CRel _ => cont s (bufr s) = []
           | CPop => cont s (bufr s) <> [] \/ (bufw s = bufr s /\ ~ busyp s)
           | _ => True end;
  i_replay : replay bound (tr s) [] false (stored s) saw;
  i_saw : cp s <> CIdle -> stored s = [] -> saw = true;
  i_fix : fixedsize = true -> inuse s = [] /\ fetching s = None /\
          match pp s with PIdle | PAvail _ | PPut _ => True | _ => False end;
  i_uaf : uaf s = false }.

Lemma flat_fupd : forall (c : nat -> list A) g v l, ~ In g l -> flat_map (fupd c g v) l = flat_map c l.
Proof.
  intros c g v l. induction l as [|a l IH]; intros H; cbn; auto.
  rewrite IH by (intros X; apply H; right; auto). rewrite fupd_neq; auto. intros ->. apply H. left. auto.
Qed.

Lemma nodup_app : forall (l r : list nat), NoDup l -> NoDup r -> (forall a, In a l -> ~ In a r) -> NoDup (l ++ r).
Proof.
  induction l as [|a l IH]; intros r H1 H2 H3; cbn; auto. inversion_clear H1. constructor.
  - rewrite in_app_iff. intros [X|X]; [auto|]. apply (H3 a); cbn; auto.
  - apply IH; auto. intros b Hb. apply H3. right. auto.
Qed.

Lemma in_chain_owned : forall s g, In g (chain s) -> In g (owned s).
Proof. intros s g H. unfold owned. apply in_or_app. auto. Qed.
Lemma bufw_chain : forall s saw, Inv s saw -> In (bufw s) (chain s).
Proof. intros s saw I. destruct (i_w _ _ I) as (l & E). rewrite E. apply in_or_app. right. left. auto. Qed.
Lemma chain_nodup : forall s saw, Inv s saw -> NoDup (chain s).
Proof.
  intros s saw I. pose proof (i_nodup _ _ I) as N. unfold owned in N.
  revert N. generalize (cache s ++ old s ++ held s). generalize (chain s). induction l as [|a l IH]; intros r N; [constructor|].
  cbn in N. inversion_clear N. constructor; [|eapply IH; eauto]. intros X. apply H. apply in_or_app. auto.
Qed.
Lemma alive_chain : forall s saw g, Inv s saw -> In g (chain s) -> alive s g = true.
Proof. intros s saw g I H. apply (i_alive _ _ I). apply in_chain_owned. auto. Qed.

Lemma Inv0 : Inv (init_st : st A) false.
Proof.
  constructor; cbn; auto; try discriminate; try contradiction.
  - repeat constructor. auto.
  - intros g. rewrite Nat.eqb_eq. intuition.
  - intros g _. lia.
  - intros g [<-|[]] H. congruence.
  - exists []. reflexivity.
Qed.

(** The old content of the chain when the consumer looks at its first segment. *)
Lemma single : forall s saw, Inv s saw -> fetching s = None -> bufw s = bufr s ->
  inuse s = match linked s with Some g => [g] | None => [] end.
Proof.
  intros s saw I F E. destruct (i_w _ _ I) as (l & W). pose proof (chain_nodup _ _ I) as N.
  unfold chain, first, fetching in *. rewrite F in *. destruct l as [|a l]; cbn in W; injection W as W1 W2; auto.
  exfalso. rewrite W2 in N. inversion_clear N. apply H. apply in_or_app. right. left. auto.
Qed.

Lemma hd_not_linked : forall s saw g, Inv s saw -> linked s = Some g -> hd 0 (chain s) <> g.
Proof.
  intros s saw g I L E. destruct (i_w _ _ I) as (l & W). pose proof (chain_nodup _ _ I) as N. rewrite L in W.
  rewrite W in *. destruct l as [|a l]; cbn in E; subst; cbn in N.
  - inversion_clear N. apply H. left. auto.
  - inversion_clear N. apply H. apply in_or_app. right. right. left. auto.
Qed.

Lemma stored_single : forall s saw, Inv s saw -> fetching s = None -> bufw s = bufr s -> stored s = cont s (bufr s).
Proof.
  intros s saw I F E. unfold stored, chain, first. unfold fetching in F. rewrite F. rewrite (single s saw I F E).
  destruct (linked s) as [g|] eqn:L; cbn; [rewrite (i_l _ _ I g L), !app_nil_r; auto | apply app_nil_r].
Qed.

Lemma stored_nil_hd : forall s saw, Inv s saw -> stored s = [] -> cont s (hd 0 (chain s)) = [].
Proof. intros s saw I E. unfold stored in E. unfold chain in *. cbn in E. apply app_eq_nil in E. cbn. tauto. Qed.

Lemma replay_snoc : forall (t : list (event A)) e q b q1 b1 q2 b2,
  replay bound t q b q1 b1 -> replay bound [e] q1 b1 q2 b2 -> replay bound (t ++ [e]) q b q2 b2.
Proof. intros. apply replay_app. eauto. Qed.

(** Steps that change nothing but a program counter. *)
Ltac stat I := destruct I as [HND HAL HCAP HFULL HEMP HW HL HBUSY HROOM HCONS HREP HSAW HFIX HUAF].
Ltac proj := cbn [cont alive bufr bufw inuse cache cnt pp cp uaf tr goP goC touch emit set_cont give heldp linkp bp oldc fetch] in *.
Ltac norm := unfold owned, stored, chain, consumable, old, held, linked, busyp, fetching in *; proj.

Lemma call_push : forall s saw x, Inv s saw -> pp s = PIdle -> Inv (goP s (PAvail x)) saw.
Proof. intros s saw x I E. stat I. norm. rewrite E in *. constructor; norm; auto. Qed.

Lemma call_pop : forall s saw, Inv s saw -> cp s = CIdle ->
  Inv (emit (goC s CEmp1) ECallPop) (match stored s with [] => true | _ => false end).
Proof.
  intros s saw I E. stat I. norm. rewrite E in *. constructor; norm; auto.
  - eapply replay_snoc; [exact HREP|]. cbn [replay]. split; reflexivity.
  - intros _ H. unfold first in *. cbn [fetch] in *. rewrite H. auto.
Qed.

Lemma pstep_ok : forall s saw m s', Inv s saw -> pstep n fixedsize s m = Some s' -> exists saw', Inv s' saw'.
Proof.
  intros s saw m s' I E. pose proof (bufw_chain _ _ I) as WC. pose proof (chain_nodup _ _ I) as CN.
  pose proof (alive_chain _ _ (bufw s) I WC) as WA. unfold pstep in E.
  destruct (pp s) as [|x|x|x g|x g|x|x r|x] eqn:EP; [discriminate|..]; cbn [touch cont bufw] in E.
  - (* PAvail *)
    destruct (length (cont s (bufw s)) <? n) eqn:EL.
    + apply Nat.ltb_lt in EL. injection E as <-. exists saw. stat I. norm. rewrite EP in *.
      constructor; norm; auto. rewrite HUAF, WA. auto.
    + apply Nat.ltb_ge in EL. destruct fixedsize eqn:EF.
      * injection E as <-. exists saw. pose proof (i_fix _ _ I EF) as (X1 & X2 & _).
        assert (bufw s = bufr s) as EB.
        { unfold chain, first in WC. unfold fetching in X2. rewrite X1, X2 in WC. destruct WC as [W|[]]; auto. }
        pose proof (stored_single s saw I X2 EB) as ES. pose proof (i_cap _ _ I _ WC) as CAP.
        stat I. norm. rewrite EP in *. constructor; norm; auto.
        -- eapply replay_snoc; [exact HREP|]. cbn [replay]. split; [|auto]. unfold bound. rewrite EF. f_equal.
           rewrite ES, <- EB. lia.
        -- rewrite HUAF, WA. auto.
      * injection E as <-. exists saw. pose proof (i_cap _ _ I _ WC) as CAP. stat I. norm. rewrite EP in *.
        constructor; norm; auto.
        -- intros _ _. lia.
        -- destruct (cp s); auto. destruct HCONS as [|[Hb _]]; auto. left. intros Q. rewrite <- Hb in Q. rewrite Q in EL. cbn in EL. lia.
        -- congruence.
        -- rewrite HUAF, WA. auto.
  - (* PTake *)
    exists saw. destruct (cache s) as [|g q] eqn:EC.
    + destruct (alive s m) eqn:EM; [discriminate|]. injection E as <-.
      assert (NI : ~ In m (owned s)) by (intros X; apply (i_alive _ _ I) in X; congruence).
      assert (NC : ~ In m (chain s)) by (intros X; apply NI, in_chain_owned; auto).
      assert (NW : bufw s <> m) by (intros Q; rewrite Q in WC; auto).
      assert (NO : ~ In m (old s)) by (intros X; apply NI; unfold owned; rewrite !in_app_iff; auto).
      assert (EO : forall k, flat_map (fupd (cont s) m k) (chain s) = stored s) by (intros; apply flat_fupd; auto).
      stat I. norm. rewrite EP, EC in *. norm. cbn [app] in HND, HAL, HEMP, NI. rewrite app_nil_r in HND, HAL, NI.
      constructor; norm; auto; cbn [app].
      * rewrite app_assoc, app_comm_cons. apply nodup_app; auto; [repeat constructor; auto|].
        intros a Ha [<-|[]]. auto.
      * intros a. rewrite app_assoc, app_comm_cons, in_app_iff. unfold fupd. destruct (Nat.eqb_spec a m) as [->|N].
        -- cbn [In]. intuition.
        -- rewrite <- HAL. cbn [In]. intuition congruence.
      * intros a Ha. rewrite fupd_neq by (intros ->; auto). auto.
      * intros a Ha. rewrite fupd_neq by (intros ->; auto). auto.
      * intros a [<-|[]]. apply fupd_eq.
      * discriminate.
      * intros X Y. rewrite fupd_neq by congruence. auto.
      * destruct (cp s); auto; rewrite ?fupd_neq; auto; intros Q; try (apply NO; rewrite <- Q; cbn; auto; fail);
          apply NC; rewrite <- Q; left; reflexivity.
      * rewrite EO. auto.
      * rewrite EO. auto.
    + injection E as <-. stat I. norm. rewrite EP, EC in *. norm. rewrite app_nil_r in HND, HAL.
      assert (PE : forall l o, Permutation (l ++ (g :: q) ++ o) (l ++ q ++ o ++ [g])).
      { intros l o. apply Permutation_app_head. cbn. rewrite app_assoc. apply Permutation_cons_append. }
      constructor; norm; auto.
      * eapply Permutation_NoDup; [apply PE|]. exact HND.
      * intros a. rewrite <- HAL. split; apply Permutation_in; [apply Permutation_sym|]; apply PE.
      * intros a Ha. apply HEMP. cbn. apply in_app_or in Ha as [Ha|[Ha|[]]]; auto. right. apply in_or_app. auto.
  - (* PLink *)
    injection E as <-. exists saw. stat I. norm. rewrite EP in *. norm.
    assert (PE : forall a (l c o : list nat), Permutation ((a :: l) ++ c ++ o ++ [g]) ((a :: l ++ [g]) ++ c ++ o ++ [])).
    { intros a l c o. cbn. apply perm_skip. rewrite app_nil_r, <- app_assoc. cbn. apply Permutation_app_head.
      rewrite app_assoc. apply Permutation_sym, Permutation_cons_append. }
    assert (EG : cont s g = []) by (apply HEMP, in_or_app; right; left; auto).
    constructor; norm; auto.
    + eapply Permutation_NoDup; [apply PE|]. exact HND.
    + intros a. rewrite <- HAL. split; apply Permutation_in; [apply Permutation_sym|]; apply PE.
    + intros a [H|H]; [apply HCAP; left; auto|]. apply in_app_or in H as [H|[<-|[]]]; [apply HCAP; right; auto|]. rewrite EG. cbn. lia.
    + intros a [H|H] N1 N2; [apply HFULL; [left; auto|auto|discriminate]|]. apply in_app_or in H as [H|[<-|[]]]; [apply HFULL; [right; auto|auto|discriminate]|]. congruence.
    + intros a. rewrite app_nil_r. intros H. apply HEMP, in_or_app. auto.
    + destruct HW as (l & HW). exists l. rewrite app_comm_cons, HW, <- app_assoc. reflexivity.
    + congruence.
    + rewrite app_comm_cons, flat_map_app. cbn [flat_map]. rewrite EG. cbn [app]. rewrite app_nil_r. auto.
    + rewrite app_comm_cons, flat_map_app. cbn [flat_map]. rewrite EG. cbn [app]. rewrite app_nil_r. auto.
    + intros X. destruct (HFIX X) as (_ & _ & []).
  - (* PSet *)
    injection E as <-. exists saw. pose proof (hd_not_linked s saw g I ltac:(unfold linked; rewrite EP; auto)) as HDG.
    stat I. norm. rewrite EP in *. norm. cbn [hd] in HDG. destruct HW as (l & HW).
    constructor; norm; auto.
    + intros a Ha N _ NC. destruct (Nat.eq_dec a (bufw s)) as [->|N2]; [apply HBUSY; auto|]. apply HFULL; auto. congruence.
    + exists (l ++ [bufw s]). rewrite HW, <- app_assoc. reflexivity.
    + discriminate.
    + tauto.
    + rewrite (HL g eq_refl). cbn. lia.
    + destruct (cp s); auto; unfold first in HDG; cbn [fetch] in HDG; try tauto; intros Q; congruence.
  - (* PCnt *)
    injection E as <-. exists saw. stat I. norm. rewrite EP in *. norm. constructor; norm; auto.
  - (* PCnt2 *)
    injection E as <-. exists saw. stat I. norm. rewrite EP in *. norm. constructor; norm; auto.
    intros X. destruct (HFIX X) as (_ & _ & []).
  - (* PPut *)
    pose proof (i_room _ _ I) as R. rewrite EP in R. apply Nat.ltb_lt in R. rewrite R in E. apply Nat.ltb_lt in R.
    injection E as <-. exists saw. pose proof (i_w _ _ I) as (l & HW').
    assert (NB : forall a, In a (cache s ++ old s ++ held s) -> bufw s <> a).
    { intros a Ha Q. subst a. pose proof (i_nodup _ _ I) as ND. unfold owned in ND.
      apply in_split in WC as (l1 & l2 & E12). rewrite E12 in ND. rewrite <- app_assoc in ND. cbn in ND. apply NoDup_remove_2 in ND.
      apply ND. rewrite in_app_iff. right. rewrite in_app_iff. right. auto. }
    assert (ES : flat_map (fupd (cont s) (bufw s) (cont s (bufw s) ++ [x])) (chain s) = stored s ++ [x]).
    { unfold stored. unfold linked in HW'. rewrite EP in HW'. cbn [linkp] in HW'. rewrite HW' in *. rewrite !flat_map_app.
      rewrite flat_fupd by (intros X; apply NoDup_remove_2 in CN; apply CN; apply in_or_app; auto).
      cbn. rewrite fupd_eq, !app_nil_r, app_assoc. reflexivity. }
    stat I. norm. rewrite EP in *. norm.
    constructor; norm; auto; try (rewrite ES).
    + intros a Ha. unfold fupd. destruct (Nat.eqb_spec a (bufw s)); [rewrite app_length; cbn; lia|auto].
    + intros a Ha N. rewrite fupd_neq by auto. apply HFULL; auto.
    + intros a Ha. rewrite fupd_neq; [apply HEMP; auto|]. intros ->. apply (NB (bufw s)); auto. rewrite in_app_iff in *. destruct Ha as [?|[]]; auto.
    + discriminate.
    + tauto.
    + destruct (cp s) eqn:ECP; auto.
      * destruct HCONS. split; auto. rewrite fupd_neq; auto.
      * rewrite fupd_neq; auto. intros Q. apply (NB (bufr s)); [|auto]. rewrite in_app_iff. right. left. auto.
      * rewrite fupd_neq; auto. intros Q. apply (NB (bufr s)); [|auto]. rewrite in_app_iff. right. left. auto.
      * destruct (Nat.eq_dec (bufr s) (bufw s)) as [Q|Q]; [left; rewrite Q, fupd_eq; destruct (cont s (bufw s)); discriminate|].
        destruct HCONS as [H|[H _]]; [|congruence]. left. rewrite fupd_neq; auto.
    + eapply replay_snoc; [exact HREP|]. cbn [replay]. split; reflexivity.
    + intros _ Q. destruct (flat_map (cont s) _); discriminate.
    + rewrite HUAF, WA. auto.
Qed.

Lemma busy_dec : forall p, bp p \/ ~ bp p.
Proof. destruct p; cbn; auto. Qed.

Ltac fin := auto; try match goal with
  | H : _ -> _ -> ?s = true |- _ <> _ -> _ -> ?s = true => intros _ ?; apply H; [discriminate|assumption]
  | H : uaf ?s = false, R : _ -> alive ?s (bufr ?s) = true |- uaf ?s || _ = false => rewrite H, R; auto
  end.
Lemma cstep_ok : forall s saw s', Inv s saw -> cstep s = Some s' -> exists saw', Inv s' saw'.
Proof.
  intros s saw s' I E. pose proof (bufw_chain _ _ I) as WC. pose proof (chain_nodup _ _ I) as CN.
  assert (RA : fetch (cp s) = None \/ oldc (cp s) (bufr s) = [bufr s] -> alive s (bufr s) = true).
  { intros [F|F]; apply (i_alive _ _ I); unfold owned, chain, old, first; rewrite F; [left; auto|].
    rewrite !in_app_iff. cbn. auto. }
  unfold cstep in E.
  destruct (cp s) as [ | | | | |g|g|g|g r|g| ] eqn:EC; [discriminate|..]; cbn [touch cont bufr] in E; exists saw.
  - (* CEmp1 *)
    pose proof (fun (Q : cont s (bufr s) = []) F B => eq_trans (stored_single s saw I F B) Q) as SS.
    stat I. norm. rewrite EC in *. norm.
    destruct (cont s (bufr s)) as [|y l] eqn:ER; injection E as <-; constructor; norm; fin.
    + intros Q. apply HSAW; [discriminate|]. apply (SS eq_refl eq_refl). auto.
    + left. congruence.
  - (* CCmp *)
    destruct (Nat.eqb_spec (bufr s) (bufw s)) as [Q|Q]; injection E as <-; stat I; norm; rewrite EC in *; norm; constructor; norm; fin.
    + eapply replay_snoc; [exact HREP|]. cbn [replay]. auto.
  - (* CEmp2 *)
    stat I. norm. rewrite EC in *. norm.
    destruct (cont s (bufr s)) as [|y l] eqn:ER; injection E as <-; constructor; norm; fin.
    + left. congruence.
  - (* CNext *)
    stat I. norm. rewrite EC in *. norm. destruct HCONS as [NQ NE]. unfold first in *. cbn [fetch] in *.
    destruct (inuse s) as [|g q] eqn:EI.
    + destruct WC as [W|[]]. congruence.
    + injection E as <-.
      assert (PE : Permutation ((bufr s :: g :: q) ++ cache s ++ [] ++ heldp (pp s)) ((g :: q) ++ cache s ++ [bufr s] ++ heldp (pp s))).
      { cbn. rewrite !(app_assoc q). apply (Permutation_cons_app (g :: q ++ cache s)). cbn. reflexivity. }
      assert (NR : forall a, In a (g :: q) -> a <> bufr s) by (intros a Ha ->; inversion_clear CN; auto).
      constructor; norm; unfold first; cbn [fetch]; fin.
      * eapply Permutation_NoDup; [apply PE|]. exact HND.
      * intros a. rewrite <- HAL. split; apply Permutation_in; [apply Permutation_sym|]; apply PE.
      * intros a Ha. apply HCAP. right. auto.
      * intros a Ha N1 N2 _. apply HFULL; auto; [right; auto|]. intros [_ X]. apply (NR a); auto.
      * destruct HW as ([|b l] & HW); cbn in HW; injection HW as W1 W2; [congruence|]. exists l. auto.
      * intros Hb _. apply HBUSY; auto. intros [_ X]. congruence.
      * cbn [flat_map] in HREP |- *. rewrite NE in HREP. exact HREP.
      * intros _ X. apply HSAW; [discriminate|]. cbn [flat_map] in X |- *. rewrite NE. exact X.
      * intros X. destruct (HFIX X). discriminate.
  - (* CRst *)
    assert (NR : forall a, In a (chain s) -> a <> bufr s).
    { intros a Ha ->. pose proof (i_nodup _ _ I) as ND. unfold owned, old in ND. rewrite EC in ND. cbn [oldc] in ND.
      rewrite app_assoc in ND. cbn [app] in ND. apply NoDup_remove_2 in ND. apply ND. rewrite !in_app_iff. auto. }
    assert (ES : flat_map (fupd (cont s) (bufr s) []) (chain s) = stored s) by (apply flat_fupd; intros X; apply (NR _ X); auto).
    injection E as <-. stat I. norm. rewrite EC in *. norm. unfold first in *. cbn [fetch] in *.
    constructor; norm; unfold first; cbn [fetch]; auto; rewrite ?ES; fin.
    + intros a Ha. rewrite fupd_neq; auto.
    + intros a Ha. rewrite fupd_neq; auto.
    + intros a Ha. unfold fupd. destruct (Nat.eqb_spec a (bufr s)); auto.
    + intros a Ha. unfold fupd. destruct (Nat.eqb_spec a (bufr s)); auto.
    + rewrite fupd_neq; auto.
    + rewrite fupd_neq; auto.
    + apply fupd_eq.
  - (* CRel *)
    assert (NR : ~ In (bufr s) (chain s ++ cache s ++ held s)).
    { intros X. pose proof (i_nodup _ _ I) as ND. unfold owned, old in ND. rewrite EC in ND. cbn [oldc] in ND.
      rewrite app_assoc in ND. cbn [app] in ND. apply NoDup_remove_2 in ND. apply ND. rewrite !in_app_iff in *. tauto. }
    unfold give in E. destruct (length (cache s) <? cache_size); injection E as <-; stat I; norm; rewrite EC in *; norm; unfold first in *; cbn [fetch] in *.
    + assert (PE : Permutation ((g :: inuse s) ++ cache s ++ [bufr s] ++ heldp (pp s)) ((g :: inuse s) ++ (cache s ++ [bufr s]) ++ [] ++ heldp (pp s))).
      { apply Permutation_app_head. rewrite <- app_assoc. reflexivity. }
      constructor; norm; unfold first; cbn [fetch]; fin.
      * eapply Permutation_NoDup; [apply PE|]. exact HND.
      * intros a. rewrite <- HAL. split; apply Permutation_in; [apply Permutation_sym|]; apply PE.
      * intros a Ha. rewrite !in_app_iff in Ha. cbn in Ha. destruct Ha as [[Ha|[<-|[]]]|Ha]; auto; apply HEMP; apply in_or_app; auto.
    + constructor; norm; unfold first; cbn [fetch]; fin.
      * rewrite app_assoc in HND. apply NoDup_remove_1 in HND. rewrite <- app_assoc in HND. exact HND.
      * intros a. specialize (HAL a). unfold fupd. destruct (Nat.eqb_spec a (bufr s)) as [->|N].
        -- split; [|discriminate]. intros X. destruct NR. exact X.
        -- rewrite <- HAL. rewrite !in_app_iff. cbn. intuition congruence.
  - (* CDec *)
    injection E as <-. stat I. norm. rewrite EC in *. norm. constructor; norm; fin.
  - (* CDec2 *)
    injection E as <-. stat I. norm. rewrite EC in *. norm. constructor; norm; fin.
  - (* CSet *)
    assert (HDG : linked s <> Some g).
    { intros L. apply (hd_not_linked s saw g I L). unfold chain, first. rewrite EC. reflexivity. }
    injection E as <-. stat I. norm. rewrite EC in *. norm. unfold first in *. cbn [fetch] in *.
    assert (FU : g <> bufw s -> cont s g <> []).
    { intros N X. assert (length (cont s g) = n) as L; [|rewrite X in L; cbn in L; lia]. apply HFULL; auto; [left; auto|]. intros [? _]. discriminate. }
    constructor; norm; unfold first; cbn [fetch]; fin.
    + intros a Ha N1 N2 _. apply HFULL; auto. intros [? _]. discriminate.
    + intros Hb _. apply HBUSY; auto. intros [? _]. discriminate.
    + destruct (Nat.eq_dec g (bufw s)) as [->|N]; [|auto]. destruct (busy_dec (pp s)) as [B|B]; [|auto].
      left. intros X. rewrite X in HBUSY. cbn in HBUSY. assert (0 = n); [apply HBUSY; auto; intros [? _]; discriminate|lia].
    + intros X. destruct (HFIX X) as (_ & ? & _). discriminate.
  - (* CPop *)
    pose proof (fun (Q : cont s (bufr s) = []) F B => eq_trans (stored_single s saw I F B) Q) as SS.
    assert (HDG : linked s <> Some (bufr s)).
    { intros L. apply (hd_not_linked s saw _ I L). unfold chain, first. rewrite EC. reflexivity. }
    assert (NR : ~ In (bufr s) (cache s ++ held s)).
    { intros X. pose proof (i_nodup _ _ I) as ND. unfold owned, chain, first, old in ND. rewrite EC in ND. cbn [oldc fetch app] in ND.
      inversion_clear ND. apply H. rewrite !in_app_iff in *. tauto. }
    stat I. norm. rewrite EC in *. norm. unfold first in *. cbn [fetch] in *.
    destruct (cont s (bufr s)) as [|y l] eqn:ER; injection E as <-.
    + destruct HCONS as [?|[Q NB]]; [congruence|]. assert (saw = true) as Hs by (apply HSAW; [discriminate|]; apply SS; auto).
      constructor; norm; fin.
      * eapply replay_snoc; [exact HREP|]. cbn [replay]. auto.
    + inversion_clear CN. assert (ES : flat_map (fupd (cont s) (bufr s) l) (inuse s) = flat_map (cont s) (inuse s)) by (apply flat_fupd; auto).
      cbn [flat_map] in *. rewrite ER in *. cbn [app] in *.
      constructor; norm; unfold first; cbn [fetch]; fin.
      * intros a Ha. unfold fupd. destruct (Nat.eqb_spec a (bufr s)) as [->|N]; auto. specialize (HCAP _ Ha). rewrite ER in HCAP. cbn in HCAP. lia.
      * intros a Ha N1 N2 N3. rewrite fupd_neq; auto.
      * intros a Ha. rewrite fupd_neq; auto. intros ->. auto.
      * intros a Ha. rewrite fupd_neq; auto. congruence.
      * intros Hb N. rewrite fupd_neq; auto.
      * destruct (pp s); auto; unfold fupd; destruct (Nat.eqb_spec (bufw s) (bufr s)) as [Q|N]; auto; rewrite Q, ER in HROOM; cbn in HROOM; lia.
      * eapply replay_snoc; [exact HREP|]. cbn [replay flat_map]. rewrite fupd_eq, ES. eexists. split; [reflexivity|split; reflexivity].
Qed.

Record RInv (s0 s : st A) (l : list nat) : Prop := {
  r_pp : pp s = PIdle; r_cp : cp s = CIdle; r_r : bufr s = bufr s0; r_w : bufw s = bufr s0; r_in : inuse s = [];
  r_nd : NoDup ((bufr s :: cache s) ++ l); r_al : forall g, In g ((bufr s :: cache s) ++ l) <-> alive s g = true;
  r_e : forall g, In g (bufr s :: cache s) -> cont s g = []; r_uaf : uaf s = false; r_tr : tr s = tr s0 }.

Lemma release_all_ok : forall s0 l s, RInv s0 s l -> RInv s0 (release_all s l) [].
Proof.
  intros s0. induction l as [|g l IH]; intros s R; cbn [release_all]; auto. apply IH. destruct R.
  assert (alive s g = true) as AG by (apply r_al0, in_or_app; right; left; auto).
  unfold give. proj. destruct (length (cache s) <? cache_size); constructor; proj; auto; rewrite ?r_uaf0, ?AG; auto.
  - rewrite app_comm_cons, <- app_assoc. exact r_nd0.
  - intros a. rewrite app_comm_cons, <- app_assoc. apply r_al0.
  - intros a. rewrite app_comm_cons. intros H. unfold fupd. destruct (Nat.eqb_spec a g); auto. apply in_app_or in H as [H|[H|[]]]; [auto|congruence].
  - apply NoDup_remove_1 in r_nd0. exact r_nd0.
  - intros a. specialize (r_al0 a). unfold fupd. destruct (Nat.eqb_spec a g) as [->|N].
    + split; [|discriminate]. intros H. apply NoDup_remove_2 in r_nd0. contradiction.
    + rewrite <- r_al0, !in_app_iff. cbn. intuition congruence.
  - intros a H. unfold fupd. destruct (Nat.eqb_spec a g); auto.
Qed.

Lemma reset_ok : forall s saw, Inv s saw -> pp s = PIdle -> cp s = CIdle -> Inv (emit (reset s) EReset) saw.
Proof.
  intros s saw I EP EC. pose proof (bufw_chain _ _ I) as WC. pose proof (alive_chain _ _ _ I WC) as WA.
  assert (RA : alive s (bufr s) = true) by (apply (alive_chain _ _ _ I); unfold chain, first; rewrite EC; left; auto).
  assert (R : RInv s (reset s) []).
  { unfold reset. apply release_all_ok. stat I. norm. rewrite EP, EC in *. norm. unfold first in *. cbn [fetch] in *.
    rewrite !app_nil_r in *.
    assert (PE : Permutation ((bufr s :: inuse s) ++ cache s) ((bufr s :: cache s) ++ inuse s)).
    { cbn. apply perm_skip, Permutation_app_comm. }
    constructor; proj; auto.
    - eapply Permutation_NoDup; [apply PE|auto].
    - intros a. rewrite <- HAL. split; apply Permutation_in; [apply Permutation_sym|]; apply PE.
    - intros a H. unfold fupd. destruct (Nat.eqb_spec a (bufw s)); auto. destruct (Nat.eqb_spec a (bufr s)); auto.
      destruct H as [H|H]; [congruence|]. apply HEMP. auto.
    - rewrite HUAF, RA, WA. auto. }
  stat I. remember (reset s) as s1 eqn:E1. clear E1. destruct R. rewrite app_nil_r in *.
  constructor; norm; unfold first; rewrite ?r_cp0, ?r_pp0, ?r_in0; norm; auto; rewrite ?app_nil_r; auto.
  - intros g [<-|[]]. rewrite r_e0 by (left; auto). cbn. lia.
  - intros g [<-|[]] N _ _. congruence.
  - intros g H. apply r_e0. right. auto.
  - exists []. cbn. congruence.
  - discriminate.
  - tauto.
  - rewrite r_tr0. eapply replay_snoc; [exact HREP|]. cbn. rewrite r_e0 by (left; auto). auto.
Qed.

Lemma step_ok : forall s saw a s', Inv s saw -> step n fixedsize s a = Some s' -> exists saw', Inv s' saw'.
Proof.
  intros s saw a s' I E. destruct a as [x| |m| |]; cbn [step] in E.
  - destruct (pp s) eqn:EP; try discriminate. injection E as <-. exists saw. apply call_push; auto.
  - destruct (cp s) eqn:EC; try discriminate. injection E as <-. eexists. eapply call_pop; eauto.
  - eapply pstep_ok; eauto.
  - eapply cstep_ok; eauto.
  - destruct (pp s) eqn:EP; try discriminate. destruct (cp s) eqn:EC; try discriminate. injection E as <-.
    exists saw. apply reset_ok; auto.
Qed.

Lemma exec_Inv : forall l s, exec (step n fixedsize) (init_st : st A) l = Some s -> exists saw, Inv s saw.
Proof.
  intros l s E. revert E. apply (exec_inv (step n fixedsize) (fun s => exists saw, Inv s saw)).
  - intros s1 a s2 (saw & I) E. eapply step_ok; eauto.
  - exists false. apply Inv0.
Qed.

Lemma replay_det : forall bd (t : list (event A)) q b q1 b1 q2 b2, replay bd t q b q1 b1 -> replay bd t q b q2 b2 -> q1 = q2.
Proof.
  induction t as [|e t IH]; intros q b q1 b1 q2 b2 H1 H2; cbn [replay] in *; [destruct H1, H2; congruence|].
  destruct e; eauto.
  - destruct H1, H2; eauto.
  - destruct H1 as (u & E1 & H1), H2 as (v & E2 & H2). rewrite E1 in E2. injection E2 as <-. eauto.
  - destruct H1, H2; eauto.
Qed.

Lemma fifo_stored : forall l s q, exec (step n fixedsize) (init_st : st A) l = Some s -> fifo bound (tr s) q -> q = stored s.
Proof.
  intros l s q E (b & R). destruct (exec_Inv l s E) as (saw & I). eapply replay_det; [exact R|]. apply (i_replay _ _ I).
Qed.

Lemma main_fifo : forall l s, exec (step n fixedsize) (init_st : st A) l = Some s -> exists q, fifo bound (tr s) q.
Proof. intros l s E. destruct (exec_Inv l s E) as (saw & I). exists (stored s), saw. apply (i_replay _ _ I). Qed.

Lemma main_uaf : forall l s, exec (step n fixedsize) (init_st : st A) l = Some s -> uaf s = false.
Proof. intros l s E. destruct (exec_Inv l s E) as (saw & I). apply (i_uaf _ _ I). Qed.

Lemma replay_pushes : forall bd (t : list (event A)) q b q' b', ~ In EReset t -> replay bd t q b q' b' -> q ++ pushes t = pops t ++ q'.
Proof.
  induction t as [|e t IH]; intros q b q' b' N R; cbn [replay pushes pops app] in *.
  - destruct R as [-> _]. apply app_nil_r.
  - assert (N' : ~ In EReset t) by (intros X; apply N; right; auto). destruct e.
    + rewrite <- (IH _ _ _ _ N' R). rewrite <- app_assoc. reflexivity.
    + destruct R. eauto.
    + eauto.
    + destruct R as (u & -> & R). cbn. f_equal. eauto.
    + destruct R. eauto.
    + destruct N. left. auto.
Qed.

(** Memory. *)
Lemma flat_room : forall (c : nat -> list A) l E, NoDup l -> (forall g, In g l -> ~ In g E -> length (c g) = n) ->
  n * length l <= length (flat_map c l) + n * length E.
Proof.
  intros c l. induction l as [|g l IH]; intros E ND H; cbn [length flat_map]; [lia|]. inversion_clear ND. rewrite app_length.
  destruct (in_dec Nat.eq_dec g E) as [HI|HN].
  - apply in_split in HI as (E1 & E2 & ->). specialize (IH (E1 ++ E2) H1).
    rewrite !app_length in *. cbn [length]. assert (n * length l <= length (flat_map c l) + n * (length E1 + length E2)); [|nia].
    apply IH. intros a Ha N. apply H; [right; auto|]. intros X. apply N. apply in_app_or in X as [X|[X|X]]; [apply in_or_app; auto| |apply in_or_app; auto].
    subst. contradiction.
  - rewrite (H g) by (auto; left; auto). specialize (IH E H1). assert (n * length l <= length (flat_map c l) + n * length E); [|nia].
    apply IH. intros a Ha. apply H. right. auto.
Qed.

Lemma cache_cap : forall l s, exec (step n fixedsize) (init_st : st A) l = Some s -> length (cache s) <= cache_size.
Proof.
  intros l s. apply (exec_inv (step n fixedsize) (fun s => length (cache s) <= cache_size)); [|cbn; lia].
  assert (GV : forall s g, length (cache s) <= cache_size -> length (cache (@give A s g)) <= cache_size).
  { intros s1 g H. unfold give. destruct (Nat.ltb_spec (length (cache s1)) cache_size); cbn [cache]; [rewrite app_length; cbn [length]; lia|auto]. }
  assert (RL : forall l s, length (cache s) <= cache_size -> length (cache (@release_all A s l)) <= cache_size).
  { induction l0; intros s1 H; cbn [release_all]; auto. }
  intros s1 a s2 H E. destruct a; cbn [step] in E.
  - destruct (pp s1); try discriminate. injection E as <-. auto.
  - destruct (cp s1); try discriminate. injection E as <-. auto.
  - unfold pstep in E. destruct (pp s1) eqn:EP; try discriminate;
      repeat match goal with H : context [if ?b then _ else _] |- _ => destruct b end; try discriminate;
      try (injection E as <-; proj; auto; fail).
    all: destruct (cache s1) eqn:EC; try discriminate; injection E as <-; proj; cbn [length] in *; lia.
  - unfold cstep in E. destruct (cp s1) eqn:EC; try discriminate;
      try (injection E as <-; proj; auto; fail).
    + destruct (bufr s1 =? bufw s1); injection E as <-; auto.
    + destruct (inuse s1); injection E as <-; auto.
    + proj. destruct (cont s1 (bufr s1)); injection E as <-; auto.
  - destruct (pp s1); try discriminate. destruct (cp s1); try discriminate. injection E as <-. apply RL. auto.
Qed.

Lemma main_memory : forall l s q, exec (step n fixedsize) (init_st : st A) l = Some s -> fifo bound (tr s) q ->
  exists L, NoDup L /\ (forall g, alive s g = true <-> In g L) /\ n * length L <= length q + 35 * n.
Proof.
  intros l s q E F. pose proof (cache_cap l s E) as CC. rewrite (fifo_stored l s q E F). destruct (exec_Inv l s E) as (saw & I).
  exists (owned s). split; [apply (i_nodup _ _ I)|]. split; [intros g; symmetry; apply (i_alive _ _ I)|].
  pose proof (flat_room (cont s) (chain s) (bufw s :: (match linked s with Some g => [g] | None => [] end) ++
    (match fetching s with Some _ => [] | None => [bufr s] end)) (chain_nodup _ _ I)) as R.
  assert (R' : n * length (chain s) <= length (stored s) +
     n * length (bufw s :: (match linked s with Some g => [g] | None => [] end) ++ (match fetching s with Some _ => [] | None => [bufr s] end))).
  { apply R. intros g Hg NI. apply (i_full _ _ I); auto.
    - intros ->. apply NI. left. auto.
    - intros L. apply NI. rewrite L. right. left. auto.
    - intros [X1 X2]. apply NI. unfold fetching. rewrite X1. right. apply in_or_app. right. left. auto. }
  clear R. unfold owned. rewrite !app_length. cbn [length] in R'. rewrite app_length in R'. unfold cache_size in CC.
  assert (length (match linked s with Some g => [g] | None => [] end) + length (held s) <= 1) by (unfold linked, held; destruct (pp s); cbn; lia).
  assert (length (match fetching s with Some _ => [] | None => [bufr s] end) + length (old s) <= 1) by (unfold fetching, old; destruct (cp s); cbn; lia).
  nia.
Qed.

(** empty() when no call is in progress. *)
Definition InvW (s : st A) : Prop :=
  consumable s (bufw s) \/ cont s (bufw s) <> [] \/ match pp s with PCnt _ | PCnt2 _ _ | PPut _ => True | _ => False end.

Lemma stepW : forall s saw a s', Inv s saw -> InvW s -> step n fixedsize s a = Some s' -> InvW s'.
Proof.
  intros s saw a s' I W E. unfold InvW, consumable in *. pose proof (bufw_chain _ _ I) as WC.
  destruct a as [x| |m| |]; cbn [step] in E.
  - destruct (pp s) eqn:EP; try discriminate. injection E as <-. proj. auto.
  - destruct (cp s) eqn:EC; try discriminate. injection E as <-. proj. auto.
  - unfold pstep in E. destruct (pp s) eqn:EP; try discriminate; proj.
    + destruct (length (cont s (bufw s)) <? n); [|destruct fixedsize]; injection E as <-; proj; auto.
    + destruct (cache s) eqn:EC.
      * destruct (alive s m) eqn:EM; [discriminate|]. injection E as <-. proj. destruct W as [W|[W|[]]]; auto. right. left.
        rewrite fupd_neq; auto. intros Q. rewrite <- Q in EM. rewrite (alive_chain _ _ _ I WC) in EM. discriminate.
      * injection E as <-. proj. auto.
    + injection E as <-. proj. auto.
    + injection E as <-. proj. auto.
    + injection E as <-. proj. auto.
    + injection E as <-. proj. auto.
    + pose proof (i_room _ _ I) as R. rewrite EP in R. apply Nat.ltb_lt in R. rewrite R in E. injection E as <-. proj.
      right. left. rewrite fupd_eq. destruct (cont s (bufw s)); discriminate.
  - unfold cstep in E. destruct (cp s) eqn:EC; try discriminate; proj.
    + injection E as <-. proj. destruct (cont s (bufr s)); proj; auto.
    + destruct (bufr s =? bufw s); injection E as <-; proj; auto.
    + injection E as <-. proj. destruct (cont s (bufr s)); proj; auto.
    + pose proof (i_cons _ _ I) as CO. rewrite EC in CO. destruct CO as [N _].
      destruct (inuse s); injection E as <-; proj; auto; destruct W as [[_ W]|W]; auto; congruence.
    + injection E as <-. proj. destruct W as [[W _]|[W|W]]; [discriminate| |auto]. right. left. rewrite fupd_neq; auto.
      intros Q. pose proof (i_nodup _ _ I) as ND. unfold owned, old in ND. rewrite EC in ND. cbn [oldc] in ND.
      rewrite app_assoc in ND. cbn [app] in ND. apply NoDup_remove_2 in ND. apply ND. rewrite !in_app_iff. rewrite <- Q. auto.
    + injection E as <-. unfold give. destruct (length (cache s) <? cache_size); proj; (destruct W as [[W _]|W]; [discriminate|auto]).
    + injection E as <-. proj. auto.
    + injection E as <-. proj. auto.
    + injection E as <-. proj. destruct W as [[W _]|W]; [discriminate|auto].
    + destruct (cont s (bufr s)) eqn:ER; injection E as <-; proj; auto.
      destruct (Nat.eq_dec (bufw s) (bufr s)); [auto|]. rewrite fupd_neq; auto.
  - destruct (pp s) eqn:EP; try discriminate. destruct (cp s) eqn:EC; try discriminate. injection E as <-.
    left. unfold reset. proj.
    assert (RL : forall l s1, cp s1 = CIdle -> bufw s1 = bufr s1 ->
      fetch (cp (@release_all A s1 l)) = None /\ bufw (@release_all A s1 l) = bufr (@release_all A s1 l)).
    { induction l as [|g l IH]; intros s1 H1 H2; cbn [release_all]; [rewrite H1; auto|].
      apply IH; unfold give; proj; destruct (length (cache s1) <? cache_size); auto. }
    apply RL; auto.
Qed.

Lemma main_empty : forall l s q, exec (step n fixedsize) (init_st : st A) l = Some s -> fifo bound (tr s) q ->
  pp s = PIdle -> cp s = CIdle -> (empty s = true <-> q = []).
Proof.
  intros l s q E F EP EC. rewrite (fifo_stored l s q E F).
  assert (IW : exists saw, Inv s saw /\ InvW s).
  { revert E. apply (exec_inv (step n fixedsize) (fun s => exists saw, Inv s saw /\ InvW s)).
    - intros s1 a s2 (saw & I & W) E. destruct (step_ok _ _ _ _ I E) as (saw' & I'). exists saw'. split; auto. exact (stepW s1 saw a s2 I W E).
    - exists false. split; [apply Inv0|]. left. split; reflexivity. }
  destruct IW as (saw & I & W). unfold empty. destruct (Nat.eqb_spec (bufr s) (bufw s)) as [Q|Q].
  - rewrite (stored_single s saw I) by (unfold fetching; rewrite ?EC; auto). destruct (cont s (bufr s)); split; auto; discriminate.
  - split; [discriminate|]. intros ES. exfalso. unfold InvW, consumable in W. rewrite EP in W.
    destruct W as [[_ W]|[W|[]]]; [congruence|]. apply W. destruct (i_w _ _ I) as (l1 & HW).
    unfold stored in ES. rewrite HW, flat_map_app in ES. apply app_eq_nil in ES as [_ ES]. cbn in ES. apply app_eq_nil in ES. tauto.
Qed.

Lemma main_fixed : forall l s x t, exec (step n fixedsize) (init_st : st A) l = Some s -> tr s = t ++ [EPushFull x] -> fixedsize = true.
Proof.
  intros l s x t E T. destruct (main_fifo l s E) as (q & b & R). rewrite T in R. apply replay_app in R as (q1 & b1 & _ & R).
  cbn in R. destruct R as [R _]. unfold bound in R. destruct fixedsize; [auto|discriminate].
Qed.

Lemma push_progress : forall (s : st A) m, pp s <> PIdle -> alive s m = false ->
  exists s', step n fixedsize s (P m) = Some s' /\ pleft s' < pleft s.
Proof.
  clear Hn. intros s m N AM. cbn [step]. unfold pstep, pleft. destruct (pp s) eqn:EP; [congruence|..]; proj.
  - destruct (length (cont s (bufw s)) <? n); [|destruct fixedsize]; eexists; split; try reflexivity; proj; lia.
  - destruct (cache s); [rewrite AM|]; eexists; split; try reflexivity; proj; lia.
  - eexists; split; try reflexivity; proj; lia.
  - eexists; split; try reflexivity; proj; lia.
  - eexists; split; try reflexivity; proj; lia.
  - eexists; split; try reflexivity; proj; lia.
  - destruct (length (cont s (bufw s)) <? n); eexists; split; try reflexivity; proj; lia.
Qed.

Lemma pop_progress : forall (s : st A), cp s <> CIdle -> exists s', step n fixedsize s C = Some s' /\ cleft s' < cleft s.
Proof.
  clear Hn. intros s N. cbn [step]. unfold cstep, cleft. destruct (cp s) eqn:EC; [congruence|..]; proj.
  - eexists; split; [reflexivity|]; proj; destruct (cont s (bufr s)); lia.
  - destruct (bufr s =? bufw s); eexists; split; try reflexivity; proj; lia.
  - eexists; split; [reflexivity|]; proj; destruct (cont s (bufr s)); lia.
  - destruct (inuse s); eexists; split; try reflexivity; proj; lia.
  - eexists; split; [reflexivity|]; proj; lia.
  - unfold give. destruct (length (cache s) <? cache_size); eexists; split; try reflexivity; proj; lia.
  - eexists; split; [reflexivity|]; proj; lia.
  - eexists; split; [reflexivity|]; proj; lia.
  - eexists; split; [reflexivity|]; proj; lia.
  - destruct (cont s (bufr s)); eexists; split; try reflexivity; proj; lia.
Qed.

(** length() when calls never overlap. *)
Definition adj (s : st A) : Z :=
  match pp s with PSet _ _ | PCnt _ | PCnt2 _ _ => (-1)%Z | _ => 0%Z end +
  match cp s with CRst _ | CRel _ | CDec _ | CDec2 _ _ => 1%Z | _ => 0%Z end.
Definition InvL (s : st A) : Prop :=
  (pp s = PIdle \/ cp s = CIdle) /\ cnt s = (Z.of_nat (length (chain s)) + adj s)%Z /\
  match pp s with PCnt2 _ r => r = cnt s | _ => True end /\ match cp s with CDec2 _ r => r = cnt s | _ => True end.

Lemma seqstep_step : forall s a s', seqstep n fixedsize s a = Some s' -> @step A n fixedsize s a = Some s'.
Proof.
  intros s a s'. destruct a; cbn [seqstep]; auto; [destruct (cp s)|destruct (pp s)|]; auto; discriminate.
Qed.

Lemma stepL : forall s a s', InvL s -> seqstep n fixedsize s a = Some s' -> InvL s'.
Proof.
  intros s a s' (EX & EQ & P2 & C2) E. unfold InvL, chain, adj in *. destruct a as [x| |m| |]; cbn [seqstep] in E; [| | | |discriminate].
  - destruct (cp s) eqn:EC; try discriminate. cbn [step] in E. destruct (pp s) eqn:EP; try discriminate. injection E as <-. proj. rewrite EC in *. auto.
  - destruct (pp s) eqn:EP; try discriminate. cbn [step] in E. destruct (cp s) eqn:EC; try discriminate. injection E as <-. proj. rewrite EP. auto.
  - cbn [step] in E. unfold pstep in E. destruct (pp s) eqn:EP; try discriminate; (destruct EX as [EX|EX]; [discriminate|]); rewrite EX in *; proj.
    + destruct (length (cont s (bufw s)) <? n); [|destruct fixedsize]; injection E as <-; proj; rewrite ?EX; auto.
    + destruct (cache s); [destruct (alive s m); [discriminate|]|]; injection E as <-; proj; rewrite ?EX; auto.
    + injection E as <-. proj. rewrite ?EX. cbn [length] in *. rewrite app_length. cbn [length]. repeat split; auto; lia.
    + injection E as <-. proj. rewrite ?EX. auto.
    + injection E as <-. proj. rewrite ?EX. auto.
    + injection E as <-. proj. rewrite ?EX. repeat split; auto; lia.
    + destruct (length (cont s (bufw s)) <? n); injection E as <-; proj; rewrite ?EX; auto.
  - cbn [step] in E. unfold cstep in E. destruct (cp s) eqn:EC; try discriminate; (destruct EX as [EX|EX]; [|discriminate]); rewrite EX in *; proj.
    + injection E as <-. proj. rewrite ?EX. destruct (cont s (bufr s)); auto.
    + destruct (bufr s =? bufw s); injection E as <-; proj; rewrite ?EX; auto.
    + injection E as <-. proj. rewrite ?EX. destruct (cont s (bufr s)); auto.
    + destruct (inuse s) eqn:EI; injection E as <-; proj; rewrite ?EX, ?EI; unfold first in *; cbn [length fetch] in *; repeat split; auto; lia.
    + injection E as <-. proj. rewrite ?EX. auto.
    + injection E as <-. unfold give. destruct (length (cache s) <? cache_size); proj; rewrite ?EX; auto.
    + injection E as <-. proj. rewrite ?EX. auto.
    + injection E as <-. proj. rewrite ?EX. cbn [length] in *; repeat split; auto; lia.
    + injection E as <-. proj. rewrite ?EX. auto.
    + destruct (cont s (bufr s)); injection E as <-; proj; rewrite ?EX; auto.
Qed.

Lemma exec_seq : forall l s s', exec (seqstep n fixedsize) s l = Some s' -> exec (@step A n fixedsize) s l = Some s'.
Proof.
  induction l as [|a l IH]; intros s s'; cbn; auto. destruct (seqstep n fixedsize s a) eqn:E; [|discriminate].
  rewrite (seqstep_step _ _ _ E). auto.
Qed.

Lemma flat_full : forall (c : nat -> list A) l, (forall g, In g l -> length (c g) = n) -> length (flat_map c l) = n * length l.
Proof.
  intros c l. induction l as [|g l IH]; intros H; cbn [flat_map length]; [lia|]. rewrite app_length, IH, (H g); try lia.
  - left. auto.
  - intros a Ha. apply H. right. auto.
Qed.

Lemma main_length : forall l s q, exec (seqstep n fixedsize) (init_st : st A) l = Some s -> fifo bound (tr s) q ->
  pp s = PIdle -> cp s = CIdle -> length_ n s = Z.of_nat (length q).
Proof.
  intros l s q E F EP EC. pose proof (exec_seq _ _ _ E) as E'. rewrite (fifo_stored l s q E' F).
  destruct (exec_Inv l s E') as (saw & I).
  assert (L : InvL s).
  { revert E. apply (exec_inv (seqstep n fixedsize) InvL).
    - intros s1 a s2 H. apply stepL; auto.
    - unfold InvL. cbn. auto. }
  destruct L as (_ & CN & _). unfold adj in CN. rewrite EP, EC in CN. unfold length_. destruct (Nat.eqb_spec (bufr s) (bufw s)) as [Q|Q].
  - rewrite (stored_single s saw I); auto. unfold fetching. rewrite EC. auto.
  - pose proof (chain_nodup _ _ I) as ND. pose proof (i_full _ _ I) as FU.
    destruct (i_w _ _ I) as (l1 & HW). unfold linked in HW, FU. rewrite EP in HW, FU. cbn [linkp] in HW, FU.
    unfold consumable in FU. rewrite EC in FU. unfold stored. rewrite HW in *. unfold chain, first in HW. rewrite EC in HW. cbn [fetch] in HW.
    destruct l1 as [|b l1]; cbn in HW; injection HW as W1 W2; [congruence|]. subst b.
    cbn [app] in ND. inversion_clear ND. apply NoDup_remove_2 in H0.
    cbn [app flat_map]. rewrite flat_map_app, !app_length. cbn [flat_map]. rewrite app_nil_r.
    rewrite (flat_full (cont s) l1).
    + cbn [app length] in CN. rewrite app_length in CN. cbn [length] in CN. rewrite CN. nia.
    + intros g Hg. apply FU; [cbn; right; apply in_or_app; auto| | discriminate |].
      * intros ->. apply H0. apply in_or_app. auto.
      * intros [_ ->]. apply H. apply in_or_app. auto.
Qed.

Lemma main_places : forall l s, exec (step n fixedsize) (init_st : st A) l = Some s ->
  NoDup (inuse s ++ cache s) /\ (forall g, In g (inuse s ++ cache s) -> alive s g = true) /\
  (forall g, In g (cache s) -> cont s g = []).
Proof.
  intros l s E. destruct (exec_Inv l s E) as (saw & I). split; [|split].
  - pose proof (i_nodup _ _ I) as ND. unfold owned, chain in ND. cbn in ND. inversion_clear ND. rewrite app_assoc in H0.
    revert H0. generalize (old s ++ held s). generalize (inuse s ++ cache s). induction l0 as [|a l0 IH]; intros r N; [constructor|].
    cbn in N. inversion_clear N. constructor; [|eapply IH; eauto]. intros X. apply H0. apply in_or_app. auto.
  - intros g H. apply (i_alive _ _ I). unfold owned, chain. cbn. right. rewrite !in_app_iff in *. tauto.
  - intros g H. apply (i_empty _ _ I). apply in_or_app. auto.
Qed.
Lemma main_prefix : forall l s, exec (step n fixedsize) (init_st : st A) l = Some s -> ~ In EReset (tr s) ->
  prefix (pops (tr s)) (pushes (tr s)).
Proof.
  intros l s E N. destruct (main_fifo l s E) as (q & b & R). apply replay_pushes in R; auto. cbn in R. exists q. auto.
Qed.
End Proofs.
