(** The whole of prepare: when it succeeds, and the channels it leaves. *)
From Coq Require Import List Arith Bool Lia.
From Verif Require Import WireModel WireSpec WireProofs WireProofs2 WireProofs3 WireProofs4 WireProofs5.
Import ListNotations.

Fixpoint links_pre (p : stage) (l : list stage) : bool :=
  match l with [] => true | c :: l' => link_pre p c && links_pre c l' end.
Fixpoint tail_ok (l : list stage) : bool :=
  match l with
  | [] => true
  | s :: l' => stage_ok s && match l' with c :: _ => negb (deferred s c && is_a2a s && exit_mo s) | [] => true end && tail_ok l'
  end.

Lemma skipn_cons_nth : forall A (l : list A) m a r, skipn m l = a :: r -> nth_error l m = Some a /\ skipn (S m) l = r.
Proof.
  induction l as [|b l IH]; intros [|m] a r H; simpl in *; try discriminate.
  - injection H as -> ->. auto.
  - destruct (IH m a r H) as [E1 E2]. split; auto.
Qed.
Lemma skipn_nil_len : forall A (l : list A) m, skipn m l = [] -> length l <= m.
Proof. induction l as [|b l IH]; intros [|m] H; simpl in *; try discriminate; try lia. apply IH in H. lia. Qed.

Section All.
  Variable l : list stage.
  Hypothesis POP : forallb populated l = true.
  Hypothesis ORD : Forall ordered_coll l.

  Lemma pop_nth : forall k s, nth_error l k = Some s -> populated s = true /\ ordered_coll s.
  Proof using POP ORD.
    intros k s E. apply nth_error_In in E. split; [eapply forallb_forall in POP; eauto|eapply Forall_forall in ORD; eauto].
  Qed.

  Record CI (m : nat) (h : heap) (B : nat -> nat) : Prop := {
    ci_nb : B m = nb h;
    ci_b : forall k p c, k < m -> nth_error l k = Some p -> nth_error l (S k) = Some c -> BP h k p c (B k) /\ B k + bcnt p c <= B (S k);
    ci_O : forall x, m <= fst x \/ (forall s, nth_error l (fst x) = Some s -> ~ In x (exit (fst x) s ++ [(fst x, Obj)])) -> nout h x = None /\ outN h x = [];
    ci_I : forall y, fst y = 0 \/ m < fst y \/ (forall s, nth_error l (fst y) = Some s -> ~ In y (entry (fst y) s)) -> nin h y = None /\ inN h y = [] }.

  Lemma ci0 : CI 0 heap0 (fun _ => 0).
  Proof using Type. constructor; simpl; auto. intros. lia. Qed.

  Lemma ci_step : forall m h B p c, CI m h B -> nth_error l m = Some p -> nth_error l (S m) = Some c ->
    if link_pre p c then exists h' B', connect m p c h = Some h' /\ CI (S m) h' B' else connect m p c h = None.
  Proof using POP ORD.
    intros m h B p c I EP EC. destruct (pop_nth _ _ EP) as [PP OP]. destruct (pop_nth _ _ EC) as [PC OC].
    pose proof (connect_spec m p c h PP PC OP) as S. unfold outcome in S. destruct (link_pre p c).
    - destruct S as (h' & E & D).
      { intros x Hx. apply (ci_O _ _ _ I). left. apply in_app_or in Hx. destruct Hx as [Hx|[<-|[]]]; [rewrite (exit_fst _ _ _ Hx)|]; auto. }
      { intros y Hy. apply (ci_I _ _ _ I). right. left. rewrite (entry_fst _ _ _ Hy). auto. }
      destruct D as (BPm & NB & KO & KI). exists h', (fun k => if k =? S m then nb h' else B k). split; [auto|]. constructor.
      + rewrite Nat.eqb_refl. auto.
      + intros k p' c' Hk EP' EC'. replace (k =? S m) with false by (symmetry; apply Nat.eqb_neq; lia).
        destruct (Nat.eq_dec k m) as [->|NE].
        * assert (p' = p) by congruence. assert (c' = c) by congruence. subst p' c'. rewrite Nat.eqb_refl, (ci_nb _ _ _ I). split; [auto|]. lia.
        * replace (S k =? S m) with false by (symmetry; apply Nat.eqb_neq; lia).
          destruct (ci_b _ _ _ I k p' c') as [Q1 Q2]; auto; [lia|]. split; [|auto]. eapply BP_frame; [| |exact Q1].
          -- intros x Hx. apply KO. intros A. assert (fst x = k) by (apply in_app_or in Hx; destruct Hx as [Hx|[<-|[]]]; [rewrite (exit_fst _ _ _ Hx)|]; auto).
             assert (fst x = m) by (apply in_app_or in A; destruct A as [A|[<-|[]]]; [rewrite (exit_fst _ _ _ A)|]; auto). lia.
          -- intros y Hy. apply KI. intros A. apply entry_fst in Hy, A. lia.
      + intros x Hx. destruct (KO x) as [Q1 Q2].
        { intros A. assert (fst x = m) by (apply in_app_or in A; destruct A as [A|[<-|[]]]; [rewrite (exit_fst _ _ _ A)|]; auto).
          destruct Hx as [Hx|Hx]; [lia|]. rewrite H in Hx. apply (Hx p EP). auto. }
        rewrite Q1, Q2. apply (ci_O _ _ _ I). destruct Hx as [Hx|Hx]; [left; lia|auto].
      + intros y Hy. destruct (KI y) as [Q1 Q2].
        { intros A. pose proof (entry_fst _ _ _ A) as F. destruct Hy as [Hy|[Hy|Hy]]; [lia|lia|]. rewrite F in Hy. apply (Hy c EC). auto. }
        rewrite Q1, Q2. apply (ci_I _ _ _ I). destruct Hy as [Hy|[Hy|Hy]]; [auto|right; left; lia|auto].
    - apply S.
      { intros x Hx. apply (ci_O _ _ _ I). left. apply in_app_or in Hx. destruct Hx as [Hx|[<-|[]]]; [rewrite (exit_fst _ _ _ Hx)|]; auto. }
      { intros y Hy. apply (ci_I _ _ _ I). right. left. rewrite (entry_fst _ _ _ Hy). auto. }
  Qed.

  Lemma connect_all_spec : forall l' m p h B, nth_error l m = Some p -> skipn (S m) l = l' -> CI m h B ->
    if links_pre p l' then exists h' B', connect_all m p l' h = Some h' /\ CI (length l - 1) h' B' else connect_all m p l' h = None.
  Proof using POP ORD.
    induction l' as [|c l' IH]; intros m p h B EP SK I.
    - simpl. exists h, B. split; [auto|]. apply skipn_nil_len in SK. assert (m < length l) by (apply nth_error_Some; congruence).
      replace (length l - 1) with m by lia. auto.
    - destruct (skipn_cons_nth _ _ _ _ _ SK) as [EC SK']. cbn [links_pre connect_all]. pose proof (ci_step m h B p c I EP EC) as S.
      destruct (link_pre p c); simpl.
      + destruct S as (h1 & B1 & E & I1). rewrite E. cbn [bind]. apply IH with (B := B1); auto.
      + rewrite S. auto.
  Qed.

  Record PI (m : nat) (h : heap) (B C : nat -> nat) : Prop := {
    pi_nb : C m = nb h;
    pi_in : forall k s, k < m -> nth_error l k = Some s -> IN h k s (C k) /\ C k + icnt s <= C (S k);
    pi_bf : forall k p c, k < m -> nth_error l k = Some p -> nth_error l (S k) = Some c -> BF h k p c (B k);
    pi_bp : forall k p c, m <= k -> nth_error l k = Some p -> nth_error l (S k) = Some c -> BP h k p c (B k);
    pi_fo : forall k s x, m <= k -> nth_error l k = Some s -> In x (innerO k s) -> nout h x = None /\ outN h x = [];
    pi_fi : forall k s x, m <= k -> nth_error l k = Some s -> In x (innerI k s) -> nin h x = None /\ inN h x = [];
    pi_last : forall k s x, nth_error l k = Some s -> nth_error l (S k) = None -> In x (exit k s ++ [(k, Obj)]) -> nout h x = None /\ outN h x = [];
    pi_first : forall s y, nth_error l 0 = Some s -> In y (entry 0 s) -> nin h y = None /\ inN h y = [] }.

  Lemma pi0 : forall h B, CI (length l - 1) h B -> PI 0 h B (fun _ => nb h).
  Proof using Type.
    intros h B I. constructor; auto; try (intros; lia).
    - intros k p c _ EP EC. apply (ci_b _ _ _ I); auto. assert (S k < length l) by (apply nth_error_Some; congruence). lia.
    - intros k s x _ ES Hx. apply (ci_O _ _ _ I). right. rewrite (innerO_fst _ _ _ Hx). intros s' ES'. assert (s' = s) by congruence. subst s'.
      apply inner_disjO. auto.
    - intros k s x _ ES Hx. apply (ci_I _ _ _ I). right. right. rewrite (innerI_fst _ _ _ Hx). intros s' ES'. assert (s' = s) by congruence. subst s'.
      apply inner_disjI. auto.
    - intros k s x ES EN Hx. apply (ci_O _ _ _ I). left. apply nth_error_None in EN.
      apply in_app_or in Hx. destruct Hx as [Hx|[<-|[]]]; [rewrite (exit_fst _ _ _ Hx)|simpl]; lia.
    - intros s y ES Hy. apply (ci_I _ _ _ I). left. apply (entry_fst _ _ _ Hy).
  Qed.

  (** A step of the second loop keeps the invariant. *)
  Lemma pi_keep : forall m h B C s h', PI m h B C -> nth_error l m = Some s -> IN h' m s (nb h) -> nb h' = nb h + icnt s ->
    (forall c, nth_error l (S m) = Some c -> BF h' m s c (B m)) ->
    keepO (innerO m s ++ exit m s) h h' -> (nth_error l (S m) = None -> keepO (innerO m s) h h') -> keepI (innerI m s) h h' -> exists C', PI (S m) h' B C' /\ (forall k, k <= m -> C' k = C k).
  Proof using Type.
    intros m h B C s h' I ES INm NB BFm KO KL KI.
    assert (KO' : forall x, fst x <> m -> nout h' x = nout h x /\ outN h' x = outN h x).
    { intros x Hx. apply KO. intros A. apply Hx. apply in_app_or in A. destruct A as [A|A]; [apply (innerO_fst _ _ _ A)|apply (exit_fst _ _ _ A)]. }
    assert (KI' : forall x, fst x <> m -> nin h' x = nin h x /\ inN h' x = inN h x).
    { intros x Hx. apply KI. intros A. apply Hx. apply (innerI_fst _ _ _ A). }
    assert (OX : forall k p x, In x (exit k p ++ [(k, Obj)]) -> fst x = k).
    { intros k p x Hx. apply in_app_or in Hx. destruct Hx as [Hx|[<-|[]]]; auto. apply (exit_fst _ _ _ Hx). }
    assert (KE : forall k c, nth_error l (S k) = Some c -> forall y, In y (entry (S k) c) -> nin h' y = nin h y /\ inN h' y = inN h y).
    { intros k c EC y Hy. apply KI. intros A. pose proof (innerI_fst _ _ _ A). pose proof (entry_fst _ _ _ Hy). assert (MK : m = S k) by lia.
      rewrite MK in *. rewrite ES in EC. injection EC as <-. revert Hy. apply inner_disjI. auto. }
    exists (fun k => if k =? S m then nb h' else C k). split; [constructor|].
    - rewrite Nat.eqb_refl. auto.
    - intros k s' Hk ES'. replace (k =? S m) with false by (symmetry; apply Nat.eqb_neq; lia).
      destruct (Nat.eq_dec k m) as [->|NE].
      + assert (s' = s) by congruence. subst s'. rewrite Nat.eqb_refl, (pi_nb _ _ _ _ I). split; [auto|lia].
      + replace (S k =? S m) with false by (symmetry; apply Nat.eqb_neq; lia). destruct (pi_in _ _ _ _ I k s') as [Q1 Q2]; auto; [lia|].
        split; [|auto]. eapply IN_frame; [| |exact Q1].
        * intros x Hx. apply KO'. rewrite (innerO_fst _ _ _ Hx). auto.
        * intros x Hx. apply KI'. rewrite (innerI_fst _ _ _ Hx). auto.
    - intros k p c Hk EP EC. destruct (Nat.eq_dec k m) as [->|NE].
      + assert (p = s) by congruence. subst p. auto.
      + eapply BF_frame; [| |apply (pi_bf _ _ _ _ I k p c); auto; lia].
        * intros x Hx. apply KO'. rewrite (OX _ _ _ Hx). auto.
        * eapply KE; eauto.
    - intros k p c Hk EP EC. eapply BP_frame; [| |apply (pi_bp _ _ _ _ I k p c); auto; lia].
      + intros x Hx. apply KO'. rewrite (OX _ _ _ Hx). lia.
      + eapply KE; eauto.
    - intros k s' x Hk ES' Hx. destruct (KO' x) as [-> ->]; [rewrite (innerO_fst _ _ _ Hx); lia|]. eapply (pi_fo _ _ _ _ I k); eauto. lia.
    - intros k s' x Hk ES' Hx. destruct (KI' x) as [-> ->]; [rewrite (innerI_fst _ _ _ Hx); lia|]. eapply (pi_fi _ _ _ _ I k); eauto. lia.
    - intros k s' x ES' EN Hx. assert (Q : nout h' x = nout h x /\ outN h' x = outN h x).
      { destruct (Nat.eq_dec k m) as [->|NE]; [|apply KO'; rewrite (OX _ _ _ Hx); auto].
        apply (KL EN). intros A. rewrite ES in ES'. injection ES' as <-. revert Hx. apply inner_disjO. auto. }
      destruct Q as [-> ->]. eapply (pi_last _ _ _ _ I); eauto.
    - intros s' y ES' Hy. assert (Q : nin h' y = nin h y /\ inN h' y = inN h y).
      { destruct (Nat.eq_dec 0 m) as [<-|NE]; [|apply KI'; rewrite (entry_fst _ _ _ Hy); auto].
        apply KI. intros A. rewrite ES in ES'. injection ES' as <-. revert Hy. apply inner_disjI. auto. }
      destruct Q as [-> ->]. eapply (pi_first _ _ _ _ I); eauto.
    - intros k Hk. replace (k =? S m) with false by (symmetry; apply Nat.eqb_neq; lia). auto.
  Qed.

  Lemma pi_step : forall m h B C s, PI m h B C -> nth_error l m = Some s -> stage_ok s = true ->
    if match nth_error l (S m) with Some c => negb (deferred s c && is_a2a s && exit_mo s) | None => true end
    then exists h' C', prep m s h = Some h' /\ PI (S m) h' B C' /\ (forall k, k <= m -> C' k = C k) else prep m s h = None.
  Proof using POP ORD.
    intros m h B C s I ES OK. destruct (pop_nth _ _ ES) as [_ OS].
    assert (FO : forall x, In x (innerO m s) -> nout h x = None /\ outN h x = []) by (intros x; apply (pi_fo _ _ _ _ I m s x (le_n _) ES)).
    assert (FI : forall x, In x (innerI m s) -> nin h x = None /\ inN h x = []) by (intros x; apply (pi_fi _ _ _ _ I m s x (le_n _) ES)).
    assert (PLAIN : outN h (m, Obj) = [] -> (forall c, nth_error l (S m) = Some c -> BF h m s c (B m)) ->
              exists h' C', prep m s h = Some h' /\ PI (S m) h' B C' /\ (forall k, k <= m -> C' k = C k)).
    { intros OO BFm. destruct (prep_plain m s h OK OO FO FI) as (h' & E & INm & NB & KO & KI).
      destruct (pi_keep m h B C s h' I ES INm NB) as (C' & I' & CC).
      - intros c EC. eapply BF_frame; [| |apply (BFm c EC)].
        + intros x Hx. apply KO. intros A. revert Hx. apply inner_disjO. auto.
        + intros y Hy. apply KI. intros A. apply innerI_fst in A. apply entry_fst in Hy. lia.
      - intros x Hx. apply KO. intros A. apply Hx. apply in_or_app; auto.
      - auto.
      - auto.
      - eauto. }
    destruct (nth_error l (S m)) as [c|] eqn:EC.
    - pose proof (pi_bp _ _ _ _ I m s c (le_n _) ES EC) as BPm. destruct (deferred s c) eqn:D; simpl.
      + destruct c as [k| |]; try discriminate. pose proof (prep_deferred m s k h (B m) OK OS D BPm FO FI) as S.
        destruct (is_a2a s && exit_mo s); simpl; [auto|]. destruct S as (h' & E & INm & BFm & NB & KO & KI).
        destruct (pi_keep m h B C s h' I ES INm NB) as (C' & I' & CC); auto; [|congruence|eauto].
        intros c EC'. assert (c = SNode k) by congruence. subst c. auto.
      + unfold BP in BPm. rewrite D in BPm. destruct BPm as [Q1 Q2]. apply PLAIN; auto. intros c' EC'. assert (c' = c) by congruence. subst c'. auto.
    - apply PLAIN; [|congruence]. eapply (pi_last _ _ _ _ I); eauto. apply in_or_app; right; left; auto.
  Qed.

  Lemma prep_all_spec : forall l' m h B C, skipn m l = l' -> m <= length l -> PI m h B C ->
    if tail_ok l' then exists h' C', prep_all m l' h = Some h' /\ PI (length l) h' B C' /\ (forall k, k <= m -> C' k = C k) else prep_all m l' h = None.
  Proof using POP ORD.
    induction l' as [|s l' IH]; intros m h B C SK LE I.
    - simpl. exists h, C. split; [auto|]. apply skipn_nil_len in SK. replace (length l) with m by lia. auto.
    - destruct (skipn_cons_nth _ _ _ _ _ SK) as [ES SK']. cbn [tail_ok prep_all]. destruct (stage_ok s) eqn:OK; [|simpl; rewrite prep_fails; auto].
      assert (LT : m < length l) by (apply nth_error_Some; congruence).
      pose proof (pi_step m h B C s I ES OK) as S.
      assert (EQ : match nth_error l (Datatypes.S m) with Some c => negb (deferred s c && is_a2a s && exit_mo s) | None => true end =
                   match l' with c :: _ => negb (deferred s c && is_a2a s && exit_mo s) | [] => true end).
      { destruct l' as [|c l2].
        - apply skipn_nil_len in SK'. destruct (nth_error l (Datatypes.S m)) eqn:E; auto.
          assert (Datatypes.S m < length l) by (apply nth_error_Some; congruence). lia.
        - destruct (skipn_cons_nth _ _ _ _ _ SK') as [-> _]. auto. }
      rewrite EQ in S. destruct (match l' with c :: _ => _ | [] => true end); simpl.
      + destruct S as (h1 & C1 & E & I1 & CC). rewrite E. cbn [bind]. specialize (IH (Datatypes.S m) h1 B C1 SK' LT I1).
        destruct (tail_ok l'); auto. destruct IH as (h' & C' & E' & I' & CC'). exists h', C'. split; [auto|]. split; [auto|].
        intros k Hk. rewrite CC' by lia. auto.
      + rewrite S. auto.
  Qed.
End All.

Lemma ok_populated : forall s, stage_ok s = true -> populated s = true.
Proof.
  intros [k|n kw c o|n1 k1 n2 k2] H; simpl in *; auto.
  - apply andb_prop in H. tauto.
  - apply andb_prop in H. destruct H as [H _]. apply andb_prop in H. tauto.
Qed.
Lemma split_ok : forall p l, links_pre p l && tail_ok (p :: l) = forallb stage_ok (p :: l) && links_ok p l.
Proof.
  intros p l. revert p. induction l as [|c l IH]; intros p; [simpl; rewrite !andb_true_r; auto|].
  specialize (IH c). change (tail_ok (p :: c :: l)) with (stage_ok p && negb (deferred p c && is_a2a p && exit_mo p) && tail_ok (c :: l)).
  change (forallb stage_ok (p :: c :: l)) with (stage_ok p && forallb stage_ok (c :: l)).
  cbn [links_pre links_ok]. rewrite link_ok_pre.
  destruct (link_pre p c), (stage_ok p), (negb (deferred p c && is_a2a p && exit_mo p)); simpl andb; auto;
    rewrite ?andb_false_r, ?andb_false_l; auto.
Qed.

(** Final state: bases of the channel numbers between and inside stages. *)
Definition final (l : list stage) (h : heap) (B C : nat -> nat) : Prop :=
  (forall k p c, nth_error l k = Some p -> nth_error l (S k) = Some c -> BF h k p c (B k)) /\
  (forall k s, nth_error l k = Some s -> IN h k s (C k)) /\
  (forall k p c, nth_error l k = Some p -> nth_error l (S k) = Some c -> B k + bcnt p c <= B (S k)) /\
  (forall k s, nth_error l k = Some s -> C k + icnt s <= C (S k)) /\
  B (length l - 1) = C 0 /\
  (forall k s x, nth_error l k = Some s -> nth_error l (S k) = None -> In x (exit k s) -> nout h x = None /\ outN h x = []) /\
  (forall s y, nth_error l 0 = Some s -> In y (entry 0 s) -> nin h y = None /\ inN h y = []).

Lemma wire_spec : forall l, Forall ordered_coll l ->
  if connectable l then exists h B C, wire l = Some h /\ final l h B C else wire l = None.
Proof.
  intros [|s l] OC; [reflexivity|]. unfold wire, connectable.
  destruct (forallb populated (s :: l)) eqn:P.
  - assert (E : forallb stage_ok (s :: l) && links_ok s l = links_pre s l && tail_ok (s :: l)) by (symmetry; apply split_ok). rewrite E. clear E.
    pose proof (connect_all_spec (s :: l) P OC l 0 s heap0 (fun _ => 0) eq_refl eq_refl (ci0 _)) as S1.
    destruct (links_pre s l); [|rewrite S1; simpl; reflexivity]. destruct S1 as (h1 & B & E1 & I1). rewrite E1. cbn [bind andb].
    pose proof (prep_all_spec (s :: l) P OC (s :: l) 0 h1 B (fun _ => nb h1) eq_refl (Nat.le_0_l _) (pi0 _ _ _ I1)) as S2.
    destruct (tail_ok (s :: l)); [|auto]. destruct S2 as (h & C & E2 & I2 & CC). exists h, B, C. split; [auto|].
    assert (LT : forall k x, nth_error (s :: l) k = Some x -> k < length (s :: l)) by (intros k x E; apply nth_error_Some; congruence).
    split; [|split; [|split; [|split; [|split; [|split]]]]].
    + intros k p c EP EC. apply (pi_bf _ _ _ _ _ I2); auto. eauto.
    + intros k x E. apply (pi_in _ _ _ _ _ I2); eauto.
    + intros k p c EP EC. apply (ci_b _ _ _ _ I1); auto. apply LT in EC. lia.
    + intros k x E. apply (pi_in _ _ _ _ _ I2); eauto.
    + rewrite (ci_nb _ _ _ _ I1). symmetry. apply CC. lia.
    + intros k x y E1' E2' Hy. eapply (pi_last _ _ _ _ _ I2); eauto. apply in_or_app; auto.
    + apply (pi_first _ _ _ _ _ I2).
  - assert (NQ : forallb stage_ok (s :: l) = false).
    { apply not_true_is_false. intros Q. assert (forallb populated (s :: l) = true); [|congruence].
      apply forallb_forall. intros x Hx. apply ok_populated. exact (proj1 (forallb_forall _ _) Q x Hx). }
    rewrite NQ. reflexivity.
Qed.
