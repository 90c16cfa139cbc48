(** Every piece of memory is released once, by whoever holds it. *)
From Coq Require Import List Arith Bool Lia.
From Verif Require Import Base MsgModel MsgSpec.
Import ListNotations.

(** ** The events checked one by one *)
Inductive stat := N | O | D.
Definition res_eqb (a b : res) : bool :=
  match a, b with Blk x, Blk y => x =? y | Task x, Task y => x =? y | _, _ => false end.
Lemma res_eqb_spec : forall a b, reflect (a = b) (res_eqb a b).
Proof. intros [x|x] [y|y]; simpl; try (constructor; congruence); destruct (Nat.eqb_spec x y); constructor; congruence. Qed.
Definition updr (f : res -> stat) (r : res) (v : stat) : res -> stat := fun q => if res_eqb q r then v else f q.
Lemma updr_eq : forall f r v, updr f r v r = v.
Proof. intros. unfold updr. destruct (res_eqb_spec r r); congruence. Qed.
Lemma updr_neq : forall f r v q, q <> r -> updr f r v q = f q.
Proof. intros. unfold updr. destruct (res_eqb_spec q r); congruence. Qed.

Definition chk (f : res -> stat) (e : ev) : option (res -> stat) :=
  match e with
  | Born r _ _ _ => match f r with N => Some (updr f r O) | _ => None end
  | Use r => match f r with O => Some f | _ => None end
  | Done r _ => match f r with O => Some (updr f r D) | _ => None end
  end.
Fixpoint run (f : res -> stat) (l : list ev) : option (res -> stat) :=
  match l with [] => Some f | e :: l' => match chk f e with Some f' => run f' l' | None => None end end.
Lemma run_app : forall l1 l2 f, run f (l1 ++ l2) = match run f l1 with Some f' => run f' l2 | None => None end.
Proof. induction l1 as [|e l IH]; intros l2 f; simpl; auto. destruct (chk f e); auto. Qed.

Lemma run_facts : forall l f, run (fun _ => N) l = Some f ->
  (forall r, born l r <-> f r <> N) /\ (forall r, ended l r <-> f r = D).
Proof.
  induction l as [|e l IH] using rev_ind; intros f E.
  - injection E as <-. split; intros r; split; try (intros (o & c & z & [])); try (intros (h & [])); congruence.
  - rewrite run_app in E. destruct (run (fun _ => N) l) as [g|] eqn:G; [|discriminate]. destruct (IH g eq_refl) as [B D0]. cbn [run] in E.
    destruct (chk g e) as [f1|] eqn:C; [|discriminate]. injection E as <-. unfold born, ended.
    assert (Bs : forall r, (exists o cb sz, In (Born r o cb sz) (l ++ [e])) <-> born l r \/ exists o cb sz, e = Born r o cb sz).
    { intros r. split.
      - intros (o & c & z & H). apply in_app_iff in H as [H|[H|[]]]; [left; exists o, c, z; auto|right; exists o, c, z; auto].
      - intros [(o & c & z & H)|(o & c & z & H)]; exists o, c, z; apply in_app_iff; [left; auto|right; left; auto]. }
    assert (Ds : forall r, (exists h, In (Done r h) (l ++ [e])) <-> ended l r \/ exists h, e = Done r h).
    { intros r. split.
      - intros (h & H). apply in_app_iff in H as [H|[H|[]]]; [left; exists h; auto|right; exists h; auto].
      - intros [(h & H)|(h & H)]; exists h; apply in_app_iff; [left; auto|right; left; auto]. }
    split; intros r; [rewrite Bs, B|rewrite Ds, D0]; destruct e as [q o c z|q|q h]; cbn [chk] in C; destruct (g q) eqn:Gq; try discriminate; injection C as <-.
    + destruct (res_eqb_spec r q) as [->|NE]; [rewrite updr_eq; split; [congruence|intros _; right; eauto]|rewrite updr_neq by auto].
      split; [intros [H|(o1 & c1 & z1 & H)]; auto; congruence|auto].
    + split; [intros [H|(o1 & c1 & z1 & H)]; auto; congruence|auto].
    + destruct (res_eqb_spec r q) as [->|NE]; [rewrite updr_eq; split; [congruence|intros _; left; congruence]|rewrite updr_neq by auto].
      split; [intros [H|(o1 & c1 & z1 & H)]; auto; congruence|auto].
    + destruct (res_eqb_spec r q) as [->|NE]; [rewrite updr_eq, Gq; split; [intros [H|(h & H)]; congruence|congruence]|rewrite updr_neq by auto].
      split; [intros [H|(h & H)]; auto; congruence|auto].
    + split; [intros [H|(h & H)]; auto; congruence|auto].
    + destruct (res_eqb_spec r q) as [->|NE]; [rewrite updr_eq; split; [congruence|intros _; right; eauto]|rewrite updr_neq by auto].
      split; [intros [H|(h1 & H)]; auto; congruence|auto].
Qed.
Lemma run_proper : forall l f, run (fun _ => N) l = Some f -> proper l.
Proof.
  intros l f E b e a ->. rewrite run_app in E. destruct (run (fun _ => N) b) as [g|] eqn:G; [|discriminate].
  destruct (run_facts b g G) as [B D0]. cbn [run] in E. destruct (chk g e) as [f1|] eqn:C; [|discriminate].
  destruct e as [q o c z|q|q h]; cbn [chk] in C; destruct (g q) eqn:Gq; try discriminate; rewrite ?B, ?D0, Gq; try split; congruence.
Qed.

Section Inv.
  Variables T limit : nat.
  Variable batch1 : bool.
  Variable P : ser -> Prop.
  Notation step := (step T limit batch1).

  Definition ownf (s : st) (m : nat) : option res :=
    match at_ s m with ToSender | ToNode | Held false => data (fields s m) | _ => None end.

  Definition info (c : msg) (r : res) (l : list ev) : Prop :=
    cleanup c = true /\ In (Born r (owner c) (cb c) (size c)) l /\
    (cb c = true -> exists a, P a /\ s_cb a = true /\ s_size a = size c) /\
    (forall t, r = Task t -> exists a, P a /\ s_copied a = false /\ s_cb a = cb c).

  Definition way (l : list ev) (r : res) (h : how) : Prop :=
    match h with
    | Given => True
    | Delete => (exists t, r = Task t) /\ In (Born r None false 0) l
    | Free => (exists o z, In (Born r o false z) l) /\ ((exists b, r = Blk b) \/ exists a, P a /\ s_copied a = false /\ s_cb a = false)
    | Hook o z => exists a, P a /\ s_cb a = true /\ In (Born r o true (s_size a)) l /\ (z = s_size a \/ T < s_size a)
    end.

  Record inv (s : st) (f : res -> stat) : Prop := {
    v_run : run (fun _ => N) (log s) = Some f;
    v_fresh : forall m, nextm s <= m -> at_ s m = Unborn;
    v_blank : forall m, at_ s m = Pool \/ at_ s m = Slot -> fields s m = blank;
    v_slot : forall w m, slot s w = Some m -> at_ s m = Slot;
    v_sinj : forall w w' m, slot s w = Some m -> slot s w' = Some m -> w = w';
    v_open : forall r, f r = O -> exists m, ownf s m = Some r;
    v_own : forall m r, ownf s m = Some r -> f r = O /\ info (fields s m) r (log s);
    v_inj : forall m m' r, ownf s m = Some r -> ownf s m' = Some r -> m = m';
    v_ctl : forall m, match at_ s m with ToSender | ToNode | Held _ => data (fields s m) = None -> size (fields s m) = 0 | _ => True end;
    v_blk : forall b, nextb s <= b -> f (Blk b) = N;
    v_tsk : forall t, nextt s <= t -> f (Task t) = N;
    v_way : forall r h, In (Done r h) (log s) -> way (log s) r h }.

  Lemma info_mono : forall c r l l', info c r l -> info c r (l ++ l').
  Proof. intros c r l l' (A & B & C & E). split; [auto|split; [apply in_app_iff; auto|split; auto]]. Qed.
  Lemma way_mono : forall l l' r h, way l r h -> way (l ++ l') r h.
  Proof.
    intros l l' r [|o z| |]; simpl; auto.
    - intros [(o & z & H) Q]. split; auto. exists o, z. apply in_app_iff; auto.
    - intros (a & A & B & H & Q). exists a. split; auto. split; auto. split; auto. apply in_app_iff; auto.
    - intros [H Q]. split; auto. apply in_app_iff; auto.
  Qed.

  (** One message changes. *)
  Lemma inv_one : forall s f s' m evs f', inv s f ->
    (forall j, j <> m -> fields s' j = fields s j /\ at_ s' j = at_ s j) ->
    nextm s <= nextm s' -> (at_ s' m <> Unborn -> m < nextm s') ->
    nextb s <= nextb s' -> nextt s <= nextt s' ->
    log s' = log s ++ evs -> run f evs = Some f' ->
    (at_ s' m = Pool \/ at_ s' m = Slot -> fields s' m = blank) ->
    (forall w j, slot s' w = Some j -> (slot s w = Some j /\ j <> m) \/ (j = m /\ at_ s' m = Slot)) ->
    (forall w w', slot s' w = Some m -> slot s' w' = Some m -> w = w') ->
    (forall r, f' r = O <-> (f r = O /\ ownf s m <> Some r) \/ ownf s' m = Some r) ->
    (forall r, ownf s' m = Some r -> ~ (f r = O /\ ownf s m <> Some r)) ->
    (forall r, ownf s' m = Some r -> info (fields s' m) r (log s')) ->
    match at_ s' m with ToSender | ToNode | Held _ => data (fields s' m) = None -> size (fields s' m) = 0 | _ => True end ->
    (forall b, nextb s' <= b -> f' (Blk b) = N) -> (forall t, nextt s' <= t -> f' (Task t) = N) ->
    (forall r h, In (Done r h) evs -> way (log s') r h) ->
    inv s' f'.
  Proof.
    intros s f s' m evs f' [V1 V2 V3 V4 V4i V5 V6 V7 V8 V9 V10 V11] OTH NM UB NB NT LG RN BL SL SJ OP FR IN CT BI TI WY.
    assert (OW : forall j, j <> m -> ownf s' j = ownf s j) by (intros j NE; unfold ownf; destruct (OTH j NE) as [-> ->]; auto).
    constructor.
    - rewrite LG, run_app, V1. auto.
    - intros j Hj. destruct (Nat.eq_dec j m) as [EQ|NE].
      + subst j. destruct (at_ s' m); auto; exfalso; enough (m < nextm s') by lia; apply UB; discriminate.
      + destruct (OTH j NE) as [_ ->]. apply V2. lia.
    - intros j Hj. destruct (Nat.eq_dec j m) as [EQ|NE]; [subst; auto|]. destruct (OTH j NE) as [F A]. rewrite F. rewrite A in Hj. auto.
    - intros w j Hj. destruct (SL w j Hj) as [[H NE]|[-> H]]; auto. destruct (OTH j NE) as [_ ->]. eauto.
    - intros w w' j H1 H2. destruct (Nat.eq_dec j m) as [EQ|NE]; [subst; eauto|].
      destruct (SL w j H1) as [[H1' _]|[EQ _]]; [|congruence]. destruct (SL w' j H2) as [[H2' _]|[EQ _]]; [|congruence]. eauto.
    - intros r Hr. apply OP in Hr as [[Hr NE]|Hr]; [|eauto]. destruct (V5 r Hr) as (j & Hj). exists j. rewrite OW; auto. intros EQ. subst. auto.
    - intros j r Hj. destruct (Nat.eq_dec j m) as [EQ|NE].
      + subst j. split; [apply OP; auto|auto].
      + rewrite OW in Hj by auto. destruct (V6 j r Hj) as [H I]. destruct (OTH j NE) as [-> _]. rewrite LG. split; [|apply info_mono; auto].
        apply OP. left. split; auto. intros Hm. apply NE. eauto.
    - intros j k r Hj Hk. destruct (Nat.eq_dec j m) as [EQ|NE], (Nat.eq_dec k m) as [EQ'|NE']; try congruence.
      + subst j. rewrite OW in Hk by auto. destruct (V6 k r Hk) as [H _]. exfalso. apply (FR r Hj). split; auto. intros Hm. apply NE'. eauto.
      + subst k. rewrite OW in Hj by auto. destruct (V6 j r Hj) as [H _]. exfalso. apply (FR r Hk). split; auto. intros Hm. apply NE. eauto.
      + rewrite OW in Hj, Hk by auto. eauto.
    - intros j. destruct (Nat.eq_dec j m) as [EQ|NE]; [subst; exact CT|]. destruct (OTH j NE) as [-> ->]. exact (V8 j).
    - auto.
    - auto.
    - intros r h H. rewrite LG in H. apply in_app_iff in H as [H|H]; [rewrite LG; apply way_mono; auto|auto].
  Qed.

  Lemma inv_init : inv init (fun _ => N).
  Proof.
    constructor; unfold ownf; cbn [init at_ fields slot log nextm nextb nextt run].
    - reflexivity.
    - auto.
    - intros m [H|H]; discriminate.
    - discriminate.
    - discriminate.
    - discriminate.
    - discriminate.
    - discriminate.
    - auto.
    - auto.
    - auto.
    - intros r h [].
  Qed.

  (** A message was taken out of the pool, or made. *)
  Record taken (s s1 : st) (m : nat) : Prop := {
    r_f : forall j, j <> m -> fields s1 j = fields s j;
    r_at : at_ s1 = at_ s;
    r_nm : nextm s <= nextm s1;
    r_m : m < nextm s1;
    r_b : nextb s1 = nextb s;
    r_t : nextt s1 = nextt s;
    r_log : log s1 = log s;
    r_own : ownf s m = None;
    r_new : fields s1 m = blank;
    r_slot : forall w j, slot s1 w = Some j -> slot s w = Some j /\ j <> m }.

  Lemma alloc_taken : forall s f p m s1, inv s f -> alloc s p = Some (m, s1) -> taken s s1 m.
  Proof.
    intros s f [q|] m s1 [V1 V2 V3 V4 V4i V5 V6 V7 V8 V9 V10 V11] E; cbn [alloc] in E.
    - destruct (at_ s q) eqn:A; try discriminate. injection E as <- <-. constructor; auto.
      + destruct (Nat.lt_ge_cases q (nextm s)) as [L|L]; auto. apply V2 in L. congruence.
      + unfold ownf. rewrite A. auto.
      + intros w j H. split; auto. intros ->. apply V4 in H. congruence.
    - injection E as <- <-. constructor; cbn [fields at_ nextm nextb nextt log slot]; auto.
      + intros j NE. apply fupd_neq; auto.
      + unfold ownf. rewrite V2 by lia. auto.
      + apply fupd_eq.
      + intros w j H. split; auto. intros ->. apply V4 in H. rewrite V2 in H by lia. discriminate.
  Qed.
  Lemma slot_taken : forall s f w m, inv s f -> slot s w = Some m -> taken s (set_slot s w None) m.
  Proof.
    intros s f w m [V1 V2 V3 V4 V4i V5 V6 V7 V8 V9 V10 V11] E. pose proof (V4 w m E) as A.
    constructor; cbn [set_slot fields at_ nextm nextb nextt log slot]; auto.
    - destruct (Nat.lt_ge_cases m (nextm s)) as [L|L]; auto. apply V2 in L. congruence.
    - unfold ownf. rewrite A. auto.
    - intros w' j H. destruct (Nat.eq_dec w' w) as [EQ|NE]; [subst; rewrite fupd_eq in H; discriminate|]. rewrite fupd_neq in H by auto.
      split; auto. intros ->. apply NE. eauto.
  Qed.

  Ltac rn := repeat (cbn [run chk app]; rewrite ?updr_eq, ?updr_neq by congruence; repeat match goal with H : ?f ?r = _ |- context[?f ?r] => rewrite H end).
  Ltac ud r := unfold updr; repeat match goal with |- context[res_eqb r ?q] => destruct (res_eqb_spec r q) end.
  Ltac same := intros j NE; cbn; rewrite ?fupd_neq by auto; auto.

  Lemma send_inv : forall s f s1 m a, inv s f -> taken s s1 m -> P a ->
    exists f', inv (finish_send (ship (serialize (emit s1 [task_born s1 a]) m a) m a)) f'.
  Proof.
    intros s f s1 m a V R PA. pose proof V as [V1 V2 V3 V4 V4i V5 V6 V7 V8 V9 V10 V11]. destruct R as [RF RA RN RM RB RT RL RO RW RS].
    pose proof (V9 (nextb s) ltac:(lia)) as FB. pose proof (V10 (nextt s) ltac:(lia)) as FT.
    set (s' := finish_send _).
    assert (Fm : fields s' m = ser_msg s1 a (fields s1 m)) by (unfold s'; cbn; rewrite !fupd_eq; auto).
    assert (Am : at_ s' m = ToSender) by (unfold s'; cbn; rewrite !fupd_eq; auto).
    assert (Om : ownf s' m = Some (ser_data s a)) by (unfold ownf; rewrite Am, Fm; cbn; unfold ser_data; rewrite RB, RT; auto).
    assert (Lg : log s' = log s ++ (task_born s a :: ser_ev s a ++ if s_copied a then [Done (Task (nextt s)) Delete] else [])).
    { unfold s'. cbn [finish_send new_task new_block ship emit serialize put log nextb nextt]. rewrite RL. unfold task_born, ser_ev. cbn [nextb nextt emit]. rewrite RB, RT.
      rewrite <- !app_assoc. reflexivity. }
    set (t := Task (nextt s)) in *. set (b := Blk (nextb s)) in *. assert (NTB : t <> b) by discriminate. assert (NBT : b <> t) by discriminate.
    exists (if s_copied a then updr (updr (updr f t O) b O) t D else updr f t O).
    refine (inv_one s f s' m _ _ V _ _ _ _ _ Lg _ _ _ _ _ _ _ _ _ _ _).
    - intros j NE. unfold s'. cbn. rewrite !fupd_neq by auto. rewrite RA, RF by auto. auto.
    - unfold s'. cbn. lia.
    - intros _. unfold s'. cbn. auto.
    - unfold s'. cbn. lia.
    - unfold s'. cbn. lia.
    - unfold task_born, ser_ev. fold t b. destruct (s_copied a); rn; auto.
    - rewrite Am. intros [H|H]; discriminate.
    - intros w j H. left. apply RS. exact H.
    - intros w w' H. apply RS in H as [_ H]. congruence.
    - intros r. rewrite Om, RO. unfold ser_data. fold t b. destruct (s_copied a); ud r; subst; split; intros; try tauto; try discriminate; try congruence;
        try (destruct H as [[H _]|H]; congruence); try (left; split; auto; discriminate).
    - intros r H [G _]. rewrite Om in H. injection H as <-. unfold ser_data in G. fold t b in G. destruct (s_copied a); congruence.
    - intros r H. rewrite Om in H. injection H as <-. rewrite Fm. cbn [ser_msg]. split; [auto|]. cbn [owner cb size]. rewrite Lg. unfold ser_data, ser_ev, task_born. fold t b. split; [|split].
      + apply in_app_iff. right. destruct (s_copied a); simpl; auto.
      + intros C. exists a. auto.
      + intros q. destruct (s_copied a) eqn:C; [discriminate|]. intros _. exists a. auto.
    - rewrite Am, Fm. cbn. discriminate.
    - intros q. unfold s'. cbn. rewrite RB. intros Hq. assert (f (Blk q) = N) by (apply V9; lia). 
      assert (Blk q <> b) by (unfold b; intros [= E]; lia). assert (Blk q <> t) by discriminate. destruct (s_copied a); rewrite ?updr_neq by auto; auto.
    - intros q. unfold s'. cbn. rewrite RT. intros Hq. assert (f (Task q) = N) by (apply V10; lia).
      assert (Task q <> t) by (unfold t; intros [= E]; lia). assert (Task q <> b) by discriminate. destruct (s_copied a); rewrite ?updr_neq by auto; auto.
    - intros r h. rewrite Lg. unfold task_born, ser_ev. fold t b. destruct (s_copied a) eqn:C; simpl.
      + intros [H|[H|[H|[H|[]]]]]; try discriminate. injection H as <- <-. simpl. split; [eexists; reflexivity|]. apply in_app_iff. right. left. auto.
      + intros [H|[H|[]]]; discriminate.
  Qed.
End Inv.
