(** Every piece of memory is released once: the other actions. *)
From Coq Require Import List Arith Bool Lia.
From Verif Require Import Base MsgModel MsgSpec MsgProofs.
Import ListNotations.

Section Inv2.
  Variables T limit : nat.
  Variable batch1 : bool.
  Variable P : ser -> Prop.
  Notation step := (step T limit batch1).
  Notation inv := (inv T P).

  Ltac rn := repeat (cbn [run chk app]; rewrite ?updr_eq, ?updr_neq by congruence; repeat match goal with H : ?f ?r = _ |- context[?f ?r] => rewrite H end).
  Ltac ud r := unfold updr; repeat match goal with |- context[res_eqb r ?q] => destruct (res_eqb_spec r q) end.

  (** A message is given back: what it carries is released. *)
  Lemma drop_inv : forall s f s' m pre c', inv s f -> at_ s m <> Unborn ->
    (forall j, j <> m -> fields s' j = fields s j /\ at_ s' j = at_ s j) ->
    nextm s' = nextm s -> nextb s' = nextb s -> nextt s' = nextt s ->
    log s' = log s ++ pre ++ clean_ev c' ->
    fields s' m = blank -> at_ s' m = Pool \/ at_ s' m = Gone \/ at_ s' m = Slot ->
    (forall w j, slot s' w = Some j -> (slot s w = Some j /\ j <> m) \/ (j = m /\ at_ s' m = Slot)) ->
    (forall w w', slot s' w = Some m -> slot s' w' = Some m -> w = w') ->
    pre = [] \/ (exists r, ownf s m = Some r /\ pre = [Use r]) ->
    (forall r, ownf s m = Some r -> data c' = Some r /\ cleanup c' = true /\ cb c' = cb (fields s m) /\ owner c' = owner (fields s m) /\
       (size c' = size (fields s m) \/ T < size (fields s m))) ->
    (ownf s m = None -> data c' = None \/ cleanup c' = false) ->
    exists f', inv s' f'.
  Proof.
    intros s f s' m pre c' V AM OTH NM NB NT LG BL AT SL SJ PR OW NO. pose proof V as [V1 V2 V3 V4 V4i V5 V6 V7 V8 V9 V10 V11].
    assert (O' : ownf s' m = None) by (unfold ownf; destruct AT as [->|[->| ->]]; auto).
    assert (MM : m < nextm s) by (destruct (Nat.lt_ge_cases m (nextm s)) as [L|L]; auto; apply V2 in L; congruence).
    destruct (ownf s m) as [r|] eqn:OM.
    - destruct (OW r eq_refl) as (D1 & D2 & D3 & D4 & D5). destruct (V6 m r OM) as [FO IN].
      assert (CE : clean_ev c' = [Done r (if cb c' then Hook (owner c') (size c') else Free)]) by (unfold clean_ev; rewrite D1, D2; auto).
      exists (updr f r D). refine (inv_one T P s f s' m _ _ V OTH _ _ _ _ LG _ _ SL SJ _ _ _ _ _ _ _); try lia.
      + rewrite CE. destruct PR as [->|(q & Q & ->)]; [|injection Q as <-]; rn; auto.
      + auto.
      + intros q. rewrite O', OM. ud q; split; intros H; try discriminate.
        * destruct H as [[_ H]|H]; congruence.
        * left. split; auto. congruence.
        * destruct H as [[H _]|H]; [auto|discriminate].
      + intros q. rewrite O'. discriminate.
      + intros q. rewrite O'. discriminate.
      + destruct AT as [->|[->| ->]]; auto.
      + intros b Hb. rewrite NB in Hb. apply V9 in Hb. rewrite updr_neq; auto. congruence.
      + intros t Ht. rewrite NT in Ht. apply V10 in Ht. rewrite updr_neq; auto. congruence.
      + intros q h H. destruct IN as (I1 & I2 & I3 & I4). rewrite CE in H. apply in_app_iff in H as [H|[H|[]]].
        { destruct PR as [->|(q' & Q & ->)]; [destruct H|destruct H as [H|[]]; discriminate]. }
        injection H as <- <-. rewrite D3, D4. rewrite LG. apply way_mono. destruct (cb (fields s m)) eqn:CB; simpl.
        * destruct (I3 eq_refl) as (a & A1 & A2 & A3). exists a. split; auto. split; auto. rewrite A3. split; auto. 
        * split; [eauto|]. destruct r as [b|t]; [left; eauto|]. destruct (I4 t eq_refl) as (a & A1 & A2 & A3). right. eauto.
    - assert (CE : clean_ev c' = []) by (unfold clean_ev; destruct (NO eq_refl) as [->| ->]; auto; destruct (data c'); auto).
      assert (PE : pre = []) by (destruct PR as [|(q & Q & _)]; [auto|discriminate]). rewrite CE, PE in LG.
      exists f. refine (inv_one T P s f s' m _ _ V OTH _ _ _ _ LG _ _ SL SJ _ _ _ _ _ _ _); try lia; auto.
      + intros q. rewrite O', OM. split; [intros H; left; split; auto; discriminate|intros [[H _]|H]; [auto|discriminate]].
      + intros q. rewrite O'. discriminate.
      + intros q. rewrite O'. discriminate.
      + destruct AT as [->|[->| ->]]; auto.
      + intros b Hb. apply V9. lia.
      + intros t Ht. apply V10. lia.
      + intros q h [].
  Qed.

  (** Only counters and the log change. *)
  Lemma task_only : forall s f s' a, inv s f -> fields s' = fields s -> at_ s' = at_ s -> slot s' = slot s ->
    nextm s' = nextm s -> nextb s <= nextb s' -> nextt s' = S (nextt s) ->
    log s' = log s ++ [task_born s a; Done (Task (nextt s)) Given] -> exists f', inv s' f'.
  Proof.
    intros s f s' a V EF EA ES NM NB NT LG. pose proof V as [V1 V2 V3 V4 V4i V5 V6 V7 V8 V9 V10 V11].
    pose proof (V10 (nextt s) ltac:(lia)) as FT. set (t := Task (nextt s)) in *. exists (updr (updr f t O) t D).
    assert (UN : at_ s (nextm s) = Unborn) by (apply V2; lia).
    assert (OE : ownf s' (nextm s) = ownf s (nextm s)) by (unfold ownf; rewrite EA, EF; auto).
    assert (ON : ownf s (nextm s) = None) by (unfold ownf; rewrite UN; auto).
    refine (inv_one T P s f s' (nextm s) _ _ V _ _ _ NB _ LG _ _ _ _ _ _ _ _ _ _ _); try lia.
    - intros j _. rewrite EF, EA. auto.
    - rewrite EA, UN. congruence.
    - unfold task_born. fold t. destruct (s_copied a); rn; auto.
    - rewrite EA, UN. intros [H|H]; discriminate.
    - intros w j H. rewrite ES in H. left. split; auto. intros ->. apply V4 in H. congruence.
    - intros w w' H. rewrite ES in H. apply V4 in H. congruence.
    - intros r. rewrite OE, ON. ud r; subst; split; intros H; try discriminate.
      + destruct H as [[H _]|H]; congruence.
      + left. split; auto. discriminate.
      + destruct H as [[H _]|H]; [auto|discriminate].
    - intros q. rewrite OE, ON. discriminate.
    - intros q. rewrite OE, ON. discriminate.
    - rewrite EA, UN. auto.
    - intros b Hb. rewrite !updr_neq by discriminate. apply V9. lia.
    - intros q Hq. rewrite NT in Hq. rewrite !updr_neq by (unfold t; intros [= E]; lia). apply V10. lia.
    - intros r h. unfold task_born. destruct (s_copied a); intros [H|[H|[]]]; try discriminate; injection H as <- <-; exact I.
  Qed.

  (** Without destination: serialised, and then a local queue had room after all. *)
  Lemma back_inv : forall s f s1 m a full, inv s f -> taken s s1 m -> P a ->
    let s2 := serialize (emit s1 [task_born s1 a]) m a in
    let s3 := emit s2 [Done (Task (nextt s2)) Given] in
    let c := fields s3 m in
    exists f', inv (finish_send (release (put s3 m (if s_copied a then c else mkM (data c) (size c) false (owner c) (cb c)) (at_ s3 m)) m full)) f'.
  Proof.
    intros s f s1 m a full V R PA s2 s3 c. pose proof V as [V1 V2 V3 V4 V4i V5 V6 V7 V8 V9 V10 V11]. destruct R as [RF RA RN RM RB RT RL RO RW RS].
    pose proof (V9 (nextb s) ltac:(lia)) as FB. pose proof (V10 (nextt s) ltac:(lia)) as FT.
    assert (Ec : c = ser_msg s1 a (fields s1 m)) by (unfold c, s3, s2; cbn; rewrite !fupd_eq; auto).
    set (s' := finish_send _).
    assert (Fm : fields s' m = blank) by (unfold s'; cbn; rewrite !fupd_eq; auto).
    assert (Am : at_ s' m = if full then Gone else Pool) by (unfold s'; cbn; rewrite !fupd_eq; auto).
    assert (Om : ownf s' m = None) by (unfold ownf; rewrite Am; destruct full; auto).
    set (t := Task (nextt s)) in *. set (b := Blk (nextb s)) in *. assert (NTB : t <> b) by discriminate. assert (NBT : b <> t) by discriminate.
    assert (Lg : log s' = log s ++ (task_born s a :: ser_ev s a ++ [Done t Given] ++
                   if s_copied a then [Done b (if s_cb a then Hook (s_owner a) (s_size a) else Free)] else [])).
    { unfold s'. cbn [finish_send new_task new_block release put emit log fields]. rewrite fupd_eq, Ec. unfold s3, s2.
      cbn [serialize emit put log nextb nextt]. rewrite RL. unfold task_born, ser_ev, ser_msg, clean_ev, ser_data. cbn [nextb nextt emit]. rewrite RB, RT. fold t b.
      rewrite <- !app_assoc. destruct (s_copied a); cbn; auto. }
    exists (if s_copied a then updr (updr (updr (updr f t O) b O) t D) b D else updr (updr f t O) t D).
    refine (inv_one T P s f s' m _ _ V _ _ _ _ _ Lg _ _ _ _ _ _ _ _ _ _ _).
    - intros j NE. unfold s', s3, s2. cbn. rewrite !fupd_neq by auto. rewrite RA, RF by auto. auto.
    - unfold s'. cbn. lia.
    - intros _. unfold s'. cbn. auto.
    - unfold s'. cbn. lia.
    - unfold s'. cbn. lia.
    - unfold task_born, ser_ev. fold t b. destruct (s_copied a); rn; auto.
    - auto.
    - intros w j H. left. apply RS. exact H.
    - intros w w' H. apply RS in H as [_ H]. congruence.
    - intros r. rewrite Om, RO. destruct (s_copied a); ud r; subst; split; intros H; try discriminate;
        try (destruct H as [[H _]|H]; congruence); try (left; split; auto; discriminate).
    - intros q. rewrite Om. discriminate.
    - intros q. rewrite Om. discriminate.
    - rewrite Am. destruct full; auto.
    - intros q. unfold s'. cbn. rewrite RB. intros Hq. assert (f (Blk q) = N) by (apply V9; lia).
      assert (Blk q <> b) by (unfold b; intros [= E]; lia). assert (Blk q <> t) by discriminate. destruct (s_copied a); rewrite ?updr_neq by auto; auto.
    - intros q. unfold s'. cbn. rewrite RT. intros Hq. assert (f (Task q) = N) by (apply V10; lia).
      assert (Task q <> t) by (unfold t; intros [= E]; lia). assert (Task q <> b) by discriminate. destruct (s_copied a); rewrite ?updr_neq by auto; auto.
    - intros r h. rewrite Lg. unfold task_born, ser_ev. fold t b. destruct (s_copied a) eqn:C; simpl.
      + intros [H|[H|[H|[H|[H|[]]]]]]; try discriminate.
        * injection H as <- <-. exact I.
        * injection H as <- <-. destruct (s_cb a) eqn:CB; simpl.
          { exists a. split; auto. split; auto. split; auto. apply in_app_iff. right. right. right. left. auto. }
          { split; [|left; unfold b; eauto]. exists (s_owner a), (s_size a). apply in_app_iff. right. right. right. left. auto. }
      + intros [H|[H|[H|[]]]]; try discriminate. injection H as <- <-. exact I.
  Qed.

  Lemma any_have : forall rounds s m a full s', any_loop s m a true full rounds = Some s' ->
    s' = ship s m a \/
    (let s3 := emit s [Done (Task (nextt s)) Given] in let c := fields s3 m in
     s' = release (put s3 m (if s_copied a then c else mkM (data c) (size c) false (owner c) (cb c)) (at_ s3 m)) m full).
  Proof.
    induction rounds as [|[[|] r] rest IH]; intros s m a full s' E; [discriminate| |].
    - right. cbn [any_loop] in E. injection E as <-. reflexivity.
    - cbn [any_loop] in E. destruct r; [left; congruence|]. apply IH. auto.
  Qed.

  Definition answers (x : act) : Prop :=
    match x with SendTo _ a | SendAny _ a _ _ | SendW _ _ a => P a | _ => True end.

  Lemma not_slot : forall s f w j m, inv s f -> at_ s m <> Slot -> slot s w = Some j -> slot s w = Some j /\ j <> m.
  Proof. intros s f w j m V N H. split; auto. intros ->. apply (v_slot _ _ _ _ V) in H. auto. Qed.

  Lemma step_inv : forall s f x s', inv s f -> answers x -> step s x = Some s' -> exists f', inv s' f'.
  Proof.
    intros s f x s' V PA E. pose proof V as [V1 V2 V3 V4 V4i V5 V6 V7 V8 V9 V10 V11].
    destruct x as [p a| |p a full rounds|w p a|p out|m full|p sz|m copied|m w full|m full|m full|w]; cbn [MsgModel.step] in E; cbn [answers] in PA.
    - destruct (alloc s p) as [[m s1]|] eqn:A; [|discriminate]. injection E as <-. eapply send_inv; eauto. eapply alloc_taken; eauto.
    - injection E as <-. eapply (task_only s f _ (mkSer 0 true None false)); eauto; reflexivity.
    - destruct (alloc s p) as [[m s1]|] eqn:A; [|discriminate]. pose proof (alloc_taken _ _ _ _ _ _ _ V A) as R.
      destruct rounds as [|[[|] r] rest]; [discriminate| |].
      + cbn [any_loop option_map] in E. injection E as <-. eapply (task_only s f _ a); eauto; cbn; auto. rewrite <- app_assoc. auto.
      + cbn [any_loop] in E. destruct r.
        * injection E as <-. eapply send_inv; eauto.
        * destruct (any_loop _ m a true full rest) as [s2|] eqn:L; [|discriminate]. injection E as <-.
          apply any_have in L as [->| ->]; [eapply send_inv; eauto|eapply back_inv; eauto].
    - destruct (slot s w) as [m|] eqn:SW.
      + injection E as <-. eapply send_inv; eauto. eapply slot_taken; eauto.
      + destruct (alloc s p) as [[m s1]|] eqn:A; [|discriminate]. injection E as <-. eapply send_inv; eauto. eapply alloc_taken; eauto.
    - destruct (alloc s p) as [[m s1]|] eqn:A; [|discriminate]. injection E as <-.
      destruct (alloc_taken _ _ _ _ _ _ _ V A) as [RF RA RN RM RB RT RL RO RW RS]. set (s' := put _ _ _ _). exists f.
      assert (Fm : fields s' m = blank) by (unfold s'; cbn; rewrite fupd_eq; auto).
      assert (Om : ownf s' m = None) by (unfold ownf; rewrite Fm; destruct (at_ s' m) as [ | | | |zc| |]; try destruct zc; reflexivity).
      refine (inv_one T P s f s' m [] _ V _ _ _ _ _ _ _ _ _ _ _ _ _ _ _ _ _); try (unfold s'; cbn; lia).
      + intros j NE. unfold s'. cbn. rewrite !fupd_neq by auto. rewrite RA, RF by auto. auto.
      + unfold s'. cbn. rewrite RL, app_nil_r. auto.
      + reflexivity.
      + auto.
      + intros w j H. left. apply RS. exact H.
      + intros w w' H. apply RS in H as [_ H]. congruence.
      + intros q. rewrite Om, RO. split; [intros H; left; split; auto; discriminate|intros [[H _]|H]; [auto|discriminate]].
      + intros q. rewrite Om. discriminate.
      + intros q. rewrite Om. discriminate.
      + rewrite Fm. destruct (at_ s' m); auto.
      + intros q Hq. apply V9. unfold s' in Hq. cbn in Hq. lia.
      + intros q Hq. apply V10. unfold s' in Hq. cbn in Hq. lia.
    - destruct (at_ s m) eqn:AM; try discriminate. injection E as <-.
      set (c' := mkM (data (fields s m)) (sent_size T limit batch1 (fields s m)) (cleanup (fields s m)) (owner (fields s m)) (cb (fields s m))).
      assert (OM : ownf s m = data (fields s m)) by (unfold ownf; rewrite AM; auto).
      eapply (drop_inv s f _ m (xmit_use (fields s m)) c'); eauto; cbn [release emit put fields at_ nextm nextb nextt slot log].
      + congruence.
      + intros j NE. rewrite !fupd_neq by auto. auto.
      + rewrite !fupd_eq, <- app_assoc. auto.
      + rewrite fupd_eq. auto.
      + rewrite fupd_eq. destruct full; auto.
      + intros w j H. left. eapply not_slot; eauto. congruence.
      + unfold xmit_use. rewrite OM. destruct (data (fields s m)) as [r|]; auto. destruct (0 <? _); eauto.
      + intros r Hr. destruct (V6 m r Hr) as [_ (I1 & _)]. unfold c'. cbn [data cleanup cb owner size]. rewrite <- OM. repeat (split; [solve [auto]|]).
        unfold sent_size. destruct ((_ || _) && _) eqn:B; auto. apply andb_prop in B as [_ B]. apply Nat.ltb_lt in B. auto.
      + rewrite OM. intros H. left. exact H.
    - destruct (0 <? sz) eqn:Z; [|discriminate]. destruct (alloc s p) as [[m s1]|] eqn:A; [|discriminate]. injection E as <-.
      destruct (alloc_taken _ _ _ _ _ _ _ V A) as [RF RA RN RM RB RT RL RO RW RS]. set (s' := new_block _).
      pose proof (V9 (nextb s) ltac:(lia)) as FB. set (b := Blk (nextb s)) in *. exists (updr f b O).
      assert (Fm : fields s' m = mkM (Some b) sz true None false) by (unfold s'; cbn; rewrite fupd_eq, RW, RB; auto).
      assert (Am : at_ s' m = ToNode) by (unfold s'; cbn; rewrite fupd_eq; auto).
      assert (Om : ownf s' m = Some b) by (unfold ownf; rewrite Am, Fm; auto).
      assert (Lg : log s' = log s ++ [Born b None false sz]) by (unfold s'; cbn; rewrite RL, RB; auto).
      refine (inv_one T P s f s' m _ _ V _ _ _ _ _ Lg _ _ _ _ _ _ _ _ _ _ _); try (unfold s'; cbn; lia).
      + intros j NE. unfold s'. cbn. rewrite !fupd_neq by auto. rewrite RA, RF by auto. auto.
      + rn. auto.
      + rewrite Am. intros [H|H]; discriminate.
      + intros w j H. left. apply RS. exact H.
      + intros w w' H. apply RS in H as [_ H]. congruence.
      + intros q. rewrite Om, RO. ud q; subst; split; intros H; auto.
        * left. split; auto. discriminate.
        * destruct H as [[H _]|H]; congruence.
      + intros q H [G _]. rewrite Om in H. injection H as <-. congruence.
      + intros q H. rewrite Om in H. injection H as <-. rewrite Fm, Lg. split; [auto|]. split; [apply in_app_iff; right; left; auto|]. split; [discriminate|]. discriminate.
      + rewrite Am, Fm. discriminate.
      + intros q Hq. unfold s' in Hq. cbn in Hq. rewrite updr_neq; [apply V9; lia|]. unfold b. intros [= EQ]. lia.
      + intros q Hq. unfold s' in Hq. cbn in Hq. rewrite updr_neq by discriminate. apply V10. lia.
      + intros r h [H|[]]. discriminate.
    - destruct (at_ s m) eqn:AM; try discriminate. destruct (0 <? size (fields s m)); [|discriminate]. destruct (data (fields s m)) as [r|] eqn:DM; [|discriminate].
      injection E as <-. set (s' := emit _ _).
      assert (OM : ownf s m = Some r) by (unfold ownf; rewrite AM; auto). destruct (V6 m r OM) as [FO IN].
      assert (Fm : fields s' m = fields s m) by (unfold s'; cbn; rewrite fupd_eq; auto).
      assert (Am : at_ s' m = Held (negb copied)) by (unfold s'; cbn; rewrite fupd_eq; auto).
      assert (Om : ownf s' m = if copied then Some r else None) by (unfold ownf; rewrite Am, Fm; destruct copied; auto).
      assert (Lg : log s' = log s ++ (Use r :: if copied then [] else [Done r Given])) by reflexivity.
      assert (MM : m < nextm s) by (destruct (Nat.lt_ge_cases m (nextm s)) as [L|L]; auto; apply V2 in L; congruence).
      exists (if copied then f else updr f r D).
      refine (inv_one T P s f s' m _ _ V _ _ _ _ _ Lg _ _ _ _ _ _ _ _ _ _ _); try (unfold s'; cbn; lia).
      + intros j NE. unfold s'. cbn. rewrite !fupd_neq by auto. auto.
      + destruct copied; rn; auto.
      + rewrite Am. intros [H|H]; discriminate.
      + intros w j H. left. eapply not_slot; eauto. congruence.
      + intros w w' H. apply V4 in H. congruence.
      + intros q. rewrite Om, OM. destruct copied.
        * split; [|intros [[H _]|H]; [auto|congruence]]. intros H. destruct (res_eqb_spec q r) as [->|NE]; auto. left. split; auto. congruence.
        * ud q; subst; split; intros H; try discriminate.
          -- destruct H as [[_ H]|H]; congruence.
          -- left. split; auto. congruence.
          -- destruct H as [[H _]|H]; [auto|discriminate].
      + intros q. rewrite Om, OM. destruct copied; [|discriminate]. intros H [_ G]. congruence.
      + intros q. rewrite Om. destruct copied; [|discriminate]. intros [= <-]. rewrite Fm, Lg. apply info_mono. auto.
      + rewrite Am, Fm, DM. discriminate.
      + intros q Hq. unfold s' in Hq. cbn in Hq. pose proof (V9 q Hq). destruct copied; auto. rewrite updr_neq; auto. congruence.
      + intros q Hq. unfold s' in Hq. cbn in Hq. pose proof (V10 q Hq). destruct copied; auto. rewrite updr_neq; auto. congruence.
      + intros q h H. destruct copied; simpl in H; [destruct H as [H|[]]; discriminate|]. destruct H as [H|[H|[]]]; [discriminate|]. injection H as <- <-. exact I.
    - destruct (at_ s m) as [ | | | |zc| |] eqn:AM; try discriminate.
      set (c := fields s m) in *. set (c' := mkM (data c) (size c) (if zc then false else cleanup c) (owner c) (cb c)) in *.
      assert (OM : ownf s m = if zc then None else data c) by (unfold ownf; rewrite AM; destruct zc; auto).
      assert (DR : forall s'' p, (p = Pool \/ p = Gone \/ p = Slot) ->
        (forall j, j <> m -> fields s'' j = fields s j /\ at_ s'' j = at_ s j) -> nextm s'' = nextm s -> nextb s'' = nextb s -> nextt s'' = nextt s ->
        log s'' = log s ++ clean_ev c' -> fields s'' m = blank -> at_ s'' m = p ->
        (forall w j, slot s'' w = Some j -> (slot s w = Some j /\ j <> m) \/ (j = m /\ at_ s'' m = Slot)) ->
        (forall w w', slot s'' w = Some m -> slot s'' w' = Some m -> w = w') -> exists f', inv s'' f').
      { intros s'' p Hp H1 H2 H3 H4 H5 H6 H7 H8 H9. eapply (drop_inv s f s'' m [] c'); eauto.
        - congruence.
        - rewrite H7. auto.
        - intros r Hr. destruct (V6 m r Hr) as [_ (I1 & _)]. rewrite OM in Hr. unfold c'. cbn [data cleanup cb owner size]. destruct zc; [discriminate|]. unfold c in *. auto 7.
        - rewrite OM. unfold c'. cbn [data cleanup]. destruct zc; auto. }
      assert (RL : forall full0 s'', s'' = release (put s m c' (Held zc)) m full0 -> exists f', inv s'' f').
      { intros fl s'' ->. apply (DR _ (if fl then Gone else Pool)); cbn [release emit put fields at_ nextm nextb nextt slot log]; auto.
        - destruct fl; auto.
        - intros j NE. rewrite !fupd_neq by auto. auto.
        - rewrite fupd_eq. auto.
        - rewrite fupd_eq. auto.
        - rewrite fupd_eq. auto.
        - intros w0 j H. left. eapply not_slot; eauto. congruence.
        - intros w0 w' H. apply V4 in H. congruence. }
      destruct w as [w|]; [|injection E as <-; eapply RL; reflexivity]. destruct (slot s w) as [q|] eqn:SW; [injection E as <-; eapply RL; reflexivity|].
      injection E as <-. apply (DR _ Slot); cbn [set_slot emit put fields at_ nextm nextb nextt slot log]; auto.
      + intros j NE. rewrite !fupd_neq by auto. auto.
      + rewrite fupd_eq. auto.
      + rewrite fupd_eq. auto.
      + rewrite fupd_eq. auto.
      + intros w0 j H. destruct (Nat.eq_dec w0 w) as [EQ|NE].
        * subst. rewrite fupd_eq in H. injection H as <-. right. rewrite fupd_eq. auto.
        * rewrite fupd_neq in H by auto. left. eapply not_slot; eauto. congruence.
      + assert (G : forall w0, fupd (slot s) w (Some m) w0 = Some m -> w0 = w).
        { intros w0 H. destruct (Nat.eq_dec w0 w) as [EQ|NE]; auto. rewrite fupd_neq in H by auto. apply V4 in H. congruence. }
        intros w0 w' H1 H2. apply G in H1, H2. congruence.
    - destruct (at_ s m) eqn:AM; try discriminate. destruct (size (fields s m) =? 0); [|discriminate]. injection E as <-.
      assert (OM : ownf s m = data (fields s m)) by (unfold ownf; rewrite AM; auto).
      eapply (drop_inv s f _ m [] (fields s m)); eauto; cbn [release emit put fields at_ nextm nextb nextt slot log].
      + congruence.
      + intros j NE. rewrite !fupd_neq by auto. auto.
      + rewrite !fupd_eq. auto.
      + rewrite fupd_eq. destruct full; auto.
      + intros w j H. left. eapply not_slot; eauto. congruence.
      + intros r Hr. destruct (V6 m r Hr) as [_ (I1 & _)]. rewrite <- OM. auto 7.
      + rewrite OM. auto.
    - destruct (at_ s m) eqn:AM; try discriminate. injection E as <-.
      assert (OM : ownf s m = data (fields s m)) by (unfold ownf; rewrite AM; auto).
      eapply (drop_inv s f _ m [] (fields s m)); eauto; cbn [release emit put fields at_ nextm nextb nextt slot log].
      + congruence.
      + intros j NE. rewrite !fupd_neq by auto. auto.
      + rewrite !fupd_eq. auto.
      + rewrite fupd_eq. destruct full; auto.
      + intros w j H. left. eapply not_slot; eauto. congruence.
      + intros r Hr. destruct (V6 m r Hr) as [_ (I1 & _)]. rewrite <- OM. auto 7.
      + rewrite OM. auto.
    - destruct (slot s w) as [m|] eqn:SW; [|discriminate]. injection E as <-. pose proof (V4 w m SW) as AM.
      pose proof (V3 m (or_intror AM)) as BM.
      assert (OM : ownf s m = None) by (unfold ownf; rewrite AM; auto).
      eapply (drop_inv s f _ m [] (fields s m)); eauto; cbn [set_slot release emit put fields at_ nextm nextb nextt slot log].
      + congruence.
      + intros j NE. rewrite !fupd_neq by auto. auto.
      + rewrite !fupd_eq. auto.
      + rewrite fupd_eq. auto.
      + intros w0 j H. destruct (Nat.eq_dec w0 w) as [EQ|NE]; [subst; rewrite fupd_eq in H; discriminate|]. rewrite fupd_neq in H by auto.
        left. split; auto. intros ->. apply NE. eauto.
      + assert (G : forall w0, fupd (slot s) w None w0 = Some m -> False).
        { intros w0 H. destruct (Nat.eq_dec w0 w) as [EQ|NE]; [subst; rewrite fupd_eq in H; discriminate|]. rewrite fupd_neq in H by auto. apply NE. eauto. }
        intros w0 w' H1. destruct (G _ H1).
      + rewrite OM. discriminate.
      + intros _. left. rewrite BM. auto.
  Qed.

  Lemma reach_inv : forall l s', Forall answers l -> exec step init l = Some s' -> exists f, inv s' f.
  Proof.
    assert (G : forall l s f s', inv s f -> Forall answers l -> exec step s l = Some s' -> exists f', inv s' f').
    { induction l as [|x l IH]; intros s f s' V F E; cbn [exec] in E; [injection E as <-; eauto|].
      inversion F; subst. destruct (step s x) as [s1|] eqn:S1; [|discriminate]. destruct (step_inv s f x s1 V) as [f1 V1]; auto. eapply IH; eauto. }
    intros l s' F E. eapply G; eauto. apply inv_init.
  Qed.
End Inv2.
