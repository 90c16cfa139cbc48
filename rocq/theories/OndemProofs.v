(** Proofs about the reordering stage. *)
From Coq Require Import List Arith Bool Lia Permutation.
From Verif Require Import Base OndemModel.
Import ListNotations.

Section P.
  Context {V : Type}.
  Variable M : nat.
  Variable f : V -> V.
  Hypothesis HM : 0 < M.

  Definition slots (s : ost V) : list nat := todo s ++ doneq s ++ heap s.

  Record inv (s : ost V) : Prop := {
    i_cnt : cnt s = length (sent s);
    i_idx : idx s = cnt s mod M;
    i_le : gcnt s <= cnt s;
    i_bd : cnt s - gcnt s <= M;
    i_out : out s = map f (firstn (gcnt s) (sent s));
    i_perm : Permutation (slots s) (map (fun k => k mod M) (seq (gcnt s) (cnt s - gcnt s)));
    i_mem : forall k, gcnt s <= k < cnt s -> fst (mem s (k mod M)) = k /\
        exists x, nth_error (sent s) k = Some x /\
          (In (k mod M) (todo s) -> snd (mem s (k mod M)) = x) /\
          (~ In (k mod M) (todo s) -> snd (mem s (k mod M)) = f x) }.

  Lemma mod_inj : forall a b, a mod M = b mod M -> a <= b < a + M -> a = b.
  Proof.
    intros a b E L. pose proof (Nat.div_mod a M ltac:(lia)). pose proof (Nat.div_mod b M ltac:(lia)).
    assert (a / M = b / M \/ a / M <> b / M) by lia. destruct H1 as [H1|H1]; [nia|].
    pose proof (Nat.div_le_mono a b M ltac:(lia) ltac:(lia)). nia.
  Qed.

  Lemma mod_inj2 : forall g c a b, c - g <= M -> g <= a < c -> g <= b < c -> a mod M = b mod M -> a = b.
  Proof.
    intros g c a b L A B E. destruct (Nat.le_gt_cases a b).
    - apply mod_inj; auto; lia.
    - symmetry. apply mod_inj; auto; lia.
  Qed.

  Lemma NoDup_slots : forall g c, c - g <= M -> NoDup (map (fun k => k mod M) (seq g (c - g))).
  Proof.
    intros g c L. assert (forall l, NoDup l -> (forall k, In k l -> g <= k < c) -> NoDup (map (fun k => k mod M) l)).
    { induction l as [|a l IH]; intros N F; cbn; constructor.
      - intros H. apply in_map_iff in H. destruct H as (b & E & Hb). inversion N; subst.
        assert (a = b) by (apply (mod_inj2 g c); auto; apply F; cbn; auto). subst. contradiction.
      - inversion N; subst. apply IH; auto. intros; apply F; cbn; auto. }
    apply H; [apply seq_NoDup|]. intros k Hk. apply in_seq in Hk. lia.
  Qed.

  Lemma slots_nodup : forall s, inv s -> NoDup (slots s).
  Proof.
    intros s I. eapply Permutation_NoDup; [symmetry; apply (i_perm s I)|]. apply NoDup_slots. apply (i_bd s I).
  Qed.

  Lemma slot_key : forall s p, inv s -> In p (slots s) -> gcnt s <= fst (mem s p) < cnt s /\ p = fst (mem s p) mod M.
  Proof.
    intros s p I H. eapply Permutation_in in H; [|apply (i_perm s I)]. apply in_map_iff in H.
    destruct H as (k & <- & Hk). apply in_seq in Hk. destruct (i_mem s I k) as [E _]; [lia|]. rewrite E. split; auto. lia.
  Qed.

  Lemma key_slot : forall s k, inv s -> gcnt s <= k < cnt s -> In (k mod M) (slots s).
  Proof.
    intros s k I H. eapply Permutation_in; [symmetry; apply (i_perm s I)|].
    apply in_map_iff. exists k. split; auto. apply in_seq. lia.
  Qed.

  (** The priority queue. *)
  Lemma top_in : forall (m : nat -> nat * V) q p, top m q = Some p -> In p q.
  Proof.
    induction q as [|a q IH]; cbn; intros p H; [discriminate|]. destruct (top m q).
    - destruct (fst (m a) <=? fst (m n)); injection H as <-; auto.
    - injection H as <-; auto.
  Qed.
  Lemma top_min : forall (m : nat -> nat * V) q p r, top m q = Some p -> In r q -> fst (m p) <= fst (m r).
  Proof.
    induction q as [|a q IH]; cbn; intros p r H Hr; [discriminate|]. destruct (top m q) eqn:E.
    - destruct (Nat.leb_spec (fst (m a)) (fst (m n))); injection H as <-; destruct Hr as [<-|Hr]; auto; try lia.
      specialize (IH n r eq_refl Hr). lia.
    - injection H as <-. destruct Hr as [<-|Hr]; auto. destruct q; [contradiction|]. cbn in E.
      destruct (top m q); [destruct (_ <=? _)|]; discriminate.
  Qed.
  Lemma top_some : forall (m : nat -> nat * V) q p, In p q -> exists r, top m q = Some r.
  Proof. intros m [|a q] p H; [contradiction|]. cbn. destruct (top m q); [destruct (_ <=? _)|]; eauto. Qed.
  Lemma remove1_perm : forall p q, In p q -> Permutation q (p :: remove1 p q).
  Proof.
    induction q as [|a q IH]; intros H; [contradiction|]. cbn. destruct (Nat.eqb_spec a p); [subst; auto|].
    destruct H as [H|H]; [contradiction|]. rewrite (IH H) at 1. apply perm_swap.
  Qed.
  Lemma drop_perm : forall i l p, nth_error l i = Some p -> Permutation l (p :: drop i l).
  Proof.
    intros i l p H. destruct (nth_error_split _ _ H) as (l1 & l2 & -> & <-).
    unfold drop. rewrite firstn_app, firstn_all, Nat.sub_diag. cbn [firstn]. rewrite app_nil_r.
    rewrite skipn_app, skipn_all2 by lia. cbn [app]. replace (S (length l1) - length l1) with 1 by lia. cbn [skipn].
    symmetry. apply Permutation_middle.
  Qed.

  Lemma firstn_snoc : forall X (l : list X) g x, nth_error l g = Some x -> firstn (S g) l = firstn g l ++ [x].
  Proof.
    induction l as [|a l IH]; intros [|g] x H; cbn in *; try discriminate; [congruence|].
    f_equal. apply IH; auto.
  Qed.

  Lemma NoDup_left : forall (l m : list nat), NoDup (l ++ m) -> NoDup l.
  Proof.
    induction l as [|a l IH]; intros m H; [constructor|]. cbn in H. inversion H; subst. constructor; eauto.
    intros X. apply H2. apply in_or_app; auto.
  Qed.

  Lemma init_inv : forall m, inv (init m).
  Proof.
    intros m. constructor; cbn; auto; try lia. rewrite Nat.mod_0_l by lia. reflexivity.
  Qed.

  Lemma send_inv : forall s x, inv s -> cnt s - gcnt s < M -> inv (send M s x).
  Proof.
    intros s x I L. destruct I as [c1 c2 c3 c4 c5 c6 c7]. unfold send. constructor; cbn [cnt idx gcnt sent out mem todo doneq heap].
    - rewrite app_length. cbn. lia.
    - rewrite c2, Nat.add_mod_idemp_l by lia. f_equal. lia.
    - lia.
    - lia.
    - rewrite c5. f_equal. rewrite firstn_app. replace (gcnt s - length (sent s)) with 0 by lia.
      cbn. rewrite app_nil_r. reflexivity.
    - unfold slots in *; cbn [cnt idx gcnt sent out mem todo doneq heap]. replace (S (cnt s) - gcnt s) with (cnt s - gcnt s + 1) by lia.
      rewrite seq_app, map_app. cbn. replace (gcnt s + (cnt s - gcnt s)) with (cnt s) by lia. rewrite <- c2.
      rewrite <- c6. rewrite <- app_assoc. cbn.
      etransitivity; [symmetry; apply Permutation_middle|]. apply Permutation_cons_append.
    - intros k Hk. destruct (Nat.eq_dec k (cnt s)) as [->|N].
      + rewrite c2, fupd_eq. split; auto. exists x. split.
        * rewrite nth_error_app2 by lia. rewrite c1, Nat.sub_diag. reflexivity.
        * split; auto. intros H. destruct H. apply in_or_app. cbn. auto.
      + destruct (c7 k) as (E & y & Ey & A & B); [lia|].
        assert (K : k mod M <> idx s).
        { rewrite c2. intros H. apply N. apply (mod_inj2 (gcnt s) (S (cnt s))); auto; lia. }
        rewrite fupd_neq by auto. split; auto. exists y. split.
        * rewrite nth_error_app1 by lia. auto.
        * split; intros H; [apply A|apply B].
          -- apply in_app_or in H. destruct H as [H|[H|[]]]; auto. congruence.
          -- intros H'. apply H. apply in_or_app; auto.
  Qed.

  Lemma work_inv : forall s i s', inv s -> work f s i = Some s' -> inv s'.
  Proof.
    intros s i s' I H. assert (ND := slots_nodup s I). unfold work in H.
    destruct (nth_error (todo s) i) as [p|] eqn:E; [|discriminate]. injection H as <-.
    assert (Hp : In p (todo s)) by (eapply nth_error_In; eauto).
    assert (Dp := drop_perm _ _ _ E).
    destruct (slot_key s p I) as [Kp Ep]; [unfold slots; apply in_or_app; auto|].
    assert (Nt : ~ In p (drop i (todo s))).
    { unfold slots in ND. apply NoDup_left in ND. eapply Permutation_NoDup in ND; [|exact Dp]. inversion ND; auto. }
    destruct I as [c1 c2 c3 c4 c5 c6 c7]. constructor; cbn [cnt idx gcnt sent out mem todo doneq heap]; auto.
    - rewrite <- c6. unfold slots; cbn. rewrite Dp at 2. cbn. rewrite <- app_assoc. cbn.
      rewrite app_assoc. etransitivity; [symmetry; apply Permutation_middle|]. rewrite <- app_assoc. reflexivity.
    - intros k Hk. destruct (c7 k Hk) as (Ek & x & Ex & A & B). destruct (Nat.eq_dec (k mod M) p) as [Q|Q].
      + rewrite Q, fupd_eq. cbn. rewrite Q in *. split; auto. exists x. split; auto. split; [contradiction|].
        intros _. f_equal. auto.
      + rewrite fupd_neq by auto. split; auto. exists x. split; auto. split; intros H; [apply A|apply B].
        * rewrite Dp. cbn; auto.
        * intros H'. rewrite Dp in H'. destruct H'; congruence.
  Qed.

  (** Emitting the next item, from any of the places it can be. *)
  Lemma emit_inv : forall s s' p, inv s -> In p (doneq s ++ heap s) -> fst (mem s p) = gcnt s ->
    mem s' = mem s -> idx s' = idx s -> cnt s' = cnt s -> sent s' = sent s -> todo s' = todo s ->
    gcnt s' = S (gcnt s) -> out s' = out s ++ [snd (mem s p)] ->
    Permutation (doneq s ++ heap s) (p :: doneq s' ++ heap s') -> inv s'.
  Proof.
    intros s s' p I Hp Kp E1 E2 E3 E4 E5 E6 E7 Pm. assert (ND := slots_nodup s I).
    assert (Hs : In p (slots s)) by (unfold slots; apply in_or_app; auto).
    destruct (slot_key s p I Hs) as [B1 B2]. rewrite Kp in *.
    assert (Nt : ~ In p (todo s)).
    { intros H. unfold slots in ND. clear - ND H Hp. induction (todo s) as [|a l IH]; [contradiction|].
      cbn in ND. inversion ND; subst. destruct H as [->|H]; auto. apply H2. apply in_or_app; auto. }
    destruct I as [c1 c2 c3 c4 c5 c6 c7]. destruct (c7 (gcnt s)) as (_ & x & Ex & _ & Bx); [lia|]. rewrite <- B2 in Bx.
    constructor; rewrite ?E1, ?E2, ?E3, ?E4, ?E5, ?E6, ?E7; auto; try lia.
    - rewrite c5, (Bx Nt), (firstn_snoc _ _ _ _ Ex), map_app. reflexivity.
    - unfold slots in *. rewrite E5. apply (Permutation_cons_inv (a := p)).
      transitivity (todo s ++ p :: doneq s' ++ heap s'); [apply Permutation_middle|].
      rewrite <- Pm, c6. replace (cnt s - gcnt s) with (S (cnt s - S (gcnt s))) by lia. cbn. rewrite <- B2. reflexivity.
    - intros k Hk. apply c7. lia.
  Qed.

  Lemma pop_top_inv : forall s s', inv s -> pop_top s = Some s' -> inv s'.
  Proof.
    intros s s' I H. unfold pop_top in H. destruct (top (mem s) (heap s)) as [p|] eqn:E; [|discriminate].
    destruct (Nat.eqb_spec (gcnt s) (fst (mem s p))) as [K|]; [|discriminate]. injection H as <-.
    assert (Hp := top_in _ _ _ E).
    eapply (emit_inv s _ p); eauto; cbn; auto.
    - apply in_or_app; auto.
    - rewrite (remove1_perm p (heap s) Hp) at 1. symmetry. apply Permutation_middle.
  Qed.

  Lemma arrive_inv : forall s i p, inv s -> nth_error (doneq s) i = Some p ->
    inv (arrive (mkO (mem s) (idx s) (cnt s) (todo s) (drop i (doneq s)) (heap s) (gcnt s) (sent s) (out s)) p).
  Proof.
    intros s i p I E. assert (Hp : In p (doneq s)) by (eapply nth_error_In; eauto).
    assert (Dp := drop_perm _ _ _ E). unfold arrive; cbn [gcnt mem].
    destruct (Nat.eqb_spec (gcnt s) (fst (mem s p))) as [K|K].
    - eapply (emit_inv s _ p); eauto; cbn; auto.
      + apply in_or_app; auto.
      + rewrite Dp at 1. reflexivity.
    - destruct I as [c1 c2 c3 c4 c5 c6 c7]. constructor; cbn [cnt idx gcnt sent out mem todo doneq heap]; auto.
      rewrite <- c6. unfold slots; cbn. apply Permutation_app_head. rewrite Dp at 2. cbn.
      symmetry. apply Permutation_middle.
  Qed.

  Lemma pop_all_inv : forall n s, inv s -> inv (pop_all n s).
  Proof.
    induction n as [|n IH]; intros s I; cbn; auto. destruct (pop_top s) eqn:E; auto. apply IH. eapply pop_top_inv; eauto.
  Qed.

  Lemma outstanding : forall s, inv s -> length (sent s) - length (out s) = cnt s - gcnt s.
  Proof.
    intros s I. rewrite (i_out s I), map_length, firstn_length, <- (i_cnt s I). pose proof (i_le s I). lia.
  Qed.

  Definition one_run (w : bool) (l : list (act V)) : Prop := w = true -> ~ In NewRun l.

  Lemma step_inv : forall w s a s', inv s -> (w = true -> a <> NewRun) -> gstep M f w s a = Some s' -> inv s'.
  Proof.
    intros w s a s' I R H. destruct a as [x|i|i| |]; cbn [gstep step] in H.
    - destruct (Nat.ltb_spec (length (sent s) - length (out s)) M); [|discriminate]. injection H as <-.
      apply send_inv; auto. rewrite <- (outstanding s I). auto.
    - eapply work_inv; eauto.
    - destruct (nth_error (doneq s) i) as [p|] eqn:E; [|discriminate]. destruct w.
      + destruct (gcnt s =? fst (mem s p)); injection H as <-; [apply pop_all_inv|]; apply arrive_inv; auto.
      + destruct (pop_top s); [discriminate|]. injection H as <-. apply arrive_inv; auto.
    - destruct w; [discriminate|]. eapply pop_top_inv; eauto.
    - destruct w; [destruct (R eq_refl eq_refl)|]. destruct (todo s) eqn:Et; [|discriminate].
      destruct (doneq s) eqn:Ed; [|discriminate]. injection H as <-.
      destruct s; cbn in *. subst. auto.
  Qed.

  Lemma exec_oinv : forall w l m s, one_run w l -> exec (gstep M f w) (init m) l = Some s -> inv s.
  Proof.
    intros w l m s R H. assert (G : forall l s0, (w = true -> ~ In NewRun l) -> inv s0 -> forall s1, exec (gstep M f w) s0 l = Some s1 -> inv s1).
    { clear - HM. induction l as [|a l IH]; intros s0 R I s1 H; cbn in H; [injection H as <-; auto|].
      destruct (gstep M f w s0 a) eqn:E; [|discriminate]. eapply IH; [| |exact H].
      - intros W N. apply (R W). cbn; auto.
      - eapply step_inv; eauto. intros W ->. apply (R W). cbn; auto. }
    eapply G; eauto. apply init_inv.
  Qed.

  (** If the next item has arrived, it can be emitted. *)
  Lemma next_ready : forall s, inv s -> In (gcnt s mod M) (heap s) -> gcnt s < cnt s -> exists s', pop_top s = Some s'.
  Proof.
    intros s I H L. unfold pop_top. destruct (top_some (mem s) _ _ H) as (p & E). rewrite E.
    assert (Hp := top_in _ _ _ E). assert (Mn := top_min _ _ _ _ E H).
    destruct (i_mem s I (gcnt s)) as (Kg & _); [lia|]. rewrite Kg in Mn.
    destruct (slot_key s p I) as [B _]; [unfold slots; apply in_or_app; right; apply in_or_app; auto|].
    destruct (Nat.eqb_spec (gcnt s) (fst (mem s p))); [eauto|lia].
  Qed.

  (** The wrapper never leaves an item in its queue that could be emitted. *)
  Definition settled (s : ost V) : Prop := pop_top s = None.

  Lemma pop_top_heap : forall (s s' : ost V), pop_top s = Some s' -> length (heap s) = S (length (heap s')).
  Proof.
    intros s s' H. unfold pop_top in H. destruct (top (mem s) (heap s)) as [p|] eqn:E; [|discriminate].
    destruct (gcnt s =? _); [|discriminate]. injection H as <-. cbn.
    rewrite (Permutation_length (remove1_perm p (heap s) (top_in _ _ _ E))). reflexivity.
  Qed.

  Lemma pop_all_settled : forall n (s : ost V), length (heap s) <= n -> settled (pop_all n s).
  Proof.
    induction n as [|n IH]; intros s L; cbn.
    - unfold settled, pop_top. destruct (heap s); [reflexivity|cbn in L; lia].
    - destruct (pop_top s) eqn:E; auto. apply IH. apply pop_top_heap in E. lia.
  Qed.

  Lemma settled_iff : forall s, inv s -> settled s <-> (gcnt s < cnt s -> ~ In (gcnt s mod M) (heap s)).
  Proof.
    intros s I. split.
    - intros H L Hin. destruct (next_ready s I Hin L) as (s' & E). unfold settled in H. congruence.
    - intros H. unfold settled, pop_top. destruct (top (mem s) (heap s)) as [p|] eqn:E; auto.
      destruct (Nat.eqb_spec (gcnt s) (fst (mem s p))) as [K|]; auto. exfalso.
      assert (Hp := top_in _ _ _ E).
      destruct (slot_key s p I) as [B B2]; [unfold slots; apply in_or_app; right; apply in_or_app; auto|].
      apply H; [lia|]. rewrite K, <- B2. auto.
  Qed.

  Lemma wrapper_settled_step : forall s a s', inv s -> settled s -> a <> NewRun -> gstep M f true s a = Some s' -> settled s'.
  Proof.
    intros s a s' I Z N H. assert (I' : inv s') by (eapply step_inv; eauto).
    assert (Q := proj1 (settled_iff s I) Z).
    apply settled_iff; auto. destruct a as [x|i|i| |]; cbn [gstep step] in H; try discriminate; try congruence.
    - destruct (Nat.ltb_spec (length (sent s) - length (out s)) M) as [LM|]; [|discriminate]. injection H as <-. cbn. intros L Hin.
      destruct (Nat.eq_dec (gcnt s) (cnt s)) as [E|E]; [|apply Q; auto; pose proof (i_le s I); lia].
      assert (In (gcnt s mod M) (slots s)) by (unfold slots; apply in_or_app; right; apply in_or_app; auto).
      destruct (slot_key s _ I H) as [B _]. lia.
    - unfold work in H. destruct (nth_error (todo s) i); [|discriminate]. injection H as <-. cbn. auto.
    - destruct (nth_error (doneq s) i) as [p|] eqn:E; [|discriminate].
      destruct (Nat.eqb_spec (gcnt s) (fst (mem s p))) as [K|K]; injection H as <-.
      + apply settled_iff; auto. apply pop_all_settled.
        unfold arrive; cbn. destruct (Nat.eqb_spec (gcnt s) (fst (mem s p))); [cbn; auto|contradiction].
      + unfold arrive; cbn. destruct (Nat.eqb_spec (gcnt s) (fst (mem s p))); [contradiction|]. cbn.
        intros L [Hin|Hin]; [|apply Q; auto].
        assert (Hp : In p (slots s)) by (unfold slots; apply in_or_app; right; apply in_or_app; left; eapply nth_error_In; eauto).
        destruct (slot_key s p I Hp) as [B B2]. destruct (i_mem s I (gcnt s)) as (Kg & _); [lia|].
        rewrite <- Hin in Kg. congruence.
  Qed.

  Lemma wrapper_settled : forall l m s, ~ In NewRun l -> exec (gstep M f true) (init m) l = Some s -> inv s /\ settled s.
  Proof.
    intros l m s R H. assert (G : forall l s0, ~ In NewRun l -> inv s0 /\ settled s0 -> forall s1, exec (gstep M f true) s0 l = Some s1 -> inv s1 /\ settled s1).
    { clear - HM. induction l as [|a l IH]; intros s0 R [I Z] s1 H; cbn in H; [injection H as <-; auto|].
      destruct (gstep M f true s0 a) eqn:E; [|discriminate].
      assert (a <> NewRun) by (intros ->; apply R; cbn; auto).
      eapply IH; [| |exact H]; [intros N; apply R; cbn; auto|]. split; [eapply step_inv; eauto|eapply wrapper_settled_step; eauto]. }
    eapply G; eauto. split; [apply init_inv|reflexivity].
  Qed.

  (** Completeness. *)
  Lemma all_out : forall s, inv s -> todo s = [] -> doneq s = [] -> settled s -> out s = map f (sent s).
  Proof.
    intros s I T D Z. rewrite (i_out s I). f_equal.
    assert (Q := proj1 (settled_iff s I) Z). pose proof (i_le s I).
    destruct (Nat.eq_dec (gcnt s) (cnt s)) as [E|E].
    - rewrite E, (i_cnt s I). apply firstn_all.
    - exfalso. apply Q; [lia|]. pose proof (key_slot s (gcnt s) I ltac:(lia)) as K. unfold slots in K.
      rewrite T, D in K. auto.
  Qed.

  Lemma out_prefix : forall s, inv s -> prefix (out s) (map f (sent s)).
  Proof.
    intros s I. rewrite (i_out s I). exists (map f (skipn (gcnt s) (sent s))). rewrite <- map_app, firstn_skipn. reflexivity.
  Qed.

  (** An item that is held back waits for a predecessor that is still with the workers. *)
  Lemma held_back : forall s, inv s -> settled s -> heap s <> [] ->
    In (length (out s) mod M) (todo s ++ doneq s) /\ length (out s) < length (sent s).
  Proof.
    intros s I Z H. assert (Q := proj1 (settled_iff s I) Z).
    assert (G : gcnt s < cnt s).
    { destruct (heap s) as [|p q] eqn:E; [congruence|].
      destruct (slot_key s p I) as [B _]; [unfold slots; rewrite E; apply in_or_app; right; apply in_or_app; cbn; auto|]. lia. }
    assert (L : length (out s) = gcnt s).
    { rewrite (i_out s I), map_length, firstn_length. rewrite <- (i_cnt s I). lia. }
    rewrite L, <- (i_cnt s I). split; auto. pose proof (key_slot s (gcnt s) I ltac:(lia)) as K. unfold slots in K.
    rewrite app_assoc in K. apply in_app_or in K. destruct K as [K|K]; auto. destruct (Q G K).
  Qed.
End P.
