(** The invariant of the queue of FfqModel. *)
From Coq Require Import List Arith Bool Lia.
From Verif Require Import Base FfqModel FfqSpec FfqProofs.
Import ListNotations.

Section Inv.
  Variables (B maxb : nat) (m0 : memory).
  (** [pre]: buckets before the head in memory; [cs]: entries passed by the consumer whose stores to head_pos_
      are in its store buffer; [ks]: entries from the consumer to the tail, [k] of them visible. *)
  Definition pinv (s : st) (pre : list nat) : Prop :=
    match pp s with
    | PReady l => payload (fin (mem s) (pbuf s)) (tail s) l /\ 8 * (snd (tail s) + length l + 2) <= tlen s
    | PPub l => payload (fin (mem s) (pbuf s)) (tail s) l /\ 8 * (snd (tail s) + length l + 2) <= tlen s /\
                get (fin (mem s) (pbuf s)) (fst (tail s), snd (tail s) + 1 + length l) = One
    | PScan _ h => In (fst h) (pre ++ [fst (hmem s)]) /\ 8 * (snd h + 1) <= bsz s (fst h)
    | PInit sz g => alive s g = true /\ need B sz <= bsz s g /\ ~ In g (map fst (chain s))
    | PLink sz g => alive s g = true /\ need B sz <= bsz s g /\ ~ In g (map fst (chain s)) /\
                    get (fin (mem s) (pbuf s)) (g, 0) = One
    | _ => True
    end.
  Record inv (s : st) (pre : list nat) (cs ks : list kind) (k : nat) : Prop := mkI {
    i_cbuf : cbuf s = poss (hmem s) cs;
    i_hreg : hreg s = adv (hmem s) cs;
    i_tail : tail s = adv (hreg s) ks;
    i_chain : map fst (chain s) = pre ++ fst (hmem s) :: hops (cs ++ ks);
    i_nd : NoDup (map fst (chain s));
    i_fits : fits (bsz s) (hmem s) (cs ++ ks);
    i_alive : forall g z, In (g, z) (chain s) -> alive s g = true /\ bsz s g = z;
    i_tlen : 8 * (snd (tail s) + 1) <= tlen s /\ tlen s <= bsz s (fst (tail s));
    i_ok : ok (mem s) (pbuf s) (hreg s) ks k;
    i_sent : skipn (taken (tr s)) (sent (tr s)) = msgs ks;
    i_le : taken (tr s) <= length (sent (tr s));
    i_vis : visible (tr s) = taken (tr s) + length (msgs (firstn k ks));
    i_bad : bad s = false;
    i_pp : pinv s pre;
    i_cp : match cp s with CHold => match k, ks with S _, KMsg _ :: _ => True | _, _ => False end | _ => True end;
    i_fifo : fifo (tr s) }.

  Lemma nodup_tail : forall (a b : list nat), NoDup (a ++ b) -> NoDup b.
  Proof using. induction a as [|x a IH]; intros b H; [exact H|]. inversion H; auto. Qed.
  Lemma nodup_h : forall s pre cs ks k, inv s pre cs ks k -> NoDup (fst (hmem s) :: hops (cs ++ ks)).
  Proof using. intros s pre cs ks k I. pose proof (i_nd _ _ _ _ _ I) as N. rewrite (i_chain _ _ _ _ _ I) in N. exact (nodup_tail _ _ N). Qed.
  Lemma nodup_adv : forall cs p ks, NoDup (fst p :: hops (cs ++ ks)) -> NoDup (fst (adv p cs) :: hops ks).
  Proof using.
    induction cs as [|x cs IH]; intros p ks N; [exact N|]. cbn [adv]. apply IH.
    destruct x as [l|g]; cbn [app hops flat_map nxt fst] in *; [exact N|]. inversion N; assumption.
  Qed.
  Lemma in_adv : forall cs p ks g, In g (fst (adv p cs) :: hops ks) -> In g (fst p :: hops (cs ++ ks)).
  Proof using.
    induction cs as [|x cs IH]; intros p ks g N; [exact N|]. cbn [adv] in N. apply IH in N.
    destruct x as [l|h]; cbn [app hops flat_map nxt fst] in *; [exact N|]. right. exact N.
  Qed.
  Lemma nodup_r : forall s pre cs ks k, inv s pre cs ks k -> NoDup (fst (hreg s) :: hops ks).
  Proof using. intros s pre cs ks k I. rewrite (i_hreg _ _ _ _ _ I). apply nodup_adv. exact (nodup_h _ _ _ _ _ I). Qed.

  (** Buckets of the entries are allocated. *)
  Lemma in_alive : forall s pre cs ks k g, inv s pre cs ks k -> In g (fst (hmem s) :: hops (cs ++ ks)) ->
    In g (map fst (chain s)) /\ alive s g = true.
  Proof using.
    intros s pre cs ks k g I G. assert (X : In g (map fst (chain s))).
    { rewrite (i_chain _ _ _ _ _ I). apply in_or_app. right. exact G. }
    split; [exact X|]. apply in_map_iff in X. destruct X as ([g' z] & <- & X). apply (i_alive _ _ _ _ _ I) in X. tauto.
  Qed.
  Lemma in_alive_r : forall s pre cs ks k g, inv s pre cs ks k -> In g (fst (hreg s) :: hops ks) ->
    In g (map fst (chain s)) /\ alive s g = true.
  Proof using.
    intros s pre cs ks k g I G. apply (in_alive _ _ _ _ _ _ I). rewrite (i_hreg _ _ _ _ _ I) in G. apply in_adv. exact G.
  Qed.
  Lemma tail_in : forall s pre cs ks k, inv s pre cs ks k -> In (fst (tail s)) (fst (hreg s) :: hops ks).
  Proof using. intros s pre cs ks k I. rewrite (i_tail _ _ _ _ _ I). apply adv_in. Qed.
  Lemma tame : forall s pre cs ks k o, inv s pre cs ks k -> 8 * (o + 1) <= bsz s (fst (tail s)) -> wild s (fst (tail s), o) = false.
  Proof using.
    intros s pre cs ks k o I L. unfold wild. cbn [fst snd].
    destruct (in_alive_r _ _ _ _ _ _ I (tail_in _ _ _ _ _ I)) as [_ ->]. cbn [andb].
    destruct (Nat.leb_spec (8 * (o + 1)) (bsz s (fst (tail s)))); [reflexivity|lia].
  Qed.
  Lemma tame_head : forall s pre cs ks k, inv s pre cs ks k -> wild s (hreg s) = false.
  Proof using.
    intros s pre cs ks k I. unfold wild.
    destruct (in_alive_r _ _ _ _ _ (fst (hreg s)) I (or_introl eq_refl)) as [_ ->]. cbn [andb].
    pose proof (i_fits _ _ _ _ _ I) as F. apply fits_adv in F. rewrite <- (i_hreg _ _ _ _ _ I) in F. apply fits_here in F.
    destruct (Nat.leb_spec (8 * (snd (hreg s) + 1)) (bsz s (fst (hreg s)))); [reflexivity|lia].
  Qed.

  (** Stores of the user and of enqueue_commit past the tail. *)
  Lemma free_tail : forall s pre cs ks k o, inv s pre cs ks k -> snd (tail s) < o -> free (fst (tail s), o) (hreg s) ks.
  Proof using. intros s pre cs ks k o I L _. rewrite <- (i_tail _ _ _ _ _ I). cbn [fst snd]. auto. Qed.
  Lemma free_new : forall s pre cs ks k g o, inv s pre cs ks k -> ~ In g (map fst (chain s)) -> free (g, o) (hreg s) ks.
  Proof using.
    intros s pre cs ks k g o I N X. cbn [fst] in X. apply (in_alive_r _ _ _ _ _ _ I) in X. tauto.
  Qed.

  (** What the consumer sees at its position. *)
  Lemma head_word : forall s pre cs ks k, inv s pre cs ks k ->
    match get (mem s) (hreg s) with
    | One => k = 0
    | Ptr n => exists l ks' k', ks = KMsg l :: ks' /\ k = S k' /\ n = nxt (hreg s) (KMsg l) /\ payload (mem s) (hreg s) l
    | Link g => exists ks' k', ks = KHop g :: ks' /\ k = S k'
    | Data _ => False
    end.
  Proof using.
    intros s pre cs ks k I. pose proof (ok_agree _ _ _ _ _ (i_ok _ _ _ _ _ I)) as A.
    destruct k as [|k]; cbn [agree] in A; [rewrite A; reflexivity|].
    destruct ks as [|[l|g] ks]; [contradiction| |].
    - destruct A as (-> & Q & _). exists l, ks, k. auto.
    - destruct A as (-> & _). exists ks, k. auto.
  Qed.

  (** The consumer moves to the next entry. *)
  Lemma poss_snoc : forall s pre cs x ks k, inv s pre cs (x :: ks) k ->
    cbuf s ++ [nxt (hreg s) x] = poss (hmem s) (cs ++ [x]).
  Proof using. intros s pre cs x ks k I. rewrite poss_app, <- (i_hreg _ _ _ _ _ I), (i_cbuf _ _ _ _ _ I). reflexivity. Qed.

  Hypothesis B8 : 8 <= B.
  Lemma need8 : forall sz, 8 <= need B sz.
  Proof using B8. intros sz. unfold need. destruct (B <? sz + 16); lia. Qed.

  Ltac ff := cbn [mem alive bsz hmem pbuf cbuf tail tlen chain nalloc hreg pp cp bad tr setP setC emit touch store sethead settail setheap crash] in *.

  Lemma inv_step : forall s a s', (exists pre cs ks k, inv s pre cs ks k) -> step B maxb s a = Some s' ->
    exists pre cs ks k, inv s' pre cs ks k.
  Proof using B8.
    intros s a s' (pre & cs & ks & k & I) E. destruct a as [sz|i v| |m| | |i| | | |p w]; cbn [step] in E.
    - (* CallPrep *)
      exists pre, cs, ks, k. destruct (pp s) eqn:Ep; try discriminate; injection E as <-; destruct I; constructor; ff; auto; exact Logic.I.
    - (* Write *)
      destruct (pp s) eqn:Ep; try discriminate. destruct (Nat.ltb_spec i (length l)) as [Li|]; [|discriminate].
      injection E as <-. exists pre, cs, ks, k. pose proof (i_pp _ _ _ _ _ I) as Q. unfold pinv in Q. rewrite Ep in Q. destruct Q as [Q1 Q2].
      assert (T := i_tlen _ _ _ _ _ I).
      assert (W := tame _ _ _ _ _ (snd (tail s) + 1 + i) I ltac:(lia)).
      assert (F := free_tail _ _ _ _ _ (snd (tail s) + 1 + i) I ltac:(lia)).
      assert (ND := nodup_r _ _ _ _ _ I). destruct I. constructor; ff; auto.
      + apply ok_silent; auto; exact Logic.I.
      + rewrite i_bad0, W. reflexivity.
      + unfold pinv. ff. rewrite fin_snoc, lupd_length. split; [|lia].
        intros j v' Ej. rewrite nth_error_lupd in Ej. destruct (Nat.eqb_spec i j) as [<-|N].
        * destruct (i <? length l); [|discriminate]. injection Ej as <-. apply get_set_eq.
        * rewrite get_set_neq; [exact (Q1 j v' Ej)|]. injection 1. lia.
    - (* Commit *)
      destruct (pp s) eqn:Ep; try discriminate.
      injection E as <-. exists pre, cs, ks, k. pose proof (i_pp _ _ _ _ _ I) as Q. unfold pinv in Q. rewrite Ep in Q. destruct Q as [Q1 Q2].
      assert (T := i_tlen _ _ _ _ _ I).
      assert (W := tame _ _ _ _ _ (snd (tail s) + 1 + length l) I ltac:(lia)).
      assert (F := free_tail _ _ _ _ _ (snd (tail s) + 1 + length l) I ltac:(lia)).
      assert (ND := nodup_r _ _ _ _ _ I). destruct I. constructor; ff; auto.
      + apply ok_silent; auto; exact Logic.I.
      + rewrite i_bad0, W. reflexivity.
      + unfold pinv. ff. rewrite fin_snoc. split; [|split; [lia|apply get_set_eq]].
        intros j v' Ej. rewrite get_set_neq; [exact (Q1 j v' Ej)|].
        assert (j < length l) by (apply nth_error_Some; congruence). injection 1. lia.
    - (* P *)
      unfold stepP in E. destruct (pp s) as [|sz|sz|sz h|sz g|sz g|l|l] eqn:Ep; try discriminate.
      + (* PTry *)
        exists pre, cs, ks, k. destruct (room s sz) eqn:R; injection E as <-; destruct I; constructor; ff; auto.
        * unfold pinv. ff. unfold room in R. apply Nat.leb_le in R. rewrite repeat_length. split; [|lia].
          intros i v Ei. apply nth_error_In in Ei. apply repeat_spec in Ei. discriminate.
        * exact Logic.I.
      + (* PSlow *)
        exists pre, cs, ks, k. injection E as <-. assert (F := fits_here _ _ _ (i_fits _ _ _ _ _ I)).
        destruct I; constructor; ff; auto. unfold pinv. ff. split; [apply in_or_app; right; left; reflexivity|exact F].
      + (* PScan *)
        pose proof (i_pp _ _ _ _ _ I) as Q. unfold pinv in Q. rewrite Ep in Q. destruct Q as [Q1 Q2].
        destruct (scan_ok maxb h (need B sz) (nalloc s) (fst (hmem s)) (chain s) [] pre (hops (cs ++ ks))
                    (i_chain _ _ _ _ _ I) (i_nd _ _ _ _ _ I) Q1) as (r & ch & fr & popped & pre' & S & E1 & E2 & F & R).
        { intros z Z. apply (i_alive _ _ _ _ _ I) in Z. lia. }
        rewrite S in E.
        assert (ND : NoDup (map fst popped ++ map fst ch)) by (rewrite <- map_app, <- E1; exact (i_nd _ _ _ _ _ I)).
        assert (D : forall g, In g (map fst popped) -> In g (map fst ch) -> False).
        { intros g G1 G2. apply in_split in G1. destruct G1 as (a & b & Eb). rewrite Eb, <- app_assoc in ND. cbn [app] in ND.
          apply nodup_tail in ND. inversion ND as [|? ? N1 N2]; subst. apply N1. apply in_or_app. right. exact G2. }
        assert (RA : forall g, ~ In g fr -> release (alive s) fr g = alive s g).
        { intros g N. unfold release. destruct (existsb (Nat.eqb g) fr) eqn:X; [|reflexivity].
          apply existsb_exists in X. destruct X as (y & Y & Z). apply Nat.eqb_eq in Z. subst. contradiction. }
        assert (NF : forall g, In g (map fst ch) -> ~ In g fr).
        { intros g G X. destruct (F g X) as [[]|Y]. exact (D g Y G). }
        assert (CH : forall g z, In (g, z) ch -> alive s g = true /\ bsz s g = z).
        { intros g z G. apply (i_alive _ _ _ _ _ I). rewrite E1. apply in_or_app. right. exact G. }
        assert (CM : forall g z, In (g, z) ch -> release (alive s) fr g = true /\ bsz s g = z).
        { intros g z G. rewrite RA; [exact (CH g z G)|]. apply NF. apply in_map_iff. exists (g, z). auto. }
        exists pre', cs, ks, k. destruct r as [g|].
        * injection E as <-. destruct R as [(z & Rz & Rl) R2].
          assert (G : alive s g = true /\ bsz s g = z) by (apply (i_alive _ _ _ _ _ I); rewrite E1; apply in_or_app; left; exact Rz).
          destruct I. constructor; ff; auto.
          -- exact (nodup_tail _ _ ND).
          -- unfold pinv. ff. rewrite RA by auto. split; [tauto|]. split; [lia|].
             intros X. apply (D g); [|exact X]. apply in_map_iff. exists (g, z). auto.
        * destruct (release (alive s) fr m) eqn:M; [discriminate|]. injection E as <-.
          assert (NM : ~ In m (map fst ch)).
          { intros X. apply in_map_iff in X. destruct X as ([m' z] & Em & X). cbn [fst] in Em. subst m'. apply CM in X. destruct X. congruence. }
          assert (TI : fst (tail s) <> m).
          { pose proof (tail_in _ _ _ _ _ I) as X. rewrite (i_hreg _ _ _ _ _ I) in X. apply in_adv in X. intros <-. apply NM.
            rewrite E2. apply in_or_app. right. exact X. }
          assert (HI : forall g, In g (fst (hmem s) :: hops (cs ++ ks)) -> fupd (bsz s) m (need B sz) g = bsz s g).
          { intros g G. apply fupd_neq. intros ->. apply NM. rewrite E2. apply in_or_app. right. exact G. }
          destruct I. constructor; ff; auto.
          -- exact (nodup_tail _ _ ND).
          -- exact (fits_ext _ _ _ _ HI i_fits0).
          -- intros g z G. assert (g <> m).
             { intros ->. apply NM. apply in_map_iff. exists (m, z). auto. }
             rewrite !fupd_neq by assumption. exact (CM g z G).
          -- rewrite fupd_neq by assumption. exact i_tlen0.
          -- unfold pinv. ff. rewrite !fupd_eq. auto.
      + (* PInit *)
        injection E as <-. exists pre, cs, ks, k. pose proof (i_pp _ _ _ _ _ I) as Q. unfold pinv in Q. rewrite Ep in Q. destruct Q as (Q1 & Q2 & Q3).
        assert (F := free_new _ _ _ _ _ g 0 I Q3). assert (ND := nodup_r _ _ _ _ _ I). assert (N8 := need8 sz).
        assert (W : wild s (g, 0) = false).
        { unfold wild. cbn [fst snd]. rewrite Q1. cbn [andb]. destruct (Nat.leb_spec (8 * (0 + 1)) (bsz s g)); [reflexivity|lia]. }
        destruct I. constructor; ff; auto.
        * apply ok_silent; auto; exact Logic.I.
        * rewrite i_bad0, W. reflexivity.
        * unfold pinv. ff. rewrite fin_snoc. repeat split; auto. apply get_set_eq.
      + (* PLink *)
        injection E as <-. pose proof (i_pp _ _ _ _ _ I) as Q. unfold pinv in Q. rewrite Ep in Q. destruct Q as (Q1 & Q2 & Q3 & Q4).
        assert (ND := nodup_r _ _ _ _ _ I). assert (N8 := need8 sz). assert (T := i_tlen _ _ _ _ _ I).
        assert (W := tame _ _ _ _ _ (snd (tail s)) I ltac:(lia)). rewrite <- surjective_pairing in W.
        assert (NT : (g, 0) <> tail s).
        { intros X. apply Q3. pose proof (tail_in _ _ _ _ _ I) as Y. apply (in_alive_r _ _ _ _ _ _ I) in Y. rewrite <- X in Y. tauto. }
        exists pre, cs, (ks ++ [KHop g]), k. destruct I. constructor; ff; auto.
        * rewrite adv_app. reflexivity.
        * rewrite map_app, i_chain0, (app_assoc cs ks [KHop g]), (hops_app (cs ++ ks) [KHop g]), <- app_assoc. reflexivity.
        * rewrite map_app. cbn [map fst]. rewrite <- (app_nil_r (map fst (chain s))) in i_nd0.
          apply NoDup_Add with (a := g) (l := map fst (chain s) ++ []); [apply Add_app|]. rewrite app_nil_r in *. auto.
        * rewrite app_assoc. apply fits_snoc; [exact i_fits0|]. cbn [nxt fst snd]. lia.
        * intros g' z X. apply in_app_or in X. destruct X as [X|[X|[]]]; [exact (i_alive0 g' z X)|]. injection X as <- <-. auto.
        * rewrite i_tail0. apply (ok_pub (pbuf s) (mem s) (hreg s) ks k (KHop g)); auto.
          rewrite <- i_tail0. split; [exact Q4|]. split; [exact NT|exact Logic.I].
        * rewrite msgs_app. cbn [msgs flat_map app]. rewrite app_nil_r. exact i_sent0.
        * rewrite firstn_app, msgs_app, app_length. apply ok_le in i_ok0. replace (k - length ks) with 0 by lia.
          cbn [firstn msgs flat_map length]. lia.
        * rewrite i_bad0, W. reflexivity.
        * exact Logic.I.
        * destruct (cp s); auto. destruct k; [contradiction|]. destruct ks as [|[] ks]; try contradiction. exact Logic.I.
      + (* PPub *)
        injection E as <-. pose proof (i_pp _ _ _ _ _ I) as Q. unfold pinv in Q. rewrite Ep in Q. destruct Q as (Q1 & Q2 & Q3).
        assert (ND := nodup_r _ _ _ _ _ I). assert (T := i_tlen _ _ _ _ _ I).
        assert (W := tame _ _ _ _ _ (snd (tail s)) I ltac:(lia)). rewrite <- surjective_pairing in W.
        exists pre, cs, (ks ++ [KMsg l]), k. destruct I. constructor; ff; auto.
        * rewrite adv_app, <- i_tail0. reflexivity.
        * rewrite i_chain0, (app_assoc cs ks [KMsg l]), (hops_app (cs ++ ks) [KMsg l]). cbn [hops flat_map]. rewrite app_nil_r. reflexivity.
        * rewrite app_assoc. apply fits_snoc; [exact i_fits0|]. rewrite adv_app, <- i_hreg0, <- i_tail0. cbn [nxt fst snd]. lia.
        * cbn [fst snd]. lia.
        * assert (X := ok_pub (pbuf s) (mem s) (hreg s) ks k (KMsg l) ND). rewrite <- i_tail0 in X. apply X; [|exact i_ok0].
          split; [exact Q3|]. split; [|exact Q1]. cbn [nxt]. intros Y. apply (f_equal snd) in Y. cbn [snd] in Y. lia.
        * rewrite taken_snoc, sent_snoc, Nat.add_0_r, skipn_app, i_sent0, msgs_app.
          replace (taken (tr s) - length (sent (tr s))) with 0 by lia. reflexivity.
        * rewrite taken_snoc, sent_snoc, app_length. lia.
        * rewrite visible_snoc, taken_snoc, firstn_app, msgs_app, app_length. apply ok_le in i_ok0.
          replace (k - length ks) with 0 by lia. cbn [firstn msgs flat_map length]. lia.
        * rewrite i_bad0, W. reflexivity.
        * exact Logic.I.
        * destruct (cp s); auto. destruct k; [contradiction|]. destruct ks as [|[] ks]; try contradiction. exact Logic.I.
        * apply fifo_snoc; [exact i_fifo0|exact Logic.I].
    - (* CallDeq *)
      exists pre, cs, ks, k. destruct (cp s) eqn:Ec; try discriminate; injection E as <-; destruct I; constructor; ff; auto.
    - (* C *)
      unfold stepC in E. destruct (cp s) eqn:Ec; try discriminate.
      assert (W := tame_head _ _ _ _ _ I). assert (H := head_word _ _ _ _ _ I).
      destruct (get (mem s) (hreg s)) as [v| |n|g] eqn:G; [contradiction| | |].
      + injection E as <-. exists pre, cs, ks, k. destruct I. constructor; ff; auto.
        * rewrite taken_snoc, sent_snoc, Nat.add_0_r, app_nil_r. exact i_sent0.
        * rewrite taken_snoc, sent_snoc, app_nil_r. lia.
        * rewrite taken_snoc, visible_snoc. lia.
        * rewrite i_bad0, W. reflexivity.
        * apply fifo_snoc; [exact i_fifo0|]. cbn [allowed]. rewrite i_vis0. subst k. cbn. lia.
      + destruct H as (l & ks' & k' & -> & -> & -> & Q). injection E as <-. exists pre, cs, (KMsg l :: ks'), (S k').
        destruct I. constructor; ff; auto.
        * rewrite taken_snoc, sent_snoc, Nat.add_0_r, app_nil_r. exact i_sent0.
        * rewrite taken_snoc, sent_snoc, app_nil_r. lia.
        * rewrite taken_snoc, visible_snoc. lia.
        * rewrite i_bad0, W. reflexivity.
        * apply fifo_snoc; [exact i_fifo0|]. cbn [allowed]. rewrite i_vis0. cbn. lia.
      + destruct H as (ks' & k' & -> & ->). injection E as <-. exists pre, (cs ++ [KHop g]), ks', k'.
        assert (PS := poss_snoc _ _ _ _ _ _ I). destruct I. constructor; ff; auto.
        * rewrite adv_app, <- i_hreg0. reflexivity.
        * rewrite <- app_assoc. exact i_chain0.
        * rewrite <- app_assoc. exact i_fits0.
        * apply (ok_drop (pbuf s) (mem s) (hreg s) (KHop g)) in i_ok0. exact i_ok0.
        * rewrite i_bad0, W. reflexivity.
        * rewrite Ec. exact Logic.I.
    - (* Read *)
      destruct (cp s) eqn:Ec; try discriminate. assert (H := head_word _ _ _ _ _ I).
      destruct (get (mem s) (hreg s)) as [v| |n|g] eqn:G; try discriminate.
      destruct H as (l & ks' & k' & -> & -> & -> & Q).
      destruct (Nat.ltb_spec i (snd (nxt (hreg s) (KMsg l)) - snd (hreg s) - 1)) as [Li|]; [|discriminate].
      injection E as <-. exists pre, cs, (KMsg l :: ks'), (S k'). cbn [nxt snd] in Li.
      assert (W : wild s (fst (hreg s), snd (hreg s) + 1 + i) = false).
      { pose proof (i_fits _ _ _ _ _ I) as F. apply fits_adv in F. rewrite <- (i_hreg _ _ _ _ _ I) in F.
        apply proj2 in F. apply fits_here in F. cbn [nxt fst snd] in F. unfold wild. cbn [fst snd].
        destruct (in_alive_r _ _ _ _ _ (fst (hreg s)) I (or_introl eq_refl)) as [_ ->]. cbn [andb].
        destruct (Nat.leb_spec (8 * (snd (hreg s) + 1 + i + 1)) (bsz s (fst (hreg s)))); [reflexivity|lia]. }
      destruct I. constructor; ff; auto.
      + rewrite taken_snoc, sent_snoc, Nat.add_0_r, app_nil_r. exact i_sent0.
      + rewrite taken_snoc, sent_snoc, app_nil_r. lia.
      + rewrite taken_snoc, visible_snoc. lia.
      + rewrite i_bad0, W. reflexivity.
      + apply fifo_snoc; [exact i_fifo0|]. cbn [allowed]. split; [rewrite i_vis0; cbn; lia|].
        destruct (nth_error l i) as [x|] eqn:X; [|apply nth_error_None in X; lia].
        exists l, x. split; [|split; [exact X|]].
        * rewrite <- (firstn_skipn (taken (tr s)) (sent (tr s))), i_sent0, nth_error_app2 by (rewrite firstn_length; lia).
          rewrite firstn_length. replace (taken (tr s) - _) with 0 by lia. reflexivity.
        * intros v ->. exact (Q i v X).
    - (* Take *)
      destruct (cp s) eqn:Ec; try discriminate. assert (H := head_word _ _ _ _ _ I).
      assert (HC := i_cp _ _ _ _ _ I). rewrite Ec in HC. assert (W := tame_head _ _ _ _ _ I).
      destruct (get (mem s) (hreg s)) as [v| |n|g] eqn:G.
      + contradiction.
      + subst k. contradiction.
      + destruct H as (l & ks' & k' & -> & -> & -> & Q). injection E as <-. exists pre, (cs ++ [KMsg l]), ks', k'.
        assert (PS := poss_snoc _ _ _ _ _ _ I). destruct I.
        assert (L : length (sent (tr s)) - taken (tr s) = S (length (msgs ks'))).
        { rewrite <- skipn_length, i_sent0. reflexivity. }
        constructor; ff; auto.
        * rewrite adv_app, <- i_hreg0. reflexivity.
        * rewrite <- app_assoc. exact i_chain0.
        * rewrite <- app_assoc. exact i_fits0.
        * apply (ok_drop (pbuf s) (mem s) (hreg s) (KMsg l)) in i_ok0. exact i_ok0.
        * rewrite taken_snoc, sent_snoc, app_nil_r.
          replace (taken (tr s) + 1) with (1 + taken (tr s)) by lia. 
          assert (X : forall (A : Type) n (x : A) y z, skipn n z = x :: y -> skipn (1 + n) z = y).
          { intros A n. induction n as [|n IH]; intros x y z Z; destruct z as [|z0 z]; try discriminate.
            - cbn in Z. injection Z as _ ->. reflexivity.
            - cbn [skipn] in Z. cbn [Nat.add]. change (skipn (S (S n)) (z0 :: z)) with (skipn (1 + n) z). eauto. }
          exact (X _ _ _ _ _ i_sent0).
        * rewrite taken_snoc, sent_snoc, app_nil_r. lia.
        * rewrite taken_snoc, visible_snoc. cbn [firstn msgs flat_map app length] in i_vis0. unfold msgs. lia.
        * rewrite i_bad0, W. reflexivity.
        * apply fifo_snoc; [exact i_fifo0|]. cbn [allowed]. rewrite i_vis0. cbn. lia.
      + destruct H as (ks' & k' & -> & ->). contradiction.
    - (* DrainP *)
      destruct (pbuf s) as [|[p w] b] eqn:Eb; [discriminate|]. injection E as <-.
      assert (OK := i_ok _ _ _ _ _ I). rewrite Eb in OK. destruct OK as [OA OK].
      assert (FE : fin (mem s) (pbuf s) = fin (set (mem s) p w) b) by (rewrite Eb; reflexivity).
      assert (PI := i_pp _ _ _ _ _ I). unfold pinv in PI. rewrite FE in PI.
      destruct w as [v| |n|g].
      + exists pre, cs, ks, k. destruct I. constructor; ff; auto.
      + exists pre, cs, ks, k. destruct I. constructor; ff; auto.
      + destruct OK as (l & N & OK). exists pre, cs, ks, (S k). destruct I.
        assert (FS : length (msgs (firstn (S k) ks)) = S (length (msgs (firstn k ks)))).
        { clear - N. revert ks N. induction k as [|k IH]; intros ks N; destruct ks as [|x ks]; try discriminate; cbn [nth_error] in N.
          - injection N as ->. reflexivity.
          - change (firstn (S (S k)) (x :: ks)) with (x :: firstn (S k) ks). change (firstn (S k) (x :: ks)) with (x :: firstn k ks).
            destruct x; cbn [msgs flat_map app length]; unfold msgs in IH; rewrite (IH ks N); reflexivity. }
        constructor; ff; auto.
        * rewrite taken_snoc, sent_snoc, Nat.add_0_r, app_nil_r. exact i_sent0.
        * rewrite taken_snoc, sent_snoc, app_nil_r. lia.
        * rewrite taken_snoc, visible_snoc. lia.
        * destruct (cp s); auto. destruct k; [contradiction|]. exact i_cp0.
        * apply fifo_snoc; [exact i_fifo0|]. cbn [allowed]. rewrite i_vis0.
          assert (L : length (sent (tr s)) - taken (tr s) = length (msgs ks)) by (rewrite <- skipn_length, i_sent0; reflexivity).
          assert (length (msgs (firstn (S k) ks)) <= length (msgs ks)); [|lia].
          rewrite <- (firstn_skipn (S k) ks) at 2. rewrite msgs_app, app_length. lia.
      + destruct OK as (g' & N & OK). exists pre, cs, ks, (S k). destruct I.
        assert (FS : length (msgs (firstn (S k) ks)) = length (msgs (firstn k ks))).
        { clear - N. revert ks N. induction k as [|k IH]; intros ks N; destruct ks as [|x ks]; try discriminate; cbn [nth_error] in N.
          - injection N as ->. reflexivity.
          - change (firstn (S (S k)) (x :: ks)) with (x :: firstn (S k) ks). change (firstn (S k) (x :: ks)) with (x :: firstn k ks).
            destruct x; cbn [msgs flat_map app length]; unfold msgs in IH; rewrite (IH ks N); reflexivity. }
        constructor; ff; auto.
        * lia.
        * destruct (cp s); auto. destruct k; [contradiction|]. exact i_cp0.
    - (* DrainC *)
      destruct (cbuf s) as [|p b] eqn:Eb; [discriminate|]. injection E as <-.
      assert (X := i_cbuf _ _ _ _ _ I). rewrite Eb in X. destruct cs as [|x cs]; [discriminate|]. cbn [poss] in X. injection X as -> ->.
      destruct x as [l|g].
      + exists pre, cs, ks, k. destruct I. constructor; ff; auto. exact (proj2 i_fits0).
      + exists (pre ++ [fst (hmem s)]), cs, ks, k. destruct I. constructor; ff; auto.
        * rewrite i_chain0, <- app_assoc. reflexivity.
        * exact (proj2 i_fits0).
        * unfold pinv in *. ff. destruct (pp s); auto. destruct i_pp0 as [P1 P2]. split; [|exact P2]. apply in_or_app. left. exact P1.
    - (* Env *)
      destruct (alive s (fst p)) eqn:A; [discriminate|]. injection E as <-. exists pre, cs, ks, k.
      assert (X : forall q, In (fst q) (fst (hreg s) :: hops ks) -> get (set (mem s) p w) q = get (mem s) q).
      { intros q Q. apply get_set_neq. intros ->. apply (in_alive_r _ _ _ _ _ _ I) in Q. destruct Q. congruence. }
      assert (FE : forall b m q, alive s (fst q) = true -> get (fin (set m p w) b) q = get (fin m b) q).
      { clear - A. assert (S : forall m m' x y q, get m' q = get m q -> get (set m' x y) q = get (set m x y) q).
        { intros m m' x y q H. destruct (Nat.eq_dec (fst q) (fst x)) as [E1|E1], (Nat.eq_dec (snd q) (snd x)) as [E2|E2].
          1: { assert (q = x) as -> by (destruct q, x; cbn in *; congruence). rewrite !get_set_eq. reflexivity. }
          all: rewrite !get_set_neq by congruence; exact H. }
        assert (T : forall b m m' q, get m' q = get m q -> get (fin m' b) q = get (fin m b) q).
        { induction b as [|[x y] b IH]; intros m m' q H; [exact H|]. apply IH. apply S. exact H. }
        intros b m q Q. apply T. apply get_set_neq. intros ->. congruence. }
      assert (TA : alive s (fst (tail s)) = true).
      { apply (in_alive_r _ _ _ _ _ _ I). exact (tail_in _ _ _ _ _ I). }
      destruct I. constructor; ff; auto.
      + exact (ok_ext _ _ _ _ _ _ X i_ok0).
      + unfold pinv in *. ff. destruct (pp s); auto.
        * destruct i_pp0 as (P1 & P2 & P3 & P4). rewrite FE by exact P1. auto.
        * destruct i_pp0 as (P1 & P2). split; [|exact P2]. intros i v Ei. rewrite FE by exact TA. exact (P1 i v Ei).
        * destruct i_pp0 as (P1 & P2 & P3). split; [|split; [exact P2|rewrite FE by exact TA; exact P3]].
          intros i v Ei. rewrite FE by exact TA. exact (P1 i v Ei).
  Qed.

  Lemma inv_init : exists pre cs ks k, inv (init B m0) pre cs ks k.
  Proof using B8.
    exists [], [], [], 0. constructor; cbn [init mem alive bsz hmem pbuf cbuf tail tlen chain nalloc hreg pp cp bad tr]; auto.
    - constructor; [intros []|constructor].
    - split; [cbn; lia|exact Logic.I].
    - intros g z [X|[]]. injection X as <- <-. auto.
    - split; [apply get_set_eq|reflexivity].
    - destruct (Nat.ltb_spec B 8); [lia|reflexivity].
    - exact Logic.I.
    - intros tr1 e tr2 E. destruct tr1; discriminate.
  Qed.

  Lemma inv_reach : forall p s, exec (step B maxb) (init B m0) p = Some s -> exists pre cs ks k, inv s pre cs ks k.
  Proof using B8.
    intros p s E. refine (exec_inv (step B maxb) (fun s => exists pre cs ks k, inv s pre cs ks k) _ _ _ _ _ E).
    - intros a b c. apply inv_step.
    - apply inv_init.
  Qed.
End Inv.
