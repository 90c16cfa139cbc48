(** The invariant holds in every reachable state. *)
From Coq Require Import List Arith Bool Lia.
From Verif Require Import Base DgrModel DgrSpec DgrProofs DgrProofs2 DgrProofs3 DgrProofs4.
Import ListNotations.

Section Step.
  Context {X : Type}.
  Notation msg := (msg X).
  Notation st := (st X).
  Variables (n : nat) (edges : list (nat * nat)) (grp : nat -> nat) (size : X -> nat)
            (urgent : msg -> bool) (batch limit : nat) (ack : bool) (otf : nat).
  Notation succ := (succ edges).
  Notation pred := (pred edges).
  Notation conns := (conns edges grp).
  Notation item := (option nat * X)%type.
  Notation InvS := (@InvS X edges grp).
  Notation InvP := (@InvP X edges grp).
  Notation InvB := (@InvB X edges grp ack otf).
  Notation InvD := (@InvD X edges grp).
  Notation InvL := (@InvL X edges grp).
  Notation InvE := (@InvE X edges).
  Notation Inv := (@Inv X edges grp ack otf).
  Notation path := (@path X grp).
  Notation step := (step n edges grp size urgent batch limit ack).

  Hypothesis Hrange : forall u v, In (u, v) edges -> u < n /\ v < n.
  Hypothesis Hnd : NoDup edges.
  Hypothesis Hsize : forall x, 0 < size x.
  Hypothesis Hack : ack = true -> forall u w h, grp u = grp w -> succ u <> [] -> In h (conns w) -> In h (conns u).

  Ltac cs u' u := destruct (Nat.eq_dec u' u) as [->|?]; [rewrite ?fupd_eq in *|rewrite ?(fupd_neq) in * by assumption].

  (** The choice among the connections is postponed or made. *)
  Lemma inv_push_data : forall s s1 u p h pre tc et dd de tn,
    InvS (outq s1) (closed s1) (choosing s1) (sent s1) (fupd pre u (pre u ++ [p])) (fupd tc u (tc u ++ [h])) et ->
    et u = false -> length (pre u) = length (tc u) -> choosing s1 (grp u) = None -> In h (conns u) ->
    InvP (rb s1) (net s1) (pend s1) (buf s1) pre tc et dd de ->
    InvB (buf s1) (pend s1) (net s1) (choosing s1) (credit s1) (acks s1) (rb s1) ->
    InvD dd tn -> InvL (lq s1) (recv s1) dd de tn -> InvE (recv s1) (ended s1) (alive s1) (closed s1) ->
    aborted s1 = false -> lost s1 = 0 ->
    push_all size urgent batch limit s1 (grp u) [h] (mkd u p) = s -> Inv s.
  Proof using Type.
    intros s s1 u p h pre tc et dd de tn IS Het Hl Hc Hh IP IB ID IL IE Hab Hlo E.
    destruct (push_all_spec size urgent batch limit (grp u) (mkd u p) [h] s1) as (B & P & R1 & R2 & R3 & R4 & R5 & R6 & R7 & R8).
    { constructor; [intros []|constructor]. }
    rewrite R1 in E. subst s. unfold same_but.
    exists (fupd pre u (pre u ++ [p])), (fupd tc u (tc u ++ [h])), et, dd, de, tn. cbn.
    split; [exact IS|]. split; [|split; [|auto 10]].
    - eapply P_data; eauto. intros u' h'.
      exact (path_push grp (rb s1) (net s1) (pend s1) (buf s1) P B (grp u) [h] (mkd u p) R2 R3 R4 eq_refl u' h').
    - eapply B_push; eauto. intros h0 [<-|[]]. exact Hh.
  Qed.

  Lemma pre_len : forall O C Ch Se pre tc et u, InvS O C Ch Se pre tc et -> length (pre u) = length (tc u).
  Proof using Type. intros until u. intros I. destruct I. specialize (s_pre u). induction s_pre; simpl; congruence. Qed.

  Lemma inv_take : forall s u c s', Inv s -> step s (Take u c) = Some s' -> Inv s'.
  Proof using Type*.
    intros s u c s' (pre & tc & et & dd & de & tn & IS & IP & IB & ID & IL & IE & Hab & Hlo) E.
    unfold DgrModel.step in E. rewrite Hab in E.
    destruct (outq s u) as [|m r] eqn:HO; [discriminate|]. destruct (pend s (grp u)) eqn:Hpe; [|discriminate].
    destruct (choosing s (grp u)) eqn:Hc; [discriminate|]. cbv zeta in E.
    match type of E with context [flush_all ?x _ _] => set (s1 := x) in * end.
    destruct (is_flush m) eqn:Hf.
    - injection E as <-.
      destruct (flush_all_spec (grp u) (conns u) s1) as (B & P & R1 & R2 & R3 & R4 & R5 & R6). rewrite R1.
      exists pre, tc, et, dd, de, tn. unfold same_but. cbn. split; [|split; [|split; [|auto 10]]].
      + eapply S_take_flush; eauto.
      + apply P_same with (1 := IP). intros u' h'. unfold DgrProofs2.path. f_equal. f_equal. f_equal.
        destruct (Nat.eq_dec (grp u') (grp u)) as [Eg|N].
        * rewrite Eg. apply R4.
        * rewrite R2, R3 by auto. reflexivity.
      + eapply B_flush; eauto.
    - destruct (S_head _ _ _ _ _ _ _ _ _ _ _ _ IS HO Hf) as [(Hm & HC & Het & Hr & Hd)|(p & Hm & Hp & Het & Hr)]; subst m.
      + cbn in E. injection E as <-.
        destruct (push_all_spec size urgent batch limit (grp u) (eos u) (conns u) s1) as (B & P & R1 & R2 & R3 & R4 & R5 & R6 & R7 & R8).
        { apply conns_nodup. }
        unfold eos in R1. rewrite R1.
        exists pre, tc, (fupd et u true), dd, de, tn. unfold same_but. cbn. split; [|split; [|split; [|auto 10]]].
        * eapply S_take_eos; eauto.
        * eapply P_eos; eauto. intros u' h'.
          exact (path_push grp (rb s1) (net s1) (pend s1) (buf s1) P B (grp u) (conns u) (eos u) R2 R3 R4 eq_refl u' h').
        * eapply (B_push edges grp size); eauto.
      + destruct p as (d & x). assert (Hx : (bsize size (cont (mkd u (d, x))) =? 0) = false).
        { cbn. pose proof (Hsize x). apply Nat.eqb_neq. lia. }
        assert (HOs : exists w, succ u = w).
        { eauto. }
        cbn [mkd dest fst] in E. destruct d as [d|].
        * assert (Hd : In d (succ u)) by (eapply (s_legal _ _ _ _ _ _ _ _ _ IS); eauto).
          rewrite known_in in E by exact Hd. injection E as E.
          eapply (inv_push_data _ s1 u (Some d, x) (grp d)); try exact E; unfold s1; cbn; eauto.
          -- eapply S_take_data; eauto. split; [apply conns_in; eauto|]. intros v Hv. cbn in Hv. injection Hv as <-. auto.
          -- eapply pre_len; eauto.
          -- apply conns_in; eauto.
        * cbn [mkd cont snd bsize] in E, Hx. rewrite Hx in E.
          destruct (mem c (conns u)) eqn:Mc; [|discriminate]. apply mem_in in Mc.
          match type of E with (if ?b then _ else _) = _ => destruct b eqn:Eb end.
          -- injection E as <-. exists pre, tc, et, dd, de, tn. cbn. split; [|split; [|split; [|auto 10]]]; auto.
             ++ exact (S_choose _ _ _ _ _ _ _ _ _ _ _ _ IS HO Hc).
             ++ destruct IB. constructor; auto. intros g m Hg.
                destruct (Nat.eq_dec g (grp u)) as [->|N]; [|rewrite fupd_neq in Hg by auto; auto].
                rewrite fupd_eq in Hg. injection Hg as <-. cbn. split; auto. split; auto.
                apply andb_true_iff in Eb. destruct Eb as (Eb & _). apply andb_true_iff in Eb. destruct Eb as (Ea & Ecr).
                apply Nat.eqb_eq in Ecr. repeat split; auto; [discriminate|]. eauto.
          -- injection E as E.
             eapply (inv_push_data _ s1 u (None, x) c); try exact E; unfold s1; cbn; eauto.
             ++ eapply S_take_data; eauto. split; [auto|]. intros v Hv. discriminate.
             ++ eapply pre_len; eauto.
  Qed.

  Lemma inv_emit : forall s g s', Inv s -> step s (Emit g) = Some s' -> Inv s'.
  Proof using Type*.
    intros s g s' (pre & tc & et & dd & de & tn & IS & IP & IB & ID & IL & IE & Hab & Hlo) E.
    unfold DgrModel.step in E. rewrite Hab in E. destruct (pend s g) as [|(h & b) r] eqn:Hpe; [discriminate|].
    destruct (ack && (credit s g h =? 0)) eqn:Ea; [discriminate|]. injection E as <-.
    exists pre, tc, et, dd, de, tn. cbn. split; [exact IS|]. split; [|split; [|auto 10]].
    - apply P_same with (1 := IP). intros u h'. unfold DgrProofs2.path. f_equal. rewrite fupd2_case.
      destruct (Nat.eqb_spec (grp u) g) as [Eg|N]; cbn [andb].
      + rewrite Eg, fupd_eq, Hpe. unfold pendfor. cbn. rewrite (Nat.eqb_sym h h'). destruct (Nat.eqb_spec h' h) as [->|N].
        * cbn. rewrite concat_app. cbn. unfold ofsrc. rewrite app_nil_r, ?filter_app, <- ?app_assoc. rewrite ?filter_app, <- ?app_assoc. reflexivity.
        * reflexivity.
      + rewrite fupd_neq by auto. reflexivity.
    - destruct IB. constructor; auto.
      + intros g' h' b' Hi. cs g' g; [|eauto]. apply (b_pend g h' b'). rewrite Hpe. simpl. auto.
      + intros g' h' b' Hi. rewrite fupd2_case in Hi. destruct (Nat.eqb_spec g' g) as [->|]; cbn [andb] in Hi; [|eauto].
        destruct (Nat.eqb_spec h' h) as [->|]; [|eauto]. apply in_app_iff in Hi. destruct Hi as [Hi|[<-|[]]]; [eauto|].
        apply (b_pend g h b). rewrite Hpe. simpl. auto.
      + intros g' m Hc. destruct (b_ch _ _ Hc) as (K1 & K2 & K3 & K4 & K5 & c & K6 & K7).
        destruct (Nat.eq_dec g' g) as [->|N]; [congruence|]. rewrite fupd_neq by auto. repeat split; auto. exists c. split; auto.
        destruct ack; auto. rewrite fupd2_neq; auto.
      + intros Ha g' h'. rewrite Ha in *. rewrite !fupd2_case. specialize (b_flow eq_refl g' h').
        destruct (Nat.eqb_spec g' g) as [->|]; cbn [andb]; auto. destruct (Nat.eqb_spec h' h) as [->|]; auto.
        rewrite app_length. cbn in *. apply Nat.eqb_neq in Ea. lia.
  Qed.

  Lemma inv_ackread : forall s g h s', Inv s -> step s (AckRead g h) = Some s' -> Inv s'.
  Proof using Type*.
    intros s g h s' (pre & tc & et & dd & de & tn & IS & IP & IB & ID & IL & IE & Hab & Hlo) E.
    unfold DgrModel.step in E. rewrite Hab in E. destruct (pend s g) as [|(h0 & b) r] eqn:Hpe; [discriminate|].
    destruct ((credit s g h0 =? 0) && (0 <? acks s g h)) eqn:Ea; [|discriminate]. injection E as <-.
    apply andb_true_iff in Ea. destruct Ea as (_ & Ea). apply Nat.ltb_lt in Ea.
    exists pre, tc, et, dd, de, tn. cbn. split; [exact IS|]. split; [exact IP|split; [|auto 10]].
    destruct IB. constructor; auto.
    - intros g' m Hc. destruct (b_ch _ _ Hc) as (K1 & K2 & K3 & K4 & K5 & c & K6 & K7).
      destruct (Nat.eq_dec g' g) as [->|N]; [congruence|]. repeat split; auto. exists c. split; auto.
      rewrite fupd2_neq; auto.
    - intros Ha g' h'. rewrite !fupd2_case. specialize (b_flow Ha g' h').
      destruct (Nat.eqb_spec g' g) as [->|]; cbn [andb]; auto. destruct (Nat.eqb_spec h' h) as [->|]; auto. lia.
    - intros g' h' Hl. apply b_acks. rewrite fupd2_case in Hl. destruct (Nat.eqb_spec g' g) as [->|]; cbn [andb] in Hl; auto.
      destruct (Nat.eqb_spec h' h) as [Q|Q]; [subst h'; lia|auto].
  Qed.

  Lemma inv_ackany : forall s g h s', Inv s -> step s (AckAny g h) = Some s' -> Inv s'.
  Proof using Type*.
    intros s g h s' (pre & tc & et & dd & de & tn & IS & IP & IB & ID & IL & IE & Hab & Hlo) E.
    unfold DgrModel.step in E. rewrite Hab in E. destruct (choosing s g) as [m|] eqn:Hc; [|discriminate].
    destruct (0 <? acks s g h) eqn:Ea; [|discriminate]. apply Nat.ltb_lt in Ea.
    assert (Sinj : forall a b : st, Some a = Some b -> a = b) by congruence. apply Sinj in E. clear Sinj.
    destruct (b_ch _ _ _ _ _ _ _ _ _ _ _ IB _ _ Hc) as (K1 & K2 & K3 & K4 & K5 & c & K6 & K7).
    destruct (b_acks _ _ _ _ _ _ _ _ _ _ _ IB _ _ Ea) as (w & Hw & Hhw).
    destruct (pay_data _ K5) as (x & Ex & Em). set (u := src m) in *. rewrite K4 in Em.
    assert (Hh : In h (conns u)).
    { apply (Hack K3 u w h); [congruence| |exact Hhw]. apply (proj2 (conns_nonempty edges grp u)). eauto. }
    rewrite Em in Hc. rewrite Em in E. rewrite <- K1 in E, Hc.
    destruct (S_chosen _ _ _ _ _ _ _ _ _ u (None, x) h IS Hc) as (IS' & Het & Hp).
    { split; auto. intros v Hv. discriminate. }
    match type of E with push_all _ _ _ _ ?z _ _ _ = _ => set (s1 := z) in * end.
    assert (IB' : InvB (buf s1) (pend s1) (net s1) (choosing s1) (credit s1) (acks s1) (rb s1)).
    { subst s1. cbn. rewrite K1 in *. destruct IB. constructor; auto.
      - intros g' m' Hg. cs g' g; [discriminate|]. destruct (b_ch _ _ Hg) as (L1 & L2 & L3 & L4 & L5 & c' & L6 & L7).
        repeat split; auto. exists c'. split; auto. rewrite fupd2_neq; auto.
      - intros Ha g' h'. rewrite !fupd2_case. specialize (b_flow Ha g' h').
        destruct (Nat.eqb_spec g' g) as [->|]; cbn [andb]; auto. destruct (Nat.eqb_spec h' h) as [->|]; auto. lia.
      - intros g' h' Hl. apply b_acks. rewrite fupd2_case in Hl. destruct (Nat.eqb_spec g' g) as [->|]; cbn [andb] in Hl; auto.
        destruct (Nat.eqb_spec h' h) as [Q|Q]; [subst h'; lia|auto]. }
    eapply (inv_push_data _ s1 u (None, x) h); try exact E; try exact IB'; unfold s1; cbn; eauto.
    - eapply pre_len; eauto.
    - apply fupd_eq.
  Qed.

  Lemma inv_deliver : forall s g h s', Inv s -> step s (Deliver g h) = Some s' -> Inv s'.
  Proof using Type*.
    intros s g h s' (pre & tc & et & dd & de & tn & IS & IP & IB & ID & IL & IE & Hab & Hlo) E.
    unfold DgrModel.step in E. rewrite Hab in E. destruct (net s g h) as [|b r] eqn:Hn; [discriminate|].
    destruct (rb s h) eqn:Hrb; [|discriminate]. injection E as <-.
    assert (Hb : In b (net s g h)) by (rewrite Hn; simpl; auto).
    rewrite (net_unpack _ _ _ Hsize _ _ _ _ _ _ _ _ _ IP (b_net _ _ _ _ _ _ _ _ _ _ _ IB) _ _ _ Hb).
    destruct (b_net _ _ _ _ _ _ _ _ _ _ _ IB _ _ _ Hb) as (Hne & Hbm).
    exists pre, tc, et, dd, de, tn. cbn. split; [exact IS|]. split; [|split; [|auto 10]].
    - apply P_same with (1 := IP). intros u h'. unfold DgrProofs2.path. rewrite fupd2_case.
      destruct (Nat.eq_dec h' h) as [->|N].
      + rewrite fupd_eq, Hrb. rewrite Nat.eqb_refl, andb_true_r. destruct (Nat.eqb_spec (grp u) g) as [Eg|Ng].
        * rewrite Eg, Hn. cbn. unfold ofsrc. rewrite ?filter_app, <- ?app_assoc. reflexivity.
        * rewrite ofsrc_none; auto. intros m Hm Es. destruct (Hbm m Hm). congruence.
      + rewrite fupd_neq by auto. destruct (Nat.eqb_spec h' h); [congruence|]. rewrite andb_false_r. reflexivity.
    - destruct IB. constructor; auto.
      + intros g' h' b' Hi. rewrite fupd2_case in Hi. destruct (Nat.eqb_spec g' g) as [->|]; cbn [andb] in Hi; [|eauto].
        destruct (Nat.eqb_spec h' h) as [->|]; [|eauto]. apply b_net. rewrite Hn. simpl. auto.
      + intros h' m Hm. cs h' h; [|auto]. destruct (Hbm m Hm). auto.
      + intros Ha g' h'. rewrite Ha, !fupd2_case. specialize (b_flow Ha g' h').
        destruct (Nat.eqb_spec g' g) as [->|]; cbn [andb]; auto. destruct (Nat.eqb_spec h' h) as [->|]; auto.
        rewrite Hn in b_flow. cbn in b_flow. lia.
      + intros g' h' Hl. destruct ack; [|auto]. rewrite fupd2_case in Hl. destruct (Nat.eqb_spec g' g) as [->|]; cbn [andb] in Hl; auto.
        destruct (Nat.eqb_spec h' h) as [Q|Q]; [subst h'|auto]. destruct b as [|m b]; [congruence|].
        destruct (Hbm m); [simpl; auto|]. eauto.
  Qed.

  Lemma inv_route : forall s h v s', Inv s -> step s (Route h v) = Some s' -> Inv s'.
  Proof using Type*.
    intros s h v s' (pre & tc & et & dd & de & tn & IS & IP & IB & ID & IL & IE & Hab & Hlo) E.
    unfold DgrModel.step in E. rewrite Hab in E. destruct (rb s h) as [|m r] eqn:Hrb; [discriminate|]. cbv zeta in E.
    assert (Hh : In h (conns (src m))). { apply (b_rb _ _ _ _ _ _ _ _ _ _ _ IB). rewrite Hrb. simpl. auto. }
    assert (IB' : InvB (buf s) (pend s) (net s) (choosing s) (credit s) (acks s) (fupd (rb s) h r)).
    { destruct IB. constructor; auto. intros h' m' Hm. cs h' h; auto. apply b_rb. rewrite Hrb. simpl. auto. }
    assert (Ht : exists t ts, targets n edges grp h (src m) = t :: ts).
    { apply conns_in in Hh. destruct Hh as (w & Hw & Hg). apply succ_in in Hw.
      destruct (targets n edges grp h (src m)) as [|t ts] eqn:Et; [|eauto].
      assert (In w (targets n edges grp h (src m))) by (apply targets_in; auto). rewrite Et in H. contradiction. }
    destruct Ht as (t & ts & Ht).
    destruct (rb_head edges grp _ _ _ _ _ _ _ _ _ _ _ _ IP Hrb) as (Hde & [(p & Hm & Hp & IP')|(Hm & IP')]).
    - assert (HPn : Pc edges grp (src m) p h). { exact (picks_forall _ _ _ _ (s_pre _ _ _ _ _ _ _ _ _ IS (src m)) _ Hp). }
      assert (K : forall v', In (src m, v') edges -> grp v' = h -> (forall w, fst p = Some w -> v' = w) ->
        Inv (mkSt (outq s) (closed s) (alive s) (buf s) (pend s) (choosing s) (net s) (credit s) (acks s)
                  (fupd (rb s) h r) (fupd (lq s) v' (lq s v' ++ [m])) (ended s) false (lost s) (sent s) (recv s))).
      { intros v' Hv Hg Hw. subst h. rewrite Hm. cbn [src mkd]. 
        exists pre, tc, et, (fupd2 dd (src m) (grp v') (dd (src m) (grp v') ++ [p])), de, (fupd2 tn (src m) (grp v') (tn (src m) (grp v') ++ [v'])).
        cbn. split; [exact IS|]. split; [exact IP'|]. split; [exact IB'|]. split; [|split; [|auto]].
        - apply D_put; auto. split; [apply succ_in; auto|]. auto.
        - apply L_put; auto. specialize (ID (src m) (grp v')). clear - ID. induction ID; simpl; congruence. }
      rewrite Hm in E at 1. cbn [dest mkd] in E. destruct p as (d & x). cbn [fst] in *. destruct d as [d|].
      + destruct HPn as (_ & HPn). destruct (HPn d eq_refl) as (Hd & Hg). apply succ_in in Hd.
        assert (Md : mem d (members n grp h) = true). { apply mem_in. apply members_in. destruct (Hrange _ _ Hd). auto. }
        rewrite Md in E. injection E as <-. apply K; auto. intros w Hw. now injection Hw.
      + rewrite Ht in E. assert (Hx : (bsize size (cont m) =? 0) = false).
        { rewrite Hm. cbn. pose proof (Hsize x). apply Nat.eqb_neq. lia. }
        rewrite Hx in E. destruct (mem v (t :: ts)) eqn:M; [|discriminate]. apply mem_in in M. rewrite <- Ht in M.
        apply targets_in in M; [|exact Hrange]. destruct M as (M1 & M2). injection E as <-. apply K; auto. discriminate.
    - rewrite Hm in E at 1. cbn [dest eos] in E. rewrite Ht in E. rewrite Hm in E at 1. cbn [cont eos bsize Nat.eqb] in E.
      assert (Sinj : forall a b : st, Some a = Some b -> a = b) by congruence. apply Sinj in E. clear Sinj. subst s'.
      exists pre, tc, et, dd, (fupd2 de (src m) h true), tn.
      cbn [outq closed choosing sent rb net pend buf credit acks lq recv ended alive aborted lost].
      split; [exact IS|]. split; [exact IP'|]. split; [exact IB'|]. split; [exact ID|]. split; [|auto].
      change (mkMsg (src m) None Eos) with (eos (X := X) (src m)). rewrite <- Ht. apply L_eos; auto.
  Qed.

  Lemma inv_recv : forall s v s', Inv s -> step s (Recv v) = Some s' -> Inv s'.
  Proof using Type*.
    intros s v s' (pre & tc & et & dd & de & tn & IS & IP & IB & ID & IL & IE & Hab & Hlo) E.
    unfold DgrModel.step in E. rewrite Hab in E. destruct (lq s v) as [|m r] eqn:Hlq; [discriminate|].
    destruct (alive s v) eqn:Hal; [|discriminate]. cbv zeta in E. set (u := src m) in *.
    assert (Hed : In (u, v) edges). { apply (l_lq _ _ _ _ _ _ _ IL). rewrite Hlq. simpl. auto. }
    assert (Hpay : (if bsize size (cont m) =? 0 then None else match cont m with Data x => Some x | _ => None end) = pay m).
    { unfold pay. destruct (cont m) as [x| |]; auto. cbn. pose proof (Hsize x). destruct (Nat.eqb_spec (size x) 0); [lia|auto]. }
    rewrite Hpay in E.
    assert (Hfrom : forall o u', from u' (recv s v ++ [(u, o)]) = from u' (recv s v) ++ (if u =? u' then [o] else [])).
    { intros o u'. rewrite from_app. f_equal. unfold from. cbn. destruct (u =? u'); reflexivity. }
    assert (IL' : InvL (fupd (lq s) v r) (fupd (recv s) v (recv s v ++ [(u, pay m)])) dd de tn).
    { destruct IL. constructor.
      - intros u' v' Hi. cs v' v; auto. rewrite Hfrom, (l_eq _ _ Hi), Hlq, <- app_assoc. f_equal. cbn. fold u.
        destruct (u =? u'); reflexivity.
      - intros v' m' Hm. cs v' v; auto. apply l_lq. rewrite Hlq. simpl. auto.
      - intros v' u' o Hi. cs v' v; eauto. apply in_app_iff in Hi. destruct Hi as [Hi|[Hi|[]]]; eauto. congruence. }
    destruct (pay m) as [x|] eqn:Hp.
    - injection E as <-. exists pre, tc, et, dd, de, tn. cbn. repeat (split; [assumption|]). split; [|auto].
      destruct IE. constructor; auto. intros v' u'. rewrite e_ended. cs v' v; [|tauto]. rewrite in_app_iff. simpl.
      split; [auto|]. intros [H|[H|[]]]; [auto|discriminate].
    - assert (Hne : ~ In u (ended s v)).
      { rewrite (e_ended _ _ _ _ _ IE). rewrite <- from_in. destruct IL. pose proof (l_eq _ _ Hed) as K. rewrite Hlq in K.
        cbn in K. fold u in K. rewrite Nat.eqb_refl in K. cbn in K. rewrite Hp in K. apply somes_split in K. tauto. }
      destruct (mem u (ended s v)) eqn:M; [apply mem_in in M; contradiction|].
      assert (IE1 : forall v' u', In u' (fupd (ended s) v (u :: ended s v) v') <-> In (u', None) (fupd (recv s) v (recv s v ++ [(u, None)]) v')).
      { intros v' u'. cs v' v; [|apply IE]. rewrite in_app_iff. simpl. rewrite <- (e_ended _ _ _ _ _ IE).
        split; [intros [->|H]; auto|]. intros [H|[H|[]]]; auto. injection H as ->. auto. }
      assert (IE2 : forall v', NoDup (fupd (ended s) v (u :: ended s v) v')).
      { intros v'. cs v' v; [|apply IE]. constructor; auto. apply IE. }
      assert (Hincl : incl (u :: ended s v) (pred v)).
      { intros w [<-|Hw]; apply pred_in; auto. apply (e_ended _ _ _ _ _ IE) in Hw. exact (l_recv _ _ _ _ _ _ _ IL _ _ _ Hw). }
      assert (Hpne : pred v <> []).
      { intros Z. assert (Hu : In u (pred v)) by (now apply pred_in). rewrite Z in Hu. contradiction. }
      assert (Hend : (length (pred v) <=? length (u :: ended s v)) = true <-> incl (pred v) (u :: ended s v)).
      { rewrite Nat.leb_le. split.
        - intros Hl. apply NoDup_length_incl; auto. specialize (IE2 v). now rewrite fupd_eq in IE2.
        - intros Hl. apply NoDup_incl_length; auto. apply pred_nodup. exact Hnd. }
      destruct (length (pred v) <=? length (u :: ended s v)) eqn:Hlen.
      + assert (IE3 : forall C', (forall w, closed s w = true -> C' w = true) -> (C' v = true \/ succ v = []) ->
          InvE (fupd (recv s) v (recv s v ++ [(u, None)])) (fupd (ended s) v (u :: ended s v)) (fupd (alive s) v false) C').
        { intros C' HC Hcl. constructor; auto.
          - intros v'. cs v' v; [|apply IE]. split; auto. intros _. split; auto. now apply Hend.
          - intros v' Hv. cs v' v; auto. destruct (e_closed _ _ _ _ _ IE v' Hv); auto. }
        destruct (succ v) as [|w0 sl] eqn:Hsu; [|destruct (closed s v) eqn:HC]; injection E as <-.
        * exists pre, tc, et, dd, de, tn. cbn. repeat (split; [assumption|]). split; auto.
        * exists pre, tc, et, dd, de, tn. cbn. repeat (split; [assumption|]). split; auto.
        * exists pre, tc, et, dd, de, tn. cbn. split.
          { apply S_eos; auto. rewrite Hsu. discriminate. }
          repeat (split; [assumption|]). split; auto. apply IE3.
          -- intros w Hw. cs w v; auto.
          -- left. apply fupd_eq.
      + injection E as <-. exists pre, tc, et, dd, de, tn. cbn. repeat (split; [assumption|]). split; auto.
        constructor; auto.
        * intros v'. cs v' v; [|apply IE]. rewrite Hal. split; [discriminate|]. intros (_ & H). apply Hend in H. discriminate.
        * apply IE.
  Qed.

  Lemma inv_user : forall s a s', Inv s -> internal a = false -> no_eos_to a = true -> step s a = Some s' -> Inv s'.
  Proof using Type*.
    intros s a s' I Ha Hn E. pose proof I as (pre & tc & et & dd & de & tn & IS & IP & IB & ID & IL & IE & Hab & Hlo).
    unfold DgrModel.step in E. rewrite Hab in E. destruct a; try discriminate.
    - destruct (nth_error (succ u) j) as [v|] eqn:Hj; [|discriminate]. apply nth_error_In in Hj.
      destruct (alive s u); [|discriminate]. destruct (closed s u) eqn:HC; injection E as <-; [exact I|].
      exists pre, tc, et, dd, de, tn. cbn. split; [|auto 10]. apply S_data; auto.
      + intros Z. rewrite Z in Hj. contradiction.
      + intros w Hw. now injection Hw as <-.
    - destruct (alive s u); [|discriminate]. destruct (succ u) as [|w l] eqn:Hs; [injection E as <-; exact I|].
      destruct (closed s u) eqn:HC; injection E as <-; [exact I|].
      exists pre, tc, et, dd, de, tn. cbn. split; [|auto 10]. apply S_data; auto; [congruence|discriminate].
    - destruct (alive s u); [|discriminate]. destruct (succ u) as [|w l] eqn:Hs; [injection E as <-; exact I|].
      destruct (closed s u) eqn:HC; injection E as <-; [exact I|].
      exists pre, tc, et, dd, de, tn. cbn. split; [|auto 10]. apply S_flush; auto; congruence.
    - destruct (alive s u && negb (closed s u)) eqn:Hac; [|discriminate]. apply andb_true_iff in Hac. destruct Hac as (_ & HC).
      apply negb_true_iff in HC. destruct (succ u) as [|w l] eqn:Hs; injection E as <-; [exact I|].
      exists pre, tc, et, dd, de, tn. cbn. split; [|split; [|split; [|split; [|split; [|split; [|auto]]]]]]; auto.
      + apply S_eos; auto. congruence.
      + eapply E_mono; [exact IE|]. intros w0 Hw. cs w0 u; auto.
  Qed.

  Lemma inv_step : forall s a s', no_eos_to a = true -> Inv s -> step s a = Some s' -> Inv s'.
  Proof using Type*.
    intros s a s' Hn I E. destruct (internal a) eqn:Ha; [|now apply (inv_user s a s')].
    destruct a; try discriminate.
    - eapply inv_take; eauto.
    - eapply inv_emit; eauto.
    - eapply inv_ackread; eauto.
    - eapply inv_ackany; eauto.
    - eapply inv_deliver; eauto.
    - eapply inv_route; eauto.
    - eapply inv_recv; eauto.
  Qed.

  Lemma inv_exec : forall l s, forallb no_eos_to l = true -> exec step (init_st otf) l = Some s -> Inv s.
  Proof using Type*.
    intros l s Hl E.
    assert (K : forall l s0, Inv s0 -> forallb no_eos_to l = true -> exec step s0 l = Some s -> Inv s).
    { clear l Hl E. induction l as [|a l IH]; intros s0 I Hl E; simpl in *; [now injection E as <-|].
      apply andb_true_iff in Hl. destruct Hl as (H1 & H2). destruct (step s0 a) as [s1|] eqn:E1; [|discriminate].
      exact (IH s1 (inv_step s0 a s1 H1 I E1) H2 E). }
    refine (K l _ _ Hl E). eapply inv_init.
  Qed.
End Step.
