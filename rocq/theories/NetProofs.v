(** Networks: the invariant of the executions. *)
From Coq Require Import List Arith Bool Lia Permutation.
From Verif Require Import Base NetModel NetSpec.
Import ListNotations.

Section Proofs.
  Context {X St : Type}.
  Variable N : net X St.
  Notation st := (st X St).

  (** Channels of a node. *)
  Lemma in_outs : forall v c, In c (outs N v) <-> exists k, chan_of N c = Some k /\ src k = v.
  Proof.
    intros v c. unfold outs. rewrite filter_In, in_seq. split.
    - intros [_ H]. destruct (chan_of N c) as [k|] eqn:E; [|discriminate]. apply Nat.eqb_eq in H. eauto.
    - intros (k & E & <-). rewrite E, Nat.eqb_refl. split; [|auto]. split; [lia|]. simpl.
      apply nth_error_Some. unfold chan_of in E. congruence.
  Qed.
  Lemma in_ins : forall v c, In c (ins N v) <-> exists k, chan_of N c = Some k /\ dst k = v.
  Proof.
    intros v c. unfold ins. rewrite filter_In, in_seq. split.
    - intros [_ H]. destruct (chan_of N c) as [k|] eqn:E; [|discriminate]. apply Nat.eqb_eq in H. eauto.
    - intros (k & E & <-). rewrite E, Nat.eqb_refl. split; [|auto]. split; [lia|]. simpl.
      apply nth_error_Some. unfold chan_of in E. congruence.
  Qed.
  Lemma outs_nodup : forall v, NoDup (outs N v).
  Proof. intros. apply NoDup_filter, seq_NoDup. Qed.

  Lemma memb_In : forall c l, memb c l = true <-> In c l.
  Proof.
    intros. unfold memb. rewrite existsb_exists. split.
    - intros (y & H & E). apply Nat.eqb_eq in E. subst. auto.
    - intros H. exists c. split; [auto|apply Nat.eqb_refl].
  Qed.

  (** remove_nth *)
  Lemma remove_nth_perm : forall {T} k (l : list T) x, nth_error l k = Some x ->
    Permutation l (x :: remove_nth k l).
  Proof.
    intros T k l x H. unfold remove_nth. apply nth_error_split in H as (l1 & l2 & -> & <-).
    rewrite firstn_app, Nat.sub_diag, firstn_all. cbn [firstn]. rewrite app_nil_r.
    replace (skipn (S (length l1)) (l1 ++ x :: l2)) with l2.
    - apply Permutation_sym, Permutation_middle.
    - replace (S (length l1)) with (length (l1 ++ [x])) by (rewrite app_length; simpl; lia).
      replace (l1 ++ x :: l2) with ((l1 ++ [x]) ++ l2) by (rewrite <- app_assoc; reflexivity).
      rewrite (skipn_app (length (l1 ++ [x]))), skipn_all, Nat.sub_diag. reflexivity.
  Qed.

  Lemma on_snoc : forall c h c' (m : msg X), on c (h ++ [(c', m)]) = on c h ++ (if c' =? c then [m] else []).
  Proof.
    intros. unfold on. rewrite filter_app, map_app. simpl. destruct (c' =? c); reflexivity.
  Qed.
  Lemma in_on : forall c h (m : msg X), In m (on c h) <-> In (c, m) h.
  Proof.
    intros. unfold on. rewrite in_map_iff. split.
    - intros ([c' m'] & E & H). simpl in E. subst. apply filter_In in H as [H E]. simpl in E.
      apply Nat.eqb_eq in E. subst. auto.
    - intros H. exists (c, m). split; [auto|]. apply filter_In. simpl. rewrite Nat.eqb_refl. auto.
  Qed.

  Lemma resolve_ok : forall v r j c m, resolve N v r j = Some (c, m) -> resolves N v r (c, m).
  Proof.
    intros v r j c m H. destruct r as [i m'|x]; simpl in H.
    - destruct (nth_error (outs N v) i) eqn:E; simpl in H; [|discriminate]. injection H as -> ->. split; auto.
    - destruct (nth_error (outs N v) j) eqn:E; simpl in H; [|discriminate]. injection H as -> <-.
      split; auto. eapply nth_error_In; eauto.
  Qed.
  Lemma resolves_out : forall v r c m, resolves N v r (c, m) -> In c (outs N v).
  Proof. intros v [j m'|x] c m H; simpl in H; destruct H as [H _]; auto. eapply nth_error_In; eauto. Qed.

  (** State of the user's code after reading a log. *)
  Fixpoint ufold (v : nat) (u : St) (log : list (nat * msg X)) : St :=
    match log with
    | [] => u
    | (c, Item x) :: l => ufold v (fst (fst (svc N v u c x))) l
    | (c, Eos) :: l => ufold v (fst (eosn N v u c)) l
    end.
  Lemma ufold_app : forall v l1 l2 u, ufold v u (l1 ++ l2) = ufold v (ufold v u l1) l2.
  Proof. induction l1 as [|[c [x|]] l1 IH]; intros; simpl; auto. Qed.
  Lemma replies_app : forall v l1 l2 u,
    replies N v u (l1 ++ l2) = replies N v u l1 ++ replies N v (ufold v u l1) l2.
  Proof.
    induction l1 as [|[c [x|]] l1 IH]; intros; simpl; auto.
    - destruct (svc N v u c x) as [[u' o] b]. simpl. rewrite IH, app_assoc. reflexivity.
    - destruct (eosn N v u c) as [u' o]. simpl. rewrite IH, app_assoc. reflexivity.
  Qed.
  Lemma ok_replies : forall (W : wf N) v log u, v < nodes N -> ok_groups N v (replies N v u log).
  Proof.
    intros W v log u Hv. revert u. induction log as [|[c [x|]] l IH]; intros u; simpl.
    - constructor.
    - destruct (svc N v u c x) as [[u' o] b] eqn:E. apply Forall_app. split; [|apply IH].
      pose proof (wf_svc N W v u c x Hv) as H. rewrite E in H. exact H.
    - destruct (eosn N v u c) as [u' o] eqn:E. apply Forall_app. split; [|apply IH].
      pose proof (wf_eosn N W v u c Hv) as H. rewrite E in H. exact H.
  Qed.

  (** Everything node v has been asked to push so far. *)
  Definition asked (s : st) (v : nat) : list (list (req X)) :=
    boot N v ++ replies N v (start N v) (hl s v) ++
    match ph (nd s v) with Running => [] | _ => [eos_group N v] end.

  (** Progress through the groups asked: [p] still to do, [h] pushed. *)
  Definition progress (v : nat) (G p : list (list (req X))) (h : list (nat * msg X)) : Prop :=
    match p with
    | [] => realizes N v G h
    | cur :: B => exists D b0 ps P1 p2, G = D ++ b0 :: B /\ Permutation b0 (ps ++ cur) /\ h = P1 ++ p2 /\
        realizes N v D P1 /\ Forall2 (resolves N v) ps p2
    end.

  Lemma realizes_app : forall v G1 P1 G2 P2, realizes N v G1 P1 -> realizes N v G2 P2 ->
    realizes N v (G1 ++ G2) (P1 ++ P2).
  Proof.
    induction 1; simpl; auto. intros. rewrite <- app_assoc. econstructor; eauto.
  Qed.

  (** More groups are asked when none is left. *)
  Lemma progress_more : forall v G h G', progress v G [] h -> progress v (G ++ G') G' h.
  Proof.
    intros v G h G' H. destruct G' as [|b B]; simpl in *.
    - rewrite app_nil_r. auto.
    - exists G, b, [], h, []. rewrite app_nil_r. repeat split; auto. 
  Qed.

  Lemma progress_put : forall v G g p h k r c m, progress v G (g :: p) h -> nth_error g k = Some r ->
    resolves N v r (c, m) -> progress v G (remove_nth k g :: p) (h ++ [(c, m)]).
  Proof.
    intros v G g p h k r c m (D & b0 & ps & P1 & p2 & -> & P & -> & R & F) E H.
    exists D, b0, (ps ++ [r]), P1, (p2 ++ [(c, m)]). split; [auto|]. split.
    - rewrite P, <- app_assoc. apply Permutation_app_head. apply remove_nth_perm. auto.
    - split; [rewrite app_assoc; auto|]. split; [auto|]. apply Forall2_app; auto.
  Qed.

  Lemma progress_next : forall v G p h, progress v G ([] :: p) h -> progress v G p h.
  Proof.
    intros v G p h (D & b0 & ps & P1 & p2 & -> & P & -> & R & F). rewrite app_nil_r in P.
    assert (R1 : realizes N v (D ++ [b0]) (P1 ++ p2)).
    { apply realizes_app; auto. rewrite <- (app_nil_r p2). econstructor; eauto. constructor. }
    destruct p as [|g B]; simpl.
    - exact R1.
    - exists (D ++ [b0]), g, [], (P1 ++ p2), []. rewrite <- app_assoc, app_nil_r. repeat split; auto.
  Qed.

  Record inv (s : st) : Prop := {
    i_read : forall c k, chan_of N c = Some k -> hs s c = on c (hl s (dst k)) ++ q s c;
    i_push : forall c k, chan_of N c = Some k -> hs s c = on c (hp s (src k));
    i_ended : forall v c, In c (ended (nd s v)) <-> In (c, Eos) (hl s v);
    i_ust : forall v, ust (nd s v) = ufold v (start N v) (hl s v);
    i_prog : forall v, progress v (asked s v) (pend (nd s v)) (hp s v);
    i_run : forall v, ph (nd s v) = Running -> exists c, In c (ins N v) /\ ~ In c (ended (nd s v));
    i_cls : forall v, ph (nd s v) <> Running -> patient N v -> forall c, In c (ins N v) -> In c (ended (nd s v));
    i_done : forall v, ph (nd s v) = Done -> pend (nd s v) = [];
    i_ins : forall v c m, In (c, m) (hl s v) -> In c (ins N v) }.

  Lemma inv_init : inv (init_st N).
  Proof.
    constructor; simpl; auto; try tauto.
    - intros v c. unfold init_node. destruct (ins N v); simpl; tauto.
    - intros v. unfold init_node. destruct (ins N v); reflexivity.
    - intros v. unfold asked, init_st. cbn [nd hl replies hp]. unfold init_node. destruct (ins N v); simpl.
      + apply (progress_more v [] [] (boot N v ++ [eos_group N v])). constructor.
      + rewrite app_nil_r. apply (progress_more v [] [] (boot N v)). constructor.
    - intros v. unfold init_node. destruct (ins N v) as [|c l] eqn:E; simpl; [discriminate|].
      intros _. exists c. split; [left; auto|tauto].
    - intros v. unfold init_node. destruct (ins N v) as [|c l] eqn:E; simpl; [|congruence].
      intros _ _ c [].
    - intros v. unfold init_node. destruct (ins N v); discriminate.
  Qed.

  Lemma forallb_ins : forall v e, forallb (fun c => memb c e) (ins N v) = true <-> forall c, In c (ins N v) -> In c e.
  Proof.
    intros. rewrite forallb_forall. split; intros H c Hc; specialize (H c Hc); apply memb_In; auto.
  Qed.
  Lemma forallb_ins_false : forall v e, forallb (fun c => memb c e) (ins N v) = false ->
    exists c, In c (ins N v) /\ ~ In c e.
  Proof.
    intros v e. induction (ins N v) as [|a l IH]; simpl; [discriminate|].
    destruct (memb a e) eqn:B; simpl; intros H.
    - destruct (IH H) as (c & H1 & H2). exists c. auto.
    - exists a. split; [auto|]. intros C. apply memb_In in C. congruence.
  Qed.

  Lemma inv_get : forall s v c s', inv s -> step N s (Get v c) = Some s' -> inv s'.
  Proof.
    intros s v c s' I E. cbn [step] in E. set (n := nd s v) in *.
    destruct (ph n) eqn:EP; try discriminate. destruct (pend n) eqn:EPD; try discriminate.
    destruct (q s c) as [|m r] eqn:EQ; try discriminate.
    destruct ((v <? nodes N) && memb c (ins N v) && negb (memb c (ended n))) eqn:B; [|discriminate].
    injection E as <-. apply andb_prop in B as [B B3]. apply andb_prop in B as [B1 B2].
    apply memb_In in B2. apply negb_true_iff in B3.
    assert (NE : ~ In c (ended n)) by (intros C; apply memb_In in C; congruence).
    destruct I. apply in_ins in B2 as B2'. destruct B2' as (kc & KC & DC).
    assert (EN : forall c0, In c0 (ended (react N v n c m)) <-> In (c0, Eos) (hl s v ++ [(c, m)])).
    { intros c0. rewrite in_app_iff. rewrite <- (i_ended0 v c0). fold n. unfold react. destruct m as [x|].
      - destruct (svc N v (ust n) c x) as [[u o] b]. destruct b; simpl; split; auto; intros [H|[H|[]]]; auto; discriminate.
      - destruct (eosn N v (ust n) c) as [u o].
        destruct (forallb _ (ins N v)); simpl; split; try (intros [->|H]; auto; fail);
          intros [H|[H|[]]]; auto; injection H as ->; auto. }
    assert (US : ust (react N v n c m) = ufold v (start N v) (hl s v ++ [(c, m)])).
    { rewrite ufold_app, <- (i_ust0 v). fold n. unfold react. destruct m as [x|]; simpl.
      - destruct (svc N v (ust n) c x) as [[u o] b]. destruct b; reflexivity.
      - destruct (eosn N v (ust n) c) as [u o]. destruct (forallb _ (ins N v)); reflexivity. }
    constructor; cbn [q nd hs hl hp].
    - intros c0 k0 K0. rewrite (i_read0 c0 k0 K0). destruct (Nat.eq_dec c0 c) as [->|NC].
      + rewrite fupd_eq. replace (dst k0) with v by congruence. rewrite fupd_eq, on_snoc, Nat.eqb_refl, EQ.
        rewrite <- app_assoc. reflexivity.
      + rewrite (fupd_neq _ (q s)) by auto. destruct (Nat.eq_dec (dst k0) v) as [->|ND].
        * rewrite fupd_eq, on_snoc. replace (c =? c0) with false by (symmetry; apply Nat.eqb_neq; auto).
          rewrite app_nil_r. auto.
        * rewrite fupd_neq by auto. auto.
    - auto.
    - intros v0 c0. destruct (Nat.eq_dec v0 v) as [->|NV]; [rewrite !fupd_eq; auto|rewrite !fupd_neq by auto; auto].
    - intros v0. destruct (Nat.eq_dec v0 v) as [->|NV]; [rewrite !fupd_eq; auto|rewrite !fupd_neq by auto; auto].
    - intros v0. destruct (Nat.eq_dec v0 v) as [->|NV].
      2:{ unfold asked. cbn [nd hl]. rewrite !fupd_neq by auto. apply i_prog0. }
      unfold asked. cbn [nd hl]. rewrite !fupd_eq. specialize (i_prog0 v). fold n in i_prog0. rewrite EPD in i_prog0.
      unfold asked in i_prog0. fold n in i_prog0. rewrite EP, app_nil_r in i_prog0.
      rewrite replies_app, <- (i_ust0 v). fold n.
      unfold react. destruct m as [x|]; simpl.
      + destruct (svc N v (ust n) c x) as [[u o] b]. rewrite app_nil_r. destruct b; simpl.
        * rewrite !app_assoc, <- (app_assoc _ o). apply progress_more. auto.
        * rewrite app_nil_r, app_assoc. apply progress_more. auto.
      + destruct (eosn N v (ust n) c) as [u o]. rewrite app_nil_r. destruct (forallb _ (ins N v)); simpl.
        * rewrite !app_assoc, <- (app_assoc _ o). apply progress_more. auto.
        * rewrite app_nil_r, app_assoc. apply progress_more. auto.
    - intros v0. destruct (Nat.eq_dec v0 v) as [->|NV]; [rewrite !fupd_eq|rewrite !fupd_neq by auto; auto].
      unfold react. destruct m as [x|].
      + destruct (svc N v (ust n) c x) as [[u o] b]. destruct b; simpl; [discriminate|]. intros _. apply i_run0. auto.
      + destruct (eosn N v (ust n) c) as [u o]. destruct (forallb _ (ins N v)) eqn:FB; simpl; [discriminate|].
        intros _. apply forallb_ins_false in FB. auto.
    - intros v0. destruct (Nat.eq_dec v0 v) as [->|NV]; [rewrite !fupd_eq|rewrite !fupd_neq by auto; auto].
      unfold react. destruct m as [x|].
      + destruct (svc N v (ust n) c x) as [[u o] b] eqn:ES. destruct b; simpl; [|congruence].
        intros _ PT. specialize (PT (ust n) c x). rewrite ES in PT. discriminate.
      + destruct (eosn N v (ust n) c) as [u o]. destruct (forallb _ (ins N v)) eqn:FB; simpl; [|congruence].
        intros _ _. exact (proj1 (forallb_ins _ _) FB).
    - intros v0. destruct (Nat.eq_dec v0 v) as [->|NV]; [rewrite !fupd_eq|rewrite !fupd_neq by auto; auto].
      unfold react. destruct m as [x|].
      + destruct (svc N v (ust n) c x) as [[u o] b]. destruct b; discriminate.
      + destruct (eosn N v (ust n) c) as [u o]. destruct (forallb _ (ins N v)); discriminate.
    - intros v0 c0 m0. destruct (Nat.eq_dec v0 v) as [->|NV]; [rewrite !fupd_eq|rewrite !fupd_neq by auto; eauto].
      rewrite in_app_iff. intros [H|[H|[]]]; [eauto|]. injection H as -> ->. auto.
  Qed.

  Lemma inv_put : forall s v k j s', inv s -> step N s (Put v k j) = Some s' -> inv s'.
  Proof.
    intros s v k j s' I E. cbn [step] in E. set (n := nd s v) in *.
    destruct (pend n) as [|g p] eqn:EPD; try discriminate.
    destruct (nth_error g k) as [r|] eqn:EG; try discriminate.
    destruct (resolve N v r j) as [[c m]|] eqn:ER; try discriminate.
    destruct ((v <? nodes N) && room N s c) eqn:B; [|discriminate]. injection E as <-.
    apply resolve_ok in ER. pose proof (resolves_out _ _ _ _ ER) as OC.
    apply in_outs in OC as (kc & KC & SC).
    destruct I. constructor; cbn [q nd hs hl hp].
    - intros c0 k0 K0. rewrite (i_read0 c0 k0 K0) || idtac.
      destruct (Nat.eq_dec c0 c) as [->|NC].
      + rewrite !fupd_eq. rewrite app_assoc. f_equal. auto.
      + rewrite !fupd_neq by auto. auto.
    - intros c0 k0 K0. destruct (Nat.eq_dec c0 c) as [->|NC].
      + rewrite fupd_eq. replace (src k0) with v by congruence. rewrite fupd_eq, on_snoc, Nat.eqb_refl.
        f_equal. rewrite (i_push0 c k0 K0). congruence.
      + rewrite (fupd_neq _ (hs s)) by auto. rewrite (i_push0 c0 k0 K0).
        destruct (Nat.eq_dec (src k0) v) as [->|ND].
        * rewrite fupd_eq, on_snoc. replace (c =? c0) with false by (symmetry; apply Nat.eqb_neq; auto).
          rewrite app_nil_r. auto.
        * rewrite fupd_neq by auto. auto.
    - intros v0 c0. destruct (Nat.eq_dec v0 v) as [->|NV]; [rewrite !fupd_eq; simpl; apply i_ended0|rewrite !fupd_neq by auto; auto].
    - intros v0. destruct (Nat.eq_dec v0 v) as [->|NV]; [rewrite !fupd_eq; simpl; apply i_ust0|rewrite !fupd_neq by auto; auto].
    - intros v0. unfold asked. cbn [nd hl]. destruct (Nat.eq_dec v0 v) as [->|NV].
      + rewrite !fupd_eq. cbn [ph pend]. specialize (i_prog0 v). fold n in i_prog0. rewrite EPD in i_prog0.
        eapply progress_put; eauto.
      + rewrite !fupd_neq by auto. apply i_prog0.
    - intros v0. destruct (Nat.eq_dec v0 v) as [->|NV]; [rewrite !fupd_eq; simpl; apply i_run0|rewrite !fupd_neq by auto; auto].
    - intros v0. destruct (Nat.eq_dec v0 v) as [->|NV]; [rewrite !fupd_eq; simpl; apply i_cls0|rewrite !fupd_neq by auto; auto].
    - intros v0. destruct (Nat.eq_dec v0 v) as [->|NV]; [rewrite !fupd_eq; simpl|rewrite !fupd_neq by auto; auto].
      intros D. apply i_done0 in D. fold n in D. congruence.
    - auto.
  Qed.

  Lemma inv_step : forall s a s', inv s -> step N s a = Some s' -> inv s'.
  Proof.
    intros s a s' I E. destruct a as [v c|v k j|v|v].
    - eapply inv_get; eauto.
    - eapply inv_put; eauto.
    - cbn [step] in E. set (n := nd s v) in *. destruct (pend n) as [|[|? ?] p] eqn:EPD; try discriminate.
      destruct (v <? nodes N); [|discriminate]. injection E as <-.
      destruct I. constructor; cbn [q nd hs hl hp]; auto.
      + intros v0 c0. destruct (Nat.eq_dec v0 v) as [->|NV]; [rewrite !fupd_eq; simpl; apply i_ended0|rewrite !fupd_neq by auto; auto].
      + intros v0. destruct (Nat.eq_dec v0 v) as [->|NV]; [rewrite !fupd_eq; simpl; apply i_ust0|rewrite !fupd_neq by auto; auto].
      + intros v0. unfold asked. cbn [nd hl]. destruct (Nat.eq_dec v0 v) as [->|NV].
        * rewrite !fupd_eq. cbn [ph pend]. specialize (i_prog0 v). fold n in i_prog0. rewrite EPD in i_prog0.
          apply progress_next. auto.
        * rewrite !fupd_neq by auto. apply i_prog0.
      + intros v0. destruct (Nat.eq_dec v0 v) as [->|NV]; [rewrite !fupd_eq; simpl; apply i_run0|rewrite !fupd_neq by auto; auto].
      + intros v0. destruct (Nat.eq_dec v0 v) as [->|NV]; [rewrite !fupd_eq; simpl; apply i_cls0|rewrite !fupd_neq by auto; auto].
      + intros v0. destruct (Nat.eq_dec v0 v) as [->|NV]; [rewrite !fupd_eq; simpl|rewrite !fupd_neq by auto; auto].
        intros D. apply i_done0 in D. fold n in D. congruence.
    - cbn [step] in E. set (n := nd s v) in *. destruct (ph n) eqn:EP; try discriminate.
      destruct (pend n) eqn:EPD; try discriminate.
      destruct (v <? nodes N); [|discriminate]. injection E as <-.
      destruct I. constructor; cbn [q nd hs hl hp]; auto.
      + intros v0 c0. destruct (Nat.eq_dec v0 v) as [->|NV]; [rewrite !fupd_eq; simpl; apply i_ended0|rewrite !fupd_neq by auto; auto].
      + intros v0. destruct (Nat.eq_dec v0 v) as [->|NV]; [rewrite !fupd_eq; simpl; apply i_ust0|rewrite !fupd_neq by auto; auto].
      + intros v0. unfold asked. cbn [nd hl]. destruct (Nat.eq_dec v0 v) as [->|NV].
        * rewrite !fupd_eq. cbn [ph pend]. specialize (i_prog0 v). unfold asked in i_prog0. fold n in i_prog0.
          rewrite EPD, EP in i_prog0. exact i_prog0.
        * rewrite !fupd_neq by auto. apply i_prog0.
      + intros v0. destruct (Nat.eq_dec v0 v) as [->|NV]; [rewrite !fupd_eq; simpl; discriminate|rewrite !fupd_neq by auto; auto].
      + intros v0. destruct (Nat.eq_dec v0 v) as [->|NV]; [rewrite !fupd_eq; simpl|rewrite !fupd_neq by auto; auto].
        intros _. apply i_cls0. fold n. congruence.
      + intros v0. destruct (Nat.eq_dec v0 v) as [->|NV]; [rewrite !fupd_eq; simpl; auto|rewrite !fupd_neq by auto; auto].
  Qed.

  Lemma reach : forall l s, exec (step N) (init_st N) l = Some s -> inv s.
  Proof. intros l s E. exact (exec_inv (step N) inv inv_step l _ _ inv_init E). Qed.
End Proofs.
