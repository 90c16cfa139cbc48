(** Master-worker: completion, results, finiteness. *)
From Coq Require Import List Arith Bool Lia Permutation.
From Verif Require Import Base NetModel NetSpec NetProofs NetProofs2 NetProofs3 NetProofs4 NetProofs5 A2AProofs MwModel.
Import ListNotations.

(** ** A running node has not returned EOS. *)
Section Quit.
  Context {X St : Type}.
  Variable N : net X St.
  Lemma quits_app : forall v l1 l2 u, quits N v u (l1 ++ l2) = quits N v u l1 || quits N v (ufold N v u l1) l2.
  Proof.
    induction l1 as [|[c [x|]] l1 IH]; intros l2 u; simpl; auto. rewrite IH, orb_assoc. reflexivity.
  Qed.
  Lemma running_quits : forall l s, exec (step N) (init_st N) l = Some s -> forall v, ph (nd s v) = Running ->
    quits N v (start N v) (hl s v) = false.
  Proof.
    intros l s E.
    apply (exec_inv (step N) (fun s => inv N s /\ forall v, ph (nd s v) = Running -> quits N v (start N v) (hl s v) = false)) in E.
    - apply E.
    - clear. intros s a s' [I H] E. split; [eapply inv_step; eauto|]. intros v0. destruct a as [v c|v k j|v|v]; cbn [step] in E.
      + set (nn := nd s v) in *. destruct (ph nn) eqn:EP, (pend nn), (q s c) as [|m r]; try discriminate.
        destruct (_ && _); [|discriminate]. injection E as <-. cbn [nd hl].
        destruct (Nat.eq_dec v0 v) as [->|NV]; [|rewrite !fupd_neq by auto; apply H]. rewrite !fupd_eq.
        intros PR. rewrite quits_app, (H v EP), <- (i_ust _ _ I v). fold nn. simpl. unfold react in PR. destruct m as [x|]; simpl; auto.
        destruct (svc N v (ust nn) c x) as [[u o] b]. destruct b; [discriminate|reflexivity].
      + destruct (pend (nd s v)) as [|g p]; try discriminate. destruct (nth_error g k); try discriminate.
        destruct (resolve N v r j) as [[c m]|]; try discriminate. destruct (_ && _); [|discriminate]. injection E as <-. cbn [nd hl].
        destruct (Nat.eq_dec v0 v) as [->|NV]; [rewrite fupd_eq|rewrite fupd_neq by auto]; apply H.
      + destruct (pend (nd s v)) as [|[|? ?] ?]; try discriminate. destruct (_ <? _); [|discriminate]. injection E as <-. cbn [nd hl].
        destruct (Nat.eq_dec v0 v) as [->|NV]; [rewrite fupd_eq|rewrite fupd_neq by auto]; apply H.
      + destruct (ph (nd s v)), (pend (nd s v)); try discriminate. destruct (_ <? _); [|discriminate]. injection E as <-. cbn [nd hl].
        destruct (Nat.eq_dec v0 v) as [->|NV]; [rewrite fupd_eq; discriminate|rewrite fupd_neq by auto; apply H].
    - split; [apply inv_init|]. reflexivity.
  Qed.

  Lemma length_channels : forall (cs : list nat) (P : list (nat * msg X)), NoDup cs -> (forall cm, In cm P -> In (fst cm) cs) ->
    length P = list_sum (map (fun c => length (on c P)) cs).
  Proof.
    intros cs P ND. induction P as [|[c m] P IH]; intros H.
    - clear. induction cs; simpl; auto.
    - assert (Hc : In c cs) by (apply (H (c, m)); left; auto). cbn [length]. rewrite IH by (intros; apply H; right; auto).
      apply in_split in Hc as (c1 & c2 & ->).
      assert (N1 : ~ In c c1 /\ ~ In c c2) by (apply NoDup_remove_2 in ND; rewrite in_app_iff in ND; tauto).
      assert (NO : forall l, ~ In c l -> list_sum (map (fun c0 => length (on c0 ((c, m) :: P))) l) = list_sum (map (fun c0 => length (on c0 P)) l)).
      { intros l NI. apply sum_same. intros x Hx. unfold on. cbn [filter fst]. replace (c =? x) with false; auto.
        symmetry. apply Nat.eqb_neq. congruence. }
      rewrite !map_app, !list_sum_app. cbn [map list_sum fold_right]. change (fold_right Nat.add 0) with list_sum.
      rewrite !NO by tauto.
      replace (on c ((c, m) :: P)) with (m :: on c P) by (unfold on; cbn [filter fst]; rewrite Nat.eqb_refl; reflexivity).
      simpl. lia.
  Qed.
  Lemma on_all : forall c (P : list (nat * msg X)), (forall cm, In cm P -> fst cm = c) -> on c P = map snd P.
  Proof.
    intros c P H. unfold on. f_equal. induction P as [|a P IH]; simpl; auto.
    rewrite (H a (or_introl eq_refl)), Nat.eqb_refl, IH; auto. intros; apply H; right; auto.
  Qed.
End Quit.

Section Mw.
  Context {X St : Type}.
  Variables (n : nat) (cp : option nat) (u0 : nat -> St) (first : list (list (req X)))
            (emit : St -> nat -> X -> St * list (list (req X)) * bool) (wk : nat -> St -> X -> St * X).
  Notation N := (mw_net n cp u0 first emit wk).
  Notation st := (st X St).

  Lemma mw_chan : forall c k, chan_of N c = Some k <->
    (c < n /\ k = mkChan 0 (S c) cp) \/ (exists w, w < n /\ c = n + w /\ k = mkChan (S w) 0 None).
  Proof.
    intros c k. unfold chan_of. cbn [chans mw_net]. unfold mw_chans. destruct (Nat.lt_ge_cases c n) as [L|L].
    - rewrite nth_error_app1 by (rewrite map_length, seq_length; auto). rewrite nth_map_seq by auto. split.
      + intros H. injection H as <-. auto.
      + intros [[_ ->]|(w & _ & -> & _)]; [auto|lia].
    - rewrite nth_error_app2 by (rewrite map_length, seq_length; auto). rewrite map_length, seq_length.
      destruct (Nat.lt_ge_cases (c - n) n) as [L2|L2].
      + rewrite nth_map_seq by auto. split.
        * intros H. injection H as <-. right. exists (c - n). split; [auto|]. split; [lia|auto].
        * intros [[H _]|(w & _ & -> & ->)]; [lia|]. do 3 f_equal. lia.
      + replace (nth_error _ _) with (@None chan); [|symmetry; apply nth_error_None; rewrite map_length, seq_length; auto].
        split; [discriminate|]. intros [[H _]|(w & H & -> & _)]; lia.
  Qed.

  Lemma mw_outs0 : outs N 0 = seq 0 n.
  Proof.
    change (outs N 0) with (pos (fun k => src k =? 0) (mw_chans n cp)). unfold mw_chans. rewrite pos_app, pos_all, pos_nil.
    - simpl. rewrite app_nil_r, map_length, seq_length. reflexivity.
    - intros k H. apply in_map_iff in H as (w & <- & _). reflexivity.
    - intros k H. apply in_map_iff in H as (w & <- & _). reflexivity.
  Qed.
  Lemma in_outs_w : forall w c, w < n -> In c (outs N (S w)) <-> c = n + w.
  Proof.
    intros w c Hw. rewrite in_outs. split.
    - intros (k & K & SK). apply mw_chan in K as [[_ ->]|(w' & _ & -> & ->)]; simpl in SK; [discriminate|congruence].
    - intros ->. exists (mkChan (S w) 0 None). split; [apply mw_chan; right; eauto|reflexivity].
  Qed.
  Lemma outs_w : forall w, w < n -> outs N (S w) = [n + w].
  Proof.
    intros w Hw. pose proof (outs_nodup N (S w)) as ND. pose proof (in_outs_w w) as H.
    destruct (outs N (S w)) as [|a [|b l]] eqn:E.
    - exfalso. apply (H (n + w) Hw). auto.
    - f_equal. apply H; auto. left. auto.
    - assert (a = n + w) by (apply H; auto; left; auto). assert (b = n + w) by (apply H; auto; right; left; auto).
      subst. inversion ND; subst. exfalso. apply H2. left. auto.
  Qed.
  Lemma in_ins0 : forall c, In c (ins N 0) <-> exists w, w < n /\ c = n + w.
  Proof.
    intros c. rewrite in_ins. split.
    - intros (k & K & SK). apply mw_chan in K as [[_ ->]|(w' & Hw & -> & ->)]; simpl in SK; [discriminate|eauto].
    - intros (w & Hw & ->). exists (mkChan (S w) 0 None). split; [apply mw_chan; right; eauto|reflexivity].
  Qed.
  Lemma in_ins_w : forall w c, w < n -> In c (ins N (S w)) <-> c = w.
  Proof.
    intros w c Hw. rewrite in_ins. split.
    - intros (k & K & SK). apply mw_chan in K as [[_ ->]|(w' & _ & -> & ->)]; simpl in SK; [congruence|discriminate].
    - intros ->. exists (mkChan 0 (S w) cp). split; [apply mw_chan; left; auto|reflexivity].
  Qed.

  (** The emitter sends items, to workers that exist. *)
  Definition sane (G : list (list (req X))) : Prop :=
    forall g r, In g G -> In r g -> match r with To j (Item _) => j < n | To _ Eos => False | Any _ => True end.

  Hypothesis POS : 0 < n.
  Hypothesis CAP : cp <> Some 0.
  Hypothesis SB : sane first.
  Hypothesis SE : forall u c x, sane (snd (fst (emit u c x))).

  Lemma sane_ok : forall G, sane G -> ok_groups N 0 G.
  Proof.
    intros G H. apply Forall_forall. intros g Hg. apply Forall_forall. intros r Hr. specialize (H g r Hg Hr).
    destruct r as [j [x|]|x]; simpl in *; auto; rewrite mw_outs0; [rewrite seq_length; auto|].
    destruct n; [lia|discriminate].
  Qed.

  Lemma mw_wf : wf N.
  Proof.
    constructor.
    - intros c k K. apply mw_chan in K as [[L ->]|(w & L & _ & ->)]; simpl; lia.
    - intros c k b K E. apply mw_chan in K as [[L ->]|(w & L & _ & ->)]; simpl in E; [|discriminate].
      destruct b; [congruence|lia].
    - intros [|v] _; [apply sane_ok; auto|constructor].
    - intros [|w] u c x Hw; simpl.
      + apply sane_ok. auto.
      + simpl in Hw. destruct (wk w u x) as [u' y]. simpl. repeat constructor. simpl. rewrite outs_w by lia. simpl. lia.
    - intros v u c _. constructor.
  Qed.

  Lemma mw_bounded : bounded_upwards N.
  Proof.
    intros c k b K E. apply mw_chan in K as [[L ->]|(w & L & _ & ->)]; simpl in E; [|discriminate].
    simpl. split; [lia|]. intros u c' x. simpl. destruct (wk c u x). reflexivity.
  Qed.
  Lemma wk_patient : forall w, patient N (S w).
  Proof. intros w u c x. simpl. destruct (wk w u x). reflexivity. Qed.

  (** Results of worker w, started in state u, for the tasks xs. *)
  Fixpoint wrun (w : nat) (u : St) (xs : list X) : list X :=
    match xs with [] => [] | x :: l => snd (wk w u x) :: wrun w (fst (wk w u x)) l end.

  Lemma worker_requests : forall w log u,
    replies N (S w) u log = map (fun y => [To 0 (Item y)]) (wrun w u (items (map snd log))).
  Proof.
    intros w. induction log as [|[c [x|]] log IH]; intros u; [reflexivity| |].
    - cbn [replies svc mw_net map snd items flat_map app wrun]. destruct (wk w u x) as [u' y]. simpl. rewrite IH. reflexivity.
    - cbn [replies eosn mw_net map snd items flat_map app]. rewrite IH. reflexivity.
  Qed.
  Lemma wrun_length : forall w xs u, length (wrun w u xs) = length xs.
  Proof. induction xs as [|x xs IH]; intros u; simpl; auto. Qed.
  Lemma wrun_app : forall w xs ys u, exists zs, wrun w u (xs ++ ys) = wrun w u xs ++ zs.
  Proof.
    induction xs as [|x xs IH]; intros ys u; simpl; [eauto|]. destruct (IH ys (fst (wk w u x))) as (zs & E).
    exists zs. rewrite E. reflexivity.
  Qed.
  Lemma concat_singles : forall (ys : list X), length (concat (map (fun y => [To 0 (Item y)]) ys)) = length ys.
  Proof. induction ys; simpl; auto. Qed.
  Lemma items_le : forall l : list (msg X), length (items l) <= length l.
  Proof. induction l as [|[x|] l IH]; simpl; lia. Qed.
  Lemma items_all : forall l : list (msg X), ~ In Eos l -> length (items l) = length l.
  Proof.
    induction l as [|[x|] l IH]; intros H; simpl; auto.
    - f_equal. apply IH. intros K. apply H. right. auto.
    - exfalso. apply H. left. auto.
  Qed.

  Lemma worker_log : forall s w, inv N s -> w < n -> hs s w = map snd (hl s (S w)) ++ q s w.
  Proof.
    intros s w I Hw. rewrite (i_read _ _ I w (mkChan 0 (S w) cp)) by (apply mw_chan; left; auto). f_equal. cbn [dst].
    apply on_all. intros [c m] Hc. simpl. apply (i_ins _ _ I) in Hc. apply in_ins_w in Hc; auto.
  Qed.
  Lemma pushed_chan : forall s v cm, inv N s -> In cm (hp s v) -> In (fst cm) (outs N v).
  Proof.
    intros s v cm I H. pose proof (i_prog _ _ I v) as PR. destruct (pend (nd s v)) as [|g B]; simpl in PR.
    - eapply realizes_chans; eauto.
    - destruct PR as (D & b0 & ps & P1 & p2 & _ & _ & EH & RD & F). rewrite EH, in_app_iff in H. destruct H as [H|H].
      + eapply realizes_chans; eauto.
      + clear - F H. induction F as [|r [c m] ps p HR F IH]; simpl in *; [tauto|]. destruct H as [<-|H]; [|auto].
        eapply resolves_out; eauto.
  Qed.
  Lemma fb_pushed : forall s w, inv N s -> w < n -> hs s (n + w) = map snd (hp s (S w)).
  Proof.
    intros s w I Hw. rewrite (i_push _ _ I (n + w) (mkChan (S w) 0 None)) by (apply mw_chan; right; eauto). cbn [src].
    apply on_all. intros cm Hc. apply (pushed_chan s (S w)) in Hc; auto. apply in_outs_w in Hc; auto.
  Qed.

  (** ** Results *)
  Lemma mw_results_lem : forall l s w, exec (step N) (init_st N) l = Some s -> w < n ->
    exists zs, wrun w (u0 (S w)) (items (on w (hp s 0))) = items (on (n + w) (hl s 0)) ++ zs.
  Proof.
    intros l s w E Hw. pose proof (reach N _ _ E) as I.
    destruct (pushes_asked N mw_wf s (S w) I) as (rest & R & _); [simpl; lia|].
    assert (RT : items (on (n + w) (hp s (S w) ++ rest)) = sent_to 0 (asked N s (S w))).
    { eapply realizes_to; [exact R| |rewrite outs_w by auto; reflexivity].
      unfold asked. cbn [boot mw_net app]. apply Forall_app. split.
      - rewrite worker_requests. apply Forall_forall. intros g Hg. apply in_map_iff in Hg as (y & <- & _). split.
        + intros x [K|[]]. discriminate.
        + repeat constructor. intros [].
      - destruct (ph (nd s (S w))); constructor; try constructor; unfold eos_group.
        + intros x K. apply in_map_iff in K as (j & J & _). discriminate.
        + rewrite map_map. simpl. rewrite map_id. apply seq_NoDup.
        + intros x K. apply in_map_iff in K as (j & J & _). discriminate.
        + rewrite map_map. simpl. rewrite map_id. apply seq_NoDup. }
    assert (SA : sent_to 0 (asked N s (S w)) = wrun w (u0 (S w)) (items (map snd (hl s (S w))))).
    { unfold asked. cbn [boot mw_net app start]. rewrite sent_to_app, worker_requests.
      replace (sent_to 0 (match ph (nd s (S w)) with Running => [] | _ => [eos_group N (S w)] end)) with (@nil X)
        by (destruct (ph (nd s (S w))); auto; symmetry; apply eos_group_to).
      rewrite app_nil_r. generalize (wrun w (u0 (S w)) (items (map snd (hl s (S w))))). clear.
      induction l as [|y l IH]; [reflexivity|]. cbn. f_equal. exact IH. }
    pose proof (worker_log s w I Hw) as WL. pose proof (fb_pushed s w I Hw) as FP.
    rewrite (i_push _ _ I w (mkChan 0 (S w) cp)) in WL by (apply mw_chan; left; auto). cbn [src] in WL.
    rewrite (i_read _ _ I (n + w) (mkChan (S w) 0 None)) in FP by (apply mw_chan; right; eauto). cbn [dst] in FP.
    rewrite WL, items_app. destruct (wrun_app w (items (map snd (hl s (S w)))) (items (q s w)) (u0 (S w))) as (zs & EZ).
    rewrite EZ, <- SA, <- RT. unfold on at 1. rewrite filter_app, map_app, items_app. fold (on (n + w) (hp s (S w))) (on (n + w) rest).
    rewrite (on_all (n + w) (hp s (S w))) by (intros cm Hc; apply (pushed_chan s (S w)) in Hc; auto; apply in_outs_w in Hc; auto).
    rewrite <- FP, items_app, <- !app_assoc. eauto.
  Qed.

  (** ** Finiteness *)
  Lemma hp_on : forall c (P : list (nat * msg X)), length (on c P) <= length P.
  Proof. intros c P. unfold on. rewrite map_length. induction P as [|a P IH]; simpl; [lia|]. destruct (fst a =? c); simpl; lia. Qed.

  Lemma mw_finite_lem : forall B, (forall log, length (concat (first ++ replies N 0 (u0 0) log)) <= B) ->
    forall f : nat -> act, exists k, exec (step N) (init_st N) (map f (seq 0 k)) = None.
  Proof.
    intros B HB. apply (bounded_finite N mw_wf (B + n)). intros l s [|w] E Hv.
    - unfold requests. cbn [boot mw_net start]. specialize (HB (hl s 0)). lia.
    - simpl in Hv. pose proof (reach N _ _ E) as I.
      unfold requests. cbn [boot mw_net start app]. rewrite worker_requests, concat_singles, wrun_length.
      pose proof (items_le (map snd (hl s (S w)))) as H1. pose proof (worker_log s w I ltac:(lia)) as WL.
      rewrite (i_push _ _ I w (mkChan 0 (S w) cp)) in WL by (apply mw_chan; left; split; [lia|auto]). cbn [src] in WL.
      apply (f_equal (@length _)) in WL. rewrite app_length in WL. pose proof (hp_on w (hp s 0)) as H2.
      pose proof (pushes_le N mw_wf s 0 I ltac:(simpl; lia)) as H3. unfold requests in H3. cbn [boot mw_net start] in H3.
      rewrite mw_outs0, seq_length in H3. specialize (HB (hl s 0)). lia.
  Qed.

  (** ** Completion *)
  Lemma sane_length : forall G, sane G -> length (sent G) = length (concat G).
  Proof.
    induction G as [|g G IH]; intros H; [reflexivity|]. cbn [sent flat_map concat]. rewrite !app_length. fold (sent G).
    rewrite IH by (intros g' r H1 H2; apply (H g' r); auto; right; auto). f_equal.
    specialize (H g). assert (Hg : forall r, In r g -> match r with To j (Item _) => j < n | To _ Eos => False | Any _ => True end)
      by (intros r Hr; apply H; auto; left; auto).
    clear - Hg. induction g as [|r g IH]; [reflexivity|]. cbn [flat_map length]. rewrite app_length, IH by (intros; apply Hg; right; auto).
    specialize (Hg r (or_introl eq_refl)). destruct r as [j [x|]|x]; simpl; auto. tauto.
  Qed.
  Lemma sane_replies : forall log u, sane (replies N 0 u log).
  Proof.
    induction log as [|[c [x|]] log IH]; intros u g r Hg Hr; simpl in Hg.
    - tauto.
    - pose proof (SE u c x) as HS. destruct (emit u c x) as [[u' o] b]. apply in_app_or in Hg as [Hg|Hg]; [apply (HS g r Hg Hr)|].
      eapply IH; eauto.
    - eapply IH; eauto.
  Qed.

  Lemma mw_complete_lem :
    (forall log, (forall cm, In cm log -> snd cm <> Eos) ->
       length (sent (first ++ replies N 0 (u0 0) log)) <= length log -> quits N 0 (u0 0) log = true) ->
    forall l s, exec (step N) (init_st N) l = Some s -> stuck N s -> all_done N s.
  Proof.
    intros AT l s E SK. pose proof (reach N _ _ E) as I.
    pose proof (stuck_nodes N mw_wf mw_bounded s I SK) as SN.
    destruct (SN 0) as [D0|(P0 & E0 & Q0)]; [simpl; lia| |exfalso].
    - intros [|w] Hv; [auto|]. simpl in Hv.
      destruct (SN (S w)) as [D|(PV & EP & EQ)]; [simpl; lia|auto|exfalso].
      destruct (i_run _ _ I (S w) PV) as (c & Hc & Ne). pose proof (EQ c Hc Ne) as QC. apply in_ins_w in Hc; [|lia]. subst c.
      assert (K : chan_of N w = Some (mkChan 0 (S w) cp)) by (apply mw_chan; left; split; [lia|auto]).
      pose proof (done_eos N s w _ I K D0) as HE. rewrite (i_read _ _ I w _ K) in HE. cbn [dst] in HE. rewrite QC, app_nil_r in HE.
      apply in_on in HE. apply (i_ended _ _ I) in HE. auto.
    - assert (CH : forall w, w < n -> length (on (n + w) (hl s 0)) = length (on w (hp s 0)) /\ ~ In Eos (on (n + w) (hl s 0))).
      { intros w Hw.
        assert (K : chan_of N w = Some (mkChan 0 (S w) cp)) by (apply mw_chan; left; auto).
        assert (KF : chan_of N (n + w) = Some (mkChan (S w) 0 None)) by (apply mw_chan; right; eauto).
        pose proof (running_no_eos N mw_wf s w _ I K P0) as NE0.
        assert (NW : ~ In w (ended (nd s (S w)))).
        { intros C. apply (i_ended _ _ I) in C. apply NE0. rewrite (i_read _ _ I w _ K). apply in_or_app. left. apply in_on. auto. }
        destruct (SN (S w)) as [D|(PV & EP & EQ)]; [simpl; lia| |].
        { exfalso. apply NW. apply (i_cls _ _ I (S w)); [congruence|apply wk_patient|]. apply in_ins_w; auto. }
        pose proof (EQ w (proj2 (in_ins_w w w Hw) eq_refl) NW) as QW.
        pose proof (running_no_eos N mw_wf s (n + w) _ I KF PV) as NEF.
        assert (NF : ~ In (n + w) (ended (nd s 0))).
        { intros C. apply (i_ended _ _ I) in C. apply NEF. rewrite (i_read _ _ I (n + w) _ KF). apply in_or_app. left. apply in_on. auto. }
        pose proof (Q0 (n + w) (proj2 (in_ins0 (n + w)) (ex_intro _ w (conj Hw eq_refl))) NF) as QF.
        pose proof (worker_log s w I Hw) as WL. rewrite QW, app_nil_r in WL.
        pose proof (fb_pushed s w I Hw) as FP.
        pose proof (i_read _ _ I (n + w) _ KF) as RF. cbn [dst] in RF. rewrite QF, app_nil_r in RF.
        split; [|rewrite <- RF; auto]. rewrite <- RF, FP, map_length.
        pose proof (i_push _ _ I w _ K) as PW. cbn [src] in PW. rewrite <- PW, WL, map_length.
        pose proof (i_prog _ _ I (S w)) as PR. rewrite EP in PR. simpl in PR. apply realizes_length in PR. rewrite PR.
        unfold asked. rewrite PV, app_nil_r. cbn [boot mw_net start app]. rewrite worker_requests, concat_singles, wrun_length.
        rewrite items_all; [apply map_length|]. rewrite <- WL. auto. }
      assert (LH : length (hl s 0) = length (hp s 0)).
      { rewrite (length_channels (map (fun w => n + w) (seq 0 n)) (hl s 0)).
        - rewrite (length_channels (seq 0 n) (hp s 0)).
          + rewrite map_map. f_equal. apply map_ext_in. intros w Hw. apply in_seq in Hw. apply CH. lia.
          + apply seq_NoDup.
          + intros cm Hc. apply pushed_chan in Hc; auto. rewrite mw_outs0 in Hc. auto.
        - apply FinFun.Injective_map_NoDup; [intros a b; lia|apply seq_NoDup].
        - intros [c m] Hc. apply (i_ins _ _ I) in Hc. apply in_ins0 in Hc as (w & Hw & ->). simpl. apply in_map. apply in_seq. lia. }
      pose proof (i_prog _ _ I 0) as PR. rewrite E0 in PR. simpl in PR. apply realizes_length in PR.
      unfold asked in PR. rewrite P0, app_nil_r in PR. cbn [boot mw_net start] in PR.
      assert (Q : quits N 0 (u0 0) (hl s 0) = true).
      { apply AT.
        - intros [c m] Hc. simpl. intros ->. pose proof (i_ins _ _ I _ _ _ Hc) as HI. apply in_ins0 in HI as (w & Hw & ->).
          apply (CH w Hw). apply in_on. auto.
        - rewrite sane_length, <- PR; [lia|]. intros g r Hg Hr. apply in_app_or in Hg as [Hg|Hg]; [apply (SB g r Hg Hr)|].
          apply (sane_replies _ _ g r Hg Hr). }
      pose proof (running_quits N l s E 0 P0) as QF. cbn [start mw_net] in QF. congruence.
  Qed.
End Mw.
