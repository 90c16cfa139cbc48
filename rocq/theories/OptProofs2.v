(** Refinement of skeletons, and the single rewritings of the optimiser. *)
From Coq Require Import List Arith Bool Lia.
From Verif Require Import Base OptModel OptSpec OptProofs.
Import ListNotations.

Section Ref.
  Context {A : Type}.
  Implicit Types (s : skel A) (l : list (skel A)) (n : node A).

  Definition sref s' s : Prop := forall ins outs, run s' ins outs -> run s ins outs.
  Definition lsref l' l : Prop := forall ins outs, runs l' ins outs -> runs l ins outs.
  Definition wref s' s : Prop := forall ins outs' m, run s' ins outs' -> merge outs' m ->
    exists outs, run s ins outs /\ merge outs m.
  Definition lwref l' l : Prop := forall ins outs' m, runs l' ins outs' -> merge outs' m ->
    exists outs, runs l ins outs /\ merge outs m.

  Lemma sref_wref : forall s' s, sref s' s -> wref s' s.
  Proof. intros s' s H ins outs m R M; eauto. Qed.
  Lemma lsref_lwref : forall l' l, lsref l' l -> lwref l' l.
  Proof. intros s' s H ins outs m R M; eauto. Qed.
  Lemma lwref_trans : forall a b c, lwref a b -> lwref b c -> lwref a c.
  Proof. intros a b c H1 H2 ins outs m R M. destruct (H1 _ _ _ R M) as (o & R1 & M1). eauto. Qed.
  Lemma wref_trans : forall a b c, wref a b -> wref b c -> wref a c.
  Proof. intros a b c H1 H2 ins outs m R M. destruct (H1 _ _ _ R M) as (o & R1 & M1). eauto. Qed.

  Lemma runs_nil_inv : forall (ins outs : list (list (out A))), runs [] ins outs -> outs = ins.
  Proof. intros ins outs H; inversion H; auto. Qed.
  Lemma runs_cons_inv : forall s l ins outs, runs (s :: l) ins outs -> exists mid, run s ins mid /\ runs l mid outs.
  Proof. intros s l ins outs H; inversion H; eauto. Qed.
  Lemma runs_one : forall s ins outs, runs [s] ins outs <-> run s ins outs.
  Proof.
    intros; split; intros H.
    - apply runs_cons_inv in H. destruct H as (mid & H1 & H2). apply runs_nil_inv in H2. now subst.
    - econstructor; eauto. constructor.
  Qed.
  Lemma runs_app : forall l1 l2 ins outs, runs (l1 ++ l2) ins outs <-> exists mid, runs l1 ins mid /\ runs l2 mid outs.
  Proof.
    induction l1 as [|s l1 IH]; intros l2 ins outs; simpl; split.
    - intros H; exists ins; split; auto; constructor.
    - intros (mid & H1 & H2). apply runs_nil_inv in H1. now subst.
    - intros H. apply runs_cons_inv in H. destruct H as (m & H1 & H2). apply IH in H2.
      destruct H2 as (m2 & H2 & H3). exists m2; split; auto. econstructor; eauto.
    - intros (mid & H1 & H2). apply runs_cons_inv in H1. destruct H1 as (m & H1 & H3).
      econstructor; eauto. apply IH; eauto.
  Qed.
  Lemma pipe_inv : forall l ins outs, run (Pipe l) ins outs <-> runs l ins outs.
  Proof. intros; split; intros H; [inversion H; auto | now constructor]. Qed.

  Lemma flat_map_run : forall l, Forall (fun s => forall ins outs, runs (flat s) ins outs <-> run s ins outs) l ->
    forall ins outs, runs (flat_map flat l) ins outs <-> runs l ins outs.
  Proof.
    induction 1 as [|s l Hs _ IH]; intros ins outs; simpl; [tauto|].
    rewrite runs_app. split.
    - intros (mid & H1 & H2). econstructor; [apply Hs; eauto | apply IH; auto].
    - intros H. apply runs_cons_inv in H. destruct H as (mid & H1 & H2). exists mid.
      split; [apply Hs; auto | apply IH; auto].
  Qed.
  Lemma flat_run : forall s ins outs, runs (flat s) ins outs <-> run s ins outs.
  Proof.
    induction s using skel_ind'; intros ins outs; try (simpl; apply runs_one).
    simpl flat. rewrite pipe_inv. now apply flat_map_run.
  Qed.
  Lemma flats_run : forall l ins outs, runs (flat_map flat l) ins outs <-> runs l ins outs.
  Proof. intros. apply flat_map_run. apply Forall_forall. intros s _. apply flat_run. Qed.

  Lemma lsref_ctx : forall pre a b post, lsref a b -> lsref (pre ++ a ++ post) (pre ++ b ++ post).
  Proof.
    intros pre a b post H ins outs R. apply runs_app in R. destruct R as (m1 & R1 & R).
    apply runs_app in R. destruct R as (m2 & R2 & R3).
    apply runs_app. exists m1; split; auto. apply runs_app. exists m2; auto.
  Qed.
  Lemma lwref_end : forall pre a b, lwref a b -> lwref (pre ++ a) (pre ++ b).
  Proof.
    intros pre a b H ins outs m R M. apply runs_app in R. destruct R as (m1 & R1 & R).
    destruct (H _ _ _ R M) as (o & R2 & M2). exists o; split; auto. apply runs_app; eauto.
  Qed.

  (** ** Readers of one merged stream *)
  Definition reader s : bool := match s with Seq _ | Farm _ _ _ _ => true | _ => false end.
  Lemma reader_run : forall s ins outs, reader s = true ->
    (run s ins outs <-> exists m, merge ins m /\ run s [m] outs).
  Proof.
    intros s ins outs Hr; split.
    - destruct s as [n|l|[|] e ws c|a b]; try discriminate; intros H; inversion H; subst.
      + exists l; split; auto. constructor. now apply merge_single.
      + exists l; split; auto. econstructor; eauto. now apply merge_single.
      + exists l; split; auto. econstructor; eauto. now apply merge_single.
    - intros (m & Hm & H). destruct s as [n|l|[|] e ws c|a b]; try discriminate; inversion H; subst;
        match goal with M : merge [m] _ |- _ => apply merge_single in M; subst end; econstructor; eauto.
  Qed.
  Lemma reader_payload : forall s m m' outs, reader s = true -> payload m = payload m' ->
    run s [m] outs -> run s [m'] outs.
  Proof.
    intros s m m' outs Hr Hp H. destruct s as [n|l|[|] e ws c|a b]; try discriminate; inversion H; subst;
      match goal with M : merge [m] _ |- _ => apply merge_single in M; subst end.
    - rewrite Hp. constructor. now apply merge_single.
    - rewrite (emission_payload _ _ _ Hp) in *. econstructor; eauto. now apply merge_single.
    - rewrite (emission_payload _ _ _ Hp) in *. econstructor; eauto. now apply merge_single.
  Qed.

  (** ** Ends *)
  Definition lastb (P : skel A -> bool) : list (skel A) -> bool :=
    fix go l := match l with [] => false | x :: r => match r with [] => P x | _ => go r end end.
  Lemma undirected_pipe : forall l, undirected (Pipe l) = lastb undirected l.
  Proof. reflexivity. Qed.
  Lemma stable_pipe : forall l, stable_end (Pipe l) = lastb stable_end l.
  Proof. reflexivity. Qed.
  Lemma lastb_snoc : forall P l s, lastb P (l ++ [s]) = P s.
  Proof. induction l as [|x l IH]; intros s; simpl; auto. destruct l; simpl in *; auto. Qed.
  Lemma lastb_inv : forall P l, lastb P l = true -> exists pre s, l = pre ++ [s] /\ P s = true.
  Proof.
    intros P l H. destruct l as [|x l]; [discriminate|].
    destruct (exists_last (l := x :: l) ltac:(discriminate)) as (pre & s & E). rewrite E in *.
    rewrite lastb_snoc in H. eauto.
  Qed.
  Lemma lastb_app : forall P l1 l2, l2 <> [] -> lastb P (l1 ++ l2) = lastb P l2.
  Proof.
    intros P l1 l2 H. destruct (exists_last H) as (pre & s & ->). rewrite app_assoc, !lastb_snoc. auto.
  Qed.

  Lemma run_all_in : forall l is os, run_all l is os -> forall o, In o os -> exists s i, In s l /\ run s i o.
  Proof.
    induction 1; intros o' Ho; [destruct Ho|]. destruct Ho as [<-|Ho].
    - exists s, i; split; auto; now left.
    - destruct (IHrun_all _ Ho) as (s' & i' & Hs & Hr). exists s', i'; split; auto; now right.
  Qed.

  Lemma plain_none : forall (m : list (out A)) p, In p (plain m) -> fst p = None.
  Proof. unfold plain; intros m p H. apply in_map_iff in H. destruct H as (? & <- & _). auto. Qed.
  Lemma sends_none : forall n xs p, nmo n = false -> In p (sends n xs) -> fst p = None.
  Proof. unfold sends; intros n xs p -> H. eapply plain_none; eauto. Qed.

  Lemma undirected_out : forall s, undirected s = true -> forall ins outs, run s ins outs ->
    forall o, In o outs -> forall p, In p o -> fst p = None.
  Proof.
    assert (Hl : forall l, Forall (fun s => undirected s = true -> forall ins outs, run s ins outs ->
      forall o, In o outs -> forall p, In p o -> fst p = None) l -> forallb undirected l = true ->
      forall is oss, run_all l is oss -> forall o, In o (concat oss) -> forall p, In p o -> fst p = None).
    { intros l HF Hu is oss R o Ho p Hp. apply in_concat in Ho. destruct Ho as (os & Hos & Ho).
      destruct (run_all_in _ _ _ R _ Hos) as (s & i & Hs & Hr).
      rewrite Forall_forall in HF. rewrite forallb_forall in Hu. eapply HF; eauto. }
    induction s using skel_ind'; intros Hu ins outs R.
    - simpl in Hu. inversion R; subst. intros o [<-|[]] p Hp. eapply sends_none; [|eauto].
      now apply negb_true_iff.
    - rewrite undirected_pipe in Hu. apply lastb_inv in Hu. destruct Hu as (pre & s & -> & Hs).
      apply pipe_inv in R. apply runs_app in R. destruct R as (mid & _ & R). apply runs_one in R.
      apply Forall_app in H. destruct H as (_ & H). inversion H; subst. eauto.
    - inversion R; subst.
      + destruct c as [| |c]; simpl in Hu; unfold collected in *.
        * subst. eapply Hl; eauto.
        * match goal with C : exists _, _ |- _ => destruct C as (m & _ & ->) end.
          intros o [<-|[]] p Hp. eapply plain_none; eauto.
        * match goal with C : exists _, _ |- _ => destruct C as (m & _ & ->) end.
          intros o [<-|[]] p Hp. eapply sends_none; [|eauto]. now apply negb_true_iff.
      + destruct c as [| |c]; simpl in Hu; cbn [as_added] in *; unfold collected in *;
          match goal with C : exists _, _ |- _ => destruct C as (m & _ & ->) end;
          intros o [<-|[]] p Hp; try (eapply plain_none; eauto; fail).
        eapply sends_none; [|eauto]. now apply negb_true_iff.
    - simpl in Hu. inversion R; subst. eapply Hl; eauto.
  Qed.

  Lemma stable_out : forall s, stable_end s = true -> forall ins outs, run s ins outs -> exists o, outs = [o].
  Proof.
    induction s using skel_ind'; intros Hu ins outs R.
    - inversion R; eauto.
    - rewrite stable_pipe in Hu. apply lastb_inv in Hu. destruct Hu as (pre & s & -> & Hs).
      apply pipe_inv in R. apply runs_app in R. destruct R as (mid & _ & R). apply runs_one in R.
      apply Forall_app in H. destruct H as (_ & H). inversion H; subst. eauto.
    - inversion R; subst.
      + destruct c as [| |c]; simpl in Hu; try discriminate.
        match goal with C : collected _ _ _ |- _ => destruct C as (m & _ & ->) end. eauto.
      + destruct c as [| |c]; cbn [as_added collected] in *;
          match goal with C : exists _, _ |- _ => destruct C as (m & _ & ->) end; eauto.
    - discriminate.
  Qed.

  (** ** Merging two farms *)
  Lemma zip_comb_inv : forall (w1 w2 w : list (skel A)), zip_comb w1 w2 = Ok w ->
    exists n1 n2 : list (node A), w1 = map Seq n1 /\ w2 = map Seq n2 /\ length n1 = length n2 /\
      w = map Seq (map (fun p => comb (fst p) (snd p)) (combine n1 n2)).
  Proof.
    induction w1 as [|a w1 IH]; intros [|b w2] w H; simpl in H; try discriminate.
    - injection H as <-. exists [], []; auto.
    - destruct a as [a| | |]; try discriminate. destruct b as [b| | |]; try discriminate. simpl in H.
      destruct (zip_comb w1 w2) as [w'| | | |] eqn:E; try discriminate. injection H as <-.
      destruct (IH _ _ E) as (n1 & n2 & -> & -> & Hlen & ->).
      exists (a :: n1), (b :: n2). simpl; auto.
  Qed.

  Definition outs_of (ns : list (node A)) (parts : list (list (out A))) : list (list (out A)) :=
    map (fun p => sends (fst p) (payload (snd p))) (combine ns parts).
  Lemma run_all_seq : forall ns parts oss,
    run_all (map Seq ns) (map (fun p => [p]) parts) oss <->
    length ns = length parts /\ oss = map (fun o => [o]) (outs_of ns parts).
  Proof.
    induction ns as [|n ns IH]; intros [|p parts] oss; simpl; split.
    - intros H; inversion H; auto.
    - intros (_ & ->); constructor.
    - intros H; inversion H.
    - intros (H & _); discriminate.
    - intros H; inversion H.
    - intros (H & _); discriminate.
    - intros H; inversion H as [|? ? ? ? o os Hr Ha]; subst. apply IH in Ha. destruct Ha as (Hl & ->).
      split; [auto|]. inversion Hr as [? ? m Hm| | | |]; subst. apply merge_single in Hm. now subst.
    - intros (Hl & ->). constructor.
      + constructor. now apply merge_single.
      + apply IH. auto.
  Qed.
  Lemma concat_singles : forall T (l : list T), concat (map (fun o => [o]) l) = l.
  Proof. induction l; simpl; f_equal; auto. Qed.
  Lemma ports_seq : forall ns, map (@ports A) (map Seq ns) = repeat 1 (length ns).
  Proof. induction ns; simpl; f_equal; auto. Qed.

  Definition null_coll (c : coll A) : bool := match c with Coll _ => false | _ => true end.

  Lemma merge_two : forall e w1 w2 w c1 c2, zip_comb w1 w2 = Ok w -> null_coll c1 = true ->
    lsref [Farm false e w c2] [Farm false e w1 c1; Farm false None w2 c2].
  Proof.
    intros e w1 w2 w c1 c2 Hz Hc ins outs R. apply runs_one in R.
    destruct (zip_comb_inv _ _ _ Hz) as (n1 & n2 & -> & -> & Hlen & ->).
    inversion R as [| |? ? ? ? l parts oss ? Hm Hro Hra Hco| |]; subst. clear R.
    apply run_all_seq in Hra. destruct Hra as (Hl & ->). rewrite concat_singles in Hco.
    rewrite ports_seq in Hro. rewrite map_length, combine_length, Hlen, Nat.min_id in *.
    set (os1 := outs_of n1 parts).
    assert (H1 : run (Farm false e (map Seq n1) NoColl) ins os1).
    { apply run_farm with (l := l) (parts := parts) (oss := map (fun o => [o]) os1); auto.
      - rewrite ports_seq. now rewrite Hlen.
      - apply run_all_seq. split; auto; congruence.
      - simpl. now rewrite concat_singles. }
    assert (Hl1 : length os1 = length n2).
    { unfold os1, outs_of. rewrite map_length, combine_length. lia. }
    set (parts2 := map (map (fun p : out A => (Some 0, snd p))) (map plain os1)).
    assert (H2 : run (Farm false None (map Seq n2) c2) [concat os1] outs).
    { apply run_farm with (l := concat os1) (parts := parts2) (oss := map (fun o => [o]) (outs_of n2 parts2)).
      - now apply merge_single.
      - rewrite ports_seq. simpl emission.
        replace (plain (concat os1)) with (concat (map plain os1)) by (unfold plain; now rewrite concat_map).
        apply (route_back (length n2) (map plain os1) []).
        + simpl. now rewrite map_length.
        + intros x Hx p Hp. apply in_map_iff in Hx. destruct Hx as (y & <- & _). eapply plain_none; eauto.
      - apply run_all_seq. split; auto. unfold parts2. now rewrite !map_length.
      - rewrite concat_singles.
        replace (outs_of n2 parts2) with (outs_of (map (fun p => comb (fst p) (snd p)) (combine n1 n2)) parts); auto.
        unfold parts2, os1. clear -Hlen Hl. revert n2 parts Hlen Hl.
        induction n1 as [|a n1 IH]; intros [|b n2] [|p parts]; simpl; intros; try discriminate; auto.
        unfold outs_of in *. simpl. f_equal; [|apply IH; lia].
        rewrite sends_comb. f_equal. unfold payload, plain. rewrite !map_map. simpl. reflexivity. }
    destruct c1 as [| |c]; try discriminate.
    - econstructor; [exact H1|]. apply runs_one. apply reader_run; auto.
      exists (concat os1). split; auto. apply merge_concat_self.
    - econstructor.
      + inversion H1; subst. econstructor; eauto. simpl. eexists; split; [|reflexivity].
        match goal with C : collected NoColl _ _ |- _ => simpl in C; rewrite <- C end. apply merge_concat_self.
      + apply runs_one. eapply reader_payload; [reflexivity| |exact H2]. symmetry. apply payload_plain.
  Qed.

  (** ** Removing a collector *)
  Lemma farm_null_to_def : forall e (ws : list (skel A)) ins outs m, run (Farm false e ws NoColl) ins outs -> merge outs m ->
    run (Farm false e ws DefColl) ins [plain m].
  Proof.
    intros e ws ins outs m H M. inversion H; subst. simpl in *. subst.
    econstructor; eauto. simpl. eauto.
  Qed.
  Lemma rm_next : forall e (ws : list (skel A)) (t : skel A), reader t = true ->
    lsref [Farm false e ws NoColl; t] [Farm false e ws DefColl; t].
  Proof.
    intros e ws t Ht ins outs R. apply runs_cons_inv in R. destruct R as (mid & R1 & R2).
    apply runs_one in R2. apply reader_run in R2; auto. destruct R2 as (m & Hm & R2).
    econstructor; [eapply farm_null_to_def; eauto|]. apply runs_one.
    eapply reader_payload; [auto| |exact R2]. symmetry; apply payload_plain.
  Qed.
  Lemma to_mi_sends : forall n xs, nmo n = false -> sends (to_mi n) xs = sends n xs.
  Proof.
    intros n xs H. unfold sends. rewrite H. simpl. f_equal. f_equal.
    generalize (@nil A) as h. induction xs as [|x xs IH]; intros h; simpl; f_equal; auto.
  Qed.
  Lemma to_mi_sref : forall n, nmo n = false -> sref (Seq (to_mi n)) (Seq n).
  Proof.
    intros n H ins outs R. inversion R; subst. rewrite to_mi_sends by auto. now constructor.
  Qed.
  Lemma rm_next_mi : forall e ws n, nmo n = false ->
    lsref [Farm false e ws NoColl; Seq (to_mi n)] [Farm false e ws DefColl; Seq n].
  Proof.
    intros e ws n H ins outs R. apply rm_next; auto.
    apply runs_cons_inv in R. destruct R as (mid & R1 & R2). econstructor; eauto.
    apply runs_one. apply runs_one in R2. now apply to_mi_sref.
  Qed.
  Lemma rm_last : forall e ws, forallb undirected ws = true ->
    wref (Farm false e ws NoColl) (Farm false e ws DefColl).
  Proof.
    intros e ws Hu ins outs m R M. exists [plain m]. split; [eapply farm_null_to_def; eauto|].
    apply merge_single. symmetry. apply plain_id. intros p Hp.
    destruct (merge_in _ _ M _ Hp) as (o & Ho & Hpo).
    eapply (undirected_out (Farm false e ws NoColl)); eauto.
  Qed.

  (** ** The stage after an ordered farm becomes its collector *)
  Lemma of_next : forall e ws c n, null_coll c = true ->
    lsref [Farm true e ws (Coll n)] [Farm true e ws c; Seq n].
  Proof.
    intros e ws c n Hc ins outs R. apply runs_one in R. inversion R; subst. cbn [as_added collected] in *.
    match goal with C : exists _, _ |- _ => destruct C as (m & M & ->) end.
    econstructor.
    - eapply run_ofarm; eauto. destruct c; try discriminate; cbn [as_added collected]; eauto.
    - apply runs_one. rewrite <- (payload_plain m). constructor. now apply merge_single.
  Qed.

  (** ** Merging with the emitter *)
  Lemma em_run : forall o n ws c ins outs, nmo n = false ->
    run (Farm o (Some n) ws c) ins outs ->
    exists m, merge ins m /\ run (Farm o None ws c) [sends n (payload m)] outs.
  Proof.
    intros o n ws c ins outs Hn R.
    assert (E : forall m, plain (sends n (payload m)) = sends n (payload m)).
    { intros m. unfold sends. rewrite Hn. apply plain_plain. }
    inversion R; subst; exists l; split; auto.
    - apply run_farm with (l := sends n (payload l)) (parts := parts) (oss := oss); auto; [now apply merge_single|].
      unfold emission in *. rewrite E. auto.
    - apply run_ofarm with (l := sends n (payload l)) (ys := ys); auto; [now apply merge_single|].
      unfold emission in *. rewrite E. auto.
  Qed.
  Lemma em_seq : forall o n ws c, nmo n = false ->
    lsref [Farm o (Some n) ws c] [Seq n; Farm o None ws c].
  Proof.
    intros o n ws c Hn ins outs R. apply runs_one in R.
    destruct (em_run _ _ _ _ _ _ Hn R) as (m & Hm & R').
    econstructor; [constructor; eauto|]. now apply runs_one.
  Qed.
  Lemma em_coll : forall o1 e1 w1 o n ws c, nmo n = false ->
    lsref [Farm o1 e1 w1 (removed o1); Farm o (Some n) ws c] [Farm o1 e1 w1 (Coll n); Farm o None ws c].
  Proof.
    intros o1 e1 w1 o n ws c Hn ins outs R. apply runs_cons_inv in R. destruct R as (mid & R1 & R2).
    apply runs_one in R2. destruct (em_run _ _ _ _ _ _ Hn R2) as (m & Hm & R').
    econstructor; [|apply runs_one; exact R'].
    destruct o1; simpl in R1; inversion R1; subst; cbn [as_added collected] in *.
    - match goal with C : exists _, _ |- _ => destruct C as (m0 & M0 & ->) end.
      apply merge_single in Hm. subst. rewrite payload_plain.
      eapply run_ofarm; eauto. cbn [as_added collected]. eauto.
    - subst. eapply run_farm; eauto. simpl. eauto.
  Qed.

  (** ** The same, backwards *)
  Lemma rm_next_rev : forall e (ws : list (skel A)) (t : skel A), reader t = true ->
    lsref [Farm false e ws DefColl; t] [Farm false e ws NoColl; t].
  Proof.
    intros e ws t Ht ins outs R. apply runs_cons_inv in R. destruct R as (mid & R1 & R2). apply runs_one in R2.
    inversion R1; subst. cbn [collected] in *.
    match goal with C : exists _, _ |- _ => destruct C as (m & M & ->) end.
    econstructor; [econstructor; eauto; reflexivity|]. apply runs_one. apply reader_run; auto.
    exists m. split; auto. eapply reader_payload; [auto| |exact R2]. apply payload_plain.
  Qed.
  Lemma rm_next_mi_rev : forall e ws n, nmo n = false ->
    lsref [Farm false e ws DefColl; Seq n] [Farm false e ws NoColl; Seq (to_mi n)].
  Proof.
    intros e ws n H ins outs R. apply rm_next_rev in R; auto.
    apply runs_cons_inv in R. destruct R as (mid & R1 & R2). econstructor; eauto.
    apply runs_one. apply runs_one in R2. inversion R2; subst. rewrite <- to_mi_sends by auto. now constructor.
  Qed.
  Lemma rm_last_rev : forall e ws, forallb undirected ws = true ->
    wref (Farm false e ws DefColl) (Farm false e ws NoColl).
  Proof.
    intros e ws Hu ins outs m R M. inversion R; subst. cbn [collected] in *.
    match goal with C : exists _, _ |- _ => destruct C as (m0 & M0 & ->) end.
    assert (R' : run (Farm false e ws NoColl) ins (concat oss)) by (econstructor; eauto; reflexivity).
    exists (concat oss). split; auto. apply merge_single in M. subst m.
    rewrite plain_id; auto. intros p Hp. destruct (merge_in _ _ M0 _ Hp) as (o & Ho & Hpo).
    eapply (undirected_out (Farm false e ws NoColl)); eauto.
  Qed.
  Lemma of_next_rev : forall e ws c n, null_coll c = true ->
    lsref [Farm true e ws c; Seq n] [Farm true e ws (Coll n)].
  Proof.
    intros e ws c n Hc ins outs R. apply runs_cons_inv in R. destruct R as (mid & R1 & R2). apply runs_one in R2.
    apply runs_one. inversion R1; subst.
    assert (E : as_added c = DefColl) by (destruct c; try discriminate; auto). rewrite E in *. cbn [collected] in *.
    match goal with C : exists _, _ |- _ => destruct C as (m & M & ->) end.
    inversion R2; subst. match goal with M1 : merge [plain m] _ |- _ => apply merge_single in M1; subst end.
    rewrite payload_plain. eapply run_ofarm; eauto. cbn [as_added collected]. eauto.
  Qed.
  Lemma em_run_rev : forall o n ws c ins outs m, nmo n = false -> merge ins m ->
    run (Farm o None ws c) [sends n (payload m)] outs -> run (Farm o (Some n) ws c) ins outs.
  Proof.
    intros o n ws c ins outs m Hn Hm R.
    assert (E : plain (sends n (payload m)) = sends n (payload m)).
    { unfold sends. rewrite Hn. apply plain_plain. }
    inversion R; subst; match goal with M1 : merge [sends _ _] _ |- _ => apply merge_single in M1; subst end;
      unfold emission in *; rewrite E in *; econstructor; eauto.
  Qed.
  Lemma em_seq_rev : forall o n ws c, nmo n = false ->
    lsref [Seq n; Farm o None ws c] [Farm o (Some n) ws c].
  Proof.
    intros o n ws c Hn ins outs R. apply runs_cons_inv in R. destruct R as (mid & R1 & R2). apply runs_one in R2.
    apply runs_one. inversion R1; subst. eapply em_run_rev; eauto.
  Qed.
  Lemma em_coll_rev : forall o1 e1 w1 o n ws c, nmo n = false ->
    lsref [Farm o1 e1 w1 (Coll n); Farm o None ws c] [Farm o1 e1 w1 (removed o1); Farm o (Some n) ws c].
  Proof.
    intros o1 e1 w1 o n ws c Hn ins outs R. apply runs_cons_inv in R. destruct R as (mid & R1 & R2). apply runs_one in R2.
    inversion R1; subst; cbn [as_added collected] in *;
      match goal with C : exists _, _ |- _ => destruct C as (m & M & ->) end.
    - econstructor; [econstructor; eauto; reflexivity|]. apply runs_one. eapply em_run_rev; eauto.
    - econstructor; [eapply run_ofarm; eauto; cbn [removed as_added collected]; eauto|].
      apply runs_one. eapply em_run_rev; [auto| |]; [apply merge_single; reflexivity|]. now rewrite payload_plain.
  Qed.

  (** ** Congruence *)
  Lemma run_all_weak : forall l' l, Forall2 wref l' l -> forall is oss' m, run_all l' is oss' -> merge (concat oss') m ->
    exists oss, run_all l is oss /\ merge (concat oss) m.
  Proof.
    intros l' l HF is oss' m R M. apply merge_concat in M. destruct M as (ms & Hf & M).
    assert (exists oss, run_all l is oss /\ Forall2 merge oss ms) as (oss & R' & Hf').
    { clear M. revert is oss' ms R Hf. induction HF as [|s' s l' l Hs HF IH]; intros is oss' ms R Hf.
      - inversion R; subst. inversion Hf; subst. exists []. split; constructor.
      - inversion R as [|? ? i is0 o os Hr Ha]; subst. inversion Hf as [|? m0 ? ms0 Hm0 Hms0]; subst.
        destruct (IH _ _ _ Ha Hms0) as (oss & R1 & F1).
        destruct (Hs _ _ _ Hr Hm0) as (o1 & R2 & M2).
        exists (o1 :: oss). split; constructor; auto. }
    exists oss. split; auto. apply merge_concat. eauto.
  Qed.
  Lemma run_all_stable : forall l' l, Forall2 wref l' l -> forallb stable_end l' = true -> forallb stable_end l = true ->
    forall is oss, run_all l' is oss -> run_all l is oss.
  Proof.
    induction 1 as [|s' s l' l Hs HF IH]; intros Hst' Hst is oss R; [inversion R; subst; constructor|].
    simpl in Hst, Hst'. apply andb_true_iff in Hst, Hst'. destruct Hst as (E1 & E2), Hst' as (E1' & E2').
    inversion R as [|? ? i is0 o os Hr Ha]; subst. constructor; auto.
    destruct (stable_out _ E1' _ _ Hr) as (x & ->).
    destruct (Hs _ _ x Hr) as (o1 & R1 & M1); [now apply merge_single|].
    destruct (stable_out _ E1 _ _ R1) as (y & ->). apply merge_single in M1. now subst.
  Qed.

  Lemma farm_weak : forall o e ws' ws c, Forall2 wref ws' ws -> map (@ports A) ws' = map ports ws ->
    (forallb standard ws' = true -> ws' = ws) -> wref (Farm o e ws' c) (Farm o e ws c).
  Proof.
    intros o e ws' ws c HF Hp Hst ins outs m R M. inversion R; subst.
    - destruct c as [| |c]; simpl in *.
      + subst. destruct (run_all_weak _ _ HF _ _ _ H7 M) as (oss1 & R1 & M1).
        exists (concat oss1). split; auto. rewrite Hp in *. econstructor; eauto. reflexivity.
      + destruct H8 as (m0 & M0 & ->). destruct (run_all_weak _ _ HF _ _ _ H7 M0) as (oss1 & R1 & M1).
        exists [plain m0]. split; auto. rewrite Hp in *. econstructor; eauto. simpl; eauto.
      + destruct H8 as (m0 & M0 & ->). destruct (run_all_weak _ _ HF _ _ _ H7 M0) as (oss1 & R1 & M1).
        exists [sends c (payload m0)]. split; auto. rewrite Hp in *. econstructor; eauto. simpl; eauto.
    - exists outs. split; auto. assert (E : ws' = ws) by auto. rewrite E in R. exact R.
  Qed.
  Lemma farm_strong : forall o e ws' ws c, Forall2 wref ws' ws -> map (@ports A) ws' = map ports ws ->
    (forallb standard ws' = true -> ws' = ws) -> (o = false -> c = NoColl -> ws' = ws) ->
    sref (Farm o e ws' c) (Farm o e ws c).
  Proof.
    intros o e ws' ws c HF Hp Hst Hb ins outs R.
    destruct o.
    - inversion R; subst. assert (E : ws' = ws) by auto. rewrite E in R. exact R.
    - destruct c as [| |c].
      + rewrite (Hb eq_refl eq_refl) in R. exact R.
      + inversion R; subst. destruct H7 as (m0 & M0 & ->).
        destruct (run_all_weak _ _ HF _ _ _ H6 M0) as (oss1 & R1 & M1).
        rewrite Hp in *. econstructor; eauto. simpl; eauto.
      + inversion R; subst. destruct H7 as (m0 & M0 & ->).
        destruct (run_all_weak _ _ HF _ _ _ H6 M0) as (oss1 & R1 & M1).
        rewrite Hp in *. econstructor; eauto. simpl; eauto.
  Qed.
  Lemma a2a_weak : forall a a' b b', Forall2 wref a' a -> Forall2 wref b' b ->
    map (@ports A) a' = map ports a -> map (@ports A) b' = map ports b ->
    forallb stable_end a' = true -> forallb stable_end a = true ->
    wref (A2A a' b') (A2A a b).
  Proof.
    intros a a' b b' Ha Hb Pa Pb Hs' Hs ins outs m R M. inversion R as [| | | |? ? ? pss mid pss' oss H1 H2 H3 H4]; subst.
    destruct (run_all_weak _ _ Hb _ _ _ H4 M) as (oss1 & R1 & M1).
    exists (concat oss1). split; auto.
    rewrite Pa in *. rewrite Pb in *.
    rewrite (Forall2_len _ _ _ _ _ Ha) in H2. rewrite (Forall2_len _ _ _ _ _ Hb) in R1.
    econstructor; eauto. eapply run_all_stable; eauto.
  Qed.
  Lemma a2a_strong : forall a a' b, Forall2 wref a' a -> map (@ports A) a' = map ports a ->
    forallb stable_end a' = true -> forallb stable_end a = true -> sref (A2A a' b) (A2A a b).
  Proof.
    intros a a' b Ha Pa Hs' Hs ins outs R.
    inversion R as [| | | |? ? ? pss mid pss' oss H1 H2 H3 H4]; subst.
    rewrite Pa in *. rewrite (Forall2_len _ _ _ _ _ Ha) in H2.
    econstructor; eauto. eapply run_all_stable; eauto.
  Qed.

  (** How a worker may be replaced; [b]: without losing behaviours. *)
  Definition Q (b : bool) s s' : Prop :=
    wf s' = true /\ wref s' s /\ (b = true -> wref s s') /\ (undirected s = true -> undirected s' = true) /\
    (stable_end s = true -> stable_end s' = true) /\ ports s' = ports s /\
    (is_seq s || is_seq s' = true -> s' = s).
  Lemma wref_refl : forall s, wref s s.
  Proof. intros s. apply sref_wref. intros ? ? R; auto. Qed.
  Lemma Q_refl : forall b s, wf s = true -> Q b s s.
  Proof. intros b s H. repeat split; auto; intros; apply wref_refl. Qed.
  Lemma Q_trans : forall x a b c, Q x a b -> Q x b c -> Q x a c.
  Proof.
    intros x a b c (H1 & H2 & H2' & H3 & H4 & H5 & H6) (G1 & G2 & G2' & G3 & G4 & G5 & G6).
    repeat split; auto; [eapply wref_trans; eauto | intros; eapply wref_trans; eauto | congruence |].
    intros E. apply orb_true_iff in E. destruct E as [E|E].
    - assert (b = a) by (apply H6; rewrite E; auto). subst. apply G6. now rewrite E.
    - assert (c = b) by (apply G6; rewrite E; apply orb_true_r). subst. apply H6. rewrite E; apply orb_true_r.
  Qed.
  Section Lists.
  Variable x : bool.
  Lemma Q_ports : forall l l', Forall2 (Q x) l l' -> map (@ports A) l' = map ports l.
  Proof. induction 1; simpl; auto. f_equal; auto. apply H. Qed.
  Lemma Q_all : forall (P : skel A -> bool) l l', (forall s s', Q x s s' -> P s = true -> P s' = true) ->
    Forall2 (Q x) l l' -> forallb P l = true -> forallb P l' = true.
  Proof.
    intros P l l' H HF; induction HF; simpl; auto. intros E. apply andb_true_iff in E.
    rewrite (H _ _ H0) by tauto. now apply IHHF.
  Qed.
  Lemma Q_undirected : forall l l', Forall2 (Q x) l l' -> forallb undirected l = true -> forallb undirected l' = true.
  Proof. intros l l'. apply Q_all. intros s s' H. apply H. Qed.
  Lemma Q_stable : forall l l', Forall2 (Q x) l l' -> forallb stable_end l = true -> forallb stable_end l' = true.
  Proof. intros l l'. apply Q_all. intros s s' H. apply H. Qed.
  Lemma Q_wf : forall l l', Forall2 (Q x) l l' -> forallb wf l' = true.
  Proof. induction 1; simpl; auto. apply andb_true_iff; split; auto. apply H. Qed.
  Lemma Q_seqs : forall l l', Forall2 (Q x) l l' -> forallb is_seq l = true -> l' = l.
  Proof.
    induction 1; simpl; auto. intros E. apply andb_true_iff in E. destruct E as (E1 & E2).
    rewrite IHForall2 by auto. f_equal. apply H. now rewrite E1.
  Qed.
  Lemma Q_standard : forall l l', Forall2 (Q x) l l' -> forallb standard l' = true -> l' = l.
  Proof.
    induction 1; simpl; auto. intros E. apply andb_true_iff in E. destruct E as (E1 & E2).
    rewrite IHForall2 by auto. f_equal. apply H. destruct y; try discriminate. apply orb_true_r.
  Qed.
  Lemma Q_standard' : forall l l', Forall2 (Q x) l l' -> forallb standard l = true -> l = l'.
  Proof.
    induction 1; simpl; auto. intros E. apply andb_true_iff in E. destruct E as (E1 & E2).
    rewrite IHForall2 by auto. f_equal. symmetry. apply H. destruct x0; try discriminate. reflexivity.
  Qed.
  Lemma Q_fwd : forall l l', Forall2 (Q x) l l' -> Forall2 wref l' l.
  Proof. induction 1; constructor; auto. apply H. Qed.
  Lemma Q_bwd : forall l l', x = true -> Forall2 (Q x) l l' -> Forall2 wref l l'.
  Proof. induction 2; constructor; auto. now apply H0. Qed.
  End Lists.
End Ref.
