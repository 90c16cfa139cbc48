From Coq Require Import List Arith Bool Lia Wellfounded Relation_Operators Permutation.
From Verif Require Import Base PipeModel PipeSpec FarmModel FarmSpec PipeProofs.
Import ListNotations.

Section Proofs.
Context {A St : Type}.
Notation tok := (tok A). Notation node := (node A St). Notation wk := (wk A St). Notation fst_ := (fst_ A St).
Notation conf := (node * St * option nat * option nat)%type.

Definition isend (t : tok) : bool := match t with End _ => true | _ => false end.
Definition tasks (l : list tok) : list A := flat_map (fun t => match t with Task x => [x] | End _ => [] end) l.

Lemma tasks_app : forall l m, tasks (l ++ m) = tasks l ++ tasks m.
Proof. intros. apply flat_map_app. Qed.
Lemma tasks_map : forall l : list A, tasks (map Task l) = l.
Proof. unfold tasks. induction l; cbn; [auto|]. f_equal. auto. Qed.
Lemma noend_tasks : forall l, existsb isend l = false -> l = map Task (tasks l).
Proof. induction l as [|[x|k] l IH]; cbn; intros; try discriminate; auto. f_equal. apply IH. auto. Qed.
Lemma existsb_end_map : forall l : list A, existsb isend (map Task l) = false.
Proof. induction l; cbn; auto. Qed.

(** A prefix of a stream. *)
Lemma prefix_stream : forall (g r : list tok) l, g ++ r = stream l ->
  (existsb isend g = false /\ g = map Task (tasks g) /\ prefix (tasks g) l /\ r <> []) \/ (existsb isend g = true /\ g = stream l /\ r = []).
Proof.
  unfold stream. induction g as [|t g IH]; intros r l E; cbn [app] in E.
  - left. cbn. repeat split; auto. exists l; auto. subst r. destruct l; discriminate.
  - destruct l as [|x l]; cbn in E.
    + injection E as -> E. apply app_eq_nil in E as [-> ->]. right. auto.
    + injection E as -> E. destruct (IH _ _ E) as [(a & b & (c & H) & d)|(a & b & c)].
      * left. cbn. repeat split; auto. f_equal; auto. exists c. unfold tasks in *. cbn. rewrite H. reflexivity.
      * right. cbn. repeat split; auto. f_equal. auto.
Qed.

(** lupd and lists of parts. *)
Lemma map_lupd : forall X Y (f : X -> Y) l i v, map f (lupd l i v) = lupd (map f l) i (f v).
Proof. induction l; destruct i; cbn; intros; auto. f_equal; auto. Qed.
Lemma lupd_same : forall X (l : list X) i v, nth_error l i = Some v -> lupd l i v = l.
Proof. induction l; destruct i; cbn; intros; try discriminate; try congruence. f_equal; auto. Qed.
Lemma map_lupd_same : forall X Y (f : X -> Y) l i v v', nth_error l i = Some v -> f v' = f v -> map f (lupd l i v') = map f l.
Proof. intros. rewrite map_lupd, H0. apply lupd_same. rewrite nth_error_map, H. auto. Qed.

Lemma Forall2_lupd : forall X Y (R : X -> Y -> Prop) l m i y', Forall2 R l m ->
  (forall x y, nth_error l i = Some x -> nth_error m i = Some y -> R x y -> R x y') -> Forall2 R l (lupd m i y').
Proof.
  intros X Y R l m i y' F. revert i. induction F; intros i H1; destruct i; cbn; auto.
  - constructor; auto. apply (H1 x y); auto.
Qed.
Lemma Forall2_len : forall X Y (R : X -> Y -> Prop) l m, Forall2 R l m -> length l = length m.
Proof. intros X Y R l m F. induction F; cbn; auto. Qed.
Lemma Forall2_nth : forall X Y (R : X -> Y -> Prop) l m i y, Forall2 R l m -> nth_error m i = Some y ->
  exists x, nth_error l i = Some x /\ R x y.
Proof. intros X Y R l m i y F. revert i. induction F; intros i E; destruct i; cbn in *; try discriminate; eauto. injection E as <-. eauto. Qed.

(** The invariant of one worker. *)
Definition W (c : conf) (k : wk) : Prop :=
  let '(n, s0, ci, co) := c in
  nd (wc k) = n /\ cap (wc k) = ci /\ ocap k = co /\
  (forall up, got k ++ outq k ++ fut (wc k) up = sem n s0 (given k ++ up)) /\
  given k = map Task (tasks (given k)) ++ (if eosd k then [End EOS] else []) /\
  off k = existsb isend (got k).

Lemma W_put : forall c k t k', W c k -> eosd k = false -> put k t = Some k' ->
  forall e, (match t with Task _ => e = false | End m => m = EOS /\ e = true end) ->
  W c (mkWk (wc k') (ocap k') (outq k') e (off k') (given k') (got k')).
Proof.
  intros [[[n s0] ci] co] k t k' (a & b & c & d & e & f) E P e' He. unfold put in P. destruct (room (wc k)); [|discriminate].
  injection P as <-. cbn. repeat split; auto.
  - intros up. specialize (d (t :: up)). replace ((given k ++ [t]) ++ up) with (given k ++ t :: up) by (rewrite <- app_assoc; reflexivity). rewrite <- d. unfold fut. cbn. rewrite <- app_assoc. reflexivity.
  - rewrite e, E, app_nil_r, !tasks_app, tasks_map. destruct t as [x|m]; cbn.
    + subst e'. rewrite map_app, app_nil_r. reflexivity.
    + destruct He as [-> ->]. rewrite app_nil_r. reflexivity.
Qed.

Lemma W_wpop : forall c k k', W c k -> wpop k = Some k' -> W c k' /\ given k' = given k /\ got k' = got k.
Proof.
  intros [[[n s0] ci] co] k k' (a & b & c & d & e & f) P. unfold wpop in P. destruct (pop_cell (wc k)) eqn:EC; [|discriminate].
  injection P as <-. cbn. repeat split; auto.
  - unfold pop_cell in EC. destruct (fin (wc k)), (pend (wc k)), (inq (wc k)); try discriminate. destruct (body _ _ _) as [[? ?] ?]. injection EC as <-. auto.
  - unfold pop_cell in EC. destruct (fin (wc k)), (pend (wc k)), (inq (wc k)); try discriminate. destruct (body _ _ _) as [[? ?] ?]. injection EC as <-. auto.
  - intros up. rewrite (pop_cell_fut _ _ up EC). auto.
Qed.

Lemma W_wpush : forall c k k', W c k -> wpush k = Some k' -> W c k' /\ given k' = given k /\ got k' = got k.
Proof.
  intros [[[n s0] ci] co] k k' (a & b & c & d & e & f) P. unfold wpush in P. destruct (pend (wc k)) eqn:EC; [discriminate|].
  destruct (oroom k); [|discriminate]. injection P as <-. cbn. repeat split; auto.
  intros up. rewrite <- d. unfold fut. cbn. rewrite EC, <- !app_assoc. reflexivity.
Qed.

Lemma W_wcollect : forall c k k' o, W c k -> wcollect k = Some (k', o) ->
  W c k' /\ given k' = given k /\ exists t, got k' = got k ++ [t] /\ o = map Task (tasks [t]) /\ off k = false /\ eosd k' = eosd k.
Proof.
  intros [[[n s0] ci] co] k k' o (a & b & c & d & e & f) P. unfold wcollect in P. destruct (off k) eqn:EO; [discriminate|].
  destruct (outq k) as [|t q] eqn:EQ; [discriminate|]. injection P as <- <-. cbn. repeat split; auto.
  - intros up. rewrite <- d. rewrite <- !app_assoc. reflexivity.
  - rewrite existsb_app, <- f. cbn. destruct t; auto.
  - exists t. repeat split; auto. destruct t; auto.
Qed.

(** What a worker gave is a prefix of its function on what it received. *)
Lemma W_got : forall n s0 ci co k, ends_with_eos n -> W (n, s0, ci, co) k ->
  exists r, got k ++ r = stream (node_fun n s0 (tasks (given k))) /\
    (eosd k = true -> r = outq k ++ fut (wc k) []).
Proof.
  intros n s0 ci co k T (a & b & c & d & e & f).
  destruct (eosd k) eqn:EE.
  - exists (outq k ++ fut (wc k) []). split; auto. rewrite d, app_nil_r. rewrite e at 1.
    rewrite <- (sem_emits n (tasks (given k)) s0 [] T), app_nil_r. reflexivity.
  - exists (outq k ++ fut (wc k) [End EOS]). split; [|discriminate]. rewrite d. rewrite e at 1.
    rewrite <- (sem_emits n (tasks (given k)) s0 [] T), app_nil_r, app_nil_r. reflexivity.
Qed.

(** The invariant of the farm. *)
Record Inv (wn : list conf) (input : list A) (s : fst_) : Prop := mkInv {
  I_w : Forall2 W wn (ws s);
  I_in : exists consumed, input = consumed ++ fsrc s /\ interleaving (map (fun k => tasks (given k)) (ws s)) consumed;
  I_out : interleaving (map (fun k => tasks (got k)) (ws s)) (tasks (fout s));
  I_eosd : Forall (fun k => eosd k = true -> fsrc s = []) (ws s);
  I_fout : fout s = map Task (tasks (fout s)) ++ (if cdone s then [End EOS] else []);
  I_done : cdone s = true -> forallb off (ws s) = true }.

Lemma forallb_lupd_same : forall X (f : X -> bool) l i v v', nth_error l i = Some v -> f v' = f v -> forallb f (lupd l i v') = forallb f l.
Proof. induction l; destruct i; cbn; intros; try discriminate; auto. injection H as ->. congruence. f_equal. eauto. Qed.
Lemma Forall_lupd : forall X (P : X -> Prop) l i v, Forall P l -> P v -> Forall P (lupd l i v).
Proof. intros X P l i v F. revert i. induction F; destruct i; cbn; intros; auto. Qed.
Lemma Forall_nth_error : forall X (P : X -> Prop) l i v, Forall P l -> nth_error l i = Some v -> P v.
Proof. intros X P l i v F E. rewrite Forall_forall in F. apply F. eapply nth_error_In; eauto. Qed.

Lemma off_put : forall (k : wk) t k', put k t = Some k' ->
  off k' = off k /\ got k' = got k /\ given k' = given k ++ [t] /\ eosd k' = eosd k /\ outq k' = outq k /\ ocap k' = ocap k.
Proof. intros k t k' E. unfold put in E. destruct (room (wc k)); [|discriminate]. injection E as <-. cbn. auto 10. Qed.
Lemma mk_eta : forall k : wk, mkWk (wc k) (ocap k) (outq k) (eosd k) (off k) (given k) (got k) = k.
Proof. destruct k; reflexivity. Qed.
Lemma wpop_same : forall (k k' : wk), wpop k = Some k' -> off k' = off k /\ eosd k' = eosd k /\ outq k' = outq k.
Proof. intros k k' E. unfold wpop in E. destruct (pop_cell (wc k)); [|discriminate]. injection E as <-. auto. Qed.
Lemma wpush_same : forall (k k' : wk), wpush k = Some k' -> off k' = off k /\ eosd k' = eosd k.
Proof. intros k k' E. unfold wpush in E. destruct (pend (wc k)); [discriminate|]. destruct (oroom k); [|discriminate]. injection E as <-. auto. Qed.

Lemma step_inv : forall wn input s a s', Inv wn input s -> fstep s a = Some s' -> Inv wn input s'.
Proof.
  intros wn input s a s' [H1 (cs & H2 & H3) H4 H5 H6 H7] E. destruct a; cbn [fstep] in E.
  - (* Send *)
    destruct (fsrc s) as [|x l] eqn:ES; [discriminate|]. destruct (nth_error (ws s) w) as [k|] eqn:EK; [|discriminate].
    destruct (put k (Task x)) as [k'|] eqn:EP; [|discriminate]. injection E as <-.
    destruct (off_put _ _ _ EP) as (o1 & o2 & o3 & o4 & o5 & o6).
    assert (Hno : Forall (fun k => eosd k = false) (ws s)).
    { eapply Forall_impl; [|exact H5]. intros k0 Hk. cbn beta in Hk. destruct (eosd k0); auto. discriminate (Hk eq_refl). }
    assert (Hk : eosd k = false) by (apply (Forall_nth_error _ _ _ _ _ Hno EK)).
    constructor; cbn [ws fsrc fout cdone]; auto.
    + apply Forall2_lupd; auto. intros c k0 E1 E2 HW. rewrite EK in E2. injection E2 as <-.
      pose proof (W_put c k _ k' HW Hk EP false eq_refl) as R. rewrite Hk in o4. rewrite <- o4 in R. rewrite mk_eta in R. exact R.
    + exists (cs ++ [x]). rewrite <- app_assoc. split; [exact H2|]. rewrite map_lupd, o3, tasks_app. cbn. apply il_snoc; auto.
      rewrite nth_error_map, EK. reflexivity.
    + rewrite (map_lupd_same _ _ _ _ _ k); auto. congruence.
    + apply Forall_lupd. * eapply Forall_impl; [|exact Hno]. intros; cbn in *; congruence. * congruence.
    + intros D. rewrite (forallb_lupd_same _ _ _ _ k); auto.
  - (* SendEos *)
    destruct (fsrc s) as [|x l] eqn:ES; [|discriminate]. destruct (nth_error (ws s) w) as [k|] eqn:EK; [|discriminate].
    destruct (eosd k) eqn:Hk; [discriminate|]. destruct (put k (End EOS)) as [k'|] eqn:EP; [|discriminate]. injection E as <-.
    destruct (off_put _ _ _ EP) as (o1 & o2 & o3 & o4 & o5 & o6).
    constructor; cbn [ws fsrc fout cdone]; auto.
    + apply Forall2_lupd; auto. intros c k0 E1 E2 HW. rewrite EK in E2. injection E2 as <-. eapply W_put; eauto. cbn; auto.
    + exists cs. split; auto. rewrite (map_lupd_same _ _ _ _ _ k); auto. cbn. rewrite o3, tasks_app. cbn. apply app_nil_r.
    + rewrite (map_lupd_same _ _ _ _ _ k); auto. cbn [got]. rewrite o2. auto.
    + apply Forall_lupd; auto.
    + intros D. rewrite (forallb_lupd_same _ _ _ _ k); auto.
  - (* WPop *)
    destruct (nth_error (ws s) w) as [k|] eqn:EK; [|discriminate]. destruct (wpop k) as [k'|] eqn:EP; [|discriminate]. injection E as <-.
    destruct (Forall2_nth _ _ _ _ _ _ _ H1 EK) as (c & Ec & HW). destruct (W_wpop c k k' HW EP) as (R & g1 & g2). destruct (wpop_same _ _ EP) as (o1 & o2 & o3).
    constructor; cbn [ws fsrc fout cdone]; auto.
    + apply Forall2_lupd; auto. intros c0 k0 E1 E2 _. congruence.
    + exists cs. split; auto. rewrite (map_lupd_same _ _ _ _ _ k); auto. congruence.
    + rewrite (map_lupd_same _ _ _ _ _ k); auto. congruence.
    + apply Forall_lupd; auto. rewrite o2. apply (Forall_nth_error _ _ _ _ _ H5 EK).
    + intros D. rewrite (forallb_lupd_same _ _ _ _ k); auto.
  - (* WPush *)
    destruct (nth_error (ws s) w) as [k|] eqn:EK; [|discriminate]. destruct (wpush k) as [k'|] eqn:EP; [|discriminate]. injection E as <-.
    destruct (Forall2_nth _ _ _ _ _ _ _ H1 EK) as (c & Ec & HW). destruct (W_wpush c k k' HW EP) as (R & g1 & g2). destruct (wpush_same _ _ EP) as (o1 & o2).
    constructor; cbn [ws fsrc fout cdone]; auto.
    + apply Forall2_lupd; auto. intros c0 k0 E1 E2 _. congruence.
    + exists cs. split; auto. rewrite (map_lupd_same _ _ _ _ _ k); auto. congruence.
    + rewrite (map_lupd_same _ _ _ _ _ k); auto. congruence.
    + apply Forall_lupd; auto. rewrite o2. apply (Forall_nth_error _ _ _ _ _ H5 EK).
    + intros D. rewrite (forallb_lupd_same _ _ _ _ k); auto.
  - (* Collect *)
    destruct (nth_error (ws s) w) as [k|] eqn:EK; [|discriminate]. destruct (wcollect k) as [[k' o]|] eqn:EP; [|discriminate]. injection E as <-.
    destruct (Forall2_nth _ _ _ _ _ _ _ H1 EK) as (c & Ec & HW). destruct (W_wcollect c k k' o HW EP) as (R & g1 & t & g2 & g3 & g4 & g5).
    assert (Hcd : cdone s = false).
    { destruct (cdone s); auto. specialize (H7 eq_refl). rewrite forallb_forall in H7. rewrite (H7 k (nth_error_In _ _ EK)) in g4. discriminate. }
    constructor; cbn [ws fsrc fout cdone]; auto.
    + apply Forall2_lupd; auto. intros c0 k0 E1 E2 _. congruence.
    + exists cs. split; auto. rewrite (map_lupd_same _ _ _ _ _ k); auto. congruence.
    + rewrite map_lupd, g2, g3, !tasks_app, tasks_map. destruct t as [x|m]; cbn.
      * apply il_snoc; auto. rewrite nth_error_map, EK. auto.
      * rewrite !app_nil_r. rewrite lupd_same; auto. rewrite nth_error_map, EK. auto.
    + apply Forall_lupd; auto. rewrite g5. apply (Forall_nth_error _ _ _ _ _ H5 EK).
    + rewrite Hcd in *. rewrite app_nil_r in *. rewrite g3, tasks_app, map_app, tasks_map. congruence.
    + congruence.
  - (* Finish *)
    destruct (cdone s) eqn:ED; [discriminate|]. destruct (forallb off (ws s)) eqn:EF; [|discriminate]. injection E as <-.
    constructor; cbn [ws fsrc fout cdone]; auto.
    + exists cs. auto.
    + rewrite tasks_app. cbn. rewrite app_nil_r. exact H4.
    + rewrite tasks_app. cbn. rewrite app_nil_r in *. congruence.
Qed.

Lemma start_inv : forall (wn : list conf) (input : list A), Inv wn input (fstart wn input).
Proof.
  intros wn input. unfold fstart. constructor; cbn [ws fsrc fout cdone].
  - induction wn as [|[[[n s0] ci] co] wn IH]; cbn; constructor; auto. cbn. repeat split; auto.
  - exists []. split; auto. rewrite map_map. erewrite map_ext with (g := fun _ => []).
    + replace (map _ wn) with (repeat (@nil A) (length wn)); [constructor|]. induction wn; cbn; congruence.
    + intros [[[? ?] ?] ?]. reflexivity.
  - rewrite map_map. erewrite map_ext with (g := fun _ => []).
    + replace (map _ wn) with (repeat (@nil A) (length wn)); [constructor|]. induction wn; cbn; congruence.
    + intros [[[? ?] ?] ?]. reflexivity.
  - rewrite Forall_map. apply Forall_forall. intros [[[? ?] ?] ?] _ H. discriminate.
  - reflexivity.
  - discriminate.
Qed.

Lemma exec_Inv : forall wn input acts s, exec fstep (fstart wn input) acts = Some s -> Inv wn input s.
Proof. intros wn input acts s E. refine (exec_inv fstep (Inv wn input) _ _ _ _ (start_inv wn input) E). intros; eapply step_inv; eauto. Qed.

(** Safety. *)
Lemma all_off_results : forall wn wl, Forall (fun '(n, _, _, _) => ends_with_eos n) wn -> Forall2 W wn wl ->
  Forall2 prefix (map (fun k => tasks (got k)) wl) (results wn (map (fun k => tasks (given k)) wl)) /\
  (forallb off wl = true -> map (fun k => tasks (got k)) wl = results wn (map (fun k => tasks (given k)) wl) ).
Proof.
  intros wn wl F H. revert F. induction H as [|[[[n s0] ci] co] k wn wl HW H IH]; intros F; cbn.
  - split; [constructor|auto].
  - inversion F as [|a b c d]; subst. destruct (IH d) as (IH1 & IH2).
    destruct (W_got n s0 ci co k c HW) as (r & Er & _).
    assert (Hp : prefix (tasks (got k)) (node_fun n s0 (tasks (given k))) /\ (off k = true -> tasks (got k) = node_fun n s0 (tasks (given k)))).
    { destruct HW as (_ & _ & _ & _ & _ & Ho). destruct (prefix_stream _ _ _ Er) as [(a1 & a2 & a3 & a4)|(a1 & a2 & a3)].
      - split; auto. congruence.
      - rewrite a2. unfold stream. rewrite tasks_app, tasks_map. cbn. rewrite app_nil_r. split; auto. exists []. rewrite app_nil_r. auto. }
    destruct Hp as (p1 & p2). split.
    + constructor; auto.
    + intros Hf. apply andb_true_iff in Hf as (f1 & f2). unfold results in IH2. rewrite (IH2 f2). f_equal. auto.
Qed.

Lemma main_safe : forall (wn : list conf) (input : list A) acts s,
  Forall (fun '(n, _, _, _) => ends_with_eos n) wn -> exec fstep (fstart wn input) acts = Some s ->
  exists consumed parts got outs, prefix consumed input /\ interleaving parts consumed /\ length parts = length wn /\
    interleaving got outs /\ Forall2 prefix got (results wn parts) /\
    (fout s = map Task outs \/ (fout s = stream outs /\ got = results wn parts)).
Proof.
  intros wn input acts s F E. destruct (exec_Inv _ _ _ _ E) as [H1 (cs & H2 & H3) H4 H5 H6 H7].
  destruct (all_off_results _ _ F H1) as (R1 & R2).
  exists cs, (map (fun k => tasks (given k)) (ws s)), (map (fun k => tasks (got k)) (ws s)), (tasks (fout s)).
  split; [exists (fsrc s); auto|]. split; auto. split; [rewrite map_length; symmetry; eapply Forall2_len; eauto|].
  split; auto. split; auto. destruct (cdone s).
  - right. split; auto.
  - left. rewrite app_nil_r in H6. auto.
Qed.

(** Termination. *)
Definition sum (f : wk -> nat) (l : list wk) : nat := fold_right (fun k n => f k + n) 0 l.
Lemma sum_lupd : forall f l i k k', nth_error l i = Some k -> sum f (lupd l i k') + f k = sum f l + f k'.
Proof.
  intros f l. induction l as [|a l IH]; intros i k k' H; destruct i; try discriminate; cbn in H.
  - injection H as ->. unfold sum. cbn. lia.
  - specialize (IH _ _ k' H). unfold sum in *. cbn. lia.
Qed.
Definition b2n (b : bool) : nat := if b then 0 else 1.
Definition meas (s : fst_) : nat * (nat * (nat * nat)) :=
  (length (fsrc s) + sum (fun k => b2n (eosd k)) (ws s),
   (sum (fun k => length (inq (wc k))) (ws s),
    (sum (fun k => length (pend (wc k))) (ws s), sum (fun k => length (outq k)) (ws s) + b2n (cdone s)))).
Definition lex4 := slexprod nat (nat * (nat * nat)) lt (slexprod nat (nat * nat) lt (slexprod nat nat lt lt)).
Lemma lex4_wf : well_founded lex4.
Proof. repeat apply wf_slexprod; apply lt_wf. Qed.

Lemma step_meas : forall s a s', fstep s a = Some s' -> lex4 (meas s') (meas s).
Proof.
  intros s a s' E. destruct a; cbn [fstep] in E.
  - destruct (fsrc s) as [|x l] eqn:ES; [discriminate|]. destruct (nth_error (ws s) w) as [k|] eqn:EK; [|discriminate].
    destruct (put k (Task x)) as [k'|] eqn:EP; [|discriminate]. injection E as <-. apply left_slex. cbn [fsrc ws]. rewrite ES. cbn [length].
    destruct (off_put _ _ _ EP) as (_ & _ & _ & o4 & _). pose proof (sum_lupd (fun k => b2n (eosd k)) _ _ _ k' EK) as Q. cbn in Q. rewrite o4 in Q. lia.
  - destruct (fsrc s) as [|x l] eqn:ES; [|discriminate]. destruct (nth_error (ws s) w) as [k|] eqn:EK; [|discriminate].
    destruct (eosd k) eqn:Hk; [discriminate|]. destruct (put k (End EOS)) as [k'|] eqn:EP; [|discriminate]. injection E as <-. apply left_slex. cbn [fsrc ws]. rewrite ES. cbn [length].
    match goal with |- context [lupd (ws s) w ?v] => pose proof (sum_lupd (fun k => b2n (eosd k)) _ _ _ v EK) as Q end. cbn in Q. rewrite Hk in Q. cbn in Q. lia.
  - destruct (nth_error (ws s) w) as [k|] eqn:EK; [|discriminate]. destruct (wpop k) as [k'|] eqn:EP; [|discriminate]. injection E as <-.
    destruct (wpop_same _ _ EP) as (o1 & o2 & o3). unfold meas. cbn [fsrc ws cdone].
    pose proof (sum_lupd (fun k => b2n (eosd k)) _ _ _ k' EK) as Q. cbn in Q. rewrite o2 in Q.
    assert (Q1 : sum (fun k => b2n (eosd k)) (lupd (ws s) w k') = sum (fun k => b2n (eosd k)) (ws s)) by lia. rewrite Q1. apply right_slex, left_slex.
    pose proof (sum_lupd (fun k => length (inq (wc k))) _ _ _ k' EK) as Q2. cbn in Q2.
    assert (length (inq (wc k')) < length (inq (wc k))); [|lia].
    unfold wpop in EP. destruct (pop_cell (wc k)) as [c'|] eqn:EC; [|discriminate]. injection EP as <-. cbn.
    unfold pop_cell in EC. destruct (fin (wc k)), (pend (wc k)), (inq (wc k)); try discriminate. destruct (body _ _ _) as [[? ?] ?]. injection EC as <-. cbn. lia.
  - destruct (nth_error (ws s) w) as [k|] eqn:EK; [|discriminate]. destruct (wpush k) as [k'|] eqn:EP; [|discriminate]. injection E as <-.
    destruct (wpush_same _ _ EP) as (o1 & o2). unfold meas. cbn [fsrc ws cdone].
    pose proof (sum_lupd (fun k => b2n (eosd k)) _ _ _ k' EK) as Q. cbn in Q. rewrite o2 in Q.
    assert (Q1 : sum (fun k => b2n (eosd k)) (lupd (ws s) w k') = sum (fun k => b2n (eosd k)) (ws s)) by lia. rewrite Q1. apply right_slex.
    pose proof (sum_lupd (fun k => length (inq (wc k))) _ _ _ k' EK) as Q2. cbn in Q2.
    pose proof (sum_lupd (fun k => length (pend (wc k))) _ _ _ k' EK) as Q3. cbn in Q3.
    unfold wpush in EP. destruct (pend (wc k)) as [|t p] eqn:EC; [discriminate|]. destruct (oroom k); [|discriminate]. injection EP as <-. cbn in *.
    assert (Q4 : sum (fun k => length (inq (wc k))) (lupd (ws s) w (mkWk (mkCell (nd (wc k)) (cap (wc k)) (cst (wc k)) (inq (wc k)) p (fin (wc k))) (ocap k) (outq k ++ [t]) (eosd k) (off k) (given k) (got k))) = sum (fun k => length (inq (wc k))) (ws s)) by lia.
    rewrite Q4. apply right_slex, left_slex. lia.
  - destruct (nth_error (ws s) w) as [k|] eqn:EK; [|discriminate]. destruct (wcollect k) as [[k' o]|] eqn:EP; [|discriminate]. injection E as <-.
    unfold wcollect in EP. destruct (off k); [discriminate|]. destruct (outq k) as [|t q] eqn:EQ; [discriminate|]. injection EP as <- <-.
    unfold meas. cbn [fsrc ws cdone].
    match goal with |- context [lupd (ws s) w ?v] => 
      pose proof (sum_lupd (fun k => b2n (eosd k)) _ _ _ v EK) as Q1; pose proof (sum_lupd (fun k => length (inq (wc k))) _ _ _ v EK) as Q2;
      pose proof (sum_lupd (fun k => length (pend (wc k))) _ _ _ v EK) as Q3; pose proof (sum_lupd (fun k => length (outq k)) _ _ _ v EK) as Q4; remember (lupd (ws s) w v) as l' end.
    cbn in Q1, Q2, Q3, Q4. rewrite EQ in Q4. cbn in Q4.
    replace (sum (fun k0 => b2n (eosd k0)) l') with (sum (fun k0 => b2n (eosd k0)) (ws s)) by lia.
    replace (sum (fun k0 => length (inq (wc k0))) l') with (sum (fun k0 => length (inq (wc k0))) (ws s)) by lia.
    replace (sum (fun k0 => length (pend (wc k0))) l') with (sum (fun k0 => length (pend (wc k0))) (ws s)) by lia.
    repeat apply right_slex. lia.
  - destruct (cdone s) eqn:ED; [discriminate|]. destruct (forallb off (ws s)) eqn:EF; [|discriminate]. injection E as <-.
    unfold meas. cbn [fsrc ws cdone]. rewrite ED. repeat apply right_slex. cbn. lia.
Qed.

Lemma no_infinite : forall f : nat -> fst_, ~ (forall i, exists a, fstep (f i) a = Some (f (S i))).
Proof.
  intros f H. assert (G : forall m i, meas (f i) = m -> False).
  { intros m. induction (lex4_wf m) as [m _ IH]. intros i Ei. destruct (H i) as (a & Ea). apply step_meas in Ea. rewrite Ei in Ea.
    exact (IH _ Ea (S i) eq_refl). }
  exact (G _ 0 eq_refl).
Qed.

(** Progress. *)
Definition capok (c : option nat) : Prop := match c with Some m => 1 <= m | None => True end.
Definition L (k : wk) : Prop :=
  total (nd (wc k)) /\ capok (cap (wc k)) /\ capok (ocap k) /\
  (fin (wc k) = true -> inq (wc k) = [] /\ eosd k = true) /\
  (fin (wc k) = false -> exists l : list A, inq (wc k) = map Task l ++ (if eosd k then [End EOS] else [])).

Lemma L_put : forall k t k' e, L k -> eosd k = false -> put k t = Some k' ->
  (match t with Task _ => e = false | End m => m = EOS /\ e = true end) ->
  L (mkWk (wc k') (ocap k') (outq k') e (off k') (given k') (got k')).
Proof.
  intros k t k' e (a & b & c & d & f) E P He. unfold put in P. destruct (room (wc k)); [|discriminate].
  injection P as <-. unfold L. cbn. rewrite E in *. repeat split; auto.
  - destruct (d H). congruence.
  - destruct (d H). congruence.
  - intros H. destruct (f H) as (l & ->). rewrite app_nil_r. destruct t as [x|m].
    + subst e. exists (l ++ [x]). rewrite map_app, app_nil_r. auto.
    + destruct He as [-> ->]. exists l. auto.
Qed.
Lemma L_wpop : forall k k', L k -> wpop k = Some k' -> L k'.
Proof.
  intros k k' (a & b & c & d & f) P. unfold wpop in P. destruct (pop_cell (wc k)) as [c'|] eqn:EC; [|discriminate]. injection P as <-.
  unfold pop_cell in EC. destruct (fin (wc k)) eqn:EF; [discriminate|]. destruct (pend (wc k)); [|discriminate].
  destruct (inq (wc k)) as [|t q] eqn:EQ; [discriminate|]. destruct (body (nd (wc k)) (cst (wc k)) t) as [[s' p] e] eqn:EB. injection EC as <-.
  destruct (f eq_refl) as (l & El). unfold L. cbn. destruct l as [|x l]; cbn in El.
  - destruct (eosd k) eqn:EE; [|discriminate]. injection El as -> ->. cbn in EB. injection EB as <- <- <-. repeat split; auto; discriminate.
  - injection El as -> ->. cbn in EB. specialize (a (cst (wc k)) x) as ax. destruct (svc (nd (wc k)) (cst (wc k)) x) as [[s1 sent] r]. cbn in ax.
    destruct r; try contradiction; injection EB as <- <- <-; repeat split; auto; try discriminate; intros; eauto.
Qed.
Lemma L_wpush : forall k k', L k -> wpush k = Some k' -> L k'.
Proof.
  intros k k' (a & b & c & d & f) P. unfold wpush in P. destruct (pend (wc k)); [discriminate|]. destruct (oroom k); [|discriminate]. injection P as <-.
  unfold L. cbn. auto.
Qed.
Lemma L_wcollect : forall k k' o, L k -> wcollect k = Some (k', o) -> L k'.
Proof.
  intros k k' o (a & b & c & d & f) P. unfold wcollect in P. destruct (off k); [discriminate|]. destruct (outq k); [discriminate|]. injection P as <- <-.
  unfold L. cbn. auto.
Qed.

Definition LInv (s : fst_) : Prop := Forall L (ws s) /\ Forall (fun k => eosd k = true -> fsrc s = []) (ws s).
Lemma step_linv : forall s a s', LInv s -> fstep s a = Some s' -> LInv s'.
Proof.
  intros s a s' (H & H5) E. destruct a; cbn [fstep] in E.
  - destruct (fsrc s) as [|x l] eqn:ES; [discriminate|]. destruct (nth_error (ws s) w) as [k|] eqn:EK; [|discriminate].
    destruct (put k (Task x)) as [k'|] eqn:EP; [|discriminate]. injection E as <-.
    assert (Hno : Forall (fun k => eosd k = false) (ws s)).
    { eapply Forall_impl; [|exact H5]. intros k0 Hk. cbn beta in Hk. destruct (eosd k0); auto. discriminate (Hk eq_refl). }
    assert (Hk : eosd k = false) by (apply (Forall_nth_error _ _ _ _ _ Hno EK)). destruct (off_put _ _ _ EP) as (o1 & o2 & o3 & o4 & o5 & o6).
    split; cbn [ws fsrc]; apply Forall_lupd; auto.
    + pose proof (L_put k _ k' false (Forall_nth_error _ _ _ _ _ H EK) Hk EP eq_refl) as R. rewrite Hk in o4. rewrite <- o4 in R. rewrite mk_eta in R. exact R.
    + eapply Forall_impl; [|exact Hno]. intros; cbn in *; congruence.
    + congruence.
  - destruct (fsrc s) as [|x l] eqn:ES; [|discriminate]. destruct (nth_error (ws s) w) as [k|] eqn:EK; [|discriminate].
    destruct (eosd k) eqn:Hk; [discriminate|]. destruct (put k (End EOS)) as [k'|] eqn:EP; [|discriminate]. injection E as <-.
    split; cbn [ws fsrc]; apply Forall_lupd; auto. eapply L_put; eauto. { apply (Forall_nth_error _ _ _ _ _ H EK). } cbn; auto.
  - destruct (nth_error (ws s) w) as [k|] eqn:EK; [|discriminate]. destruct (wpop k) as [k'|] eqn:EP; [|discriminate]. injection E as <-.
    destruct (wpop_same _ _ EP) as (o1 & o2 & o3). split; cbn [ws fsrc]; apply Forall_lupd; auto.
    + eapply L_wpop; eauto. apply (Forall_nth_error _ _ _ _ _ H EK).
    + rewrite o2. apply (Forall_nth_error _ _ _ _ _ H5 EK).
  - destruct (nth_error (ws s) w) as [k|] eqn:EK; [|discriminate]. destruct (wpush k) as [k'|] eqn:EP; [|discriminate]. injection E as <-.
    destruct (wpush_same _ _ EP) as (o1 & o2). split; cbn [ws fsrc]; apply Forall_lupd; auto.
    + eapply L_wpush; eauto. apply (Forall_nth_error _ _ _ _ _ H EK).
    + rewrite o2. apply (Forall_nth_error _ _ _ _ _ H5 EK).
  - destruct (nth_error (ws s) w) as [k|] eqn:EK; [|discriminate]. destruct (wcollect k) as [[k' o]|] eqn:EP; [|discriminate]. injection E as <-.
    split; cbn [ws fsrc]; apply Forall_lupd; auto.
    + eapply L_wcollect; eauto. apply (Forall_nth_error _ _ _ _ _ H EK).
    + unfold wcollect in EP. destruct (off k); [discriminate|]. destruct (outq k); [discriminate|]. injection EP as <- <-. cbn. apply (Forall_nth_error _ _ _ _ _ H5 EK).
  - destruct (cdone s) eqn:ED; [discriminate|]. destruct (forallb off (ws s)) eqn:EF; [|discriminate]. injection E as <-. split; auto.
Qed.

Definition fstuck (s : fst_) : Prop := forall a, fstep s a = None.

(** A worker none of whose steps is enabled has handled all it received. *)
Lemma stuck_worker : forall c k, ends_with_eos (fst (fst (fst c))) -> W c k -> L k -> wpop k = None -> wpush k = None -> wcollect k = None ->
  pend (wc k) = [] /\ inq (wc k) = [] /\ outq k = [] /\ (eosd k = true -> fin (wc k) = true).
Proof.
  intros [[[n s0] ci] co] k T HW (a & b & c & d & f) Hpop Hpush Hcol. cbn in T.
  destruct (W_got n s0 ci co k T HW) as (r & Er & Hr). destruct HW as (w1 & w2 & w3 & w4 & w5 & w6).
  assert (HQ : outq k = []).
  { unfold wcollect in Hcol. destruct (off k) eqn:EO; [|destruct (outq k); [auto|discriminate]].
    symmetry in w6. destruct (prefix_stream _ _ _ Er) as [(a1 & _)|(_ & a2 & a3)]; [congruence|].
    (* the mark has been gathered: nothing follows *)
    destruct (eosd k) eqn:EE.
    - rewrite Hr in a3 by auto. apply app_eq_nil in a3. tauto.
    - specialize (w4 [End EOS]). rewrite w5, app_nil_r in w4. rewrite <- (app_nil_r [End EOS]), (app_assoc _ [End EOS] []) in w4.
      change (map Task (tasks (given k)) ++ [End EOS]) with (stream (tasks (given k))) in w4. rewrite (sem_emits n _ s0 [] T) in w4.
      rewrite <- a2 in w4. rewrite <- (app_nil_r (got k)) in w4 at 2. apply app_inv_head in w4. apply app_eq_nil in w4. tauto. }
  assert (HP : pend (wc k) = []).
  { unfold wpush in Hpush. destruct (pend (wc k)); auto. unfold oroom in Hpush. rewrite HQ in Hpush. cbn [length] in Hpush.
    destruct (ocap k) as [m|]; [|discriminate]. cbn in c. destruct (Nat.ltb_spec 0 m); [discriminate|lia]. }
  unfold wpop, pop_cell in Hpop. rewrite HP in Hpop. destruct (fin (wc k)) eqn:EF.
  - destruct (d eq_refl). auto.
  - destruct (f eq_refl) as (l & El). destruct (inq (wc k)) as [|t q]; [|destruct (body _ _ _) as [[? ?] ?]; discriminate].
    repeat split; auto. intros EE. rewrite EE in El. destruct l; discriminate.
Qed.

Lemma main_complete : forall (wn : list conf) (input : list A) acts s, wn <> [] ->
  Forall (fun '(n, _, ci, co) => total n /\ capok ci /\ capok co) wn ->
  exec fstep (fstart wn input) acts = Some s -> (forall a, fstep s a = None) ->
  exists parts outs, interleaving parts input /\ length parts = length wn /\ interleaving (results wn parts) outs /\ fout s = stream outs /\
    Forall (fun k => fin (wc k) = true /\ inq (wc k) = [] /\ pend (wc k) = [] /\ outq k = []) (ws s).
Proof.
  intros wn input acts s Hne F E St0. pose proof (exec_Inv _ _ _ _ E) as HI.
  assert (T : Forall (fun '(n, _, _, _) => ends_with_eos n) wn).
  { eapply Forall_impl; [|exact F]. intros [[[n s0] ci] co] (H & _). apply total_eos. auto. }
  assert (HL : LInv s).
  { refine (exec_inv fstep LInv _ _ _ _ _ E); [intros; eapply step_linv; eauto|]. unfold fstart, LInv. cbn. rewrite !Forall_map. split.
    - eapply Forall_impl; [|exact F]. intros [[[n s0] ci] co] (a & b & c). unfold L. cbn. repeat split; auto; try discriminate. exists []. auto.
    - apply Forall_forall. intros [[[n s0] ci] co] _. discriminate. }
  destruct HL as (HL & _). destruct HI as [H1 (cs & H2 & H3) H4 H5 H6 H7].
  assert (HS : forall w k, nth_error (ws s) w = Some k ->
    pend (wc k) = [] /\ inq (wc k) = [] /\ outq k = [] /\ (eosd k = true -> fin (wc k) = true)).
  { intros w k EK. destruct (Forall2_nth _ _ _ _ _ _ _ H1 EK) as (c & Ec & HW). apply (stuck_worker c k); auto.
    - pose proof (Forall_nth_error _ _ _ _ _ T Ec) as Tc. destruct c as [[[n s0] ci] co]. exact Tc.
    - apply (Forall_nth_error _ _ _ _ _ HL EK).
    - specialize (St0 (WPop w)). cbn [fstep] in St0. rewrite EK in St0. destruct (wpop k); [discriminate|auto].
    - specialize (St0 (WPush w)). cbn [fstep] in St0. rewrite EK in St0. destruct (wpush k); [discriminate|auto].
    - specialize (St0 (Collect w)). cbn [fstep] in St0. rewrite EK in St0. destruct (wcollect k) as [[? ?]|]; [discriminate|auto]. }
  assert (HR : forall w k t, nth_error (ws s) w = Some k -> put k t <> None).
  { intros w k t EK. destruct (HS _ _ EK) as (_ & Hq & _ & _). pose proof (Forall_nth_error _ _ _ _ _ HL EK) as (_ & b & _).
    unfold put, room. rewrite Hq. cbn [length]. destruct (cap (wc k)) as [m|]; [|discriminate]. cbn in b. destruct (Nat.ltb_spec 0 m); [discriminate|lia]. }
  assert (Hsrc : fsrc s = []).
  { destruct (fsrc s) as [|x l] eqn:ES; auto. destruct (ws s) as [|k0 wl] eqn:EW.
    - inversion H1; subst; congruence.
    - specialize (St0 (Send 0)). cbn [fstep] in St0. rewrite ES, EW in St0. cbn in St0.
      destruct (put k0 (Task x)) eqn:EP; [discriminate|]. elim (HR 0 k0 (Task x) eq_refl EP). }
  assert (He : forall w k, nth_error (ws s) w = Some k -> eosd k = true).
  { intros w k EK. destruct (eosd k) eqn:EE; auto. specialize (St0 (SendEos w)). cbn [fstep] in St0. rewrite Hsrc, EK, EE in St0.
    destruct (put k (End EOS)) eqn:EP; [discriminate|]. elim (HR _ _ _ EK EP). }
  assert (Ho : forallb off (ws s) = true).
  { apply forallb_forall. intros k Hk. apply In_nth_error in Hk as (w & EK). destruct (HS _ _ EK) as (q1 & q2 & q3 & q4).
    destruct (Forall2_nth _ _ _ _ _ _ _ H1 EK) as ([[[n s0] ci] co] & Ec & HW).
    pose proof (Forall_nth_error _ _ _ _ _ T Ec) as Tc. cbn in Tc.
    destruct (W_got n s0 ci co k Tc HW) as (r & Er & Hr). specialize (Hr (He _ _ EK)). rewrite q3 in Hr. unfold fut in Hr. rewrite q1, (q4 (He _ _ EK)) in Hr.
    cbn in Hr. subst r. rewrite app_nil_r in Er. destruct HW as (_ & _ & _ & _ & _ & ->). rewrite Er. unfold stream. rewrite existsb_app, existsb_end_map. reflexivity. }
  assert (Hd : cdone s = true).
  { destruct (cdone s) eqn:ED; auto. specialize (St0 Finish). cbn [fstep] in St0. rewrite ED, Ho in St0. discriminate. }
  destruct (all_off_results _ _ T H1) as (_ & R2).
  exists (map (fun k => tasks (given k)) (ws s)), (tasks (fout s)). rewrite Hsrc, app_nil_r in H2. subst cs. split; auto.
  split; [rewrite map_length; symmetry; eapply Forall2_len; eauto|]. rewrite <- (R2 Ho). split; auto. split.
  - rewrite Hd in H6. exact H6.
  - apply Forall_forall. intros k Hk. apply In_nth_error in Hk as (w & EK). destruct (HS _ _ EK) as (q1 & q2 & q3 & q4). pose proof (q4 (He _ _ EK)). auto.
Qed.

(** Stateless workers computing one function. *)
Lemma concat_lupd_perm : forall X (l : list (list X)) i p x, nth_error l i = Some p ->
  Permutation (concat (lupd l i (p ++ [x]))) (concat l ++ [x]).
Proof.
  induction l as [|a l IH]; destruct i; cbn; intros p x E; try discriminate.
  - injection E as ->. rewrite <- !app_assoc. apply Permutation_app_head. apply Permutation_app_comm.
  - rewrite <- app_assoc. apply Permutation_app_head. apply IH. auto.
Qed.
Lemma interleaving_perm : forall X (parts : list (list X)) l, interleaving parts l -> Permutation (concat parts) l.
Proof.
  intros X parts l H. induction H.
  - replace (concat (repeat [] n)) with (@nil X); auto. induction n; cbn; auto.
  - rewrite concat_lupd_perm by eauto. apply Permutation_app_tail. auto.
Qed.
Definition applies (f : A -> A) (n : node) : Prop := (forall s x, exists s', svc n s x = (s', [], RTask (f x))) /\ (forall s, eosn n s = []).
Lemma applies_fun : forall f n l s, applies f n -> node_fun n s l = map f l.
Proof.
  intros f n l s (H & He). unfold node_fun. assert (G : exists s', emits n s l = (map f l, s', None)).
  { revert s. induction l as [|x l IH]; intros s; cbn; eauto. destruct (H s x) as (s' & ->). destruct (IH s') as (s'' & ->). eauto. }
  destruct G as (s' & ->). rewrite He, app_nil_r. auto.
Qed.
Lemma applies_total : forall f n, applies f n -> total n.
Proof. intros f n (H & _) s x. destruct (H s x) as (s' & ->). cbn. auto. Qed.
Lemma results_map : forall f (wn : list conf) parts, Forall (fun '(n, _, _, _) => applies f n) wn -> length parts = length wn ->
  results wn parts = map (map f) parts.
Proof.
  induction wn as [|[[[n s0] ci] co] wn IH]; intros parts F E; destruct parts as [|p parts]; cbn in *; try discriminate; auto.
  inversion F; subst. f_equal; [eapply applies_fun; eauto|]. apply IH; auto.
Qed.
Lemma main_map : forall f (wn : list conf) (input : list A) acts s, wn <> [] ->
  Forall (fun '(n, _, ci, co) => applies f n /\ capok ci /\ capok co) wn ->
  exec fstep (fstart wn input) acts = Some s -> (forall a, fstep s a = None) ->
  exists outs, fout s = stream outs /\ Permutation outs (map f input).
Proof.
  intros f wn input acts s Hne F E H. destruct (main_complete wn input acts s Hne) as (parts & outs & h1 & h2 & h3 & h4 & _); auto.
  { eapply Forall_impl; [|exact F]. intros [[[n s0] ci] co] (a & b). split; auto. eapply applies_total; eauto. }
  exists outs. split; auto. rewrite results_map with (f := f) in h3; auto.
  - apply interleaving_perm in h3. apply interleaving_perm in h1. rewrite <- h3, <- h1. rewrite <- concat_map. auto.
  - eapply Forall_impl; [|exact F]. intros [[[n s0] ci] co] (a & b). auto.
Qed.
End Proofs.
