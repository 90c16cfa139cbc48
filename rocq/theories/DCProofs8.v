(** Divide and conquer: the initial state, the final state, progress. *)
From Coq Require Import List Arith Bool Lia Permutation.
From Verif Require Import Base DCModel DCSpec DCProofs DCProofs2 DCProofs3 DCProofs4 DCProofs5 DCProofs6 DCProofs7.
Import ListNotations.

Section Fin.
Context {Op Res : Type}.
Variable cond : Op -> bool.
Variable divide : Op -> list Op.
Variable seqf : Op -> Res.
Variable combine : list Res -> Res.
Variable dflt : Res.
Variable junk : nat -> nat -> nat.
Variable op0 : Op.
Notation Inv := (Inv cond divide seqf combine op0).
Notation st := (@st Op Res).
Notation step := (step cond divide seqf combine dflt junk).
Notation start := (start cond divide seqf dflt).
Notation solve := (solve cond divide seqf combine).
Notation solves := (solves cond divide seqf combine).
Notation GI := (GI cond divide seqf combine op0).

Lemma repeat_stream : forall nw i, match nth_error (repeat (mkW [] [] []) nw) i with Some w => stream w | None => [] end = [].
Proof.
  intros nw i. destruct (nth_error _ _) eqn:E; auto. apply nth_error_In, repeat_spec in E. subst. auto.
Qed.
Lemma repeat_inq : forall nw, flat_map inq (repeat (mkW [] [] []) nw) = [].
Proof. induction nw; auto. Qed.
Lemma repeat_msg : forall nw, Forall (fun w => Forall ismsg (outq w)) (repeat (mkW [] [] []) nw).
Proof. intros. apply Forall_forall. intros w H. apply repeat_spec in H. subst. constructor. Qed.

Lemma snd_dons : forall l, dons (map Snd l) = [].
Proof. induction l as [|z zs IH]; [reflexivity | exact IH]. Qed.
Lemma snd_base : forall b l, labs lab_base (map Snd (map (KDac b) l)) = [].
Proof. induction l as [|z zs IH]; [reflexivity | exact IH]. Qed.
Lemma snd_outs : forall b n, labs lab_out (map Snd (map (KDac b) (seq 0 n))) = seq b n.
Proof.
  intros b n. assert (G : forall l, labs lab_out (map Snd (map (KDac b) l)) = map (fun j => b + j) l)
    by (induction l as [|x l IH]; [reflexivity | simpl; f_equal; exact IH]).
  rewrite G. assert (forall m s, map (fun j => b + j) (seq s m) = seq (b + s) m) as X.
  { induction m; intros s; simpl; auto. f_equal. rewrite IHm. f_equal. lia. }
  rewrite X. f_equal. lia.
Qed.

Lemma wfs_dacs : forall Q b l P, wfs Q P (map Snd (map (KDac b) l)).
Proof. intros Q b. induction l as [|x l IH]; intros P; simpl; auto. Qed.

Lemma gi_start : forall nw b v, solves op0 v -> 0 < b -> GI (start nw op0 b).
Proof.
  intros nw b v (m & Sv) Hb. unfold DCModel.start. destruct (cond op0) eqn:Hc.
  - split; [|split; [auto | split; [simpl; tauto | apply repeat_msg]]]. simpl.
    set (s := mkS _ _ _ _ _ _ _ _ _ _ _ _).
    assert (S0 : forall j, SSof s j = []) by (intros [|j]; [auto | apply repeat_stream]).
    assert (Np : forall lab x, ~ present lab (SSof s) (fun _ => None) x).
    { intros lab x [(j & H)|(t & u & H & _)]; [rewrite S0 in H; destruct H | discriminate]. }
    assert (Nt : forall k, ~ tok (SSof s) (fun _ => None) k).
    { intros k [(j & e & H & _)|(t & u & H & _)]; [rewrite S0 in H; destruct H | discriminate]. }
    assert (R0 : rqlof s = []) by (unfold rqlof; simpl; rewrite repeat_inq; auto).
    split; intros; try discriminate; try rewrite S0 in *; try contradiction; try (now destruct (Nt _ H)).
    + destruct H as [[-> ->]|(b0 & ops & i & H & _)]; [eauto | discriminate].
    + right. destruct H as [[-> ->]|(b0 & ops & i & H & _)]; [|discriminate]. apply solves_base; auto.
    + split; intros; try discriminate; rewrite S0 in *; [constructor | destruct H].
    + split; intros; try discriminate; rewrite S0 in *; [constructor | destruct H].
    + constructor.
    + constructor.
    + rewrite R0. constructor.
    + rewrite R0. split; [intros [] | intros (u & H & _); discriminate].
    + lia.
    + auto.
    + exists []. split; [constructor|]. split; auto. intros t. split; [intros [] | congruence].
  - destruct (solve_sub _ _ _ _ _ _ _ Sv Hc) as (Dn & Ds).
    set (n := length (divide op0)).
    assert (Hn : 0 < n) by (unfold n; destruct (divide op0); [congruence | simpl; lia]).
    split; [|split; [auto | split; [|apply repeat_msg]]]; cycle 1.
    { simpl. split; [discriminate|]. intros [_ X]. destruct (map _ _); discriminate. }
    simpl. set (s := mkS _ _ _ _ _ _ _ _ _ _ _ _).
    assert (SS0 : SSof s 0 = map Snd (map (KDac b) (seq 0 n)) ++ [Snd (KComb b n 0)]).
    { unfold SSof. simpl. rewrite map_app. auto. }
    assert (SSj : forall j, j <> 0 -> SSof s j = []) by (intros [|j] H; [congruence | apply repeat_stream]).
    assert (R0 : rqlof s = []) by (unfold rqlof; simpl; rewrite repeat_inq; auto).
    assert (In0 : forall j e, In e (SSof s j) -> j = 0 /\ ((exists i, i < n /\ e = Snd (KDac b i)) \/ e = Snd (KComb b n 0))).
    { intros j e H. destruct (Nat.eq_dec j 0) as [->|N]; [|rewrite SSj in H by auto; destruct H]. split; auto.
      rewrite SS0, in_app_iff in H. destruct H as [H|[<-|[]]]; auto. rewrite map_map in H.
      apply in_map_iff in H as (i & <- & H). apply in_seq in H. left. exists i. split; [lia | auto]. }
    assert (D0 : forall j, dons (SSof s j) = []).
    { intros j. destruct (Nat.eq_dec j 0) as [->|N]; [|rewrite SSj by auto; auto].
      rewrite SS0, dons_app, snd_dons. reflexivity. }
    assert (Lb : labs lab_base (SSof s 0) = [b]) by (rewrite SS0, labs_app, snd_base; reflexivity).
    pose proof (snd_outs b n) as Lo'.
    assert (Lo : labs lab_out (SSof s 0) = seq b n ++ [0]).
    { rewrite SS0, labs_app, Lo'. auto. }
    assert (Ad : forall a, free0 (SSof s) (fun _ => None) (fun _ => 0) a -> True) by auto.
    assert (Hd : forall a, (b <= a < b + n \/ a = 0) -> held (SSof s) (fun _ => None) a).
    { intros a H. left. exists 0. rewrite Lo. apply in_app_iff. destruct H as [H| ->]; [left; apply in_seq; lia | right; left; auto]. }
    assert (Fr : forall b0 ops, frame [(b, divide op0)] b0 = Some ops -> b0 = b /\ ops = divide op0).
    { intros b0 ops H. simpl in H. destruct (Nat.eqb_spec b b0); [injection H as <-; auto | discriminate]. }
    assert (Fb : frame [(b, divide op0)] b = Some (divide op0)) by (simpl; rewrite Nat.eqb_refl; auto).
    assert (So : forall a o, slot_op op0 [(b, divide op0)] a o -> (a = 0 /\ o = op0) \/ (b <= a < b + n /\ In o (divide op0))).
    { intros a o [H|(b0 & ops & i & H & H' & ->)]; auto. apply Fr in H as [-> ->]. right.
      assert (i < n) by (apply nth_error_lt in H'; auto). apply nth_error_In in H'. split; [lia | auto]. }
    split; intros; try discriminate; try rewrite D0 in *; try contradiction.
    + apply Fr in H as [-> ->]. split; auto. split; auto. intros b' ops' H N. apply Fr in H as [-> _]. congruence.
    + apply So in H as [[-> ->]|[_ H]]; [eauto|]. destruct (Ds _ H) as (m' & w & _ & H'). eauto.
    + destruct H as [(j & e & H & E)|(t & u & H & _)]; [|discriminate].
      apply In0 in H as [-> [(i & Hi & ->)| ->]]; injection E as <-.
      * exists (divide op0). auto.
      * exists op0. split; auto. split; auto. split; [left; auto|]. split; auto. lia.
    + apply Fr in H as [-> ->]. exists n, 0. left. exists 0, (Snd (KComb b n 0)). split; auto.
      rewrite SS0. apply in_app_iff. right. left. auto.
    + left. apply Hd. apply So in H as [[-> _]|[H _]]; auto.
    + split; intros; try discriminate.
      * destruct (Nat.eq_dec j 0) as [->|N]; [rewrite Lb; repeat constructor; auto | rewrite SSj by auto; constructor].
      * destruct (Nat.eq_dec j 0) as [->|N]; [|rewrite SSj in H by auto; destruct H].
        destruct (Nat.eq_dec j' 0) as [->|N]; [auto|rewrite SSj in H0 by auto; destruct H0].
    + split; intros; try discriminate.
      * destruct (Nat.eq_dec j 0) as [->|N]; [|rewrite SSj by auto; constructor].
        rewrite Lo. apply (Permutation_NoDup (l := 0 :: seq b n)).
        -- apply Permutation_cons_append.
        -- constructor; [rewrite in_seq; lia | apply seq_NoDup].
      * destruct (Nat.eq_dec j 0) as [->|N]; [|rewrite SSj in H by auto; destruct H].
        destruct (Nat.eq_dec j' 0) as [->|N]; [auto|rewrite SSj in H0 by auto; destruct H0].
    + destruct (Nat.eq_dec j 0) as [->|N]; [|rewrite SSj by auto; constructor].
      rewrite SS0. apply wfs_app. split.
      * apply wfs_dacs.
      * simpl. split; auto. intros d Hd'. left. unfold outs. rewrite Lo'. apply in_seq. lia.
    + apply In0 in H as [_ [(i & _ & H)|H]]; discriminate.
    + reflexivity.
    + constructor.
    + rewrite R0. constructor.
    + rewrite R0. split; [intros [] | intros (u & H & _); discriminate].
    + lia.
    + left. apply SSj. lia.
    + apply In0 in H as [_ [(i & _ & H)|H]]; eauto.
    + exists []. split; [constructor|]. split; auto. intros t. split; [intros [] | congruence].
Qed.

Lemma gi_final : forall s v, GI s -> fin s = true -> solves op0 v ->
  mem s 0 = v /\ frames s = [] /\ bad s = false /\ rq s = [] /\ (forall t, tk s t = None) /\
  Forall (fun w => w = mkW [] [] []) (ws s).
Proof.
  intros s v (I & Hb & Hf & _) F Sv. destruct (proj1 Hf F) as [Ec Et].
  destruct (i_cnt _ _ _ _ _ _ _ _ _ _ _ _ _ _ I) as (L & _ & El & HL).
  assert (L = []) by (destruct L; [auto | simpl in El; lia]). subst L.
  assert (Tn : forall t, tk s t = None).
  { intros t. destruct (tk s t) eqn:E; auto. exfalso. apply (HL t). congruence. }
  assert (Ss : forall j, SSof s j = []).
  { intros j. destruct (Nat.eq_dec j 0) as [->|N]; [unfold SSof; rewrite Et; auto|].
    destruct (i_last _ _ _ _ _ _ _ _ _ _ _ _ _ _ I j) as [H|(l & t & H)]; [lia | auto|].
    destruct (i_dt _ _ _ _ _ _ _ _ _ _ _ _ _ _ I j t) as (u & H' & _).
    - apply in_dons. rewrite H. apply in_app_iff. right. left. auto.
    - rewrite Tn in H'. discriminate. }
  assert (Nt : forall k, ~ tok (SSof s) (tk s) k).
  { intros k [(j & e & H & _)|(t & u & H & _)]; [rewrite Ss in H; destruct H | rewrite Tn in H; discriminate]. }
  assert (Rn : rqlof s = []).
  { destruct (rqlof s) as [|t l] eqn:E; auto. exfalso.
    destruct (proj1 (i_rqt _ _ _ _ _ _ _ _ _ _ _ _ _ _ I t)) as (u & H & _); [left; auto|]. rewrite Tn in H. discriminate. }
  unfold rqlof in Rn. apply app_eq_nil in Rn as [Rq Ri].
  split; [|split; [|split; [auto | split; [auto | split; [auto|]]]]].
  - destruct (i_val _ _ _ _ _ _ _ _ _ _ _ _ _ _ I 0 op0) as [H|H].
    + left. auto.
    + exfalso. destruct H as [(j & H)|(t & u & H & _)]; [rewrite Ss in H; destruct H | rewrite Tn in H; discriminate].
    + eapply solves_det; eauto.
  - destruct (frames s) as [|[b ops] l] eqn:E; auto. exfalso.
    destruct (i_own _ _ _ _ _ _ _ _ _ _ _ _ _ _ I b ops) as (n & r & T).
    + simpl. rewrite Nat.eqb_refl. auto.
    + exact (Nt _ T).
  - apply Forall_forall. intros w Hw. apply In_nth_error in Hw as (i & Hi). specialize (Ss (S i)). simpl in Ss.
    rewrite Hi in Ss. unfold stream in Ss. apply app_eq_nil in Ss as [A B].
    assert (C : inq w = []).
    { destruct (inq w) as [|t q] eqn:E; auto. exfalso. assert (In t (flat_map inq (ws s))) as X.
      - apply in_flat_map. exists w. split; [eapply nth_error_In; eauto | rewrite E; left; auto].
      - rewrite Ri in X. destruct X. }
    destruct w; simpl in *; congruence.
Qed.

(** *** Progress *)
Lemma no_wait_cycle : forall s, GI s ->
  (forall j, SSof s j = []) -> rqlof s = [] ->
  forall n o v, solve n o = Some v ->
  forall t u, tk s t = Some u -> slot_op op0 (frames s) (kout (kd u)) o -> False.
Proof.
  intros s (I & _) Ss Rn n. induction n as [n IH] using lt_wf_ind. intros o v So t u Ht Sl.
  assert (Fs : forall x, fresh (SSof s) x) by (intros x j; rewrite Ss; intros []).
  assert (Nr : forall x y, tk s x = Some y -> stat y <> Ready).
  { intros x y H R. assert (In x (rqlof s)) as X by (apply (i_rqt _ _ _ _ _ _ _ _ _ _ _ _ _ _ I); eauto).
    rewrite Rn in X. destruct X. }
  assert (Nd : forall x y, tk s x = Some y -> ~ isdac (kd y)).
  { intros x y H D. apply (Nr x y H). apply (i_stat _ _ _ _ _ _ _ _ _ _ _ _ _ _ I _ _ H).
    eapply (i_dac0 _ _ _ _ _ _ _ _ _ _ _ _ _ _ I); eauto. }
  destruct (i_rem _ _ _ _ _ _ _ _ _ _ _ _ _ _ I _ _ Ht) as (L & _ & EL & HL).
  destruct L as [|t2 L].
  { simpl in EL. apply (Nr t u Ht). apply (i_stat _ _ _ _ _ _ _ _ _ _ _ _ _ _ I _ _ Ht). auto. }
  destruct (proj1 (HL t2) (or_introl eq_refl)) as (u2 & Ht2 & P1 & P2).
  destruct (i_pt _ _ _ _ _ _ _ _ _ _ _ _ _ _ I _ _ Ht2 P1) as (w & b & k & r & Hw & Kw & [Hr|Hd]); [|exact (Nd _ _ Ht2 Hd)].
  rewrite P2, Ht in Hw. injection Hw as <-.
  assert (K : kok cond divide op0 (frames s) (KComb b k r)).
  { eapply i_tok; eauto. right. exists t, u. auto. }
  destruct K as (x & Fx & -> & Sx & Cx & _). rewrite Kw in Sl. simpl in Sl.
  assert (x = o) by (eapply slot_op_det; eauto). subst x.
  destruct (solve_sub _ _ _ _ _ _ _ So Cx) as (_ & Sub).
  destruct (nth_error (divide o) (kout (kd u2) - b)) as [y|] eqn:Ny.
  - destruct (Sub y) as (m & v' & Lm & Sm); [eapply nth_error_In; eauto|].
    apply (IH m Lm y v' Sm t2 u2 Ht2). right. exists b, (divide o), (kout (kd u2) - b). split; auto. split; auto. lia.
  - apply nth_error_None in Ny. lia.
Qed.

Lemma free_base : forall (l : list (nat * list Op)) n, 0 < n -> exists b, base_free l b n = true.
Proof.
  intros l n Hn.
  assert (exists b, 0 < b /\ forall f, In f l -> fst f + length (snd f) <= b) as (b & Hb & H).
  { induction l as [|f l (b & Hb & IH)]; [exists 1; split; [lia | intros f []]|].
    exists (b + (fst f + length (snd f))). split; [lia|]. intros g [<-|G]; [lia|]. specialize (IH g G). lia. }
  exists b. unfold base_free. rewrite !andb_true_iff, forallb_forall. repeat split; try (apply Nat.ltb_lt; auto).
  intros f Hf. apply orb_true_iff. right. apply Nat.leb_le. auto.
Qed.

Lemma gi_progress : forall s, GI s -> fin s = false -> 0 < length (ws s) ->
  exists a s', step s a = Some s'.
Proof.
  intros s G F Hw. assert (G0 := G). destruct G0 as (I & Hb & Hf & Hm).
  destruct (todo s) as [|k td] eqn:Et.
  2:{ exists AInit. cbn [DCModel.step]. rewrite Et. eauto. }
  (* a message for the scheduler *)
  destruct (existsb (fun w => match outq w with [] => false | _ => true end) (ws s)) eqn:Xo.
  { apply existsb_exists in Xo as (w & Iw & E). apply In_nth_error in Iw as (i & Hi).
    exists (AMsg i). cbn [DCModel.step]. rewrite F, Et, Hi. destruct w as [q p [|m o]]; [discriminate|]. destruct m; eauto. }
  destruct (existsb (fun w => match prog w with [] => false | _ => true end) (ws s)) eqn:Xp.
  { apply existsb_exists in Xp as (w & Iw & E). apply In_nth_error in Iw as (i & Hi).
    destruct (prog w) as [|e p] eqn:Ep; [discriminate|].
    destruct e as [k|b q|b n r|t].
    - exists (AWork i 0). cbn [DCModel.step]. rewrite Hi. unfold work. rewrite Ep. eauto.
    - destruct (frame (frames s) b) as [ops|] eqn:Fo; [|exists (AWork i 0); cbn [DCModel.step]; rewrite Hi; unfold work; rewrite Ep, Fo; eauto].
      destruct (nth_error ops q) as [x|] eqn:Nx; [|exists (AWork i 0); cbn [DCModel.step]; rewrite Hi; unfold work; rewrite Ep, Fo, Nx; eauto].
      destruct (cond x) eqn:Cx; [exists (AWork i 0); cbn [DCModel.step]; rewrite Hi; unfold work; rewrite Ep, Fo, Nx, Cx; eauto|].
      destruct (length (divide x) =? 0) eqn:Z; [exists (AWork i 0); cbn [DCModel.step]; rewrite Hi; unfold work; rewrite Ep, Fo, Nx, Cx, Z; eauto|].
      destruct (free_base (frames s) (length (divide x))) as (b' & Hb'); [apply Nat.eqb_neq in Z; lia|].
      exists (AWork i b'); cbn [DCModel.step]; rewrite Hi; unfold work; rewrite Ep, Fo, Nx, Cx, Z, Hb'; eauto.
    - exists (AWork i 0). cbn [DCModel.step]. rewrite Hi. unfold work. rewrite Ep.
      destruct (frame _ _); eauto. destruct (slot_live _ _); eauto.
    - exists (AWork i 0). cbn [DCModel.step]. rewrite Hi. unfold work. rewrite Ep. eauto. }
  assert (Hn : forall w, In w (ws s) -> outq w = [] /\ prog w = []).
  { intros w Iw. split.
    - destruct (outq w) eqn:E; auto. exfalso.
      rewrite (proj2 (existsb_exists _ _)) in Xo; [discriminate|]. exists w. rewrite E. auto.
    - destruct (prog w) eqn:E; auto. exfalso.
      rewrite (proj2 (existsb_exists _ _)) in Xp; [discriminate|]. exists w. rewrite E. auto. }
  assert (Ss : forall j, SSof s j = []).
  { intros [|j]; simpl; [rewrite Et; auto|]. destruct (nth_error (ws s) j) as [w|] eqn:E; auto.
    apply nth_error_In in E. destruct (Hn w E) as [A B]. unfold stream. rewrite A, B. auto. }
  destruct (rq s) as [|t r] eqn:Rq.
  2:{ destruct (nth_error (ws s) 0) as [w|] eqn:E; [|apply nth_error_None in E; lia].
      exists (ASched 0 t). cbn [DCModel.step]. rewrite E, Rq. simpl. rewrite Nat.eqb_refl. simpl. eauto. }
  destruct (flat_map inq (ws s)) as [|t r] eqn:Fi.
  2:{ assert (In t (flat_map inq (ws s))) as X by (rewrite Fi; left; auto).
      apply in_flat_map in X as (w & Iw & X). destruct (Hn w Iw) as [A B]. apply In_nth_error in Iw as (i & Hi).
      exists (AStart i). cbn [DCModel.step]. rewrite Hi. destruct w as [q p o]. simpl in *. subst p.
      destruct q; [destruct X|]. destruct (find_task _ _); eauto. }
  exfalso.
  assert (Rn : rqlof s = []) by (unfold rqlof; rewrite Rq, Fi; auto).
  destruct (i_cnt _ _ _ _ _ _ _ _ _ _ _ _ _ _ I) as (L & _ & El & HL).
  destruct L as [|t L].
  { simpl in El. rewrite F in Hf. assert (false = true) by (apply Hf; split; [lia | auto]). discriminate. }
  destruct (tk s t) as [u|] eqn:Ht; [|apply (proj1 (HL t) (or_introl eq_refl)); auto].
  assert (K : kok cond divide op0 (frames s) (kd u)).
  { eapply i_tok; eauto. right. exists t, u. split; auto. split; auto. intros j. rewrite Ss. intros []. }
  assert (exists o, slot_op op0 (frames s) (kout (kd u)) o) as (o & So).
  { destruct (kd u) as [b i|b n r]; simpl in *.
    - destruct K as (ops & Fo & Li). destruct (nth_error ops i) as [x|] eqn:E; [|apply nth_error_None in E; lia].
      exists x. right. exists b, ops, i. auto.
    - destruct K as (x & _ & _ & Sx & _). eauto. }
  destruct (i_solv _ _ _ _ _ _ _ _ _ _ _ _ _ _ I _ _ So) as (n & v & Sv).
  eapply no_wait_cycle; eauto.
Qed.

Lemma unblock_ws : forall (s : st) c, ws (unblock s c) = ws s.
Proof. intros s c. unfold unblock. destruct (find_task _ _); auto. destruct (rem t); auto. Qed.

Lemma handle_ws : forall (s : st) t, ws (handle s t) = ws s.
Proof.
  intros s t. unfold handle. destruct (find_task _ _) as [v|]; auto. simpl.
  generalize (seq 0 (unum v)) as l. intros l. revert s. induction l as [|i l IH]; intros s; simpl; auto.
  rewrite IH. apply unblock_ws.
Qed.

Lemma step_length : forall (s : st) a s', step s a = Some s' -> length (ws s') = length (ws s).
Proof.
  assert (Hi : forall k (s : st), length (ws (insert junk k s)) = length (ws s)).
  { intros k s. destruct (insert_frame junk k s) as (_ & -> & _). auto. }
  assert (Hh : forall (s : st) t, length (ws (handle s t)) = length (ws s)).
  { intros s t. rewrite handle_ws. auto. }
  intros s a s' E. destruct a as [|wi t|wi|wi b|wi]; cbn [DCModel.step] in E.
  - destruct (todo s); [discriminate|]. injection E as <-. rewrite Hi. auto.
  - destruct (nth_error _ _); [|discriminate]. destruct (existsb _ _); [|discriminate]. injection E as <-. simpl. apply lupd_length.
  - destruct (nth_error (ws s) wi) as [[[|t q] [|e p] o]|]; try discriminate.
    destruct (find_task _ _); injection E as <-; auto. simpl. apply lupd_length.
  - destruct (nth_error (ws s) wi) as [w|]; [|discriminate]. unfold work in E.
    destruct (prog w) as [|e p]; [discriminate|]. destruct e as [k|b0 i|b0 n r|t].
    + injection E as <-. simpl. apply lupd_length.
    + destruct (frame _ _) as [ops|]; [|injection E as <-; auto].
      destruct (nth_error ops i) as [x|]; [|injection E as <-; auto].
      destruct (cond x); [injection E as <-; simpl; apply lupd_length|].
      destruct (_ =? 0); [injection E as <-; auto|].
      destruct (base_free _ _ _); [|discriminate]. injection E as <-. simpl. apply lupd_length.
    + destruct (frame _ _); [|injection E as <-; auto]. destruct (slot_live _ _); injection E as <-; auto. simpl. apply lupd_length.
    + injection E as <-. simpl. apply lupd_length.
  - destruct (fin s); [discriminate|]. destruct (todo s); [|discriminate].
    destruct (nth_error (ws s) wi) as [[q p [|m o]]|]; try discriminate.
    destruct m; injection E as <-; rewrite ?Hi, ?Hh; simpl; apply lupd_length.
Qed.
End Fin.
