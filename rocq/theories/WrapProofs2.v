(** The feedback channels: outcome and effect of prepare_wraparound for every last and first stage. *)
From Coq Require Import List Arith Bool Lia.
From Verif Require Import WireModel WireSpec WireProofs WireProofs2 WireProofs4 WireProofs5 WrapModel WrapSpec.
Import ListNotations.

Definition fs (p c : stage) (x : id) : list id := if full p c then entry 0 c else firstn 1 (skipn (pos x) (entry 0 c)).
Definition fp (n : nat) (p c : stage) (y : id) : list id := if full p c then exit n p else firstn 1 (skipn (pos y) (exit n p)).
Definition is_mocoll (p : stage) : bool := match p with SFarm _ _ (UsrColl k) _ => mo k | _ => false end.
Definition FB (w : heap) (n : nat) (p c : stage) : Prop :=
  bundle (exit n p) (entry 0 c) [(n, Obj)] (exit_mo p) (entry_mi c) (blab p c 0) (fs p c) (fp n p c) w.
Definition fdone (n : nat) (p c : stage) (w : heap) : Prop :=
  (is_mocoll p = false -> FB w n p c) /\ nb w = bcnt p c /\ keepO (exit n p ++ [(n, Obj)]) heap0 w /\ keepI (entry 0 c) heap0 w.

(** Loops. *)
Lemma star_cross : forall (f : nat -> heap -> heap) z ys h, (forall b h, f b h = add_out z [Bref b] h) ->
  iter (fun y h => let b := nb h in Some (f b (add_in y [Bref b] (alloc h)))) ys h = cross [z] ys h.
Proof.
  intros f z ys h F. unfold cross. apply iter_ext. intros y h1 _. cbn [iter]. unfold new_edge. cbv zeta. rewrite F. reflexivity.
Qed.
Lemma star_std : forall (f : nat -> heap -> heap) z ys h, (forall b h, f b h = add_out z [Bref b] h) -> NoDup ys ->
  exists h', iter (fun y h => let b := nb h in Some (f b (set_nin y (Some b) (alloc h)))) ys h = Some h' /\ nb h' = nb h + length ys /\
    nout h' = nout h /\ inN h' = inN h /\ (forall x, x <> z -> outN h' x = outN h x) /\ outN h' z = outN h z ++ map Bref (seq (nb h) (length ys)) /\
    (forall y, ~ In y ys -> nin h' y = nin h y) /\ (forall j y, nth_error ys j = Some y -> nin h' y = Some (nb h + j)).
Proof.
  intros f z ys h F. revert h. induction ys as [|a ys IH]; intros h ND.
  - exists h. simpl. rewrite app_nil_r. repeat split; auto; try lia. intros [|j] y H; discriminate.
  - inversion ND as [|a' ys' NI ND' E]; subst. cbn [iter]. cbv zeta. rewrite F.
    destruct (IH (add_out z [Bref (nb h)] (set_nin a (Some (nb h)) (alloc h))) ND') as (h' & E & B & N1 & N2 & K & P & Q & T).
    exists h'. split; [exact E|]. cbn [add_out set_nin alloc nb nin nout inN outN] in *.
    split; [rewrite B; simpl; lia|]. split; [auto|]. split; [auto|]. split; [|split; [|split]].
    + intros x X. rewrite K by auto. apply upd_neq. auto.
    + rewrite P, upd_eq, <- app_assoc. auto.
    + intros y Y. rewrite Q by (intros A; apply Y; right; auto). apply upd_neq. intros ->. apply Y; left; auto.
    + intros [|j] y Y; cbn in Y.
      * injection Y as <-. rewrite (Q a NI), upd_eq, Nat.add_0_r. auto.
      * rewrite (T j y Y). f_equal. lia.
Qed.
Lemma pairs_out : forall xys h, NoDup (map fst xys) -> NoDup (map snd xys) ->
  exists h', iter (fun xy h => let b := nb h in Some (set_nout (fst xy) (Some b) (add_in (snd xy) [Bref b] (alloc h)))) xys h = Some h' /\
    nb h' = nb h + length xys /\ nin h' = nin h /\ outN h' = outN h /\
    (forall x, ~ In x (map fst xys) -> nout h' x = nout h x) /\ (forall y, ~ In y (map snd xys) -> inN h' y = inN h y) /\
    (forall j x y, nth_error xys j = Some (x, y) -> nout h' x = Some (nb h + j) /\ inN h' y = inN h y ++ [Bref (nb h + j)]).
Proof.
  induction xys as [|[a b] l IH]; intros h N1 N2.
  - exists h. simpl. repeat split; auto; try lia; destruct j; discriminate.
  - cbn [map fst snd] in N1, N2. inversion N1 as [|a1 l1 NA ND1 E1]; subst. inversion N2 as [|a2 l2 NB ND2 E2]; subst. cbn [iter fst snd]. cbv zeta.
    destruct (IH (set_nout a (Some (nb h)) (add_in b [Bref (nb h)] (alloc h))) ND1 ND2) as (h' & E & B & M1 & M2 & K1 & K2 & P).
    exists h'. split; [exact E|]. cbn [add_in set_nout alloc nb nin nout inN outN] in *.
    split; [rewrite B; simpl; lia|]. split; [auto|]. split; [auto|]. cbn [map fst snd]. split; [|split].
    + intros x X. rewrite K1 by (intros A; apply X; right; auto). apply upd_neq. intros ->. apply X; left; auto.
    + intros y Y. rewrite K2 by (intros A; apply Y; right; auto). apply upd_neq. intros ->. apply Y; left; auto.
    + intros [|j] x y Y; cbn in Y.
      * injection Y as <- <-. rewrite (K1 a NA), (K2 b NB), !upd_eq, Nat.add_0_r. auto.
      * assert (IN : In (x, y) l) by (eapply nth_error_In; eauto). destruct (P j x y Y) as [P1 P2]. rewrite P1, P2.
        rewrite upd_neq by (intros ->; apply NB; apply in_map_iff; exists (x, y); auto).
        replace (nb h + S j) with (S (nb h) + j) by lia. auto.
Qed.

Section Wrap.
  Variables (n : nat) (p c : stage).

  Lemma f_labels : full p c = true -> forall x y, blab p c 0 x y = pos y * np p + pos x.
  Proof using Type. intros F x y. unfold blab. rewrite F. auto. Qed.

  Lemma f_cross : full p c = true -> exit_mo p = true -> entry_mi c = true -> ~ In (n, Obj) (exit n p) ->
    exists w, cross (exit n p) (entry 0 c) heap0 = Some w /\ fdone n p c w.
  Proof using Type.
    intros F EM IM NO.
    destruct (cross_form (exit n p) (entry 0 c) heap0 (posd_nodup _ (posd_exit n p)) (posd_nodup _ (posd_entry 0 c)))
      as (h' & E & B & N1 & N2 & K & P & Q & R). exists h'. split; [auto|]. split; [intros _|split; [|split]].
    - unfold FB. rewrite EM, IM. eapply cross_bundle with (h := heap0); eauto using posd_exit, posd_entry.
      + intros x y Hx Hy. rewrite f_labels, length_exit; auto.
      + intros x Hx. unfold fs. rewrite F. auto.
      + intros x Hx. unfold fp. rewrite F. auto.
    - rewrite B. unfold bcnt. rewrite F, length_exit, length_entry. auto.
    - intros x Hx. rewrite N2, K; auto. intros A. apply Hx. apply in_or_app; auto.
    - intros y Hy. rewrite N1, Q; auto.
  Qed.
  Lemma f_one : forall x y w, exit n p = [x] -> entry 0 c = [y] ->
    (is_mocoll p = false -> writes (exit_mo p) w x = [Some 0] /\ (forall z, In (Nref z) (outN w x) -> z = y)) -> reads (entry_mi c) w y = [Some 0] ->
    (forall z, In (Nref z) (inN w y) -> z = x \/ z = (n, Obj)) ->
    nb w = 1 -> keepO [x; (n, Obj)] heap0 w -> keepI [y] heap0 w -> fdone n p c w.
  Proof using Type.
    intros x y w EX EY W R CY B KO KI.
    assert (PX : pos x = 0) by (apply (posd_exit n p 0 x); rewrite EX; auto).
    assert (PY : pos y = 0) by (apply (posd_entry 0 c 0 y); rewrite EY; auto).
    assert (NP : np p = 1) by (rewrite <- (length_exit n), EX; auto).
    assert (NC : nc c = 1) by (rewrite <- (length_entry 0), EY; auto).
    assert (F : full p c = true) by (apply full_one_p; auto).
    split; [intros MC|split; [|split]].
    - destruct (W MC) as [W1 CX]. unfold FB, bundle. rewrite EX, EY. split.
      + intros x' [<-|[]]. split; [|intros z Hz; left; symmetry; auto]. rewrite W1. unfold fs. rewrite F, EY. simpl. rewrite f_labels, PX, PY by auto. auto.
      + intros y' [<-|[]]. split; [|intros z Hz; destruct (CY z Hz) as [->| ->]; simpl; auto]. rewrite R. unfold fp. rewrite F, EX. simpl.
        rewrite f_labels, PX, PY by auto. auto.
    - rewrite B. unfold bcnt. rewrite F, NP, NC. auto.
    - rewrite EX. exact KO.
    - rewrite EY. exact KI.
  Qed.
  Lemma f_p2p_labels : forall x y, np p = nc c -> (full p c = true -> np p = 1) -> In x (exit n p) -> In y (entry 0 c) -> pos y = pos x ->
    fs p c x = [y] /\ fp n p c y = [x] /\ blab p c 0 x y = pos x.
  Proof using Type.
    intros x y L F Hx Hy E. destruct (posd_in _ _ (posd_exit n p) Hx) as [NX LX]. destruct (posd_in _ _ (posd_entry 0 c) Hy) as [NY LY].
    unfold fs, fp, blab. destruct (full p c).
    - specialize (F eq_refl). rewrite length_exit in LX. rewrite length_entry in LY.
      assert (pos x = 0) by lia. assert (pos y = 0) by lia. rewrite H in NX. rewrite H0 in NY.
      pose proof (length_exit n p) as EL. pose proof (length_entry 0 c) as EC. rewrite F in EL. rewrite <- L, F in EC.
      destruct (exit n p) as [|a [|b r]]; simpl in *; try discriminate. destruct (entry 0 c) as [|a' [|b' r']]; simpl in *; try discriminate.
      injection NX as <-. injection NY as <-. rewrite H0, H. simpl. repeat split; lia.
    - rewrite <- E at 1. rewrite (firstn_nth _ _ _ NY). rewrite E, (firstn_nth _ _ _ NX). auto.
  Qed.
  Lemma f_p2p : forall w, np p = nc c -> (full p c = true -> np p = 1) ->
    (forall x, In x (exit n p) -> forall y, In y (entry 0 c) -> pos y = pos x ->
       writes (exit_mo p) w x = [Some (pos x)] /\ reads (entry_mi c) w y = [Some (pos x)] /\
       (forall z, In (Nref z) (outN w x) -> z = y) /\ (forall z, In (Nref z) (inN w y) -> z = x)) ->
    nb w = np p -> keepO (exit n p) heap0 w -> keepI (entry 0 c) heap0 w -> fdone n p c w.
  Proof using Type.
    intros w L F W B KO KI. split; [intros _|split; [|split]].
    - unfold FB, bundle. split.
      + intros x Hx. destruct (combine_in (exit n p) (entry 0 c) (posd_exit _ _) (posd_entry _ _)) with (x := x) as (y & Hy & E & NY & NX); auto.
        { rewrite length_exit, length_entry. auto. }
        apply nth_error_In in NY. destruct (W x Hx y NY E) as (W1 & W2 & W3 & W4).
        destruct (f_p2p_labels x y L F Hx NY E) as (A1 & A2 & A3).
        rewrite A1. simpl. rewrite A3, W1. split; [auto|]. intros z Hz. rewrite (W3 z Hz). auto.
      + intros y Hy. destruct (combine_in (entry 0 c) (exit n p) (posd_entry _ _) (posd_exit _ _)) with (x := y) as (x & Hx & E & NX & NY); auto.
        { rewrite length_exit, length_entry. auto. }
        apply nth_error_In in NX. symmetry in E. destruct (W x NX y Hy E) as (W1 & W2 & W3 & W4).
        destruct (f_p2p_labels x y L F NX Hy E) as (A1 & A2 & A3).
        rewrite A2. simpl. rewrite A3, W2. split; [auto|]. intros z Hz. rewrite (W4 z Hz). apply in_or_app; auto.
    - rewrite B. unfold bcnt. destruct (full p c); auto. rewrite <- L, (F eq_refl). auto.
    - intros x Hx. apply KO. intros A. apply Hx. apply in_or_app; auto.
    - auto.
  Qed.
  (** One producer with several outputs. *)
  Lemma f_star : forall x w, exit n p = [x] -> exit_mo p = true -> 
    (is_mocoll p = false -> outN w x = map Bref (seq 0 (nc c))) ->
    (forall y, In y (entry 0 c) -> reads (entry_mi c) w y = [Some (pos y)] /\ (forall z, ~ In (Nref z) (inN w y))) ->
    nb w = nc c -> keepO [x; (n, Obj)] heap0 w -> keepI (entry 0 c) heap0 w -> fdone n p c w.
  Proof using Type.
    intros x w EX EM W RD B KO KI.
    assert (PX : pos x = 0) by (apply (posd_exit n p 0 x); rewrite EX; auto).
    assert (NP : np p = 1) by (rewrite <- (length_exit n), EX; auto).
    assert (F : full p c = true) by (apply full_one_p; auto).
    split; [intros MC|split; [|split]].
    - specialize (W MC). unfold FB, bundle. rewrite EX, EM. split.
      + intros x' [<-|[]]. rewrite W. split.
        * unfold writes, fs. rewrite F, W, map_map. simpl. rewrite <- (length_entry 0), <- (map_pos _ (fun j => Some j)) by apply posd_entry.
          apply map_ext. intros y. rewrite f_labels, NP, PX by auto. f_equal. lia.
        * intros z Hz. apply in_map_iff in Hz. destruct Hz as (j & A & _). discriminate.
      + intros y Hy. destruct (RD y Hy) as [R1 R2]. split; [|intros z Hz; exfalso; eapply R2; eauto]. rewrite R1. unfold fp. rewrite F, EX. simpl.
        rewrite f_labels, NP, PX by auto. do 2 f_equal. lia.
    - rewrite B. unfold bcnt. rewrite F, NP. lia.
    - rewrite EX. exact KO.
    - auto.
  Qed.
End Wrap.

Lemma keepO_refl : forall xs h, keepO xs h h.
Proof. intros xs h x _. auto. Qed.

Lemma fb_form : forall n p, single p = true -> exit_mo p = true -> ordered_coll p -> exists x z, exit n p = [x] /\
  (forall b h, fb_out n p b h = add_out z [Bref b] h) /\ (z = x \/ z = (n, Obj)) /\ (is_mocoll p = false -> z = x).
Proof.
  intros n [k|m kw [| |k] o|n1 k1 n2 k2] SP EM OC; simpl in *; try discriminate.
  - exists (n, Self), (n, Self). auto.
  - exists (n, Co), (n, Obj). rewrite EM. repeat split; auto. discriminate.
Qed.

Lemma wrap_form : forall n p c, populated p = true -> populated c = true -> ordered_coll p ->
  if wrap_ok p c then exists w, wrap n p c heap0 = Some w /\ fdone n p c w else wrap n p c heap0 = None.
Proof.
  intros n p c PP PC OC. pose proof (view n p PP OC) as V.
  assert (NOBJ : forall y, In y (entry 0 c) -> y <> (n, Obj)).
  { intros y Hy ->. destruct c; simpl in Hy; try (destruct Hy as [Hy|[]]; discriminate). apply in_map_iff in Hy. destruct Hy as (j & A & _). discriminate. }
  destruct c as [k|m kw cc o|n1 k1 n2 k2].
  1, 2: match goal with |- context [wrap _ _ ?cs] => set (c := cs) in * end.
  (* first stage: a node or a farm *)
  - assert (EY : entry 0 c = [(0, Self)]) by auto. unfold wrap_ok, c. cbn [wrap multi_in in_node]. fold c. destruct (mi k) eqn:MI.
    + cbn [orb]. assert (EM' : entry_mi c = true) by auto.
      assert (F : full p c = true) by (apply full_one_c; rewrite <- (length_entry 0), EY; auto).
      destruct V as [x EX PX NX EM SP P1 SB CR|x EX PX NX EM SP P1 P2 SO|NP1 SP P1 P2 P3 EN EMO NO CR SO]; rewrite P1.
      * destruct (CR heap0 eq_refl eq_refl) as (h1 & z & E & B & N1 & N2 & N3 & W & RF & HZ & WZ & K). rewrite E. simpl. eexists. split; [reflexivity|].
        apply f_one with (x := x) (y := (0, Self)); auto.
        -- intros _. rewrite EM. simpl. rewrite W, N3. split; [auto|contradiction].
        -- rewrite EM'. simpl. rewrite upd_eq, N2. simpl. rewrite RF. simpl. rewrite WZ. auto.
        -- simpl. rewrite upd_eq, N2, RF. intros z' [A|[]]. injection A as <-. destruct HZ; auto.
        -- intros x' X. simpl. rewrite N3. split; [|auto]. apply K; intros ->; apply X; simpl; auto.
        -- intros y' Y. simpl. rewrite N1, upd_neq, N2 by (intros <-; apply Y; left; auto). auto.
      * rewrite P2. destruct (fb_form n p SP EM OC) as (x' & z & EX' & FO & HZ & MC). assert (x' = x) by congruence. subst x'.
        eexists. split; [reflexivity|]. rewrite FO. apply f_star with (x := x); auto.
        -- intros M. rewrite (MC M). simpl. rewrite ?upd_eq. auto.
        -- rewrite EY, EM'. intros y [<-|[]]. simpl. rewrite ?upd_eq. simpl. split; [auto|]. intros q [A|[]]. discriminate.
        -- intros x' X. simpl. rewrite upd_neq; [auto|]. intros <-. apply X. destruct HZ as [->| ->]; simpl; auto.
        -- rewrite EY. intros y Y. simpl. rewrite upd_neq; auto. intros <-. apply Y. left; auto.
      * rewrite P2, P3. destruct (exit_mo p) eqn:EM; cbn [negb].
        -- rewrite EN. apply (f_cross n p c); auto.
        -- rewrite CR, EN. destruct (create_out_iter (exit n p) heap0 (posd_nodup _ (posd_exit _ _))) as (h1 & E & B & N1 & N2 & N3 & K & P); [auto|].
           rewrite E. simpl. eexists. split; [reflexivity|]. split; [intros _|split; [|split]].
           ++ unfold FB, bundle. rewrite EY, EM, EM'. split.
              ** intros x Hx. simpl. rewrite N3. split; [|contradiction]. destruct (posd_in _ _ (posd_exit n p) Hx) as [NX LX]. rewrite (P _ _ NX). simpl.
                 unfold fs. rewrite F, EY. simpl. rewrite f_labels by auto. auto.
              ** intros y [<-|[]]. simpl. rewrite upd_eq, N2. simpl. split.
                 --- rewrite map_map. simpl. unfold fp. rewrite F. apply map_ext_in. intros x Hx. destruct (posd_in _ _ (posd_exit n p) Hx) as [NX LX].
                     rewrite (P _ _ NX), f_labels by auto. auto.
                 --- intros z Hz. apply in_map_iff in Hz. destruct Hz as (x & A & Hx). injection A as <-. apply in_or_app; auto.
           ++ simpl. rewrite B. unfold bcnt. rewrite F, length_exit. change (nc c) with 1. simpl. lia.
           ++ intros x X. simpl. rewrite N3, K; auto. intros A. apply X. apply in_or_app; auto.
           ++ rewrite EY. intros y Y. simpl. rewrite N1, upd_neq, N2; auto. intros <-. apply Y. left; auto.
    + cbn [orb]. unfold create_in. cbn [nin heap0 bind]. assert (EM' : entry_mi c = false) by auto.
      destruct V as [x EX PX NX EM SP P1 SB CR|x EX PX NX EM SP P1 P2 SO|NP1 SP P1 P2 P3 EN EMO NO CR SO]; rewrite P1, SP.
      * rewrite SB. eexists. split; [reflexivity|]. apply f_one with (x := x) (y := (0, Self)); auto.
        -- intros _. rewrite EM. simpl. rewrite ?upd_eq. split; [auto|contradiction].
        -- rewrite EM'. simpl. rewrite ?upd_eq. auto.
        -- simpl. contradiction.
        -- intros x' X. simpl. rewrite upd_neq; [auto|]. intros <-. apply X. left; auto.
        -- intros y Y. simpl. rewrite upd_neq; [auto|]. intros <-. apply Y. left; auto.
      * rewrite P2. cbn [nin set_nin alloc nb heap0]. rewrite upd_eq. destruct (fb_form n p SP EM OC) as (x' & z & EX' & FO & HZ & MC). assert (x' = x) by congruence. subst x'.
        eexists. split; [reflexivity|]. rewrite FO. apply f_star with (x := x); auto.
        -- intros M. rewrite (MC M). simpl. rewrite ?upd_eq. auto.
        -- rewrite EY, EM'. intros y [<-|[]]. simpl. rewrite ?upd_eq. simpl. auto.
        -- intros x' X. simpl. rewrite upd_neq; [auto|]. intros <-. apply X. destruct HZ as [->| ->]; simpl; auto.
        -- rewrite EY. intros y Y. simpl. rewrite upd_neq; auto. intros <-. apply Y. left; auto.
      * rewrite P2. auto.
  - assert (EY : entry 0 c = [(0, Em)]) by auto. unfold wrap_ok, c. cbn [wrap multi_in in_node]. fold c.
    assert (EM' : entry_mi c = true) by auto.
    assert (F : full p c = true) by (apply full_one_c; rewrite <- (length_entry 0), EY; auto).
    destruct V as [x EX PX NX EM SP P1 SB CR|x EX PX NX EM SP P1 P2 SO|NP1 SP P1 P2 P3 EN EMO NO CR SO]; rewrite P1.
    * destruct (CR heap0 eq_refl eq_refl) as (h1 & z & E & B & N1 & N2 & N3 & W & RF & HZ & WZ & K). rewrite E. simpl. eexists. split; [reflexivity|].
      apply f_one with (x := x) (y := (0, Em)); auto.
      -- intros _. rewrite EM. simpl. rewrite W, N3. split; [auto|contradiction].
      -- rewrite EM'. simpl. rewrite upd_eq, N2. simpl. rewrite RF. simpl. rewrite WZ. auto.
      -- simpl. rewrite upd_eq, N2, RF. intros z' [A|[]]. injection A as <-. destruct HZ; auto.
      -- intros x' X. simpl. rewrite N3. split; [|auto]. apply K; intros ->; apply X; simpl; auto.
      -- intros y' Y. simpl. rewrite N1, upd_neq, N2 by (intros <-; apply Y; left; auto). auto.
    * rewrite P2. destruct (fb_form n p SP EM OC) as (x' & z & EX' & FO & HZ & MC). assert (x' = x) by congruence. subst x'.
      eexists. split; [reflexivity|]. rewrite FO. apply f_star with (x := x); auto.
      -- intros M. rewrite (MC M). simpl. rewrite ?upd_eq. auto.
      -- rewrite EY, EM'. intros y [<-|[]]. simpl. rewrite ?upd_eq. simpl. split; [auto|]. intros q [A|[]]. discriminate.
      -- intros x' X. simpl. rewrite upd_neq; [auto|]. intros <-. apply X. destruct HZ as [->| ->]; simpl; auto.
      -- rewrite EY. intros y Y. simpl. rewrite upd_neq; auto. intros <-. apply Y. left; auto.
    * rewrite P2, P3. destruct (exit_mo p) eqn:EM; cbn [negb].
      -- rewrite EN. apply (f_cross n p c); auto.
      -- rewrite CR, EN. destruct (create_out_iter (exit n p) heap0 (posd_nodup _ (posd_exit _ _))) as (h1 & E & B & N1 & N2 & N3 & K & P); [auto|].
         rewrite E. simpl. eexists. split; [reflexivity|]. split; [intros _|split; [|split]].
         ++ unfold FB, bundle. rewrite EY, EM, EM'. split.
            ** intros x Hx. simpl. rewrite N3. split; [|contradiction]. destruct (posd_in _ _ (posd_exit n p) Hx) as [NX LX]. rewrite (P _ _ NX). simpl.
               unfold fs. rewrite F, EY. simpl. rewrite f_labels by auto. auto.
            ** intros y [<-|[]]. simpl. rewrite upd_eq, N2. simpl. split.
               --- rewrite map_map. simpl. unfold fp. rewrite F. apply map_ext_in. intros x Hx. destruct (posd_in _ _ (posd_exit n p) Hx) as [NX LX].
                   rewrite (P _ _ NX), f_labels by auto. auto.
               --- intros z Hz. apply in_map_iff in Hz. destruct Hz as (x & A & Hx). injection A as <-. apply in_or_app; auto.
         ++ simpl. rewrite B. unfold bcnt. rewrite F, length_exit. change (nc c) with 1. simpl. lia.
         ++ intros x X. simpl. rewrite N3, K; auto. intros A. apply X. apply in_or_app; auto.
         ++ rewrite EY. intros y Y. simpl. rewrite N1, upd_neq, N2; auto. intros <-. apply Y. left; auto.
  - (* first stage: an all-to-all *)
    match goal with |- context [wrap _ _ ?cs] => set (c := cs) in * end.
    assert (EY : entry 0 c = lw 0 n1) by auto. assert (NC : nc c = n1) by (unfold nc; simpl; apply length_lw).
    assert (EM' : entry_mi c = mi k1) by auto. unfold wrap_ok, c. cbn [wrap]. fold c.
    pose proof (posd_nodup _ (posd_lw 0 n1)) as NDL.
    destruct V as [x EX PX NX EM SP P1 SB CR|x EX PX NX EM SP P1 P2 SO|NP1 SP P1 P2 P3 EN EMO NO CR SO]; rewrite P1.
    + rewrite EM, SP. simpl. destruct (mi k1); auto.
    + rewrite P2, EM, SP. cbn [orb]. destruct (fb_form n p SP EM OC) as (x' & z & EX' & FO & HZ & MC). assert (x' = x) by congruence. subst x'.
      destruct (mi k1) eqn:MI.
      * rewrite (star_cross _ z) by auto.
        destruct (cross_form [z] (lw 0 n1) heap0) as (h' & E & B & N1 & N2 & K & P & Q & T); [repeat constructor; auto|auto|].
        exists h'. split; [auto|]. apply f_star with (x := x); auto.
        -- intros M. rewrite (MC M) in P. rewrite (P 0 x eq_refl). rewrite length_lw, NC. simpl. apply map_ext. intros j. f_equal. lia.
        -- rewrite EY, EM'. intros y Hy. destruct (posd_in _ _ (posd_lw 0 n1) Hy) as [NY LY]. simpl. rewrite (T _ _ NY). simpl. split; [do 2 f_equal; lia|].
           intros q [A|[]]. discriminate.
        -- rewrite B, NC, length_lw. simpl. lia.
        -- intros x' X. rewrite N2, K; auto. intros [<-|[]]. apply X. destruct HZ as [->| ->]; simpl; auto.
        -- rewrite EY. intros y Y. rewrite N1, Q; auto.
      * destruct (star_std (fb_out n p) z (lw 0 n1) heap0 FO NDL) as (h' & E & B & N1 & N2 & K & P & Q & T).
        exists h'. split; [exact E|]. apply f_star with (x := x); auto.
        -- intros M. rewrite (MC M) in P. rewrite P, NC, length_lw. auto.
        -- rewrite EY, EM'. intros y Hy. destruct (posd_in _ _ (posd_lw 0 n1) Hy) as [NY LY]. simpl. rewrite (T _ _ NY), N2. simpl. auto.
        -- intros x' X. rewrite N1, K; auto. intros ->. apply X. destruct HZ as [->| ->]; simpl; auto.
        -- rewrite EY. intros y Y. rewrite N2, Q; auto.
    + rewrite P2, P3, SP, EN, !length_exit. cbn [orb andb negb]. destruct (exit_mo p) eqn:EM; cbn [negb].
      * destruct (mi k1) eqn:MI; auto. apply (f_cross n p c); auto. unfold full. rewrite EM. simpl. rewrite MI. rewrite !orb_true_r. auto.
      * destruct (Nat.eqb_spec (np p) n1) as [EQ|NE]; [|destruct (mi k1); auto].
        assert (FL : full p c = true -> np p = 1).
        { unfold full. fold (np p) (nc c). rewrite EM, NC, <- EQ. simpl. rewrite orb_false_r, orb_diag. intros A. apply Nat.eqb_eq in A. auto. }
        assert (LEN : length (exit n p) = length (lw 0 n1)) by (rewrite length_exit, length_lw; auto).
        destruct (mi k1) eqn:MI.
        -- destruct (pairs_out (combine (exit n p) (lw 0 n1)) heap0) as (h' & E & B & N1 & N2 & K1 & K2 & P).
           { rewrite map_fst_combine by auto. apply posd_nodup, posd_exit. }
           { rewrite map_snd_combine; auto. }
           rewrite map_fst_combine in K1 by auto. rewrite map_snd_combine in K2 by auto.
           exists h'. split; [exact E|]. apply f_p2p; auto; try lia.
           ++ rewrite EY, EM, EM'. intros x Hx y Hy E1. destruct (posd_in _ _ (posd_exit n p) Hx) as [NX LX]. destruct (posd_in _ _ (posd_lw 0 n1) Hy) as [NY LY].
              rewrite E1 in NY. destruct (P (pos x) x y) as [A1 A2]; [rewrite combine_nth_error, NX, NY; auto|]. simpl. rewrite A1, A2, N2. simpl.
              repeat split; auto; [contradiction|]. intros z [A|[]]. discriminate.
           ++ rewrite B, combine_length, LEN, Nat.min_id, length_lw. simpl. auto.
           ++ intros x X. rewrite N2, K1; auto.
           ++ rewrite EY. intros y Y. rewrite N1, K2; auto.
        -- destruct (create_in_iter false (lw 0 n1) heap0 NDL) as (h1 & E & B & N1 & N2 & K & P); [auto|]. rewrite E. cbn [bind].
           destruct (join_iter false (combine (exit n p) (lw 0 n1)) h1) as (h' & E' & B' & N1' & N2' & K' & P').
           { rewrite map_fst_combine by auto. apply posd_nodup, posd_exit. }
           rewrite map_fst_combine in K' by auto. exists h'. split; [exact E'|]. apply f_p2p; auto; try lia.
           ++ rewrite EY, EM, EM'. intros x Hx y Hy E1. destruct (posd_in _ _ (posd_exit n p) Hx) as [NX LX]. destruct (posd_in _ _ (posd_lw 0 n1) Hy) as [NY LY].
              destruct (P _ _ NY) as [A1 A2]. rewrite E1 in NY, A1. destruct (P' x y) as [A3 A4].
              { eapply nth_error_In with (n := pos x). rewrite combine_nth_error, NX, NY; auto. }
              simpl. rewrite A3, A4, N1', N2', N2, A1, A2. simpl. repeat split; auto; contradiction.
           ++ rewrite B', B, length_lw. simpl. auto.
           ++ intros x X. destruct (K' x X) as [-> ->]. rewrite N1, N2. auto.
           ++ rewrite EY. intros y Y. rewrite N1', N2'. apply K. auto.
Qed.
