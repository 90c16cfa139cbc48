From Coq Require Import List ZArith Bool Lia.
From Verif Require Import Outcome FrameModel FrameSpec.
Import ListNotations.
Local Open Scope Z_scope.

Lemma be_length : forall n z, length (be n z) = n.
Proof. induction n; intros; simpl; auto. Qed.

Lemma dec_be_acc : forall n z a, fold_left (fun a b => a * 256 + b) (be n z) a = a * 256 ^ Z.of_nat n + z mod 256 ^ Z.of_nat n.
Proof.
  induction n; intros z a; cbn [be fold_left].
  - simpl. rewrite Z.mod_1_r. lia.
  - rewrite IHn. rewrite Nat2Z.inj_succ, Z.pow_succ_r by lia.
    assert (0 < 256 ^ Z.of_nat n) by (apply Z.pow_pos_nonneg; lia).
    rewrite (Z.mul_comm 256). rewrite (Z.rem_mul_r z) by lia. ring.
Qed.

Lemma dec_be : forall n z, 0 <= z < 256 ^ Z.of_nat n -> dec (be n z) = z.
Proof. intros n z H. unfold dec. rewrite dec_be_acc. rewrite Z.mod_small by lia. lia. Qed.

Lemma signed16 : forall z, - 2 ^ 15 <= z < 2 ^ 15 -> signed 16 (dec (be 2 z)) = z.
Proof.
  intros z H. unfold dec. rewrite dec_be_acc. change (256 ^ Z.of_nat 2) with 65536. change (2 ^ 15) with 32768 in *.
  unfold signed. change (2 ^ (16 - 1)) with 32768. change (2 ^ 16) with 65536. simpl.
  destruct (Z.lt_ge_cases z 0).
  - replace (z mod 65536) with (z + 65536) by (apply Z.mod_unique with (-1); lia).
    destruct (Z.ltb_spec (z + 65536) 32768); lia.
  - rewrite Z.mod_small by lia. destruct (Z.ltb_spec z 32768); lia.
Qed.

Lemma header_length : forall d s t z, length (header d s t z) = 13%nat.
Proof. intros. unfold header. rewrite !app_length, !be_length. reflexivity. Qed.

Definition hdr_of (m : msg) : list Z := header (m_dest m) (m_src m) (m_type m) (zlen (m_data m)).

Lemma firstn_len_app : forall A (l r : list A) n, n = length l -> firstn n (l ++ r) = l.
Proof. intros A l r n ->. rewrite firstn_app, Nat.sub_diag, firstn_all. simpl. apply app_nil_r. Qed.
Lemma skipn_len_app : forall A (l r : list A) n, n = length l -> skipn n (l ++ r) = r.
Proof. intros A l r n ->. rewrite skipn_app, Nat.sub_diag, skipn_all. reflexivity. Qed.

Lemma parse_hdr : forall m, valid m ->
  parse_header (hdr_of m) = Hdr (m_dest m) (m_src m) (m_type m) (zlen (m_data m)).
Proof.
  intros m (V1 & V2 & V3 & V4 & _). unfold parse_header, hdr_of, header.
  rewrite (firstn_len_app _ (be 2 (m_dest m))) by (rewrite be_length; auto).
  rewrite (skipn_len_app _ (be 2 (m_dest m)) _ 2) by (rewrite be_length; auto).
  rewrite (firstn_len_app _ (be 2 (m_src m))) by (rewrite be_length; auto).
  f_equal.
  - apply signed16; auto.
  - apply signed16; auto.
  - cbn [be app nth]. apply Z.mod_small. lia.
  - rewrite (app_assoc (be 2 (m_dest m))), (app_assoc (be 2 (m_dest m) ++ be 2 (m_src m))).
    rewrite (skipn_len_app _ ((be 2 (m_dest m) ++ be 2 (m_src m)) ++ [m_type m mod 256])) by (rewrite !app_length, !be_length; auto).
    rewrite firstn_all2 by (rewrite be_length; auto). apply dec_be. unfold zlen. change (256 ^ Z.of_nat 8) with (2 ^ 64). lia.
Qed.

Lemma zlen_nil : forall l, zlen l = 0 -> l = [].
Proof. intros [|x l] H; auto. unfold zlen in H. simpl length in H. lia. Qed.

Lemma unbatch_ok : forall ms r, Forall valid ms ->
  unbatch (length ms) (flat_map m_data ms) (flat_map hdr_of ms ++ r) = Done (map deliver ms).
Proof.
  induction ms as [|m ms IH]; intros r F; cbn [length unbatch flat_map map]; auto.
  inversion_clear F as [|? ? V F']. pose proof (header_length (m_dest m) (m_src m) (m_type m) (zlen (m_data m))) as HL. fold (hdr_of m) in HL.
  rewrite <- app_assoc. rewrite (firstn_len_app _ (hdr_of m)) by auto. rewrite (skipn_len_app _ (hdr_of m)) by auto.
  rewrite (parse_hdr m V). cbn [h_size h_src h_dest h_type].
  destruct (Z.eqb_spec (zlen (m_data m)) 0) as [E|E].
  - apply zlen_nil in E. rewrite E. cbn [app]. rewrite IH by auto. cbn [obind].
    assert (DM : deliver m = Eos (m_src m)) by (unfold deliver; rewrite E; auto). rewrite DM.
    destruct V as (_ & _ & _ & _ & V). destruct (Z.eqb_spec (m_src m) (-1)); [exfalso; apply V; auto|auto].
  - rewrite app_length. unfold zlen at 1.
    destruct (Z.ltb_spec (Z.of_nat (length (m_data m) + length (flat_map m_data ms))) (Z.of_nat (length (m_data m)))); [lia|].
    unfold zlen. rewrite Nat2Z.id. rewrite skipn_len_app, firstn_len_app by auto. rewrite IH by auto. cbn [obind].
    destruct m as [d s t [|x l]]; [exfalso; apply E; reflexivity|]. reflexivity.
Qed.

Lemma signed32 : forall z, 0 <= z < 2 ^ 31 -> signed 32 (dec (be 4 z)) = z.
Proof.
  intros z H. rewrite dec_be.
  - unfold signed. change (2 ^ (32 - 1)) with (2 ^ 31). destruct (Z.ltb_spec z (2 ^ 31)); lia.
  - change (256 ^ Z.of_nat 4) with (2 ^ 32). assert (2 ^ 31 < 2 ^ 32) by reflexivity. lia.
Qed.

Definition frame (ms : list msg) : list Z := flat_map m_data ms ++ flat_map hdr_of ms ++ be 4 (Z.of_nat (length ms)).

Lemma hdrs_length : forall ms, length (flat_map hdr_of ms) = (length ms * 13)%nat.
Proof. induction ms; cbn [flat_map length]; auto. rewrite app_length, IHms. unfold hdr_of at 1. rewrite header_length. lia. Qed.

Lemma handle_multi : forall T ms, Forall valid ms -> length ms <> 1%nat -> Z.of_nat (length ms) < 2 ^ 31 ->
  handle T (frame ms) = Items (map deliver ms).
Proof.
  intros T ms F L1 L2. unfold handle, frame. cbv zeta. rewrite !app_length, hdrs_length, be_length.
  set (p := flat_map m_data ms). set (n := length ms) in *.
  replace (length p + (n * 13 + 4) - 4)%nat with (length p + n * 13)%nat by lia.
  replace (length p + (n * 13 + 4) <? 4)%nat with false by (symmetry; apply Nat.ltb_ge; lia).
  rewrite app_assoc, (skipn_len_app _ (p ++ flat_map hdr_of ms)) by (rewrite app_length, hdrs_length; auto).
  rewrite signed32 by lia. destruct (Z.eqb_spec (Z.of_nat n) 1); [lia|]. destruct (Z.ltb_spec (Z.of_nat n) 0); [lia|].
  rewrite Nat2Z.id. replace (length p + (n * 13 + 4) <? n * 13 + 4)%nat with false by (symmetry; apply Nat.ltb_ge; lia).
  replace (length p + (n * 13 + 4) - (n * 13 + 4))%nat with (length p) by lia.
  rewrite <- app_assoc, firstn_len_app, skipn_len_app by auto.
  unfold p, n. rewrite unbatch_ok by auto. reflexivity.
Qed.

Lemma handle_single_gen : forall T pre m, valid m ->
  handle T (pre ++ hdr_of m ++ be 4 1) =
    if zlen (m_data m) =? 0 then Items [Eos (m_src m)]
    else if T <? zlen (m_data m) then Big (Hdr (m_dest m) (m_src m) (m_type m) (zlen (m_data m)))
    else if Z.of_nat (length pre + 17) <? zlen (m_data m) then Bad
    else Items [Item (Msg (m_dest m) (m_src m) (m_type m) (firstn (length (m_data m)) (pre ++ hdr_of m ++ be 4 1)))].
Proof.
  intros T pre m V. unfold handle. cbv zeta.
  pose proof (header_length (m_dest m) (m_src m) (m_type m) (zlen (m_data m))) as HL. fold (hdr_of m) in HL.
  assert (LL : length (pre ++ hdr_of m ++ be 4 1) = (length pre + 17)%nat) by (rewrite !app_length, HL, be_length; lia).
  rewrite LL. replace (length pre + 17 <? 4)%nat with false by (symmetry; apply Nat.ltb_ge; lia).
  replace (length pre + 17 - 4)%nat with (length (pre ++ hdr_of m)) by (rewrite app_length; lia).
  replace (skipn (length (pre ++ hdr_of m)) (pre ++ hdr_of m ++ be 4 1)) with (be 4 1)
    by (rewrite app_assoc, skipn_len_app by auto; auto).
  rewrite signed32 by (split; [lia|reflexivity]). rewrite Z.eqb_refl.
  replace (length pre + 17 <? 17)%nat with false by (symmetry; apply Nat.ltb_ge; lia).
  replace (length pre + 17 - 17)%nat with (length pre) by lia.
  rewrite skipn_len_app by auto. rewrite (firstn_len_app _ (hdr_of m)) by auto. rewrite (parse_hdr m V). cbn [h_size h_src h_dest h_type].
  destruct (Z.eqb_spec (zlen (m_data m)) 0) as [E|E].
  - apply zlen_nil in E. destruct V as (_ & _ & _ & _ & V). destruct (Z.eqb_spec (m_src m) (-1)); [exfalso; apply V; auto|auto].
  - destruct (T <? zlen (m_data m)); auto. destruct (_ <? _); auto. unfold zlen. rewrite Nat2Z.id. auto.
Qed.

Lemma handle_single : forall T m, valid m -> zlen (m_data m) <= T ->
  handle T (m_data m ++ hdr_of m ++ be 4 1) = Items [deliver m].
Proof.
  intros T m V L. rewrite handle_single_gen by auto. destruct (Z.eqb_spec (zlen (m_data m)) 0) as [E|E].
  - apply zlen_nil in E. unfold deliver. rewrite E. auto.
  - destruct (Z.ltb_spec T (zlen (m_data m))); [lia|]. destruct (Z.ltb_spec (Z.of_nat (length (m_data m) + 17)) (zlen (m_data m))) as [X|_]; [unfold zlen in X; lia|].
    rewrite firstn_len_app by auto. unfold deliver. destruct m as [d s t [|x l]]; [exfalso; apply E; reflexivity|]. reflexivity.
Qed.

(** A piece of wire that delivers exactly [ms] and leaves the rest alone. *)
Definition good (T : Z) (w : list (list Z)) (ms : list msg) : Prop :=
  forall rest, recv T (w ++ rest) = obind (recv T rest) (fun o => Done (map deliver ms ++ o)).

Lemma good_nil : forall T, good T [] [].
Proof. intros T rest. simpl. destruct (recv T rest); auto. Qed.

Lemma good_app : forall T w1 w2 m1 m2, good T w1 m1 -> good T w2 m2 -> good T (w1 ++ w2) (m1 ++ m2).
Proof.
  intros T w1 w2 m1 m2 G1 G2 rest. rewrite <- app_assoc, G1, G2. destruct (recv T rest); simpl; auto.
  rewrite map_app, app_assoc. auto.
Qed.

Lemma good_items : forall T b ms, handle T b = Items (map deliver ms) -> good T [b] ms.
Proof. intros T b ms H rest. cbn [app recv]. rewrite H. auto. Qed.

Section S.
  Variables (T bytes : Z) (limit : nat).
  Hypothesis HT : 1 <= T.
  Hypothesis Hbytes : bytes <= T + 1.
  Hypothesis Hlimit : (1 <= limit)%nat /\ Z.of_nat limit < 2 ^ 31.

  Record Inv (s : sender) (done cur : list msg) : Prop := {
    v_pay : pay s = flat_map m_data cur;
    v_hdr : hdrs s = flat_map hdr_of cur;
    v_act : actual s = length cur;
    v_wire : good T (wire s) done;
    v_items : Forall (fun m => zlen (m_data m) <= T) done -> Forall (fun b => exists l, handle T b = Items l) (wire s);
    v_valid : Forall valid cur;
    v_lim : (length cur < limit)%nat;
    v_small : Forall (fun m => zlen (m_data m) < bytes) cur;
    v_bytes : cur <> [] -> zlen (pay s) < bytes }.

  (** [flush] on a batch with a payload of at most 2*max bytes. *)
  Lemma flush_ok : forall s done cur, pay s = flat_map m_data cur -> hdrs s = flat_map hdr_of cur -> actual s = length cur ->
    good T (wire s) done -> (Forall (fun m => zlen (m_data m) <= T) done -> Forall (fun b => exists l, handle T b = Items l) (wire s)) ->
    Forall valid cur -> (length cur <= limit)%nat -> Forall (fun m => zlen (m_data m) < bytes) cur ->
    zlen (pay s) <= 2 * Z.max bytes T ->
    exists s', flush T bytes limit s = Done s' /\ Inv s' (done ++ cur) [].
  Proof.
    intros s done cur EP EH EA G GI V L SM B. unfold flush. destruct (Nat.eqb_spec (actual s) 0) as [Z0|NZ].
    - rewrite EA in Z0. apply length_zero_iff_nil in Z0. subst cur. exists s. split; auto. rewrite app_nil_r.
      constructor; auto; [simpl; lia|congruence].
    - rewrite EP, EH, EA. fold (frame cur).
      assert (LF : zlen (frame cur) = zlen (pay s) + Z.of_nat (length cur) * 13 + 4).
      { unfold frame, zlen. rewrite !app_length, hdrs_length, be_length, EP. lia. }
      destruct (Z.leb_spec (zlen (frame cur)) (paycap T bytes limit)) as [_|X]; [|unfold paycap in X; nia].
      eexists. split; [reflexivity|].
      cut (good T (wire s ++ [frame cur]) (done ++ cur) /\ (Forall (fun m => zlen (m_data m) <= T) (done ++ cur) ->
           Forall (fun b => exists l, handle T b = Items l) (wire s ++ [frame cur]))).
      { intros [X1 X2]. constructor; cbn [pay hdrs actual wire]; auto; [simpl; lia|congruence]. }
      cut (handle T (frame cur) = Items (map deliver cur)).
      { intros HF. split; [apply good_app; auto; apply good_items; auto|].
        intros FT. apply Forall_app in FT as [FT _]. apply Forall_app. split; auto. constructor; [eauto|constructor]. }
      destruct (Nat.eq_dec (length cur) 1) as [L1|L1].
      + destruct cur as [|m [|m' cur]]; try discriminate. inversion_clear V as [|? ? Vm _]. inversion_clear SM as [|? ? Sm _].
        unfold frame. cbn [flat_map]. rewrite !app_nil_r. change (Z.of_nat (length [m])) with 1. apply handle_single; auto. lia.
      + apply handle_multi; auto. lia.
  Qed.

  Lemma push_ok : forall s done cur m, Inv s done cur -> valid m ->
    exists s' done' cur', push T bytes limit s m = Done s' /\ Inv s' done' cur' /\ done' ++ cur' = (done ++ cur) ++ [m].
  Proof.
    intros s done cur m HI V. destruct HI as [EP EH EA G GI VA L SM B]. unfold push.
    pose proof (header_length (m_dest m) (m_src m) (m_type m) (zlen (m_data m))) as HL.
    assert (BP : zlen (pay s) <= 2 * Z.max bytes T).
    { destruct cur; [rewrite EP; unfold zlen; cbn [flat_map length]; lia|]. specialize (B ltac:(discriminate)). lia. }
    destruct ((limit =? 1)%nat || (bytes <=? zlen (m_data m))) eqn:C.
    - destruct (flush_ok s done cur EP EH EA G GI VA ltac:(lia) SM BP) as (s1 & F1 & I1).
      assert (F2 : (if (actual s =? 0)%nat then Done s else flush T bytes limit s) = Done s1).
      { destruct (actual s =? 0)%nat eqn:Z0; auto. unfold flush in F1. rewrite Z0 in F1. auto. }
      rewrite F2. cbn [obind].
      set (b := (if T <? zlen (m_data m) then [] else m_data m) ++ header (m_dest m) (m_src m) (m_type m) (zlen (m_data m)) ++ be 4 1).
      assert (LB : zlen b <= paycap T bytes limit).
      { change (Z.of_nat (length b) <= paycap T bytes limit). unfold b. rewrite !app_length, HL, be_length. unfold paycap.
        destruct (Z.ltb_spec T (zlen (m_data m))) as [X|X]; cbn [length]; unfold zlen in X; lia. }
      destruct (Z.leb_spec (zlen b) (paycap T bytes limit)); [|lia].
      eexists _, ((done ++ cur) ++ [m]), []. split; [reflexivity|]. split; [|rewrite app_nil_r; auto].
      constructor; cbn [pay hdrs actual wire]; auto; [| |simpl; lia|congruence].
      2:{ intros FT. apply Forall_app in FT as [FT FM]. inversion_clear FM as [|? ? FM' _].
          apply Forall_app. split; [apply (v_items _ _ _ I1 FT)|].
          destruct (Z.ltb_spec T (zlen (m_data m))) as [X|X]; [lia|]. constructor; [|constructor].
          exists [deliver m]. subst b. destruct (Z.ltb_spec T (zlen (m_data m))); [lia|]. apply handle_single; auto. }
      apply good_app; [apply (v_wire _ _ _ I1)|].
      change (header (m_dest m) (m_src m) (m_type m) (zlen (m_data m))) with (hdr_of m) in b.
      destruct (Z.ltb_spec T (zlen (m_data m))) as [X|X]; subst b.
      + intros rest. cbn [app recv]. change (hdr_of m ++ be 4 1) with ([] ++ hdr_of m ++ be 4 1). rewrite (handle_single_gen T [] m V).
        destruct (Z.eqb_spec (zlen (m_data m)) 0); [lia|]. destruct (Z.ltb_spec T (zlen (m_data m))); [|lia].
        cbn [h_size h_src h_dest h_type]. rewrite Z.eqb_refl. unfold deliver, map.
        destruct m as [d sr t [|x l]]; [exfalso; unfold zlen in *; simpl in *; lia|]. reflexivity.
      + apply good_items. rewrite handle_single by auto. auto.
    - apply orb_false_iff in C as [C1 C2]. apply Nat.eqb_neq in C1. apply Z.leb_gt in C2.
      cbn [pay hdrs actual wire]. set (s1 := Sender _ _ _ _).
      assert (P1 : pay s ++ m_data m = flat_map m_data (cur ++ [m])) by (rewrite flat_map_app, EP; cbn [flat_map]; rewrite app_nil_r; auto).
      assert (H1 : hdrs s ++ header (m_dest m) (m_src m) (m_type m) (zlen (m_data m)) = flat_map hdr_of (cur ++ [m]))
        by (rewrite flat_map_app, EH; cbn [flat_map]; rewrite app_nil_r; auto).
      assert (A1 : S (actual s) = length (cur ++ [m])) by (rewrite app_length, EA; simpl; lia).
      assert (B1 : zlen (pay s ++ m_data m) <= 2 * Z.max bytes T).
      { unfold zlen in *. rewrite app_length. destruct cur; [rewrite EP; cbn [flat_map length]; lia|]. specialize (B ltac:(discriminate)). lia. }
      assert (V1 : Forall valid (cur ++ [m])) by (apply Forall_app; auto).
      assert (S1 : Forall (fun m => zlen (m_data m) < bytes) (cur ++ [m])) by (apply Forall_app; auto).
      assert (L1 : (length (cur ++ [m]) <= limit)%nat) by (rewrite app_length; simpl; lia).
      assert (HC : zlen (hdrs s ++ header (m_dest m) (m_src m) (m_type m) (zlen (m_data m))) <= hdrcap limit).
      { rewrite H1. unfold zlen, hdrcap. rewrite hdrs_length. lia. }
      assert (PC : zlen (pay s ++ m_data m) <= paycap T bytes limit) by (unfold paycap; lia).
      destruct (Z.leb_spec (zlen (pay s ++ m_data m)) (paycap T bytes limit)); [|lia].
      destruct (Z.leb_spec (zlen (hdrs s ++ header (m_dest m) (m_src m) (m_type m) (zlen (m_data m)))) (hdrcap limit)); [|lia].
      cbn [andb].
      destruct ((_ || _) || _ || _) eqn:F.
      + destruct (flush_ok s1 done (cur ++ [m]) P1 H1 A1 G GI V1 L1 S1 B1) as (s2 & F2 & I2).
        exists s2, (done ++ cur ++ [m]), []. split; auto. split; auto. rewrite app_nil_r, app_assoc. auto.
      + exists s1, done, (cur ++ [m]). split; auto. split; [|rewrite app_assoc; auto].
        apply orb_false_iff in F as [F _]. apply orb_false_iff in F as [F _]. apply orb_false_iff in F as [F1 F2].
        apply Nat.eqb_neq in F1. apply Z.leb_gt in F2.
        constructor; auto; cbn [s1 pay]; auto. lia.
  Qed.

  Lemma send_ok : forall l s done cur, Inv s done cur -> Forall valid (pushed l) ->
    exists s' done' cur', send T bytes limit s l = Done s' /\ Inv s' done' cur' /\ done' ++ cur' = (done ++ cur) ++ pushed l.
  Proof.
    induction l as [|c l IH]; intros s done cur HI F; cbn [send].
    - exists s, done, cur. split; auto. split; auto. rewrite app_nil_r. auto.
    - destruct c as [m|].
      + cbn in F. inversion_clear F as [|? ? Vm F']. destruct (push_ok s done cur m HI Vm) as (s1 & d1 & c1 & E1 & I1 & Q1).
        rewrite E1. cbn [obind]. destruct (IH s1 d1 c1 I1 F') as (s2 & d2 & c2 & E2 & I2 & Q2).
        exists s2, d2, c2. split; auto. split; auto. rewrite Q2, Q1. cbn. rewrite <- !app_assoc. auto.
      + cbn in F. destruct HI as [EP EH EA G GI VA L SM B].
        destruct (flush_ok s done cur) as (s1 & E1 & I1); auto; [lia| |].
        { destruct cur; [rewrite EP; unfold zlen; cbn [flat_map length]; lia|]. specialize (B ltac:(discriminate)). lia. }
        rewrite E1. cbn [obind]. destruct (IH s1 _ _ I1 F) as (s2 & d2 & c2 & E2 & I2 & Q2).
        exists s2, d2, c2. split; auto. split; auto. rewrite Q2, app_nil_r. auto.
  Qed.

  Lemma Inv0 : Inv sender0 [] [].
  Proof. constructor; simpl; auto; try lia; try congruence. apply good_nil. Qed.

  Lemma roundtrip : forall l, Forall valid (pushed l) ->
    exists s, send T bytes limit sender0 (l ++ [Flush]) = Done s /\ recv T (wire s) = Done (map deliver (pushed l)).
  Proof.
    intros l F. destruct (send_ok l sender0 [] [] Inv0 F) as (s1 & d1 & c1 & E1 & I1 & Q1).
    destruct I1 as [EP EH EA G GI VA L SM B].
    destruct (flush_ok s1 d1 c1) as (s2 & E2 & I2); auto; [lia| |].
    { destruct c1; [rewrite EP; unfold zlen; cbn [flat_map length]; lia|]. specialize (B ltac:(discriminate)). lia. }
    exists s2. split.
    - clear - E1 E2. revert s1 E1 E2. generalize sender0. induction l as [|c l IH]; intros s s1 E1 E2; cbn [send app] in *.
      + injection E1 as <-. rewrite E2. auto.
      + destruct c as [m|].
        * destruct (push T bytes limit s m); [|discriminate]. cbn [obind] in *. eauto.
        * destruct (flush T bytes limit s); [|discriminate]. cbn [obind] in *. eauto.
    - pose proof (v_wire _ _ _ I2 []) as W. rewrite app_nil_r in W. rewrite W. cbn [recv obind]. rewrite app_nil_r, Q1. auto.
  Qed.

  Lemma roundtrip_items : forall l s, Forall valid (pushed l) -> Forall (fun m => zlen (m_data m) <= T) (pushed l) ->
    send T bytes limit sender0 l = Done s -> Forall (fun b => exists i, handle T b = Items i) (wire s).
  Proof.
    intros l s F FT E. destruct (send_ok l sender0 [] [] Inv0 F) as (s1 & d1 & c1 & E1 & I1 & Q1).
    rewrite E in E1. injection E1 as <-. apply (v_items _ _ _ I1). cbn in Q1. rewrite <- Q1 in FT. apply Forall_app in FT. tauto.
  Qed.

  (** Without the last flush: a prefix arrives. *)
  Lemma roundtrip_prefix : forall l, Forall valid (pushed l) ->
    exists s done cur, send T bytes limit sender0 l = Done s /\ pushed l = done ++ cur /\ (length cur < limit)%nat /\
      recv T (wire s) = Done (map deliver done).
  Proof.
    intros l F. destruct (send_ok l sender0 [] [] Inv0 F) as (s1 & d1 & c1 & E1 & I1 & Q1).
    exists s1, d1, c1. split; auto. split; [rewrite Q1; auto|]. split; [apply (v_lim _ _ _ I1)|].
    pose proof (v_wire _ _ _ I1 []) as W. rewrite app_nil_r in W. rewrite W. cbn [recv obind]. rewrite app_nil_r. auto.
  Qed.
End S.
