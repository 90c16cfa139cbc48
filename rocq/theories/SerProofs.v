(** The serialisation buffer: what is written is what is there. *)
From Coq Require Import List ZArith Bool Lia ZifyBool.
From Verif Require Import SerModel.
Import ListNotations.
Open Scope Z_scope.

Section Proofs.
  Context {B : Type}.
  Notation sbuf := (sbuf B).
  Notation lenz l := (Z.of_nat (length l)).

  Lemma to_int_id : forall z, 0 <= z < 2 ^ 31 -> to_int z = z.
  Proof. intros z H. unfold to_int. rewrite Z.mod_small; lia. Qed.
  Lemma to_int_neg : forall z, 2 ^ 31 <= z < 2 ^ 32 -> to_int z < 0.
  Proof.
    intros z H. unfold to_int. replace (z + 2 ^ 31) with ((z - 2 ^ 31) + 1 * 2 ^ 32) by lia. rewrite Z.mod_add by lia. rewrite Z.mod_small by lia. lia.
  Qed.

  (** The buffer holds exactly l. *)
  Record holds (l : list B) (s : sbuf) : Prop := {
    h_len : lenz (mem s) = cap s + header;
    h_pos : pos s = lenz l;
    h_cap : lenz l <= cap s;
    h_one : 1 <= cap s;
    h_mem : firstn (length l) (mem s) = map Some l }.

  Lemma store_ok : forall (l : list B) m c, firstn (length l) m = map Some l -> (length l < length m)%nat ->
    exists m', store m (lenz l) c = Some m' /\ length m' = length m /\ firstn (length (l ++ [c])) m' = map Some (l ++ [c]).
  Proof.
    intros l m c E L. unfold store. replace (_ && _) with true by lia. eexists. split; [reflexivity|]. rewrite Nat2Z.id. split.
    - rewrite app_length. cbn [length]. rewrite firstn_length, skipn_length. lia.
    - rewrite app_length. simpl. rewrite Nat.add_1_r. 
      replace (S (length l)) with (length (firstn (length l) m) + 1)%nat by (rewrite firstn_length; lia).
      rewrite firstn_app_2. simpl. rewrite map_app, E. reflexivity.
  Qed.

  Lemma resize_ok : forall l s n, holds l s -> lenz l < 2 ^ 31 -> holds l (resize n s) /\ n <= cap (resize n s) /\ cap s <= cap (resize n s) /\ blk (resize n s) = blk s.
  Proof.
    intros l s n [H1 H2 H3 H4 H5] L. unfold resize. destruct (Z.leb_spec n (cap s)) as [G|G]; [split; [constructor; auto|split; [lia|split; [lia|auto]]]|].
    cbn [cap blk]. split; [|split; [lia|split; [lia|auto]]]. constructor; cbn [mem pos cap blk].
    - rewrite app_length. unfold garbage. rewrite repeat_length, firstn_length. unfold header in *. lia.
    - rewrite H2. apply to_int_id. lia.
    - lia.
    - lia.
    - rewrite firstn_app. unfold header in *. rewrite firstn_firstn. replace (Nat.min (length l) (Z.to_nat (cap s + 17))) with (length l) by lia.
      replace (length l - length (firstn (Z.to_nat (cap s + 17)) (mem s)))%nat with 0%nat by (rewrite firstn_length; lia).
      rewrite firstn_O, app_nil_r. auto.
  Qed.

  Lemma sputc_ok : forall l s c, holds l s -> lenz l < 2 ^ 31 -> exists s', sputc c s = Some s' /\ holds (l ++ [c]) s' /\ blk s' = blk s.
  Proof.
    intros l s c H L. unfold sputc, overflow. pose proof H as [H1 H2 H3 H4 H5].
    assert (LA : lenz (l ++ [c]) = lenz l + 1) by (rewrite app_length; simpl; lia).
    destruct (Z.ltb_spec (pos s) (cap s)) as [G|G].
    - rewrite H2. destruct (store_ok l (mem s) c H5) as (m' & S1 & S2 & S3); [unfold header in H1; lia|]. rewrite S1. eexists. split; [reflexivity|].
      split; [|auto]. constructor; cbn [mem pos cap]; auto; lia.
    - destruct (resize_ok l s (cap s * 2) H L) as ([R1 R2 R3 R4 R5] & RC & RD & RB). rewrite R2.
      destruct (store_ok l (mem (resize (cap s * 2) s)) c R5) as (m' & S1 & S2 & S3); [unfold header in R1; lia|]. rewrite S1. eexists. split; [reflexivity|].
      split; [|auto]. constructor; cbn [mem pos cap]; auto; try lia.
  Qed.

  Lemma sputn_ok : forall r l s, holds l s -> lenz l + lenz r <= 2 ^ 31 -> exists s', sputn r s = Some s' /\ holds (l ++ r) s' /\ blk s' = blk s.
  Proof.
    induction r as [|c r IH]; intros l s H L.
    - exists s. rewrite app_nil_r. auto.
    - cbn [length] in L. destruct (sputc_ok l s c H) as (s1 & E1 & H1 & B1); [lia|]. simpl. rewrite E1.
      destruct (IH (l ++ [c]) s1 H1) as (s2 & E2 & H2 & B2); [rewrite app_length; simpl; lia|]. exists s2. rewrite <- app_assoc in H2. split; auto. split; [auto|congruence].
  Qed.

  Lemma new_ok : forall b n, 1 <= n -> holds [] (ser_new (B := B) b n) /\ blk (ser_new (B := B) b n) = b.
  Proof.
    intros b n L. unfold ser_new, resize. cbn [cap]. destruct (Z.leb_spec n 0); [lia|]. cbn [blk]. split; auto.
    constructor; cbn [mem pos cap length]; auto; try lia.
    rewrite app_length, firstn_nil. unfold garbage, header. rewrite repeat_length. simpl. lia.
  Qed.
  Lemma reset_ok : forall l s b, holds l s -> holds [] (snd (get_reset b s)) /\ blk (snd (get_reset b s)) = b.
  Proof.
    intros l s b [H1 H2 H3 H4 H5]. cbn [get_reset snd blk]. split; auto. constructor; cbn [mem pos cap length]; auto; try lia.
    unfold garbage. rewrite repeat_length. unfold header. lia.
  Qed.

  Lemma ser_all_ok : forall ms s, holds [] s -> (forall m, In m ms -> lenz m <= 2 ^ 31) ->
    exists outs s', ser_all ms s = Some (outs, s') /\ map (fun o => deser (snd (fst o)) (snd o)) outs = map (map Some) ms /\
      map (fun o => fst (fst o)) outs = map (fun i => (blk s + i)%nat) (seq 0 (length ms)) /\
      Forall (fun o => lenz (snd (fst o)) >= snd o + header) outs.
  Proof.
    induction ms as [|m ms IH]; intros s H L.
    - exists [], s. repeat split; auto.
    - destruct (sputn_ok m [] s H) as (s1 & E1 & H1 & B1); [simpl length; specialize (L m (or_introl eq_refl)); lia|]. simpl in H1.
      cbn [ser_all]. rewrite E1. destruct (get_reset (S (blk s1)) s1) as [o s2] eqn:G.
      destruct (reset_ok m s1 (S (blk s1)) H1) as [H2 B2]. rewrite G in H2, B2. cbn [snd] in H2, B2.
      destruct (IH s2 H2) as (outs & s' & E & D & I & F); [intros; apply L; right; auto|]. rewrite E. cbn [option_map fst snd].
      injection G as <- <-. destruct H1 as [A1 A2 A3 A4 A5]. exists ((blk s1, mem s1, pos s1) :: outs), s'. split; auto. split; [|split].
      + cbn [map fst snd]. f_equal; auto. unfold deser. rewrite A2, Nat2Z.id. auto.
      + cbn [map fst snd seq length]. f_equal; [rewrite B1; lia|]. rewrite I. rewrite <- seq_shift, map_map. apply map_ext. intros i. cbn [blk]. rewrite B1. lia.
      + constructor; auto. cbn [fst snd]. lia.
  Qed.

  (** Past 2^31 bytes the new position is negative. *)
  Lemma overflow_bad : forall l s c, holds l s -> pos s = cap s -> 2 ^ 31 <= cap s < 2 ^ 32 -> sputc c s = None.
  Proof.
    intros l s c [H1 H2 H3 H4 H5] P C. unfold sputc. replace (pos s <? cap s) with false by lia. unfold overflow, resize.
    replace (cap s * 2 <=? cap s) with false by lia. cbn [mem pos blk cap]. pose proof (to_int_neg (pos s)) as T. unfold store.
    replace (0 <=? to_int (pos s)) with false by lia. auto.
  Qed.

  (** The capacity starts at 2 and doubles. *)
  Definition pow2 (s : sbuf) : Prop := exists k, 0 <= k <= 31 /\ cap s = 2 ^ k.
  Lemma pow2_step : forall l s c s', holds l s -> pow2 s -> lenz l < 2 ^ 31 -> sputc c s = Some s' -> pow2 s'.
  Proof.
    intros l s c s' [H1 H2 H3 H4 H5] (k & K & C) L E. unfold sputc in E. destruct (Z.ltb_spec (pos s) (cap s)) as [G|G].
    - destruct (store (mem s) (pos s) c); [|discriminate]. injection E as <-. exists k. auto.
    - unfold overflow in E. destruct (store _ _ c); [|discriminate]. injection E as <-. cbn [cap]. unfold pow2, resize. cbn [cap].
      replace (cap s * 2 <=? cap s) with false by lia. cbn [cap].
      assert (K31 : k < 31). { destruct (Z.eq_dec k 31) as [->|NE]; [|lia]. lia. }
      exists (k + 1). split; [lia|]. rewrite C, Z.pow_add_r by lia. lia.
  Qed.
  Lemma pow2_exec : forall r l s s', holds l s -> pow2 s -> lenz l + lenz r <= 2 ^ 31 -> sputn r s = Some s' -> pow2 s'.
  Proof.
    induction r as [|c r IH]; intros l s s' H P L E; simpl in E; [injection E as <-; auto|]. cbn [length] in L.
    destruct (sputc_ok l s c H) as (s1 & E1 & H1 & _); [lia|]. rewrite E1 in E. eapply (IH (l ++ [c]) s1); eauto.
    - apply (pow2_step l s c s1 H P); [lia|auto].
    - rewrite app_length. simpl. lia.
  Qed.
  Lemma sputn_app : forall (a b : list B) (s : sbuf), sputn (a ++ b) s = match sputn a s with Some s' => sputn b s' | None => None end.
  Proof. induction a as [|c a IH]; intros b s; auto. simpl. destruct (sputc c s); auto. Qed.

  Lemma too_long : forall (bytes : list B) b, 2 ^ 31 < lenz bytes -> sputn bytes (ser_new b 2) = None.
  Proof.
    intros bytes b L. assert (N31 : exists n, Z.of_nat n = 2 ^ 31) by (exists (Z.to_nat (2 ^ 31)); apply Z2Nat.id; discriminate). destruct N31 as [n N31].
    rewrite <- (firstn_skipn n bytes), sputn_app. assert (LF : length (firstn n bytes) = n) by (rewrite firstn_length; lia).
    destruct (new_ok b 2 ltac:(lia)) as [H0 _].
    destruct (sputn_ok (firstn n bytes) [] (ser_new b 2) H0) as (s & E & H & _); [rewrite LF; simpl; lia|]. rewrite E.
    assert (P : pow2 s). { eapply (pow2_exec (firstn n bytes) []); eauto; [exists 1; simpl; lia|rewrite LF; simpl; lia]. }
    destruct P as (k & K & C). simpl in H. pose proof H as [H1 H2 H3 H4 H5]. rewrite LF, N31 in *.
    assert (k = 31). { destruct (Z.eq_dec k 31) as [|NE]; auto. assert (2 ^ k < 2 ^ 31) by (apply Z.pow_lt_mono_r; lia). lia. } subst k.
    destruct (skipn n bytes) as [|c r] eqn:SK.
    - exfalso. apply (f_equal (@length B)) in SK. rewrite skipn_length in SK. simpl in SK. lia.
    - cbn [sputn]. rewrite (overflow_bad _ s c H); auto; lia.
  Qed.
End Proofs.
