(** C67: the queue of variable-size messages (ff/ff_queue.hpp) on TSO. *)
From Coq Require Import List Arith Bool Lia.
From Verif Require Import Base FfqModel FfqSpec.
From Verif Require FfqProofs FfqInv.
Import ListNotations.

(** For all bucket sizes of at least a word, all initial memories and all executions: the consumer finds the
    messages in the order of the commits, each once, with the words the producer wrote, and never before they
    are visible; it finds the queue empty only when it has taken all the visible ones. *)
Theorem ffq_fifo : forall B maxb m0 p s,
  8 <= B -> exec (step B maxb) (init B m0) p = Some s -> fifo (tr s).
Proof.
  intros B maxb m0 p s HB E. destruct (FfqInv.inv_reach B maxb m0 HB p s E) as (pre & cs & ks & k & I).
  exact (FfqInv.i_fifo _ _ _ _ _ _ I).
Qed.

(** No access is outside the allocated buckets: a bucket is freed or used again only when nobody needs it. *)
Theorem ffq_safe : forall B maxb m0 p s,
  8 <= B -> exec (step B maxb) (init B m0) p = Some s -> bad s = false.
Proof.
  intros B maxb m0 p s HB E. destruct (FfqInv.inv_reach B maxb m0 HB p s E) as (pre & cs & ks & k & I).
  exact (FfqInv.i_bad _ _ _ _ _ _ I).
Qed.

(** A committed message is visible as soon as the stores of the producer have reached memory. *)
Theorem ffq_visible : forall B maxb m0 p s,
  8 <= B -> exec (step B maxb) (init B m0) p = Some s -> pbuf s = [] -> visible (tr s) = length (sent (tr s)).
Proof.
  intros B maxb m0 p s HB E PB. destruct (FfqInv.inv_reach B maxb m0 HB p s E) as (pre & cs & ks & k & I).
  destruct I. rewrite PB in i_ok. destruct i_ok as [_ K]. rewrite i_vis, K, firstn_all.
  assert (L : length (sent (tr s)) - taken (tr s) = length (FfqProofs.msgs ks)) by (rewrite <- skipn_length, i_sent; reflexivity).
  lia.
Qed.

(** dequeue_prepare returns by itself, after at most one step for each bucket. *)
Theorem ffq_dequeue_returns : forall B maxb m0 p s,
  8 <= B -> exec (step B maxb) (init B m0) p = Some s -> cp s = CLoad ->
  exists n s', n <= length (chain s) /\ exec (step B maxb) s (repeat C n) = Some s' /\ cp s' <> CLoad.
Proof.
  intros B maxb m0 p s HB E CL. destruct (FfqInv.inv_reach B maxb m0 HB p s E) as (pre & cs & ks & k & I).
  assert (Q : forall ks s pre cs k, FfqInv.inv B s pre cs ks k -> cp s = CLoad ->
    exists n s', n <= S (length (FfqProofs.hops ks)) /\ exec (step B maxb) s (repeat C n) = Some s' /\ cp s' <> CLoad).
  { clear - HB. induction ks as [|x ks IH]; intros s pre cs k I CL.
    - exists 1. assert (H := FfqInv.head_word B _ _ _ _ _ I). cbn [repeat exec step]. unfold stepC. rewrite CL.
      destruct (get (mem s) (hreg s)) as [v| |n|g].
      + contradiction.
      + eexists. split; [lia|]. split; [reflexivity|discriminate].
      + destruct H as (l & ks' & k' & X & _). discriminate.
      + destruct H as (ks' & k' & X & _). discriminate.
    - assert (H := FfqInv.head_word B _ _ _ _ _ I).
      destruct (get (mem s) (hreg s)) as [v| |n|g] eqn:G.
      + contradiction.
      + exists 1. cbn [repeat exec step]. unfold stepC. rewrite CL, G. eexists. split; [lia|]. split; [reflexivity|discriminate].
      + exists 1. cbn [repeat exec step]. unfold stepC. rewrite CL, G. eexists. split; [lia|]. split; [reflexivity|discriminate].
      + destruct H as (ks' & k' & X & ->). injection X as -> <-.
        assert (St : exists s1, stepC s = Some s1 /\ cp s1 = CLoad /\ FfqInv.inv B s1 pre (cs ++ [FfqProofs.KHop g]) ks k').
        { assert (S1 : step B maxb s C = Some (sethead (touch s (hreg s)) (g, 0))) by (cbn [step]; unfold stepC; rewrite CL, G; reflexivity).
          eexists. split; [exact S1|]. split; [exact CL|].
          assert (W := FfqInv.tame_head B _ _ _ _ _ I). assert (PS := FfqInv.poss_snoc B _ _ _ _ _ _ I). destruct I.
          constructor; cbn [mem alive bsz hmem pbuf cbuf tail tlen chain nalloc hreg pp cp bad tr sethead touch]; auto.
          * rewrite FfqProofs.adv_app, <- i_hreg. reflexivity.
          * rewrite <- app_assoc. exact i_chain.
          * rewrite <- app_assoc. exact i_fits.
          * apply (FfqProofs.ok_drop (pbuf s) (mem s) (hreg s) (FfqProofs.KHop g)) in i_ok. exact i_ok.
          * rewrite i_bad, W. reflexivity.
          * rewrite CL. exact Logic.I. }
        destruct St as (s1 & S1 & C1 & I1). destruct (IH s1 _ _ _ I1 C1) as (n & s' & N & X & D).
        exists (S n), s'. split; [change (FfqProofs.hops (FfqProofs.KHop g :: ks)) with (g :: FfqProofs.hops ks); cbn [length]; lia|]. split; [|exact D]. cbn [repeat exec step]. rewrite S1. exact X. }
  destruct (Q ks s pre cs k I CL) as (n & s' & N & X). exists n, s'. split; [|exact X].
  assert (L : length (chain s) = length pre + S (length (FfqProofs.hops cs ++ FfqProofs.hops ks))).
  { rewrite <- (map_length fst), (FfqInv.i_chain _ _ _ _ _ _ I), app_length, FfqProofs.hops_app. reflexivity. }
  rewrite app_length in L. lia.
Qed.

(** enqueue_prepare returns when a message of that size, its leading word and the next one fit into a new
    bucket. *)
Theorem ffq_prepare_returns_partial : forall B maxb m0 p s sz m,
  8 <= B -> exec (step B maxb) (init B m0) p = Some s -> pp s = PTry sz -> alive s m = false ->
  8 * words sz + 16 <= need B sz ->
  exists n s', n <= 6 /\ exec (step B maxb) s (repeat (P m) n) = Some s' /\ pp s' = PReady (repeat None (words sz)).
Proof.
  intros B maxb m0 p s sz m HB E EP AM FIT.
  destruct (room s sz) eqn:R.
  { exists 1. eexists. split; [lia|]. cbn [repeat exec step]. unfold stepP. rewrite EP, R. split; reflexivity. }
  set (s1 := setP s (PSlow sz)). assert (S1 : step B maxb s (P m) = Some s1) by (cbn [step]; unfold stepP; rewrite EP, R; reflexivity).
  set (s2 := setP s1 (PScan sz (hmem s1))). assert (S2 : step B maxb s1 (P m) = Some s2) by reflexivity.
  assert (I2 : exists pre cs ks k, FfqInv.inv B s2 pre cs ks k).
  { apply (FfqInv.inv_step B maxb HB s1 (P m)); [|exact S2]. apply (FfqInv.inv_step B maxb HB s (P m)); [|exact S1].
    exact (FfqInv.inv_reach B maxb m0 HB p s E). }
  destruct I2 as (pre & cs & ks & k & I).
  assert (Q := FfqInv.i_pp _ _ _ _ _ _ I). unfold FfqInv.pinv in Q. cbn [s2 pp setP] in Q. destruct Q as [Q1 Q2].
  destruct (FfqProofs.scan_ok maxb (hmem s1) (need B sz) (nalloc s2) (fst (hmem s2)) (chain s2) [] pre (FfqProofs.hops (cs ++ ks))
              (FfqInv.i_chain _ _ _ _ _ _ I) (FfqInv.i_nd _ _ _ _ _ _ I) Q1) as (r & ch & fr & popped & pre' & S & _ & _ & _ & _).
  { intros z Z. apply (FfqInv.i_alive _ _ _ _ _ _ I) in Z. cbn [s2 bsz setP s1] in *. lia. }
  assert (S3 : exists s3 g, step B maxb s2 (P m) = Some s3 /\ pp s3 = PInit sz g).
  { cbn [step]. unfold stepP. change (pp s2) with (PScan sz (hmem s1)). cbv beta iota. rewrite S. destruct r as [g|].
    - eexists. exists g. split; reflexivity.
    - assert (RM : release (alive s2) fr m = false) by (unfold release; destruct (existsb (Nat.eqb m) fr); [reflexivity|exact AM]).
      rewrite RM. eexists. exists m. split; reflexivity. }
  destruct S3 as (s3 & g & S3 & E3).
  set (s4 := setP (store s3 (g, 0) One) (PLink sz g)).
  assert (S4 : step B maxb s3 (P m) = Some s4) by (cbn [step]; unfold stepP; rewrite E3; reflexivity).
  set (s5 := setP (settail (store s4 (tail s4) (Link g)) (g, 0) (need B sz) (chain s4 ++ [(g, bsz s4 g)])) (PTry sz)).
  assert (S5 : step B maxb s4 (P m) = Some s5) by reflexivity.
  set (s6 := setP s5 (PReady (repeat None (words sz)))).
  assert (S6 : step B maxb s5 (P m) = Some s6).
  { cbn [step]. unfold stepP. change (pp s5) with (PTry sz). cbv beta iota.
    assert (R5 : room s5 sz = true) by (unfold room, s5; cbn [tlen tail settail setP snd]; apply Nat.leb_le; lia).
    rewrite R5. reflexivity. }
  exists 6, s6. split; [lia|]. cbn [repeat exec].
  rewrite S1. cbn [exec]. rewrite S2. cbn [exec]. rewrite S3. cbn [exec]. rewrite S4. cbn [exec]. rewrite S5. cbn [exec]. rewrite S6.
  split; reflexivity.
Qed.

(** Sizes that are a multiple of the word, and sizes small enough for the bucket size given. *)
Lemma fits_aligned : forall B n, 8 * words (8 * n) + 16 <= need B (8 * n).
Proof.
  intros B n. unfold words, need.
  assert (W : (8 * n + 7) / 8 = n) by (symmetry; apply Nat.div_unique with 7; lia).
  rewrite W. destruct (Nat.ltb_spec B (8 * n + 16)); lia.
Qed.

(** For the other sizes the new bucket is too small for the message, and enqueue_prepare requests buckets for
    ever: whatever the other thread does, the first call of the program does not return. *)
Theorem ffq_prepare_hangs : forall B maxb m0 sz p s,
  need B sz < 8 * words sz + 16 ->
  exec (step B maxb) (init B m0) (CallPrep sz :: p) = Some s ->
  forall l, pp s <> PReady l.
Proof.
  intros B maxb m0 sz p s N E l. cbn [exec step init pp] in E.
  set (J := fun s : st => tlen s < 8 * words sz + 16 /\
              match pp s with PTry z | PSlow z | PScan z _ | PInit z _ | PLink z _ => z = sz | _ => False end).
  assert (K : J s).
  { refine (exec_inv (step B maxb) J _ _ _ _ _ E).
    - clear - N. intros s a s' [J1 J2] H. destruct a as [z|i v| |m| | |i| | | |q w]; cbn [step] in H.
      + destruct (pp s); try contradiction; discriminate.
      + destruct (pp s); try contradiction; discriminate.
      + destruct (pp s); try contradiction; discriminate.
      + unfold stepP in H. destruct (pp s) as [|z|z|z h|z g|z g|l|l] eqn:Ep; try contradiction; subst z.
        * destruct (room s sz) eqn:R; injection H as <-.
          -- unfold room in R. apply Nat.leb_le in R. lia.
          -- split; [exact J1|reflexivity].
        * injection H as <-. split; [exact J1|reflexivity].
        * destruct (scan _ _ _ _ _ _) as [[[[g|] ch] fr]|] eqn:S.
          -- injection H as <-. split; [exact J1|reflexivity].
          -- destruct (release _ _ _); [discriminate|]. injection H as <-. split; [exact J1|reflexivity].
          -- injection H as <-. split; [exact J1|]. cbn [crash pp]. rewrite Ep. reflexivity.
        * injection H as <-. split; [exact J1|reflexivity].
        * injection H as <-. split; [exact N|reflexivity].
      + destruct (cp s); try discriminate; injection H as <-; exact (conj J1 J2).
      + unfold stepC in H. destruct (cp s); try discriminate. destruct (get _ _); injection H as <-; exact (conj J1 J2).
      + destruct (cp s); try discriminate. destruct (get (mem s) (hreg s)) as [| | |]; try discriminate.
        destruct (i <? _); [|discriminate]. injection H as <-. exact (conj J1 J2).
      + destruct (cp s); try discriminate. destruct (get _ _); injection H as <-; exact (conj J1 J2).
      + destruct (pbuf s) as [|[q w] b]; [discriminate|]. injection H as <-. destruct w; exact (conj J1 J2).
      + destruct (cbuf s); [discriminate|]. injection H as <-. exact (conj J1 J2).
      + destruct (alive s (fst q)); [discriminate|]. injection H as <-. exact (conj J1 J2).
    - split; [|reflexivity]. cbn [setP init tlen]. unfold need in N. destruct (Nat.ltb_spec B (sz + 16)); lia. }
  destruct K as [_ K]. intros X. rewrite X in K. exact K.
Qed.

Definition ffq_prepare_returns_claim : Prop := forall B maxb m0 p s sz m,
  8 <= B -> exec (step B maxb) (init B m0) p = Some s -> pp s = PTry sz -> alive s m = false ->
  exists p' s' l, exec (step B maxb) s p' = Some s' /\ pp s' = PReady l.
Theorem ffq_prepare_returns_refuted : ~ ffq_prepare_returns_claim.
Proof.
  intros H.
  destruct (H 16 4 (fun _ _ => One) [CallPrep 1] _ 1 7 ltac:(lia) eq_refl eq_refl eq_refl) as (p' & s' & l & E & X).
  refine (ffq_prepare_hangs 16 4 (fun _ _ => One) 1 p' s' _ _ l X); [vm_compute; lia|exact E].
Qed.

(** ** Non-vacuity: buckets of 24 bytes; the second message needs a second bucket, the third one uses the first
    bucket again. *)
Definition flush : list act := [DrainP; DrainP; DrainP].
Definition slow (m : nat) : list act := [P m; P m; P m; P m; P m; P m].
Definition recv : list act := [CallDeq; C].
Example ffq_run : exists s,
  exec (step 24 4) (init 24 (fun _ _ => Data 99))
    ([CallPrep 8; P 5; Write 0 41; Commit; P 5] ++ flush ++ [CallPrep 7] ++ slow 5 ++ [Write 0 42; Commit; P 5] ++
     recv ++ [Read 0; Take] ++ recv ++ [DrainP; DrainP; DrainP; DrainP; DrainP; CallDeq; C; C; Read 0; Take; DrainC; DrainC; DrainC;
     CallPrep 3] ++ slow 6 ++ [Commit; P 6; DrainP; DrainP; DrainP; DrainP] ++ [CallDeq; C; C; Take] ++ recv) = Some s /\
  tr s = [ECommit [Some 41]; EVis; ECommit [Some 42]; EGot; ERead 0 (Data 41); ETake; EEmpty; EVis; EGot; ERead 0 (Data 42); ETake;
          ECommit [None]; EVis; EGot; ETake; EEmpty] /\
  map fst (chain s) = [5; 0] /\ pbuf s = [].
Proof. eexists. split; [vm_compute; reflexivity|]. split; [reflexivity|]. split; reflexivity. Qed.
Example ffq_prepare_case : exists s, exec (step 24 4) (init 24 (fun _ _ => One)) [CallPrep 13] = Some s /\ pp s = PTry 13 /\
  alive s 5 = false /\ need 24 13 < 8 * words 13 + 16 /\ 8 * words 16 + 16 <= need 24 16.
Proof. eexists. split; [reflexivity|]. split; [reflexivity|]. split; [reflexivity|]. vm_compute. lia. Qed.
Example ffq_dequeue_case : exists s, exec (step 24 4) (init 24 (fun _ _ => One)) [CallDeq] = Some s /\ cp s = CLoad.
Proof. eexists. split; reflexivity. Qed.

Print Assumptions ffq_fifo.
Print Assumptions ffq_safe.
Print Assumptions ffq_visible.
Print Assumptions ffq_dequeue_returns.
Print Assumptions ffq_prepare_returns_partial.
Print Assumptions ffq_prepare_hangs.
Print Assumptions ffq_prepare_returns_refuted.
