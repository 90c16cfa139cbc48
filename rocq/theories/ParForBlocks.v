(** Exact size of the block each worker runs under the default static scheduling. *)
From Coq Require Import List ZArith Lia Bool.
From Verif Require Import Base ParForSpec ParForModel ParForLoop ParForInit ParForDyn ParForStatic ParForMain.
Import ListNotations.
Local Open Scope Z_scope.

Lemma fill_static_sizes : forall step chunk stop r, 1 <= step -> 0 <= chunk -> 0 <= r ->
  forall k i start data, (i + k <= length data)%nat -> r <= Z.of_nat (i + k) ->
  len start stop step = Z.of_nat k * chunk + Z.max 0 (r - Z.of_nat i) ->
  forall j, (j < i + k)%nat -> (i <= j)%nat ->
  exists c, nth_error (fill_static step chunk stop r k i start data) j = Some c /\
    len (lo c) (hi c) step = chunk + (if Z.of_nat j <? r then 1 else 0).
Proof.
  intros step chunk stop r Hs Hc Hr0.
  induction k as [|k IH]; intros i start data Hl Hr HL j J1 J2; cbn [fill_static]; [lia|].
  set (t := chunk + (if Z.of_nat i <? r then 1 else 0)).
  set (e := start + (chunk - 1) * step + 1 + (if Z.of_nat i <? r then step else 0)).
  set (en := if e <? stop then e else stop).
  assert (Ee : e = start + ((t - 1) * step + 1)).
  { unfold e, t. destruct (Z.of_nat i <? r); lia. }
  assert (Een : en = Z.min (start + ((t - 1) * step + 1)) stop).
  { unfold en. rewrite <- Ee. destruct (Z.ltb_spec e stop); lia. }
  assert (T0 : 0 <= t) by (unfold t; destruct (Z.of_nat i <? r); lia).
  assert (X : len start en step = Z.min t (len start stop step) /\
              len (en - 1 + step) stop step = Z.max 0 (len start stop step - t)).
  { destruct (Z.eq_dec t 0) as [Z0|NZ].
    - assert (en <= start) by (rewrite Een, Z0; lia).
      assert (len (en - 1 + step) stop step = len start stop step) as A.
      { destruct (Z_lt_le_dec e stop) as [L|L].
        - replace (en - 1 + step) with start by (rewrite Een, Z0; lia). auto.
        - assert (en = stop) by (rewrite Een, <- Ee; lia).
          unfold len. rewrite !loop_nil by lia. auto. }
      rewrite (len_nil start en), A by lia.
      pose proof (len_nonneg start stop step). lia.
    - rewrite Een. apply chunk_split; lia. }
  destruct X as (X2 & X3).
  assert (TL : t <= len start stop step).
  { rewrite HL. unfold t. destruct (Z.ltb_spec (Z.of_nat i) r); nia. }
  destruct (Nat.eq_dec j i) as [->|NE].
  - exists (mkCell 1 start en). split.
    + rewrite fill_static_before by lia. apply nth_error_lupd_eq. lia.
    + cbn [lo hi]. rewrite X2. fold t. lia.
  - apply IH; try lia.
    + rewrite lupd_length. lia.
    + rewrite X3, HL. unfold t. destruct (Z.ltb_spec (Z.of_nat i) r); nia.
Qed.

Lemma static_sizes : forall first last step nw data used lg d',
  1 <= step -> (1 <= nw)%nat -> last - first < 2 ^ 64 ->
  parfor_run first last step 0 (fun _ => body_plain step) nw data used lg d' ->
  forall w, (w < nw)%nat ->
  Z.of_nat (length (wlog w lg)) =
  len first last step / Z.of_nat nw + (if Z.of_nat w <? len first last step mod Z.of_nat nw then 1 else 0).
Proof.
  intros first last step nw data used lg d' Hs Hw HB R w Lw.
  pose proof (len_nonneg first last step) as LN.
  destruct (Z_le_gt_dec last first) as [C|C].
  { rewrite (static_empty_main _ _ _ _ _ _ _ _ C Hs Hw R).
    rewrite len_nil by lia. rewrite Z.mod_0_l, Z.div_0_l by lia.
    destruct (Z.ltb_spec (Z.of_nat w) 0); simpl; lia. }
  destruct (init_static_ok first last step nw data Hs Hw HB)
    as (u0 & E0 & ST & SN & SL & TT & ON & CV).
  set (N := ceil_div (last - first) step) in *. set (W := Z.of_nat nw) in *.
  assert (HN : N = len first last step) by (unfold N; rewrite len_ceil by lia; reflexivity).
  assert (N < 2 ^ 64).
  { assert (N <= last - first); [|lia]. unfold N, ceil_div. apply Z.lt_succ_r. apply Z.div_lt_upper_bound; nia. }
  pose proof (Z.div_mod N W ltac:(lia)) as DM.
  pose proof (Z.mod_pos_bound N W ltac:(lia)) as MB.
  assert (Q0 : 0 <= N / W) by (apply Z.div_pos; lia).
  destruct (fill_static_sizes step (N / W) last (N mod W) Hs Q0 ltac:(lia) nw 0 first (resize nw data))
    with (j := w) as (c & Ec & Lc); try lia.
  { rewrite resize_length. lia. }
  assert (SD : s_data u0 = fill_static step (N / W) last (N mod W) nw 0 first (resize nw data) /\
               s_chunk u0 = if N mod W =? 0 then N / W else N / W + 1).
  { revert E0. unfold setloop. simpl (0 =? 0). cbv iota. unfold init_data_static0, finish_setloop.
    fold N W. destruct (Z.ltb_spec W 1); [lia|]. rewrite Z.leb_refl. simpl orb. cbv iota.
    rewrite (Z.mod_small N (2 ^ 64)), Z.quot_div_nonneg by lia.
    intros [= <-]. cbn [s_data s_chunk]. auto. }
  destruct SD as (SD & SC). rewrite <- HN.
  assert (SH : share step (s_chunk u0) (body_plain step) c = rem step c).
  { apply loop_share; auto. left. rewrite Lc, SC.
    destruct (Z.ltb_spec (Z.of_nat w) (N mod W)), (Z.eqb_spec (N mod W) 0); lia. }
  assert (LR : Z.of_nat (length (rem step c)) = N / W + (if Z.of_nat w <? N mod W then 1 else 0)).
  { rewrite <- Lc. reflexivity. }
  inversion R as [u Eu N1|u sp l s Eu N1 Ex A|u sp l s Eu N1 NT Ex A]; subst used lg d';
    rewrite E0 in Eu; injection Eu as <-.
  - assert (nw = 1%nat) as Enw by lia. assert (w = 0%nat) as -> by lia.
    rewrite wlog0_all. unfold body_plain.
    assert (W = 1) as EW by lia. rewrite EW, Z.div_1_r, Z.mod_1_r. simpl (Z.of_nat 0 <? 0).
    cbv iota. rewrite HN. unfold len. change (0 <? 0) with false. cbv iota. lia.
  - rewrite ST in Ex. apply static_run with (chunk := s_chunk u0) in Ex as (X & Y & _); auto.
    + rewrite <- SD in Ec. destruct (X w c) as (Q & _); [lia|exact Ec|].
      rewrite Q, SH. exact LR.
    + intros; apply body_plain_nil; auto.
    + lia.
    + intros w' c' Hi Ei. apply ON. eapply nth_error_In; eauto.
  - lia.
Qed.

(** Two ways to cut the same list into blocks of the same sizes agree block by block. *)
Lemma cut_unique : forall (X : Type) n (f g : nat -> list X) k,
  (forall w, (k <= w < k + n)%nat -> length (f w) = length (g w)) ->
  flat_map f (seq k n) = flat_map g (seq k n) ->
  forall w, (k <= w < k + n)%nat -> f w = g w.
Proof.
  induction n as [|n IH]; intros f g k L E w Lw; [lia|].
  cbn [seq flat_map] in E.
  assert (E0 : f k = g k /\ flat_map f (seq (S k) n) = flat_map g (seq (S k) n)).
  { pose proof (L k ltac:(lia)) as Lk. clear - E Lk. revert E Lk. generalize (g k).
    induction (f k) as [|a l I]; intros [|b m] E Lk; try discriminate Lk; [auto|].
    cbn [app] in E. injection E as -> E. cbn [length] in Lk. destruct (I m) as (-> & ?); auto. }
  destruct (Nat.eq_dec w k) as [->|NE]; [apply E0|].
  apply (IH f g (S k)); [intros; apply L; lia|apply E0|lia].
Qed.

(** A run to the end exists (workers on a spinning barrier). *)
Lemma cstep_pcs : forall step chunk st F s a s',
  cstep step chunk st F s a = Some s' -> length (pcs s') = length (pcs s).
Proof.
  intros step chunk st F s a s' H. unfold cstep in H.
  destruct (nth_error (pcs s) (w_id a)) as [p|]; [|discriminate].
  destruct p; try discriminate;
  repeat match goal with
         | H : context [match nth_error ?l ?i with _ => _ end] |- _ => destruct (nth_error l i); [|discriminate]
         | H : (if ?c then _ else _) = Some _ |- _ => destruct c
         end; try discriminate; injection H as <-; cbn [pcs setpc]; apply lupd_length.
Qed.

Lemma static_run_exists : forall first last step nw data,
  1 <= step -> (1 <= nw)%nat -> last - first < 2 ^ 64 ->
  exists lg data', parfor_run first last step 0 (fun _ => body_plain step) nw data nw lg data'.
Proof.
  intros first last step nw data Hs Hw HB.
  destruct (init_static_ok first last step nw data Hs Hw HB)
    as (u0 & E0 & ST & SN & SL & TT & ON & CV).
  destruct (static_terminates_main first last step nw data Hs Hw HB) as (u & Eu & _ & TM).
  assert (u = u0) as -> by congruence.
  destruct (Nat.eq_dec nw 1) as [->|N1].
  { do 2 eexists. apply (run_seq first last step 0 (fun _ => body_plain step) 1 data u0 E0 SN). }
  assert (G : forall k l s,
    exec (cstep step (s_chunk u0) true (body_plain step)) (conc_start step true u0) l = Some s ->
    filter (fun a => negb (w_ok a)) l = [] -> (9 * nw <= length l + k)%nat ->
    exists l' s', exec (cstep step (s_chunk u0) true (body_plain step)) (conc_start step true u0) l' = Some s' /\
      all_ended s').
  { induction k as [|k IH]; intros l s E FL LK;
    (assert (LP : length (pcs s) = nw);
     [refine (exec_inv (cstep step (s_chunk u0) true (body_plain step))
               (fun t => length (pcs t) = nw) _ _ _ _ _ E);
      [intros a b c I Hc; rewrite (cstep_pcs _ _ _ _ _ _ _ Hc); exact I
      |unfold conc_start; cbn [pcs]; rewrite repeat_length; exact SN]|]);
    (destruct (forallb (fun p => match p with WEnd => true | _ => false end) (pcs s)) eqn:D;
     [exists l, s; split; [exact E|];
      intros p I; rewrite forallb_forall in D; specialize (D p I); destruct p; try discriminate; reflexivity|]);
    (assert (exists w p, (w < nw)%nat /\ nth_error (pcs s) w = Some p /\ p <> WEnd) as (w & p & Lw & Ep & NE);
     [rewrite <- LP; clear - D; induction (pcs s) as [|q t I]; [discriminate|];
      cbn [forallb] in D; apply andb_false_iff in D as [D|D];
      [exists 0%nat, q; split; [simpl; lia|]; split; [reflexivity|]; intros ->; discriminate
      |destruct (I D) as (w & p & A & B & C); exists (S w), p; split; [simpl; lia|]; split; [exact B|exact C]]|]);
    destruct (TM true l s E) as (BD & PG);
    (destruct (PG w Lw) as (s' & Es); [rewrite Ep; congruence|]).
    - rewrite FL in BD. cbn [length] in BD.
      assert (E' : exec (cstep step (s_chunk u0) true (body_plain step)) (conc_start step true u0)
                     (l ++ [W w true 0]) = Some s').
      { apply exec_app. exists s. split; [exact E|]. cbn [exec]. rewrite Es. reflexivity. }
      destruct (TM true _ s' E') as (BD' & _). rewrite filter_app, FL, app_length in BD'.
      cbn [filter w_ok negb app length] in BD'. lia.
    - apply (IH (l ++ [W w true 0]) s').
      + apply exec_app. exists s. split; [exact E|]. cbn [exec]. rewrite Es. reflexivity.
      + rewrite filter_app, FL. reflexivity.
      + rewrite app_length. simpl. lia. }
  destruct (G (9 * nw)%nat [] (conc_start step true u0)) as (l & s & E & A); [reflexivity|reflexivity|simpl; lia|].
  exists (log s), (cells s). rewrite <- SN at 2.
  apply (run_conc first last step 0 (fun _ => body_plain step) nw data u0 true l s); auto; [lia|].
  rewrite ST. exact E.
Qed.
