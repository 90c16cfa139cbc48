(** free, realloc and the whole transition function. *)
From Coq Require Import List ZArith Lia Bool Permutation.
From Verif Require Import Base AllocModel AllocSpec AllocProofs AllocProofs2 AllocProofs3 AllocProofs4.
Import ListNotations.
Open Scope Z_scope.

Lemma NoDup_parts : forall A (l m : list A), NoDup (l ++ m) -> NoDup l /\ NoDup m.
Proof.
  intros A l; induction l as [|a l IH]; cbn; intros m N; [split; [constructor|auto]|].
  inversion N as [|? ? N1 N2]; subst. destruct (IH _ N2) as [I1 I2]. split; auto.
  constructor; auto. intros H; apply N1, in_or_app; auto.
Qed.

Section Ops5.
  Variable ns : nat -> Z.
  Hypothesis NS : classes ns.
  Notation Inv := (Inv ns).
  Notation slab := (slab ns).
  Notation good := (good ns).
  Notation segf := (segf ns).
  Notation inseg := (inseg ns).
  Notation owned := (owned ns).

  Definition same (s s' : st) (h : Z) : Prop := forall w, owned s h w -> mem s' w = mem s w.

  Lemma keeps_same : forall s s' h, slot ns s h -> keeps ns s s' h -> same s s' h.
  Proof. intros s s' h H K w O. apply (K H); auto. Qed.

  Lemma owned_not_ctl : forall hand s h w, Inv hand s -> owned s h w -> ~ ctl ns s w.
  Proof.
    intros hand s h w V [(b & c & k & (P1 & P2 & P3 & P4) & W)|(len & (R1 & R2) & W)].
    - rewrite P3 in W. apply (pay_not_ctl ns _ _ _ _ _ _ V P1 P2 W).
    - apply (reg_not_ctl ns _ _ _ _ _ V R1 W).
  Qed.

  Lemma owned_same : forall hand s h h' w, Inv hand s -> owned s h w -> owned s h' w -> h = h'.
  Proof.
    intros hand s h h' w V [(b & c & k & S & W)|(len & (R1 & R2) & W)]
      [(b' & c' & k' & S' & W')|(len' & (R1' & R2') & W')].
    - apply (slab_same ns _ _ _ _ _ _ _ _ _ _ w V S S'); lia.
    - exfalso. destruct (slab_inseg ns _ _ _ _ _ w S) as [J1 J2]; [lia|].
      apply (seg_reg ns _ _ _ _ w V J1 R1' J2 W').
    - exfalso. destruct (slab_inseg ns _ _ _ _ _ w S') as [J1 J2]; [lia|].
      apply (seg_reg ns _ _ _ _ w V J1 R1 J2 W).
    - pose proof (reg_same ns _ _ _ _ w V R1 R1' W W') as E. congruence.
  Qed.

  Lemma block_owned : forall s x w, good s x -> bptr x <= w < bptr x + breq x -> owned s (bh x) w.
  Proof.
    intros s x w (P1 & P2 & P3 & P4 & P4' & P5) W. destruct (bsys x).
    - destruct P5 as (len & R & Q & Q'). right. exists len. split; auto. lia.
    - destruct P5 as (b & c & k & S & Q & _). left. exists b, c, k. split; auto. lia.
  Qed.
  Lemma word_in : forall s x w, good s x -> holds_word x w = true -> (8 | w) /\ bptr x <= w < bptr x + breq x.
  Proof.
    intros s x w (P1 & _) H. unfold holds_word in H. rewrite !andb_true_iff in H.
    destruct H as [[H1 H2] H3].
    assert (D : (8 | w)) by (apply Z.mod_divide; lia). split; auto.
    split; [|lia]. apply div8_gap; auto. lia.
  Qed.
  (** Also the pointer itself lies in the slot. *)
  Lemma ptr_owned : forall s x, good s x -> 0 < breq x \/ bsys x = false -> owned s (bh x) (bptr x).
  Proof.
    intros s x G [H|H]; [apply block_owned; auto; lia|].
    destruct G as (P1 & P2 & P3 & P4 & P4' & P5). rewrite H in P5.
    destruct P5 as (b & c & k & S & Q & Q' & _). left. exists b, c, k. split; auto. lia.
  Qed.

  Lemma live_nodup : forall hand s, Inv hand s -> NoDup (map bh (live s)).
  Proof.
    intros hand s V. pose proof (v_nd ns _ _ V) as N. unfold toks in N.
    apply NoDup_parts in N as [_ N]. apply NoDup_parts in N as [N _]. exact N.
  Qed.

  Lemma ptr_inj : forall hand s x y, Inv hand s -> In x (live s) -> In y (live s) ->
    bptr x = bptr y -> bh x = bh y.
  Proof.
    intros hand s x y V Hx Hy E.
    pose proof (v_live ns _ _ V _ Hx) as Gx. pose proof (v_live ns _ _ V _ Hy) as Gy.
    (* the word just below the pointer belongs to both slots *)
    assert (A : forall z, good s z ->
      (exists b c k, slab s (bh z) b c k /\ bh z <= bptr z - 8 < bh z + 8 + csize c) \/
      (exists len, In (bh z, len) (regs s) /\ bh z <= bptr z - 8 < bh z + len)).
    { intros z (P1 & P2 & P3 & P4 & P4' & P5). destruct (bsys z).
      - destruct P5 as (len & (R1 & R2) & Q & Q'). right. exists len. split; auto.
        destruct (v_reg ns _ _ V _ _ R1). lia.
      - destruct P5 as (b & c & k & S & Q & Q' & _). left. exists b, c, k. split; auto. lia. }
    destruct (A _ Gx) as [(b & c & k & S & W)|(len & R & W)];
    destruct (A _ Gy) as [(b' & c' & k' & S' & W')|(len' & R' & W')]; rewrite E in W.
    - apply (slab_same ns _ _ _ _ _ _ _ _ _ _ (bptr y - 8) V S S'); auto.
    - exfalso. destruct (slab_inseg ns _ _ _ _ _ _ S W) as [J1 J2].
      apply (seg_reg ns _ _ _ _ _ V J1 R' J2 W').
    - exfalso. destruct (slab_inseg ns _ _ _ _ _ _ S' W') as [J1 J2].
      apply (seg_reg ns _ _ _ _ _ V J1 R J2 W).
    - pose proof (reg_same ns _ _ _ _ _ V R R' W W') as Q. congruence.
  Qed.

  Lemma drop_perm : forall l p x, NoDup (map bh l) ->
    (forall a b, In a l -> In b l -> bptr a = bptr b -> bh a = bh b) ->
    find_live l p = Some x -> Permutation l (x :: drop_live l p).
  Proof.
    induction l as [|a l IH]; intros p x N U F; [discriminate|].
    unfold find_live in F; cbn [find] in F. unfold drop_live; cbn [filter].
    inversion N as [|? ? N1 N2]; subst.
    destruct (Z.eqb_spec (bptr a) p) as [E|E]; cbn [negb].
    - injection F as <-. constructor.
      assert (Q : forall m, (forall y, In y m -> bptr y <> p) -> filter (fun x => negb (bptr x =? p)) m = m).
      { clear. induction m as [|b m IH]; intros H; auto. cbn [filter].
        destruct (Z.eqb_spec (bptr b) p) as [E|E]; [exfalso; apply (H b); [left; auto|auto]|].
        cbn [negb]. f_equal. apply IH. intros; apply H; right; auto. }
      rewrite Q; auto. intros y Hy Ey. apply N1.
      rewrite (U a y); [apply in_map; auto|left; auto|right; auto|congruence].
    - assert (P : Permutation l (x :: drop_live l p)).
      { apply IH; auto. intros; apply U; auto; right; auto. }
      rewrite P at 1. apply perm_swap.
  Qed.

  Lemma find_live_in : forall l p x, find_live l p = Some x -> In x l /\ bptr x = p.
  Proof. unfold find_live; intros l p x F. apply find_some in F as [F1 F2]. split; auto. lia. Qed.

  (** Taking a block back from the user. *)
  Lemma take_back : forall hand s p x, Inv hand s -> find_live (live s) p = Some x ->
    Inv (bh x :: hand) (set_live s (drop_live (live s) p)).
  Proof.
    intros hand s p x V F. destruct (find_live_in _ _ _ F) as [Hx Ep].
    assert (P : Permutation (live s) (x :: drop_live (live s) p)).
    { apply drop_perm; auto; [apply (live_nodup _ _ V)|]. intros a b Ha Hb. apply (ptr_inj _ _ _ _ V Ha Hb). }
    apply (inv_move ns hand _ s); auto; cbn [live pend lq set_live].
    - unfold toks; cbn [live pend lq set_live]. apply (Permutation_map bh) in P. rewrite P. cbn [map app].
      apply Permutation_middle.
    - intros h [<-|H]; [apply good_slot, (v_live ns _ _ V _ Hx)|apply (v_hand ns _ _ V _ H)].
    - intros y H. apply (v_live ns _ _ V). eapply Permutation_in; [apply Permutation_sym, P|right; auto].
    - apply (v_pend ns _ _ V).
    - apply (v_lq ns _ _ V).
  Qed.

  Lemma drop_in : forall l p y, In y l -> bptr y <> p -> In y (drop_live l p).
  Proof. intros. unfold drop_live. apply filter_In. split; auto. destruct (Z.eqb_spec (bptr y) p); auto. Qed.

  Lemma sysfree_inv : forall hand s h len, Inv (h :: hand) s -> reg s h len ->
    Inv hand (sysfree s h) /\ mem (sysfree s h) = mem s /\ live (sysfree s h) = live s /\
    nomore (sysfree s h) = nomore s /\
    (forall a l, In (a, l) (regs (sysfree s h)) <-> In (a, l) (regs s) /\ a <> h) /\ segs (sysfree s h) = segs s.
  Proof.
    intros hand s h len V R. pose proof R as [R1 R2]. unfold sysfree.
    replace (existsb (fun x => fst x =? h) (regs s)) with true.
    2:{ symmetry. apply existsb_exists. exists (h, len). split; auto. cbn. apply Z.eqb_refl. }
    set (rg := filter (fun x => negb (fst x =? h)) (regs s)).
    assert (Rg : forall a l, In (a, l) rg <-> In (a, l) (regs s) /\ a <> h).
    { intros a l. subst rg. rewrite filter_In. cbn [fst]. destruct (Z.eqb_spec a h); cbn; intuition congruence. }
    assert (RgI : forall x, In x rg -> In x (regs s)) by (intros [a l] H; apply Rg in H; apply H).
    set (s1 := mkS (mem s) (segs s) rg (bp s) (avail s) (lq s) (nomore s) (pend s) (live s) (bad s)).
    assert (Nh : forall h', In h' (toks hand s) -> h' <> h).
    { intros h' H ->. apply (head_slot ns _ _ _ V H). }
    assert (RG : forall h' l, In h' (toks hand s) -> reg s h' l -> reg s1 h' l).
    { intros h' l H (P1 & P2). split; auto. cbn. apply Rg. split; auto. }
    assert (Et : toks hand s1 = toks hand s) by reflexivity.
    refine (conj _ (conj eq_refl (conj eq_refl (conj eq_refl (conj Rg eq_refl))))).
    pose proof V as V'.
    destruct V' as [V1 V2 V3 V4 V5 V6 V7 V8 V9 V10 V11 V12 V13 V14 V15 V16].
    change (toks (h :: hand) s) with (h :: toks hand s) in *.
    constructor; rewrite ?Et; cbn [bad segs regs bp avail lq nomore pend live mem s1]; auto.
    - apply FOP_filter; auto.
    - inversion V7; auto.
    - intros h' H. assert (In h' (toks hand s)) by (unfold toks; apply in_or_app; auto).
      destruct (V8 h' (or_intror H)) as [(b' & c' & k' & S')|(l & R')]; [left|right]; eauto 6.
    - intros x H. destruct (V9 _ H) as (P1 & P2 & P3 & P4 & P4' & P5).
      repeat split; auto. destruct (bsys x) eqn:Eb.
      + destruct P5 as (l & R' & Q). exists l. split; auto. apply RG; auto. apply live_tok; auto.
      + exact P5.
    - intros N' c' Hc'. destruct (V13 N' c' Hc') as (b' & Q1 & Q2 & Q3 & Q4 & Q5).
      exists b'. repeat split; auto. intros k' Hk' H. apply Q5; auto. right; auto.
    - intros b' c' H. pose proof (V14 _ _ H) as Q. rewrite cnt_cons in Q.
      rewrite (segf_reg ns _ _ _ _ _ _ V R1 H) in Q. lia.
  Qed.

  Lemma reclaim_mem : forall s h w, ~ ctl ns s w -> mem (check_reclaim ns s h) w = mem s w.
  Proof.
    intros s h w N. unfold check_reclaim, seg_class.
    destruct (find (fun x => fst x =? mem s h) (segs s)) as [[b c]|] eqn:E; auto. cbn.
    apply find_some in E as [E1 E2]. cbn [fst] in E2.
    unfold wr. destruct (Z.eqb_spec w (mem s h + 16)); auto. exfalso. apply N.
    exists b, c. split; auto. left. lia.
  Qed.
  Lemma reclaim_live : forall s h, live (check_reclaim ns s h) = live s.
  Proof. intros; unfold check_reclaim; destruct (seg_class _ _); auto. Qed.

  Lemma putitem_live : forall s t h s', putitem ns s t h = Some s' -> live s' = live s.
  Proof.
    intros s t h s' E. unfold putitem in E. destruct (seg_class _ _); [|injection E as <-; auto].
    destruct (nomore s); [injection E as <-; apply reclaim_live|].
    destruct (existsb _ _); [discriminate|]. injection E as <-; auto.
  Qed.
  Lemma putitem_mem : forall s t h s' w, putitem ns s t h = Some s' -> ~ ctl ns s w -> mem s' w = mem s w.
  Proof.
    intros s t h s' w E N. unfold putitem in E. destruct (seg_class _ _); [|injection E as <-; auto].
    destruct (nomore s); [injection E as <-; apply reclaim_mem; auto|].
    destruct (existsb _ _); [discriminate|]. injection E as <-; auto.
  Qed.

  (** free() of a held pointer finds the block it was cut from. *)
  Lemma free_finds_own : forall hand s x, Inv hand s -> In x (live s) ->
    free_finds (mem s) (bptr x) = if bsys x then FSys (bh x) else FSlab (bh x).
  Proof.
    intros hand s x V H. destruct (v_live ns _ _ V _ H) as (P1 & P2 & P3 & P4 & P4' & P5).
    destruct (bsys x).
    - destruct P5 as (len & (R1 & R2) & Q & Q'). unfold free_finds.
      replace (bptr x - 8) with (bh x) by lia. rewrite R2. reflexivity.
    - destruct P5 as (b & c & k & S & Q & Q' & A).
      assert (C9 : (c < 9)%nat) by (apply (class9 ns NS); destruct S as (_ & S & _); lia).
      apply (finds_slab ns hand s x b c k); auto.
  Qed.

  Definition ok (s s' : st) (a : act) : Prop :=
    forall x, In x (live s) -> leaves_alone a x ->
      In x (live s') /\ forall w, holds_word x w = true -> mem s' w = mem s w.

  Lemma free_ok : forall s t p s', Inv [] s -> step ns s (AFree t p) = Some s' ->
    Inv [] s' /\ ok s s' (AFree t p) /\
    exists x, In x (live s) /\ bptr x = p /\ live s' = drop_live (live s) p.
  Proof.
    intros s t p s' V E. cbn [step] in E. unfold do_free in E.
    destruct (find_live (live s) p) as [x|] eqn:F; [|discriminate].
    destruct (find_live_in _ _ _ F) as [Hx Ep].
    pose proof (take_back _ _ _ _ V F) as V1.
    pose proof (free_finds_own _ _ _ V Hx) as Ff. rewrite Ep in Ff. rewrite Ff in E. clear Ff.
    destruct (v_live ns _ _ V _ Hx) as (P1 & P2 & P3 & P4 & P4' & P5).
    assert (W : forall y w, In y (live s) -> holds_word y w = true -> ~ ctl ns s w).
    { intros y w Hy Hw. pose proof (v_live ns _ _ V _ Hy) as G. destruct (word_in _ _ _ G Hw) as [_ W].
      apply (owned_not_ctl _ _ (bh y) _ V). apply block_owned; auto. }
    destruct (bsys x).
    - destruct P5 as (len & R & _). injection E as <-.
      destruct (sysfree_inv [] (set_live s (drop_live (live s) p)) (bh x) len V1 R) as (V2 & M & L & _).
      split; [auto|]. split; [|exists x; split; [auto|split; [auto|exact L]]].
      intros y Hy Ly. cbn in Ly. rewrite L, M. split; auto. apply drop_in; auto.
    - destruct P5 as (b & c & k & S & _).
      pose proof (putitem_live _ _ _ _ E) as L. cbn [live set_live] in L.
      split; [apply (putitem_inv ns _ _ _ _ b c k _ V1 S E)|].
      split; [|exists x; split; [auto|split; [auto|exact L]]].
      intros y Hy Ly. cbn in Ly. rewrite L. split; [apply drop_in; auto|].
      intros w Hw. rewrite (putitem_mem _ _ _ _ w E); auto. apply (W y); auto.
  Qed.

  (** Changing words of a held block, but not to the address of its segment in the
      last word of the slot. *)
  Lemma inv_payload : forall hand s x m', Inv hand s -> In x (live s) ->
    (forall w, m' w = mem s w \/
       ((8 | w) /\ bptr x <= w < bptr x + breq x /\
        forall b c k, In (b, c) (segs s) -> 1 <= k < ns c -> w = hdr b c k - 8 -> m' w <> b)) ->
    Inv hand (set_mem s m').
  Proof.
    intros hand s x m' V Hx A.
    pose proof (v_live ns _ _ V _ Hx) as G.
    assert (NC : forall w, ctl ns s w -> m' w = mem s w).
    { intros w C. destruct (A w) as [|(D & W & _)]; auto. exfalso.
      apply (owned_not_ctl _ _ _ _ V (block_owned _ _ _ G W) C). }
    apply (inv_mem ns _ _ _ V).
    - intros b c H. apply NC. exists b, c; auto.
    - intros b c k H Hk. apply NC. exists b, c; split; auto; right; eauto.
    - intros a len R. destruct (A a) as [|(D & W & _)]; auto. exfalso.
      destruct (v_reg ns _ _ V _ _ R) as (_ & _ & L8 & R0).
      assert (O2 : owned s a a) by (right; exists len; split; [split; auto|lia]).
      pose proof (owned_same _ _ _ _ _ V (block_owned _ _ _ G W) O2) as Q.
      destruct G as (_ & G & _). lia.
    - intros y b c k Hy Ey S w D' W'. destruct (A w) as [|(D & W & _)]; auto. exfalso.
      pose proof (block_owned _ _ _ G W) as O.
      destruct (Z.eq_dec (bh y) w) as [Q|Q].
      * apply (owned_not_ctl _ _ _ _ V O). destruct S as (S1 & S2 & S3 & _). exists b, c. split; auto.
        right. exists k. split; auto. congruence.
      * pose proof (v_live ns _ _ V _ Hy) as Gy.
        assert (O2 : owned s (bh y) w).
        { left. exists b, c, k. split; auto. destruct Gy as (_ & _ & _ & _ & _ & Gy). rewrite Ey in Gy.
          destruct Gy as (b2 & c2 & k2 & S2 & _ & Gy & _).
          pose proof (csize_pos c). pose proof (csize_pos c2).
          destruct (slab_same ns _ _ _ _ _ _ _ _ _ _ (bh y) V S S2) as (_ & _ & <- & _); lia. }
        pose proof (owned_same _ _ _ _ _ V O O2) as Qh.
        assert (x = y).
        { pose proof (live_nodup _ _ V) as N. clear - N Hx Hy Qh.
          induction (live s) as [|a l IH]; [destruct Hx|]. cbn [map] in N. inversion N as [|? ? N1 N2]; subst.
          destruct Hx as [->|Hx], Hy as [->|Hy]; auto; exfalso; apply N1.
          - rewrite Qh. apply in_map; auto.
          - rewrite <- Qh. apply in_map; auto. }
        subst y. lia.
    - intros b c k H Hk. destruct (A (hdr b c k - 8)) as [->|(D & W & Q)].
      * apply (v_last ns _ _ V _ c); auto.
      * apply (Q b c k); auto.
  Qed.

  Lemma write_ok : forall s w v s', Inv [] s -> proper ns s (AWrite w v) ->
    step ns s (AWrite w v) = Some s' ->
    Inv [] s' /\ ok s s' (AWrite w v).
  Proof.
    intros s w v s' V Pr E. cbn [step] in E. destruct (existsb _ _) eqn:Ex; [|discriminate].
    injection E as <-. apply existsb_exists in Ex as (x & Hx & Hw).
    pose proof (v_live ns _ _ V _ Hx) as G. destruct (word_in _ _ _ G Hw) as [D W].
    split.
    - apply (inv_payload _ _ x _ V Hx). intros w'. unfold wr. destruct (Z.eqb_spec w' w) as [->|]; auto.
      right. split; [auto|]. split; [auto|]. intros b c k H Hk Q. apply (Pr b c H).
      pose proof (last_in_pay b c k). pose proof (hdr_in ns b c (k - 1)). lia.
    - intros y Hy Ly. cbn in Ly. cbn [live set_mem mem]. split; auto.
      intros w' Hw'. apply wr_neq. intros ->. congruence.
  Qed.

  Lemma copy_spec : forall n m dst src w,
    copy n m dst src w = m w /\ (forall i, 0 <= i < Z.of_nat n -> w <> dst + 8 * i) \/
    exists i, 0 <= i < Z.of_nat n /\ w = dst + 8 * i /\ copy n m dst src w = m (src + 8 * i).
  Proof.
    induction n as [|n IH]; intros m dst src w; cbn [copy]; [left; split; auto; intros; lia|].
    unfold wr. destruct (Z.eqb_spec w (dst + 8 * Z.of_nat n)) as [E|E].
    - right. exists (Z.of_nat n). repeat split; auto; lia.
    - destruct (IH m dst src w) as [[Q N]|(i & Hi & Q1 & Q2)].
      + left. split; auto. intros i Hi. destruct (Z.eq_dec i (Z.of_nat n)) as [->|]; auto. apply N. lia.
      + right. exists i. repeat split; auto; lia.
  Qed.

  Lemma realloc_ok : forall s p n o s', Inv [] s -> proper ns s (ARealloc p n o) ->
    step ns s (ARealloc p n o) = Some s' ->
    Inv [] s' /\ ok s s' (ARealloc p n o) /\
    exists x y, In x (live s) /\ bptr x = p /\ live s' = y :: drop_live (live s) p /\ breq y = n /\
      forall i, 0 <= i -> 8 * i < breq x -> 8 * i < n -> mem s' (bptr y + 8 * i) = mem s (p + 8 * i).
  Proof.
    intros s p n o s' V (N0 & NW & Cl & Pb) E. cbn [step] in E.
    destruct (nomore s) eqn:Nm; [discriminate|]. unfold do_realloc in E.
    destruct (find_live (live s) p) as [x|] eqn:F; [|discriminate].
    destruct (find_live_in _ _ _ F) as [Hx Ep].
    pose proof (Pb _ Hx Ep) as Al.
    pose proof (take_back _ _ _ _ V F) as V1.
    pose proof (v_live ns _ _ V _ Hx) as G.
    pose proof G as (P1 & P2 & P3 & P4 & P4' & P5). specialize (P4 Al).
    assert (Eh : p - 8 = bh x) by lia.
    assert (Hd : forall y, In y (live s) -> bptr y <> p -> In y (drop_live (live s) p)) by (intros; apply drop_in; auto).
    destruct (bsys x) eqn:Es.
    - destruct P5 as (len & R & Q & _). pose proof R as [R1 R2].
      rewrite Eh, R2 in E. cbn [Z.eqb] in E.
      destruct (find (fun y => fst y =? bh x) (regs s)) as [[a len0]|] eqn:Ef.
      2:{ exfalso. apply (find_none _ _ Ef) in R1. cbn in R1. lia. }
      apply find_some in Ef as [Ef1 Ef2]. cbn [fst] in Ef2. apply Z.eqb_eq in Ef2. subst a.
      assert (len0 = len).
      { destruct (v_reg ns _ _ V _ _ R1) as (_ & _ & L8 & _). destruct (v_reg ns _ _ V _ _ Ef1) as (_ & _ & L8' & _).
        pose proof (reg_same ns _ _ _ _ (bh x) V Ef1 R1) as X.
        unfold inreg in X; cbn [fst snd] in X. specialize (X ltac:(lia) ltac:(lia)). congruence. }
      subst len0.
      destruct o as [t|b f]; [discriminate|].
      rewrite Z.mod_small in E by lia.
      destruct (sysfree_inv [] (set_live s (drop_live (live s) p)) (bh x) len V1 R) as (V2 & M2 & L2 & _ & Rg2 & Sg2).
      remember (sysfree (set_live s (drop_live (live s) p)) (bh x)) as s1 eqn:Es1. clear Es1.
      cbn [mem live set_live] in M2, L2.
      unfold sysalloc in E. destruct (os_fresh (areas ns s1) b (n + 8)) eqn:Eo; [|discriminate].
      apply Some_inj in E. subst s'. cbn [mem set_mem set_live live].
      set (m1 := fun w => if (b <=? w) && (w <? b + Z.min len (n + 8)) then mem s (bh x + (w - b))
                               else fresh_mem (mem s1) b (n + 8) f w).
      destruct (sysnew_inv ns [] s1 b (n + 8) (wr m1 b 0) V2 Eo ltac:(lia)) as (V3 & R3 & K3).
      { apply wr_eq. }
      { intros w W. rewrite wr_neq by lia. subst m1. cbn beta.
        destruct ((b <=? w) && (w <? b + Z.min len (n + 8))) eqn:Eb; [lia|]. apply fresh_mem_out; auto. }
      split; [|split].
      + apply (hand_over ns [] _ (mkB true b (b + 8) n 0) V3).
        unfold AllocProofs.good; cbn [bsys bh bptr breq bal].
        destruct (v_reg ns _ _ V3 _ _ (proj1 R3)) as (A1 & A2 & _).
        repeat split; try lia.
        * destruct A2 as [d ->]. exists (d + 1). lia.
        * exists (n + 8). split; [exact R3|]. lia.
      + intros y Hy Ly. cbn in Ly. cbn [live set_live mem set_mem]. rewrite L2. split; [right; auto|].
        intros w Hw. rewrite <- M2.
        assert (Hy1 : In y (live s1)) by (rewrite L2; auto).
        pose proof (v_live ns _ _ V2 _ Hy1) as G1. destruct (word_in _ _ _ G1 Hw) as [_ W].
        apply (keeps_same s1 _ (bh y) (good_slot ns _ _ G1)
                 (K3 _ (live_tok [] s1 y Hy1)) w (block_owned _ _ _ G1 W)).
      + exists x, (mkB true b (b + 8) n 0). split; [auto|]. split; [auto|]. split; [cbn; rewrite L2; auto|].
        split; [auto|]. cbn [bptr]. intros i I0 I1 I2. cbn [mem set_mem set_live]. rewrite wr_neq by lia.
        subst m1. cbn beta.
        replace ((b <=? b + 8 + 8 * i) && (b + 8 + 8 * i <? b + Z.min len (n + 8))) with true by lia.
        f_equal. lia.
    - destruct P5 as (b & c & k & S & Q & Q' & QA). pose proof S as (S1 & S2 & S3 & S4).
      assert (Hb : 0 < b) by (destruct (v_seg ns _ _ V _ _ S1) as (X & _ & Y & _); lia).
      rewrite Eh, S4 in E. destruct (Z.eqb_spec b 0); [lia|].
      rewrite (seg_class_eq ns _ _ _ _ V S1) in E.
      destruct (Z.leb_spec n (csize c)) as [Ln|Ln].
      + apply Some_inj in E. subst s'. split; [|split].
        * apply (hand_over ns [] _ (mkB false (bh x) p n (bal x)) V1).
          unfold AllocProofs.good; cbn [bsys bh bptr breq bal]. subst p.
          repeat split; auto. exists b, c, k. split; [exact S|]. split; [lia|]. split; auto.
        * intros y Hy Ly. cbn in Ly. cbn [live set_live mem]. split; auto. right; auto.
        * exists x, (mkB false (bh x) p n (bal x)). repeat split; auto.
      + destruct (do_malloc ns s 0 n o) as [s1|] eqn:Em; [|discriminate].
        pose proof (csize_pos c) as Hcs.
        assert (Fi : fits ns 0 n) by (unfold fits; repeat split; try lia).
        destruct (do_malloc_inv ns NS [] s 0 n o s1 V Nm Fi Cl Em) as (y & Ly & Ry & Ay & V2 & Py & Nm2 & Pd & K).
        specialize (Py eq_refl). rewrite Ly in E.
        assert (Hy : In y (live s1)) by (rewrite Ly; left; auto).
        pose proof (v_live ns _ _ V2 _ Hy) as Gy. pose proof Gy as (Y1 & Y2 & Y3 & _ & _ & Y5).
        destruct (csize_div c) as [qc Eqc].
        assert (Ec8 : csize c / 8 = qc) by (rewrite Eqc; apply Z.div_mul; lia).
        rewrite Ec8 in E.
        set (m2 := copy (Z.to_nat qc) (mem s1) (bptr y) p) in *.
        assert (Cp : forall w, m2 w = mem s1 w /\ (forall i, 0 <= i < qc -> w <> bptr y + 8 * i) \/
             exists i, 0 <= i < qc /\ w = bptr y + 8 * i /\ m2 w = mem s1 (p + 8 * i)).
        { intros w. pose proof (copy_spec (Z.to_nat qc) (mem s1) (bptr y) p w) as X.
          rewrite Z2Nat.id in X by lia. exact X. }
        clearbody m2.
        assert (V3 : Inv [] (set_mem s1 m2)).
        { apply (inv_payload _ _ y _ V2 Hy). intros w. destruct (Cp w) as [[X _]|(i & Hi & Ew & _)]; auto.
          right. split; [destruct Y1 as [d Y1]; exists (d + i); lia|]. split; [lia|].
          intros b' c' k' H' Hk' Hl. exfalso.
          pose proof (last_in_pay b' c' k') as L'.
          assert (W : bptr y <= w < bptr y + breq y) by lia.
          destruct (bsys y).
          - destruct Y5 as (leny & (Z1 & _) & Z2 & _).
            apply (seg_reg ns _ _ (b', c') (bh y, leny) w V2 H' Z1).
            + unfold AllocProofs.inseg; cbn [fst snd]. pose proof (hdr_in ns b' c' (k' - 1)). lia.
            + unfold inreg; cbn [fst snd]. lia.
          - destruct Y5 as (b2 & c2 & k2 & Sy & Z2 & Z3 & _). pose proof Sy as (T1 & T2 & T3 & _).
            assert (J1 : inseg (b', c') w).
            { unfold AllocProofs.inseg; cbn [fst snd]. pose proof (hdr_in ns b' c' (k' - 1)). lia. }
            assert (J2 : inseg (b2, c2) w) by (apply (slab_inseg ns _ _ _ _ _ w Sy); lia).
            pose proof (seg_same ns _ _ _ _ _ V2 H' T1 J1 J2) as X. injection X as -> ->.
            assert (C2 : csize c < csize c2) by lia.
            destruct (csize_div c2) as [q2 Eq2].
            destruct (Z.lt_trichotomy k2 (k' - 1)) as [T|[T|T]].
            + pose proof (hdr_apart b2 c2 _ _ T). lia.
            + pose proof (hdr_S b2 c2 (k' - 1)) as X. replace (k' - 1 + 1) with k' in X by lia. subst k2. lia.
            + pose proof (hdr_apart b2 c2 (k' - 1) k2 T). lia. }
        assert (Fl : find_live (live (set_mem s1 m2)) p = Some x \/ bptr y = p).
        { cbn [live set_mem]. rewrite Ly. unfold find_live. cbn [find].
          destruct (Z.eqb_spec (bptr y) p); auto. }
        assert (Hx1 : In x (live s1)) by (rewrite Ly; right; auto).
        assert (Nh : bh y <> bh x).
        { pose proof (live_nodup _ _ V2) as N. rewrite Ly in N. cbn [map] in N. inversion N as [|? ? N1 _]; subst.
          intros X. apply N1. rewrite X. apply in_map; auto. }
        assert (Np : bptr y <> p).
        { intros X. apply Nh. apply (ptr_inj _ _ _ _ V2 Hy Hx1). congruence. }
        destruct Fl as [Fl|Fl]; [|contradiction].
        pose proof (take_back _ _ _ _ V3 Fl) as V4.
        cbn [live set_mem] in V4. rewrite Ly in V4.
        assert (Ed : drop_live (y :: live s) p = y :: drop_live (live s) p).
        { unfold drop_live. cbn [filter]. destruct (Z.eqb_spec (bptr y) p); [contradiction|reflexivity]. }
        rewrite Ed in V4.
        pose proof (v_live ns _ _ V3 x Hx1) as Gx3. destruct Gx3 as (_ & _ & _ & _ & _ & Gx3).
        rewrite Es in Gx3. destruct Gx3 as (b3 & c3 & k3 & Sx3 & _).
        pose proof (putitem_live _ _ _ _ E) as L5. cbn [live set_live] in L5.
        assert (Own : forall z w, In z (live s) -> holds_word z w = true ->
                  bh z <> bh y /\ owned s (bh z) w /\ owned s1 (bh z) w /\ mem s1 w = mem s w).
        { intros z w Hz Hw. pose proof (v_live ns _ _ V _ Hz) as Gz. destruct (word_in _ _ _ Gz Hw) as [_ W].
          pose proof (block_owned _ _ _ Gz W) as O.
          assert (Hk : In (bh z) (held [] s)) by (unfold held; cbn; apply in_map; auto).
          destruct (K _ Hk (good_slot ns _ _ Gz)) as [_ A]. destruct (A w O) as [A1 A2].
          split; [|auto].
          pose proof (live_nodup _ _ V2) as N. rewrite Ly in N. cbn [map] in N. inversion N as [|? ? N1 _]; subst.
          intros X. apply N1. rewrite <- X. apply in_map; auto. }
        assert (NotY : forall h w, h <> bh y -> owned s1 h w -> m2 w = mem s1 w).
        { intros h w Nhy O. destruct (Cp w) as [[X _]|(i & Hi & Ew & _)]; auto. exfalso. apply Nhy.
          apply (owned_same _ _ _ _ _ V2 O). apply block_owned; auto. lia. }
        assert (Mem : forall w, ~ ctl ns (set_mem s1 m2) w -> mem s' w = m2 w).
        { intros w C. rewrite (putitem_mem _ _ _ _ w E); auto. }
        split; [apply (putitem_inv ns [] _ _ _ b3 c3 k3 _ V4 Sx3 E)|]. split.
        * intros z Hz Lz. cbn in Lz. rewrite L5. split; [right; auto|].
          intros w Hw. destruct (Own z w Hz Hw) as (O1 & O2 & O3 & O4).
          rewrite Mem; [rewrite (NotY (bh z)); auto|].
          apply (owned_not_ctl _ _ _ _ V2 O3).
        * exists x, y. split; [auto|]. split; [auto|]. split; [auto|]. split; [auto|].
          intros i I0 I1 I2.
          assert (W : owned s1 (bh y) (bptr y + 8 * i)) by (apply block_owned; auto; lia).
          rewrite Mem by (apply (owned_not_ctl _ _ _ _ V2 W)).
          destruct (Cp (bptr y + 8 * i)) as [[_ X]|(j & Hj & Ew & X)].
          -- exfalso. apply (X i); auto. lia.
          -- replace j with i in X by lia. rewrite X.
             apply (Own x); auto. unfold holds_word. rewrite !andb_true_iff.
             split; [split|]; try lia. destruct P1 as [d P1]. replace (p + 8 * i) with ((d + i) * 8) by lia.
             rewrite Z.mod_mul by lia. reflexivity.
  Qed.

  Lemma malloc_ok : forall s al req o s', Inv [] s -> proper ns s (AMalloc al req o) ->
    step ns s (AMalloc al req o) = Some s' ->
    Inv [] s' /\ ok s s' (AMalloc al req o) /\
    (al = 0 \/ pow2_multiple al 8 = true -> exists y, live s' = y :: live s /\ breq y = req /\ bal y = al) /\
    (al <> 0 -> pow2_multiple al 8 = false -> s' = s).
  Proof.
    intros s al req o s' V (R0 & A0 & RW & Cl & Sm) E. cbn [step] in E.
    destruct (nomore s) eqn:Nm; [discriminate|].
    destruct (negb (al =? 0) && negb (pow2_multiple al 8)) eqn:Eb.
    - assert (X : s' = s) by (unfold do_malloc in E; rewrite Eb in E; congruence). subst s'.
      split; [auto|]. split; [intros x Hx _; auto|]. split; auto.
      intros [->|H]; [discriminate|]. rewrite H, andb_false_r in Eb. discriminate.
    - assert (Fi : fits ns al req).
      { unfold fits. split; [auto|]. split; [auto|]. split; [auto|]. intros Na. split; [|apply Sm; auto].
        destruct (Z.eqb_spec al 0); [contradiction|]. destruct (pow2_multiple al 8); auto. }
      destruct (do_malloc_inv ns NS [] s al req o s' V Nm Fi Cl E) as (y & Ly & Ry & Ay & V2 & Py & Nm2 & Pd & K).
      split; [auto|]. split; [|split; [eauto|]].
      + intros x Hx _. rewrite Ly. split; [right; auto|]. intros w Hw.
        pose proof (v_live ns _ _ V _ Hx) as G. destruct (word_in _ _ _ G Hw) as [_ W].
        apply (K (bh x)); auto; [unfold held; cbn; apply in_map; auto|apply good_slot; auto|apply block_owned; auto].
      + intros N F. rewrite F in Eb. destruct (Z.eqb_spec al 0); [contradiction|discriminate].
  Qed.

  Lemma step_ok : forall s a s', Inv [] s -> proper ns s a -> step ns s a = Some s' ->
    Inv [] s' /\ ok s s' a.
  Proof.
    intros s a s' V Pr E. destruct a as [al req o|t p|t|p n o|w v|c b f| |c t|c t].
    - destruct (malloc_ok _ _ _ _ _ V Pr E) as (A & B & _); auto.
    - destruct (free_ok _ _ _ _ V E) as (A & B & _); auto.
    - split; [apply (push_inv ns _ _ _ V E)|]. cbn [step] in E.
      destruct (pop_pend (pend s) t) as [[h r]|]; [|discriminate].
      destruct (seg_class s (mem s h)); injection E as <-; intros x Hx _; auto.
    - destruct (realloc_ok _ _ _ _ _ V Pr E) as (A & B & _); auto.
    - apply (write_ok _ _ _ _ V Pr E).
    - cbn [step] in E. destruct (negb (nomore s) && (avail s c =? 0) && (0 <? ns c)) eqn:Eb; [|discriminate].
      rewrite !andb_true_iff in Eb. destruct Eb as [[_ E1] E2].
      apply Z.eqb_eq in E1. apply Z.ltb_lt in E2.
      destruct (newslab_inv ns _ _ _ _ _ _ V E1 E2 Pr E) as (V0 & _ & L0 & _ & _ & _ & _ & _ & F0).
      split; auto. intros x Hx _. rewrite L0. split; auto. intros w Hw. apply F0.
      pose proof (v_live ns _ _ V _ Hx) as G. destruct (word_in _ _ _ G Hw) as [_ W].
      destruct (block_owned _ _ _ G W) as [(b' & c' & k' & S & Wh)|(len & (R1 & R2) & Wh)].
      + exists (b', seglen ns c'). destruct (slab_inseg ns _ _ _ _ _ w S) as [J1 J2]; [lia|].
        split; [|exact J2]. unfold areas. apply in_or_app; left. apply in_map_iff. exists (b', c'); auto.
      + exists (bh x, len). split; [unfold areas; apply in_or_app; auto|exact Wh].
    - cbn [step] in E. injection E as <-. split; [|intros x Hx _; auto].
      destruct V as [V1 V2 V3 V4 V5 V6 V7 V8 V9 V10 V11 V12 V13 V14 V15 V16].
      constructor; auto. cbn. discriminate.
    - cbn [step] in E. destruct (nomore s) eqn:Nm; [|discriminate].
      destruct (pop (lq s) c t) as [[h q]|] eqn:Ep; [|discriminate]. injection E as <-.
      destruct (pop_inv ns _ _ _ _ _ _ V Ep) as (V1 & b & k & S).
      split; [apply (check_reclaim_inv ns _ _ _ b c k V1 S); auto|].
      intros x Hx _. rewrite reclaim_live. split; auto. intros w Hw. rewrite reclaim_mem; auto.
      pose proof (v_live ns _ _ V _ Hx) as G. destruct (word_in _ _ _ G Hw) as [_ W].
      apply (owned_not_ctl _ _ _ _ V (block_owned _ _ _ G W)).
    - cbn [step] in E. destruct (negb (nomore s) && (avail s c =? 0)) eqn:Nm; [|discriminate].
      apply andb_true_iff in Nm as [_ Ha]. apply Z.eqb_eq in Ha.
      destruct (pop (lq s) c t) as [[h q]|] eqn:Ep; [|discriminate]. injection E as <-.
      destruct (pop_inv ns _ _ _ _ _ _ V Ep) as (V1 & b & k & S).
      split; [apply (check_reclaim_inv ns _ _ _ b c k V1 S); auto|].
      intros x Hx _. rewrite reclaim_live. split; auto. intros w Hw. rewrite reclaim_mem; auto.
      pose proof (v_live ns _ _ V _ Hx) as G. destruct (word_in _ _ _ G Hw) as [_ W].
      apply (owned_not_ctl _ _ _ _ V (block_owned _ _ _ G W)).
  Qed.

  Lemma init_inv : Inv [] init.
  Proof.
    constructor; cbn; auto; try (intros; contradiction); try constructor; try lia.
  Qed.

  Lemma used_inv : forall l s s', Inv [] s -> well_used ns s l -> exec (step ns) s l = Some s' -> Inv [] s'.
  Proof.
    unfold well_used; induction l as [|a l IH]; cbn [exec obeys]; intros s s' V U E; [injection E as <-; auto|].
    destruct U as [U1 U2]. destruct (step ns s a) as [s1|] eqn:Es; [|discriminate].
    apply (IH s1); auto. apply (step_ok _ _ _ V U1 Es).
  Qed.
End Ops5.
