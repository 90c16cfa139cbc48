(** malloc, posix_memalign, free, realloc: invariant and contents. *)
From Coq Require Import List ZArith Lia Bool Permutation.
From Verif Require Import AllocModel AllocSpec AllocProofs AllocProofs2 AllocProofs3.
Import ListNotations.
Open Scope Z_scope.

Lemma Some_inj : forall A (x y : A), Some x = Some y -> x = y.
Proof. congruence. Qed.

Section Ops4.
  Variable ns : nat -> Z.
  Hypothesis NS : classes ns.
  Notation Inv := (Inv ns).
  Notation slab := (slab ns).
  Notation good := (good ns).
  Notation segf := (segf ns).
  Notation inseg := (inseg ns).

  Lemma class9 : forall c, 0 < ns c -> (c < 9)%nat.
  Proof. intros c H. destruct (Nat.lt_ge_cases c 9); auto. destruct NS as [_ N]. rewrite N in H; auto; lia. Qed.

  (** The words of a held slot other than a slab header. *)
  Definition owned (s : st) (h w : Z) : Prop :=
    (exists b c k, slab s h b c k /\ h < w < h + 8 + csize c) \/
    (exists len, reg s h len /\ h <= w < h + len).

  Definition keeps (s s1 : st) (h : Z) : Prop :=
    slot ns s h -> slot ns s1 h /\ forall w, owned s h w -> mem s1 w = mem s w /\ owned s1 h w.

  Lemma keeps_trans : forall s s1 s2 h, keeps s s1 h -> keeps s1 s2 h -> keeps s s2 h.
  Proof.
    intros s s1 s2 h K1 K2 H. destruct (K1 H) as [H1 A1]. destruct (K2 H1) as [H2 A2].
    split; auto. intros w O. destruct (A1 w O) as [E O1]. destruct (A2 w O1) as [E2 O2].
    split; auto. congruence.
  Qed.

  Lemma keeps_intro : forall s s1 h,
    (forall b c k, slab s h b c k -> slab s1 h b c k /\
       forall w, h < w < h + 8 + csize c -> mem s1 w = mem s w) ->
    (forall len, reg s h len -> reg s1 h len /\ forall w, h <= w < h + len -> mem s1 w = mem s w) ->
    keeps s s1 h.
  Proof.
    intros s s1 h A B H. split.
    - destruct H as [(b & c & k & S)|(len & R)]; [left; exists b, c, k; apply A, S|right; exists len; apply B, R].
    - intros w [(b & c & k & S & W)|(len & R & W)].
      + destruct (A _ _ _ S) as [S1 E]. split; [auto|]. left; eauto 6.
      + destruct (B _ R) as [S1 E]. split; [auto|]. right; eauto.
  Qed.

  Lemma live_tok : forall hand s x, In x (live s) -> In (bh x) (toks hand s).
  Proof. intros. unfold toks. rewrite !in_app_iff. right; left. apply in_map; auto. Qed.

  Definition held (hand : list Z) (s : st) : list Z := hand ++ map bh (live s).
  Lemma held_tok : forall hand s h, In h (held hand s) -> In h (toks hand s).
  Proof. unfold held, toks; intros hand s h H. rewrite !in_app_iff in *. tauto. Qed.

  Lemma getitem_inv : forall hand s c o s1 h, Inv hand s -> nomore s = false -> 0 < ns c ->
    clean_src o -> getitem ns s c o = Some (s1, h) ->
    Inv (h :: hand) s1 /\ (exists b k, slab s1 h b c k) /\ live s1 = live s /\ nomore s1 = nomore s /\
    pend s1 = pend s /\
    (forall h', In h' (held hand s) -> keeps s s1 h').
  Proof.
    intros hand s c o s1 h V N Hns Hc E. unfold getitem in E.
    assert (C : forall s s1, Inv hand s -> nomore s = false -> 0 < avail s c -> carve s c = (s1, h) ->
      Inv (h :: hand) s1 /\ (exists b k, slab s1 h b c k) /\ live s1 = live s /\ nomore s1 = nomore s /\
      pend s1 = pend s /\ (forall h', In h' (toks hand s) -> keeps s s1 h')).
    { clear. intros s s1 V N Ha E.
      destruct (carve_inv ns _ _ _ _ _ V N Ha E) as (V1 & S & L & Sg & Rg & Nm & P & Q & Nt & F).
      split; [auto|]. split; [auto|]. split; [auto|]. split; [auto|]. split; [auto|].
      intros h' H'. apply keeps_intro.
      - intros b' c' k' S'. pose proof S' as (P1 & P2 & P3 & P4). split.
        + repeat split; auto; try lia; [rewrite Sg; auto|].
          assert (Hin : In h' (toks (h :: hand) s1)).
          { right. unfold toks in *. rewrite L, P, Q. exact H'. }
          destruct (tok_slot ns _ _ _ V1 Hin) as [(b2 & c2 & k2 & R1 & R2 & R3 & R4)|(len & R & _)].
          * rewrite Sg in R1. rewrite P3 in R3.
            destruct (hdr_same ns _ _ _ _ _ _ _ _ V P1 R1 P2 R2 R3) as (-> & _ & _). auto.
          * exfalso. rewrite Rg in R. apply (seg_reg ns _ _ _ _ h' V P1 R).
            { rewrite P3. apply hdr_inseg; auto. }
            unfold inreg; simpl. destruct (v_reg ns _ _ V _ _ R). lia.
        + intros w W. apply F. rewrite P3 in W. apply (pay_not_ctl ns _ _ _ _ _ _ V P1 P2 W).
      - intros len (R1 & R2).
        assert (A : forall w, h' <= w < h' + len -> mem s1 w = mem s w).
        { intros w W. apply F. apply (reg_not_ctl ns _ _ _ _ _ V R1 W). }
        split; [split|]; auto; [rewrite Rg; auto|].
        destruct (v_reg ns _ _ V _ _ R1). rewrite A; auto. lia. }
    destruct (Z.ltb_spec 0 (avail s c)) as [Ha|Ha].
    - injection E as E. destruct (C s s1 V N Ha E) as (Q1 & Q2 & Q3 & Q4 & Q5 & Q6).
      refine (conj Q1 (conj Q2 (conj Q3 (conj Q4 (conj Q5 _))))). intros; apply Q6, held_tok; auto.
    - destruct o as [t|b f].
      + destruct (pop (lq s) c t) as [[h0 q]|] eqn:Ep; [|discriminate]. injection E as <- <-.
        destruct (pop_inv ns _ _ _ _ _ _ V Ep) as (V1 & b & k & S).
        split; [auto|]. split; [exists b, k; exact S|]. split; [auto|]. split; [auto|]. split; [auto|].
        intros h' _. apply keeps_intro; intros; split; auto.
      + destruct (newslab ns s c b f) as [s0|] eqn:En; [|discriminate]. injection E as E.
        pose proof (v_av0 ns _ _ V c).
        assert (Ha0' : avail s c = 0) by lia.
        destruct (newslab_inv ns _ _ _ _ _ _ V Ha0' Hns Hc En)
          as (V0 & Ha0 & L0 & Rg0 & Nm0 & P0 & Q0 & Sg0 & F0).
        assert (Nm1 : nomore s0 = false) by congruence.
        assert (Ha1 : 0 < avail s0 c) by lia.
        destruct (C s0 s1 V0 Nm1 Ha1 E) as (V1 & S & L & Nm & P & K).
        split; [auto|]. split; [auto|]. split; [congruence|]. split; [congruence|]. split; [congruence|].
        intros h' H'. apply held_tok in H'. apply (keeps_trans _ s0); [|apply K; unfold toks in *; rewrite L0, P0, Q0; auto].
        apply keeps_intro.
        * intros b' c' k' S'. pose proof S' as (P1 & P2 & P3 & P4).
          assert (A : forall w, h' <= w < h' + 8 + csize c' -> mem s0 w = mem s w).
          { intros w W. apply F0. exists (b', seglen ns c'). split.
            - unfold areas. apply in_or_app; left. apply in_map_iff. exists (b', c'); auto.
            - destruct (slab_inseg ns _ _ _ _ _ w S' W) as [_ J]. exact J. }
          split; [|intros; apply A; lia].
          repeat split; auto; try lia; [rewrite Sg0; apply in_or_app; auto|].
          rewrite A; auto. pose proof (csize_pos c'). lia.
        * intros len (R1 & R2).
          assert (A : forall w, h' <= w < h' + len -> mem s0 w = mem s w).
          { intros w W. apply F0. exists (h', len). split; auto. unfold areas. apply in_or_app; auto. }
          split; [split|]; auto; [rewrite Rg0; auto|].
          destruct (v_reg ns _ _ V _ _ R1). rewrite A; auto. lia.
  Qed.

  (** A new system block, its header word cleared. *)
  Lemma sysnew_inv : forall hand s b len m', Inv hand s -> os_fresh (areas ns s) b len = true -> 8 <= len ->
    m' b = 0 -> (forall w, ~ (b <= w < b + len) -> m' w = mem s w) ->
    let s1 := mkS m' (segs s) (regs s ++ [(b, len)]) (bp s) (avail s) (lq s) (nomore s) (pend s) (live s) (bad s) in
    Inv (b :: hand) s1 /\ reg s1 b len /\ forall h', In h' (toks hand s) -> keeps s s1 h'.
  Proof.
    intros hand s b len m' V Eo Hl Mb Mo s1.
    apply os_fresh_spec in Eo as (B8 & B0 & BW & Bd).
    assert (BdS : forall x, In x (segs s) -> apart (b, len) (sarea ns x) = true).
    { intros x H. apply Bd. unfold areas. apply in_or_app; left. apply in_map_iff. exists x; auto. }
    assert (BdR : forall x, In x (regs s) -> apart (b, len) x = true).
    { intros x H. apply Bd. unfold areas. apply in_or_app; auto. }
    assert (Mar : forall w x, In x (areas ns s) -> fst x <= w < fst x + snd x -> m' w = mem s w).
    { intros w x Hx W. apply Mo. specialize (Bd x Hx). unfold apart in Bd; simpl in Bd. lia. }
    assert (Mseg : forall b' c' w, In (b', c') (segs s) -> inseg (b', c') w -> m' w = mem s w).
    { intros b' c' w H W. apply (Mar w (b', seglen ns c')); auto.
      unfold areas. apply in_or_app; left. apply in_map_iff. exists (b', c'); auto. }
    assert (Mreg : forall a l w, In (a, l) (regs s) -> a <= w < a + l -> m' w = mem s w).
    { intros a l w H W. apply (Mar w (a, l)); auto. unfold areas. apply in_or_app; auto. }
    assert (SL : forall h' b' c' k', slab s h' b' c' k' -> slab s1 h' b' c' k').
    { intros h' b' c' k' (P1 & P2 & P3 & P4). repeat split; auto; try lia.
      cbn. subst h'. rewrite (Mseg b' c'); auto. apply hdr_inseg; auto. }
    assert (RG : forall h' l, reg s h' l -> reg s1 h' l).
    { intros h' l (P1 & P2). split; [cbn; apply in_or_app; auto|]. cbn.
      destruct (v_reg ns _ _ V _ _ P1) as (_ & _ & Q & _). rewrite (Mreg _ _ _ P1); auto. lia. }
    assert (Rb : reg s1 b len) by (split; [cbn; apply in_or_app; right; left; auto|exact Mb]).
    assert (Hno : ~ In b (toks hand s)).
    { intros H. destruct (tok_area ns _ _ _ V H) as (x & Hx & W). specialize (Bd x Hx).
      unfold apart in Bd; simpl in Bd. lia. }
    assert (Hsf : forall b' c', In (b', c') (segs s) -> segf b' c' b = false).
    { intros b' c' H. pose proof (BdS _ H) as Q. unfold apart, sarea in Q; cbn [fst snd] in Q.
      unfold AllocProofs.segf. destruct ((b' <=? b) && (b <? b' + seglen ns c')) eqn:Eq; auto. lia. }
    split; [|split; [exact Rb|]].
    - pose proof V as V'.
      destruct V' as [V1 V2 V3 V4 V5 V6 V7 V8 V9 V10 V11 V12 V13 V14 V15 V16].
      assert (Et : toks (b :: hand) s1 = b :: toks hand s) by reflexivity.
      constructor; rewrite ?Et; cbn [bad segs regs bp avail lq nomore pend live mem s1]; auto.
      + apply FOP_snoc; auto. intros x H. apply apart_sym, BdR; auto.
      + intros x y Hx H. apply in_app_or in H as [H|[<-|[]]]; auto.
        apply apart_sym, BdS; auto.
      + intros a l H. apply in_app_or in H as [H|[H|[]]].
        * destruct (V6 _ _ H) as (P1 & P2 & P3 & P4). repeat split; auto.
          rewrite (Mreg _ _ _ H); auto. lia.
        * injection H as <- <-. auto.
      + constructor; auto.
      + intros h' [<-|H]; [right; exists len; auto|].
        destruct (V8 _ H) as [(b' & c' & k' & S)|(l & R)]; [left|right]; eauto 6.
      + intros x H. destruct (V9 _ H) as (P1 & P2 & P3 & P4 & P4' & P5).
        repeat split; auto. destruct (bsys x) eqn:Eb.
        * destruct P5 as (l & R & Q). exists l. auto.
        * destruct P5 as (b' & c' & k' & S & Q1 & Q2 & Q3). exists b', c', k'.
          split; [apply SL, S|]. split; [auto|]. split; [auto|].
          intros w W8 W. cbn [mem s1].
          destruct (slab_inseg ns _ _ _ _ _ w S) as [J1 J2]; [lia|].
          rewrite (Mseg _ _ _ J1 J2). auto.
      + intros t h' H. destruct (V10 _ _ H) as (b' & c' & k' & S). eauto 6.
      + intros c' t h' H. destruct (V11 _ _ _ H) as (b' & k' & S). eauto 6.
      + intros N' c' Hc'. destruct (V13 N' c' Hc') as (b' & Q1 & Q2 & Q3 & Q4 & Q5).
        exists b'. split; [auto|]. split; [auto|]. split; [auto|]. split.
        * rewrite Q3 in *. rewrite (Mseg b' c'); auto. apply hdr_inseg. lia.
        * intros k Hk [H|H]; auto. exfalso.
          pose proof (Hsf _ _ Q1) as Q. rewrite H in Q.
          pose proof (hdr_inseg ns b' c' k Hk) as J. unfold AllocProofs.inseg in J; cbn [fst snd] in J.
          unfold AllocProofs.segf in Q. lia.
      + intros b' c' H. rewrite cnt_cons, (Hsf _ _ H), (Mseg b' c'); auto.
        * pose proof (V14 _ _ H). lia.
        * apply head_inseg; [apply (V5 _ _ H)|lia].
      + intros b' c' k H Hk. pose proof (last_in_pay b' c' k) as L.
        rewrite (Mseg b' c'); auto.
        unfold AllocProofs.inseg; cbn [fst snd]. pose proof (hdr_in ns b' c' (k - 1)). lia.
      + intros b' c' H Ef. rewrite (Mseg b' c') in Ef; auto. apply head_inseg; [apply (V5 _ _ H)|lia].
    - intros h' H'. apply keeps_intro.
      + intros b' c' k' S'. split; [apply SL, S'|]. intros w W.
        destruct (slab_inseg ns _ _ _ _ _ w S') as [J1 J2]; [lia|]. apply (Mseg _ _ _ J1 J2).
      + intros l R. split; [apply RG, R|]. intros w W. apply (Mreg h' l); auto. apply R.
  Qed.

  (** Handing a held block over to the user. *)
  Lemma hand_over : forall hand s y, Inv (bh y :: hand) s -> good s y -> Inv hand (set_live s (y :: live s)).
  Proof.
    intros hand s y V G. apply (inv_move ns (bh y :: hand) hand s); auto; cbn [live pend lq set_live].
    - unfold toks; cbn [live pend lq set_live map]. cbn [app]. apply Permutation_sym, Permutation_middle.
    - intros h H. apply (v_hand ns _ _ V). right; auto.
    - intros x [<-|H]; auto. apply (v_live ns _ _ V _ H).
    - apply (v_pend ns _ _ V).
    - apply (v_lq ns _ _ V).
  Qed.

  Lemma head_slot : forall h hand s, Inv (h :: hand) s -> ~ In h (toks hand s).
  Proof. intros h hand s V. pose proof (v_nd ns _ _ V) as N. inversion N; auto. Qed.

  (** Filling the words below an aligned pointer. *)
  Lemma fill_inv : forall hand s h b c k p, Inv (h :: hand) s -> slab s h b c k ->
    (8 | p) -> h + 8 <= p <= h + csize c ->
    let s1 := set_mem s (fill WALK (mem s) (h + 8) p b) in
    Inv (h :: hand) s1 /\ slab s1 h b c k /\
    (forall w, (8 | w) -> h <= w < p -> mem s1 w = b) /\
    (forall h', In h' (toks hand s) -> keeps s s1 h').
  Proof.
    intros hand s h b c k p V S D L s1. pose proof S as (Hs & Hk & Eh & Em).
    assert (Dh : (8 | h)) by (rewrite Eh; apply hdr_div, (v_seg ns _ _ V _ _ Hs)).
    assert (Dp : (8 | p - (h + 8))) by (destruct D as [d ->], Dh as [e ->]; exists (d - e - 1); lia).
    set (m' := fill WALK (mem s) (h + 8) p b) in *.
    assert (Mo : forall w, w < h + 8 \/ p <= w -> m' w = mem s w).
    { intros w W. apply fill_out; auto. lia. }
    assert (C9 : csize c <= 8192) by (apply csize_le, class9, (v_seg ns _ _ V _ _ Hs)).
    assert (Mi : forall w, (8 | w) -> h + 8 <= w < p -> m' w = b).
    { intros w Dw W. apply fill_in; auto; [unfold WALK; lia|].
      destruct Dw as [d ->], Dh as [e ->]. exists (d - e - 1). lia. }
    clearbody m'.
    assert (Mpay : forall w, ~ (h < w < h + 8 + csize c) -> m' w = mem s w).
    { intros w W. apply Mo. lia. }
    assert (Mctl : forall w, ctl ns s w -> m' w = mem s w).
    { intros w C. apply Mpay. intros W. rewrite Eh in W. apply (pay_not_ctl ns _ _ _ _ _ _ V Hs Hk W); auto. }
    assert (Mreg : forall a len w, In (a, len) (regs s) -> a <= w < a + len -> m' w = mem s w).
    { intros a len w R W. apply Mpay. intros Q. apply (seg_reg ns _ _ _ _ w V Hs R); [|exact W].
      unfold AllocProofs.inseg; cbn [fst snd]. pose proof (hdr_in ns b c k Hk). lia. }
    assert (Mlast : forall b' c' k', In (b', c') (segs s) -> 1 <= k' < ns c' ->
               m' (hdr b' c' k' - 8) = mem s (hdr b' c' k' - 8)).
    { intros b' c' k' H' Hk'. destruct (Z.ltb_spec (hdr b' c' k' - 8) p) as [Q|]; [|apply Mo; auto].
      destruct (Z.ltb_spec (hdr b' c' k' - 8) (h + 8)) as [Q'|Q']; [apply Mo; auto|].
      exfalso. pose proof (last_in_pay b' c' k') as L'.
      assert (J1 : inseg (b', c') (hdr b' c' k' - 8)).
      { unfold AllocProofs.inseg; cbn [fst snd]. pose proof (hdr_in ns b' c' (k' - 1)). lia. }
      assert (J2 : inseg (b, c) (hdr b' c' k' - 8)).
      { unfold AllocProofs.inseg; cbn [fst snd]. pose proof (hdr_in ns b c k Hk). lia. }
      pose proof (seg_same ns _ _ _ _ _ V H' Hs J1 J2) as X. injection X as -> ->.
      destruct (Z.lt_trichotomy k (k' - 1)) as [T|[T|T]].
      - pose proof (hdr_apart b c _ _ T). lia.
      - subst k. pose proof (hdr_S b c (k' - 1)) as Y. replace (k' - 1 + 1) with k' in Y by lia. lia.
      - pose proof (hdr_apart b c k' (k + 1) ltac:(lia)). rewrite hdr_S in H. pose proof (hdr_apart b c (k'-1) k T). lia. }
    assert (V1 : Inv (h :: hand) s1).
    { apply (inv_mem ns _ _ _ V).
      - intros b' c' H'. apply Mctl. exists b', c'; auto.
      - intros b' c' k' H' Hk'. apply Mctl. exists b', c'; split; eauto.
      - intros a len R. apply (Mreg a len); auto. destruct (v_reg ns _ _ V _ _ R). lia.
      - intros x b' c' k' Hx Ex S' w Dw W. apply Mpay. intros Q.
        destruct (v_live ns _ _ V _ Hx) as (_ & _ & _ & _ & _ & G). rewrite Ex in G.
        destruct G as (b2 & c2 & k2 & S2 & _ & G & _).
        destruct (slab_same ns _ _ _ _ _ _ _ _ _ _ w V S S2) as (X & _); try lia.
        apply (head_slot _ _ _ V). rewrite X. apply live_tok; auto.
      - intros b' c' k' H' Hk'. rewrite Mlast; auto. apply (v_last ns _ _ V _ c'); auto. }
    split; [exact V1|]. split.
    { repeat split; auto; try lia. cbn. rewrite Mo; auto. lia. }
    split.
    { intros w Dw W. cbn. destruct (Z.eq_dec w h) as [->|N]; [rewrite Mo; auto; lia|].
      apply Mi; auto. destruct Dw as [d ->], Dh as [e ->]. lia. }
    intros h' H'. apply keeps_intro.
    - intros b' c' k' S'. pose proof S' as (P1 & P2 & P3 & P4). split.
      + repeat split; auto; try lia. cbn. rewrite Mctl; auto. exists b', c'; split; eauto.
      + intros w W. cbn. apply Mpay. intros Q.
        destruct (slab_same ns _ _ _ _ _ _ _ _ _ _ w V S S') as (X & _); try lia.
        apply (head_slot _ _ _ V). rewrite X; auto.
    - intros len (R1 & R2). split; [split; auto; cbn; rewrite (Mreg _ _ _ R1); auto; destruct (v_reg ns _ _ V _ _ R1); lia|].
      intros w W. cbn. apply (Mreg _ _ _ R1); auto.
  Qed.

  Definition fits (al req : Z) : Prop :=
    0 < req /\ 0 <= al /\ req + al + 8 < W64 /\
    (al <> 0 -> pow2_multiple al 8 = true /\ req + al <= 8192 /\ forall c, getslabs (req + al) = Some c -> ns c <> 0).

  Lemma do_malloc_inv : forall hand s al req o s', Inv hand s -> nomore s = false -> fits al req ->
    clean_src o -> do_malloc ns s al req o = Some s' ->
    exists y, live s' = y :: live s /\ breq y = req /\ bal y = al /\ Inv hand s' /\
      (al = 0 -> bptr y = bh y + 8) /\ nomore s' = nomore s /\ pend s' = pend s /\
      (forall h', In h' (held hand s) -> keeps s s' h').
  Proof.
    intros hand s al req o s' V N (F1 & F2 & F3 & F4) Hc E. unfold do_malloc in E.
    destruct (negb (al =? 0) && negb (pow2_multiple al 8)) eqn:E0.
    { destruct (Z.eqb_spec al 0); [discriminate|]. destruct (F4 n) as [Q _]. rewrite Q in E0. discriminate. }
    clear E0. rewrite (Z.mod_small (req + al)) in E by lia.
    assert (Sys : forall b f,
      match sysalloc ns s b ((req + al + 8) mod W64) f with
            | None => None
            | Some s1 =>
              let m1 := wr (mem s1) b 0 in
              let p := if al =? 0 then b + 8 else align_up (b + 8) al in
              let m2 := wr m1 (p - 8) 0 in
              Some (set_live (set_mem s1 m2) (mkB true b p req al :: live s1))
            end = Some s' -> al = 0 ->
      exists y, live s' = y :: live s /\ breq y = req /\ bal y = al /\ Inv hand s' /\
      (al = 0 -> bptr y = bh y + 8) /\ nomore s' = nomore s /\ pend s' = pend s /\
      (forall h', In h' (held hand s) -> keeps s s' h')).
    { clear E. intros b f E ->. rewrite Z.mod_small in E by lia. unfold sysalloc in E.
      destruct (os_fresh (areas ns s) b (req + 0 + 8)) eqn:Eo; [|discriminate].
      cbn [Z.eqb] in E. injection E as <-. cbn [mem live set_mem set_live].
      replace (b + 8 - 8) with b by lia.
      destruct (sysnew_inv hand s b (req + 0 + 8)
         (wr (wr (fresh_mem (mem s) b (req + 0 + 8) f) b 0) b 0) V Eo ltac:(lia)) as (V1 & R1 & K1).
      { apply wr_eq. }
      { intros w W. rewrite !wr_neq by lia. apply fresh_mem_out; auto. }
      eexists. split; [reflexivity|]. split; [reflexivity|]. split; [reflexivity|]. split.
      - apply (hand_over hand _ (mkB true b (b + 8) req 0) V1).
        unfold AllocProofs.good; cbn [bsys bh bptr breq bal].
        destruct (v_reg ns _ _ V1 _ _ (proj1 R1)) as (A1 & A2 & _).
        repeat split; try lia.
        + destruct A2 as [d ->]. exists (d + 1). lia.
        + exists (req + 0 + 8). split; [exact R1|]. lia.
      - split; [auto|]. split; [auto|]. split; [auto|]. intros h' H'. apply K1, held_tok, H'. }
    destruct (Z.ltb_spec 8192 (req + al)) as [Lb|Lb].
    - cbn [orb] in E. destruct o as [t|b f]; [discriminate|].
      destruct (Z.eq_dec al 0) as [A0|A0]; [apply (Sys b f); auto|].
      destruct (F4 A0) as (_ & Q & _). lia.
    - destruct (getslabs_spec (req + al) ltac:(lia)) as (c & Ec & C9 & Cs & _).
      rewrite Ec in E. cbn [orb] in E.
      destruct (Z.eqb_spec (ns c) 0) as [Z0|Z0].
      + destruct o as [t|b f]; [discriminate|].
        destruct (Z.eq_dec al 0) as [A0|A0]; [apply (Sys b f); auto|].
        destruct (F4 A0) as (_ & _ & Q). exfalso. apply (Q c); auto.
      + destruct (getitem ns s c o) as [[s1 h]|] eqn:Eg; [|discriminate].
        assert (Hns : 0 < ns c) by (destruct NS as [Q _]; specialize (Q c); lia).
        destruct (getitem_inv hand s c o s1 h V N Hns Hc Eg) as (V1 & (b & k & S) & L1 & N1 & P1 & K1).
        pose proof S as (Hs & Hk & Eh & Em).
        destruct (v_seg ns _ _ V1 _ _ Hs) as (_ & B8 & Bn & BW).
        assert (Dh : (8 | h)) by (rewrite Eh; apply hdr_div; auto).
        destruct (Z.eqb_spec al 0) as [A0|A0].
        * injection E as <-. cbn [live set_live set_mem].
          exists (mkB false h (h + 8) req al). split; [cbn; rewrite L1; reflexivity|].
          split; [reflexivity|]. split; [reflexivity|]. split.
          { change (set_live (set_mem s1 (mem s1)) (mkB false h (h + 8) req al :: live s1))
              with (set_live s1 (mkB false h (h + 8) req al :: live s1)).
            apply (hand_over hand s1 (mkB false h (h + 8) req al) V1).
            unfold AllocProofs.good; cbn [bsys bh bptr breq bal].
            split; [destruct Dh as [d ->]; exists (d + 1); lia|].
            split; [lia|]. split; [lia|]. split; [auto|]. split; [lia|].
            exists b, c, k. split; [exact S|]. split; [lia|]. split; [pose proof (csize_pos c); lia|].
            intros w Dw W. destruct (Z.eq_dec w h) as [->|]; auto.
            exfalso. destruct Dw as [d ->], Dh as [e He]. lia. }
          split; [auto|]. split; [auto|]. split; [auto|].
          intros h' H'. apply (keeps_trans _ s1); [auto|].
          apply keeps_intro; intros; split; auto.
        * apply Some_inj in E. subst s'.
          replace (h + 8 - 8) with h by lia. rewrite Em.
          destruct (F4 A0) as (Pw & Q8 & _).
          apply pow2_multiple_spec in Pw; [|lia]. destruct Pw as (j & Hj & ->).
          assert (J64 : j <= 64).
          { destruct (Z.le_gt_cases j 64); auto. exfalso.
            assert (2 ^ 64 < 2 ^ j) by (apply Z.pow_lt_mono_r; lia). unfold W64 in F3. lia. }
          assert (Hh0 : 0 <= h) by (rewrite Eh; pose proof (hdr_in ns b c k Hk); pose proof (csize_pos c); lia).
          destruct (align_up_spec (h + 8) j ltac:(lia) ltac:(lia)) as (AD & AL).
          { pose proof (hdr_in ns b c k Hk) as Q. rewrite Eh. lia. }
          set (p := align_up (h + 8) (2 ^ j)) in *.
          assert (Dp : (8 | p)).
          { apply (Z.divide_trans _ (2 ^ j)); auto. exists (2 ^ (j - 3)).
            change 8 with (2 ^ 3). rewrite <- Z.pow_add_r by lia. f_equal; lia. }
          assert (Lp : h + 8 <= p <= h + csize c).
          { split; [lia|]. destruct Dp as [d Ed], Dh as [e Eh'], (csize_div c) as [q Eq]. lia. }
          destruct (fill_inv hand s1 h b c k p V1 S Dp Lp) as (V2 & S2 & W2 & K2).
          exists (mkB false h p req (2 ^ j)). split; [cbn; rewrite L1; reflexivity|].
          split; [reflexivity|]. split; [reflexivity|]. split.
          { apply (hand_over hand _ (mkB false h p req (2 ^ j)) V2).
            unfold AllocProofs.good; cbn [bsys bh bptr breq bal].
            split; [auto|]. split; [lia|]. split; [lia|]. split; [lia|]. split; [auto|].
            exists b, c, k. split; [exact S2|]. split; [lia|]. split; [lia|]. exact W2. }
          split; [lia|]. split; [auto|]. split; [auto|].
          intros h' H'. apply (keeps_trans _ s1); [auto|]. apply (keeps_trans _ (set_mem s1 (fill WALK (mem s1) (h + 8) p b))).
          -- apply K2, held_tok. unfold held in *. rewrite L1. auto.
          -- apply keeps_intro; intros; split; auto.
  Qed.
End Ops4.
