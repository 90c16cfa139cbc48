(** Invariant of the allocator model. *)
From Coq Require Import List ZArith Lia Bool Permutation.
From Verif Require Import AllocModel.
Import ListNotations.
Open Scope Z_scope.

(** * Lists *)
Definition cnt (f : Z -> bool) (l : list Z) : Z := Z.of_nat (length (filter f l)).
Lemma cnt_cons : forall f a l, cnt f (a :: l) = (if f a then 1 else 0) + cnt f l.
Proof. intros; unfold cnt; simpl; destruct (f a); cbn [length]; lia. Qed.
Lemma cnt_nonneg : forall f l, 0 <= cnt f l.
Proof. intros; unfold cnt; lia. Qed.
Lemma cnt_perm : forall f l l', Permutation l l' -> cnt f l = cnt f l'.
Proof.
  intros f l l' P; induction P; rewrite ?cnt_cons in *; try lia.
Qed.
Lemma cnt_zero : forall f l, cnt f l = 0 -> forall x, In x l -> f x = false.
Proof.
  intros f l; induction l as [|a l IH]; intros E x Hx; [destruct Hx|].
  rewrite cnt_cons in E; pose proof (cnt_nonneg f l).
  destruct (f a) eqn:Ea; [lia|]. destruct Hx as [->|Hx]; auto.
Qed.
Lemma cnt_none : forall f l, (forall x, In x l -> f x = false) -> cnt f l = 0.
Proof.
  intros f l; induction l as [|a l IH]; intros H; [reflexivity|].
  rewrite cnt_cons, (H a) by (left; auto). rewrite IH; [lia|]. intros; apply H; right; auto.
Qed.
Lemma cnt_pos : forall f l x, In x l -> f x = true -> 0 < cnt f l.
Proof.
  intros f l x; induction l as [|a l IH]; intros Hx E; [destruct Hx|].
  rewrite cnt_cons; pose proof (cnt_nonneg f l).
  destruct Hx as [->|Hx]; [rewrite E; lia|]. specialize (IH Hx E). destruct (f a); lia.
Qed.

Lemma FOP_in : forall A (R : A -> A -> Prop) l x y,
  (forall a b, R a b -> R b a) -> ForallOrdPairs R l -> In x l -> In y l -> x = y \/ R x y.
Proof.
  intros A R l x y S H Hx Hy.
  destruct (ForallOrdPairs_In H x y Hx Hy) as [E|[E|E]]; auto.
Qed.
Lemma FOP_filter : forall A (R : A -> A -> Prop) f l,
  ForallOrdPairs R l -> ForallOrdPairs R (filter f l).
Proof.
  intros A R f l H; induction H as [|a l H F IH]; simpl; [constructor|].
  destruct (f a); auto. constructor; auto.
  rewrite Forall_forall in *. intros x Hx. apply filter_In in Hx as [Hx _]. auto.
Qed.
Lemma FOP_snoc : forall A (R : A -> A -> Prop) l a,
  ForallOrdPairs R l -> (forall x, In x l -> R x a) -> ForallOrdPairs R (l ++ [a]).
Proof.
  intros A R l a H; induction H as [|b l H F IH]; simpl; intros K.
  - repeat constructor.
  - constructor; [|apply IH; auto].
    apply Forall_app. split; auto.
Qed.

Lemma apart_sym : forall x y, apart x y = true -> apart y x = true.
Proof. unfold apart; intros [a b] [c d]; simpl; lia. Qed.

(** * Arithmetic *)
Lemma csize_pos : forall c, 32 <= csize c.
Proof.
  intros c; unfold csize. assert (0 < 2 ^ Z.of_nat c) by (apply Z.pow_pos_nonneg; lia). lia.
Qed.
Lemma csize_div : forall c, (8 | csize c).
Proof. intros c; unfold csize. exists (4 * 2 ^ Z.of_nat c); lia. Qed.

Lemma wr_eq : forall m a v, wr m a v a = v.
Proof. intros; unfold wr; rewrite Z.eqb_refl; auto. Qed.
Lemma wr_neq : forall m a v x, x <> a -> wr m a v x = m x.
Proof. intros; unfold wr; destruct (Z.eqb_spec x a); congruence. Qed.

Lemma div8_gap : forall x y, (8 | x) -> (8 | y) -> x < y + 8 -> x <= y.
Proof. intros x y [a ->] [b ->]; lia. Qed.

Section Inv.
  Variable ns : nat -> Z.
  Notation hdr := hdr.

  Lemma seglen_eq : forall c, seglen ns c = 24 + ns c * (csize c + 8).
  Proof. intros; unfold seglen; lia. Qed.
  Lemma hdr_in : forall b c k, 0 <= k < ns c ->
    b + 24 <= hdr b c k /\ hdr b c k + 8 + csize c <= b + seglen ns c.
  Proof.
    intros b c k H; rewrite seglen_eq; unfold AllocModel.hdr; pose proof (csize_pos c). nia.
  Qed.
  Lemma hdr_apart : forall b c k k', k < k' -> hdr b c k + 8 + csize c <= hdr b c k'.
  Proof. intros b c k k' H; unfold AllocModel.hdr; pose proof (csize_pos c). nia. Qed.
  Lemma hdr_inj : forall b c k k', hdr b c k = hdr b c k' -> k = k'.
  Proof. intros b c k k'; unfold AllocModel.hdr; pose proof (csize_pos c). nia. Qed.
  Lemma hdr_div : forall b c k, (8 | b) -> (8 | hdr b c k).
  Proof.
    intros b c k Hb; unfold AllocModel.hdr. destruct (csize_div c) as [q ->]. destruct Hb as [r ->].
    exists (r + 3 + k * (q + 1)); lia.
  Qed.
  Lemma hdr_0 : forall b c, hdr b c 0 = b + 24.
  Proof. intros; unfold AllocModel.hdr; lia. Qed.
  Lemma hdr_S : forall b c k, hdr b c (k + 1) = hdr b c k + 8 + csize c.
  Proof. intros; unfold AllocModel.hdr; lia. Qed.

  Definition inseg (x : Z * nat) (w : Z) : Prop := fst x <= w < fst x + seglen ns (snd x).
  Definition inreg (x : Z * Z) (w : Z) : Prop := fst x <= w < fst x + snd x.
  Definition sarea (x : Z * nat) : Z * Z := (fst x, seglen ns (snd x)).

  Definition slab (s : st) (h b : Z) (c : nat) (k : Z) : Prop :=
    In (b, c) (segs s) /\ 0 <= k < ns c /\ h = hdr b c k /\ mem s h = b.
  Definition reg (s : st) (h len : Z) : Prop := In (h, len) (regs s) /\ mem s h = 0.

  Definition good (s : st) (x : blk) : Prop :=
    (8 | bptr x) /\ bh x + 8 <= bptr x /\ 0 <= breq x /\
    (bal x = 0 -> bptr x = bh x + 8) /\ (bal x <> 0 -> (bal x | bptr x)) /\
    if bsys x then exists len, reg s (bh x) len /\ bptr x + breq x <= bh x + len /\ bptr x = bh x + 8
    else exists b c k, slab s (bh x) b c k /\ bptr x + breq x <= bh x + 8 + csize c
           /\ bptr x < bh x + 8 + csize c
           /\ forall w, (8 | w) -> bh x <= w < bptr x -> mem s w = b.

  Definition toks (hand : list Z) (s : st) : list Z :=
    hand ++ map bh (live s) ++ map snd (pend s) ++ map snd (lq s).

  Definition segf (b : Z) (c : nat) (h : Z) : bool := (b <=? h) && (h <? b + seglen ns c).

  Record Inv (hand : list Z) (s : st) : Prop := mkInv {
    v_bad : bad s = false;
    v_d1 : ForallOrdPairs (fun x y => apart (sarea x) (sarea y) = true) (segs s);
    v_d2 : ForallOrdPairs (fun x y => apart x y = true) (regs s);
    v_d3 : forall x y, In x (segs s) -> In y (regs s) -> apart (sarea x) y = true;
    v_seg : forall b c, In (b, c) (segs s) -> 0 < ns c /\ (8 | b) /\ ns c < b /\ b + seglen ns c < W64;
    v_reg : forall a len, In (a, len) (regs s) -> 0 < a /\ (8 | a) /\ 8 <= len /\ mem s a = 0;
    v_nd : NoDup (toks hand s);
    v_hand : forall h, In h hand -> (exists b c k, slab s h b c k) \/ (exists len, reg s h len);
    v_live : forall x, In x (live s) -> good s x;
    v_pend : forall t h, In (t, h) (pend s) -> exists b c k, slab s h b c k;
    v_lq : forall c t h, In (c, t, h) (lq s) -> exists b k, slab s h b c k;
    v_av0 : forall c, 0 <= avail s c;
    v_bp : nomore s = false -> forall c, 0 < avail s c ->
      exists b, In (b, c) (segs s) /\ avail s c <= ns c /\ bp s c = hdr b c (ns c - avail s c)
        /\ mem s (bp s c) = b
        /\ forall k, 0 <= k < ns c -> In (hdr b c k) (toks hand s) -> k < ns c - avail s c;
    v_av : forall b c, In (b, c) (segs s) -> mem s (b + 16) + cnt (segf b c) (toks hand s) = ns c;
    v_last : forall b c k, In (b, c) (segs s) -> 1 <= k < ns c -> mem s (hdr b c k - 8) <> b;
    v_full : forall b c, In (b, c) (segs s) -> mem s (b + 16) = ns c -> bp s c = b + 24 /\ avail s c = ns c }.

  Definition slot (s : st) (h : Z) : Prop :=
    (exists b c k, slab s h b c k) \/ (exists len, reg s h len).

  Lemma good_slot : forall s x, good s x -> slot s (bh x).
  Proof.
    intros s x (_ & _ & _ & _ & _ & G). destruct (bsys x).
    - destruct G as (len & R & _). right; eauto.
    - destruct G as (b & c & k & R & _). left; eauto.
  Qed.
  Lemma tok_slot : forall hand s h, Inv hand s -> In h (toks hand s) -> slot s h.
  Proof.
    intros hand s h V H. unfold toks in H. rewrite !in_app_iff, !in_map_iff in H.
    destruct H as [H|[(x & <- & H)|[((t, h') & <- & H)|(((c, t), h') & <- & H)]]].
    - apply (v_hand _ _ V _ H).
    - apply good_slot, (v_live _ _ V _ H).
    - left; apply (v_pend _ _ V _ _ H).
    - left. destruct (v_lq _ _ V _ _ _ H) as (b & k & R). exists b, c, k; exact R.
  Qed.

  (** Segments and system blocks do not overlap. *)
  Lemma seg_same : forall hand s x y w, Inv hand s -> In x (segs s) -> In y (segs s) ->
    inseg x w -> inseg y w -> x = y.
  Proof.
    intros hand s x y w V Hx Hy Ix Iy.
    destruct (FOP_in _ _ _ x y (fun a b => apart_sym _ _) (v_d1 _ _ V) Hx Hy) as [E|E]; auto.
    unfold apart, sarea, inseg in *; simpl in *; lia.
  Qed.
  Lemma reg_same : forall hand s x y w, Inv hand s -> In x (regs s) -> In y (regs s) ->
    inreg x w -> inreg y w -> x = y.
  Proof.
    intros hand s x y w V Hx Hy Ix Iy.
    destruct (FOP_in _ _ _ x y apart_sym (v_d2 _ _ V) Hx Hy) as [E|E]; auto.
    unfold apart, inreg in *; simpl in *; lia.
  Qed.
  Lemma seg_reg : forall hand s x y w, Inv hand s -> In x (segs s) -> In y (regs s) ->
    inseg x w -> inreg y w -> False.
  Proof.
    intros hand s x y w V Hx Hy Ix Iy.
    pose proof (v_d3 _ _ V x y Hx Hy). unfold apart, sarea, inseg, inreg in *; simpl in *; lia.
  Qed.

  Lemma slab_inseg : forall s h b c k w, slab s h b c k -> h <= w < h + 8 + csize c ->
    In (b, c) (segs s) /\ inseg (b, c) w.
  Proof.
    intros s h b c k w (H & Hk & -> & _) Hw. split; auto. unfold inseg; simpl.
    pose proof (hdr_in b c k Hk). lia.
  Qed.
  Lemma head_inseg : forall b c w, 0 < ns c -> b <= w < b + 24 -> inseg (b, c) w.
  Proof. intros; unfold inseg; simpl. rewrite seglen_eq. pose proof (csize_pos c). nia. Qed.

  (** Two slab slots that share a byte are the same. *)
  Lemma slab_same : forall hand s h b c k h' b' c' k' w, Inv hand s ->
    slab s h b c k -> slab s h' b' c' k' ->
    h <= w < h + 8 + csize c -> h' <= w < h' + 8 + csize c' ->
    h = h' /\ b = b' /\ c = c' /\ k = k'.
  Proof.
    intros hand s h b c k h' b' c' k' w V S1 S2 H1 H2.
    destruct (slab_inseg _ _ _ _ _ _ S1 H1) as [I1 J1].
    destruct (slab_inseg _ _ _ _ _ _ S2 H2) as [I2 J2].
    pose proof (seg_same _ _ _ _ _ V I1 I2 J1 J2) as E. injection E as <- <-.
    destruct S1 as (_ & _ & -> & _), S2 as (_ & _ & -> & _).
    destruct (Z.lt_trichotomy k k') as [L|[L|L]].
    - pose proof (hdr_apart b c _ _ L). lia.
    - subst. auto.
    - pose proof (hdr_apart b c _ _ L). lia.
  Qed.

  (** A header of the segment [b]. *)
  Lemma hdr_tok : forall hand s b c k h', Inv hand s -> In (b, c) (segs s) -> 0 <= k < ns c ->
    slot s h' -> hdr b c k <= h' < hdr b c k + 8 + csize c -> h' = hdr b c k.
  Proof.
    intros hand s b c k h' V Hs Hk [(b' & c' & k' & S)|(len & R)] Hw.
    - assert (I1 : inseg (b, c) h') by (unfold inseg; simpl; pose proof (hdr_in b c k Hk); lia).
      destruct (slab_inseg _ _ _ _ _ h' S) as [Hs' I2]; [pose proof (csize_pos c'); lia|].
      pose proof (seg_same _ _ _ _ _ V Hs Hs' I1 I2) as E. injection E as <- <-.
      destruct S as (_ & _ & -> & _).
      destruct (Z.lt_trichotomy k k') as [L|[L|L]].
      + pose proof (hdr_apart b c _ _ L). lia.
      + subst. auto.
      + pose proof (hdr_apart b c _ _ L). pose proof (csize_pos c). lia.
    - exfalso. destruct R as [R _]. apply (seg_reg _ _ _ _ h' V Hs R).
      + unfold inseg; simpl; pose proof (hdr_in b c k Hk); lia.
      + unfold inreg; simpl. destruct (v_reg _ _ V _ _ R). lia.
  Qed.

  (** Headers and counters: the words of a segment that belong to the allocator. *)
  Definition ctl (s : st) (w : Z) : Prop :=
    exists b c, In (b, c) (segs s) /\ (w = b + 16 \/ exists k, 0 <= k < ns c /\ w = hdr b c k).

  Lemma hdr_inseg : forall b c k, 0 <= k < ns c -> inseg (b, c) (hdr b c k).
  Proof.
    intros b c k H. unfold inseg; cbn [fst snd]. pose proof (hdr_in b c k H).
    pose proof (csize_pos c). lia.
  Qed.
  Lemma hdr_same : forall hand s b c k b' c' k', Inv hand s -> In (b, c) (segs s) -> In (b', c') (segs s) ->
    0 <= k < ns c -> 0 <= k' < ns c' -> hdr b c k = hdr b' c' k' -> b = b' /\ c = c' /\ k = k'.
  Proof.
    intros hand s b c k b' c' k' V H H' Hk Hk' E.
    pose proof (hdr_inseg b c k Hk) as I1. pose proof (hdr_inseg b' c' k' Hk') as I2.
    rewrite E in I1. pose proof (seg_same _ _ _ _ _ V H H' I1 I2) as Q. injection Q as <- <-.
    apply hdr_inj in E. auto.
  Qed.
  Lemma hdr_not_head : forall hand s b c k b' c' d, Inv hand s -> In (b, c) (segs s) -> In (b', c') (segs s) ->
    0 <= k < ns c -> 0 <= d < 24 -> hdr b c k <> b' + d.
  Proof.
    intros hand s b c k b' c' d V H H' Hk Hd E.
    pose proof (hdr_inseg b c k Hk) as I1.
    assert (I2 : inseg (b', c') (b' + d)) by (apply head_inseg; [apply (v_seg _ _ V _ _ H')|lia]).
    rewrite E in I1. pose proof (seg_same _ _ _ _ _ V H H' I1 I2) as Q. injection Q as <- <-.
    pose proof (hdr_in b c k Hk). lia.
  Qed.
  Lemma head_same : forall hand s b c b' c' d, Inv hand s -> In (b, c) (segs s) -> In (b', c') (segs s) ->
    0 <= d < 24 -> b + d = b' + d -> b = b' /\ c = c'.
  Proof.
    intros hand s b c b' c' d V H H' Hd E. assert (b = b') by lia. subst b'.
    assert (I1 : inseg (b, c) (b + d)) by (apply head_inseg; [apply (v_seg _ _ V _ _ H)|lia]).
    assert (I2 : inseg (b, c') (b + d)) by (apply head_inseg; [apply (v_seg _ _ V _ _ H')|lia]).
    pose proof (seg_same _ _ _ _ _ V H H' I1 I2) as Q. injection Q as <-. auto.
  Qed.
  Lemma pay_not_ctl : forall hand s b c k w, Inv hand s -> In (b, c) (segs s) -> 0 <= k < ns c ->
    hdr b c k < w < hdr b c k + 8 + csize c -> ~ ctl s w.
  Proof.
    intros hand s b c k w V H Hk W (b' & c' & H' & [->|(k' & Hk' & ->)]).
    - assert (I2 : inseg (b', c') (b' + 16)) by (apply head_inseg; [apply (v_seg _ _ V _ _ H')|lia]).
      pose proof (hdr_in b c k Hk).
      assert (I1 : inseg (b, c) (b' + 16)) by (unfold inseg; cbn [fst snd]; lia).
      pose proof (seg_same _ _ _ _ _ V H H' I1 I2) as Q. injection Q as <- <-. lia.
    - pose proof (hdr_inseg b' c' k' Hk') as I2.
      pose proof (hdr_in b c k Hk).
      assert (I1 : inseg (b, c) (hdr b' c' k')) by (unfold inseg; cbn [fst snd]; lia).
      pose proof (seg_same _ _ _ _ _ V H H' I1 I2) as Q. injection Q as <- <-.
      destruct (Z.lt_trichotomy k k') as [L|[L|L]].
      + pose proof (hdr_apart b c _ _ L). lia.
      + subst. lia.
      + pose proof (hdr_apart b c _ _ L). pose proof (csize_pos c). lia.
  Qed.
  Lemma last_in_pay : forall b c k,
    hdr b c (k - 1) < hdr b c k - 8 < hdr b c (k - 1) + 8 + csize c.
  Proof.
    intros b c k. replace k with (k - 1 + 1) at 2 3 by lia. rewrite hdr_S. pose proof (csize_pos c). lia.
  Qed.
  Lemma reg_not_ctl : forall hand s a len w, Inv hand s -> In (a, len) (regs s) -> a <= w < a + len ->
    ~ ctl s w.
  Proof.
    intros hand s a len w V R W (b & c & H & D).
    apply (seg_reg _ _ _ _ w V H R); [|exact W].
    destruct D as [->|(k & Hk & ->)]; [|apply hdr_inseg; auto].
    apply head_inseg; [apply (v_seg _ _ V _ _ H)|lia].
  Qed.

  (** Replacing the memory by one that agrees on what the allocator reads. *)
  Lemma inv_mem : forall hand s m', Inv hand s ->
    (forall b c, In (b, c) (segs s) -> m' (b + 16) = mem s (b + 16)) ->
    (forall b c k, In (b, c) (segs s) -> 0 <= k < ns c -> m' (hdr b c k) = mem s (hdr b c k)) ->
    (forall a len, In (a, len) (regs s) -> m' a = mem s a) ->
    (forall x b c k, In x (live s) -> bsys x = false -> slab s (bh x) b c k ->
       forall w, (8 | w) -> bh x <= w < bptr x -> m' w = mem s w) ->
    (forall b c k, In (b, c) (segs s) -> 1 <= k < ns c -> m' (hdr b c k - 8) <> b) ->
    Inv hand (set_mem s m').
  Proof.
    intros hand s m' V A1 A2 A3 A4 A5.
    assert (SL : forall h b c k, slab s h b c k -> slab (set_mem s m') h b c k).
    { intros h b c k (P1 & P2 & P3 & P4). repeat split; auto; try lia. cbn. subst h. rewrite A2; auto. }
    assert (RG : forall h len, reg s h len -> reg (set_mem s m') h len).
    { intros h len (P1 & P2). split; auto. cbn. rewrite (A3 _ _ P1); auto. }
    destruct V as [V1 V2 V3 V4 V5 V6 V7 V8 V9 V10 V11 V12 V13 V14 V15 V16].
    constructor; cbn -[AllocModel.hdr seglen]; auto.
    - intros a len H. destruct (V6 _ _ H) as (P1 & P2 & P3 & P4). repeat split; auto.
      rewrite (A3 _ _ H); auto.
    - intros h H. destruct (V8 _ H) as [(b & c & k & S)|(len & R)]; [left|right]; eauto 6.
    - intros x H. pose proof (V9 _ H) as (P1 & P2 & P3 & P4 & P4' & P5).
      repeat split; auto. destruct (bsys x) eqn:Eb.
      + destruct P5 as (len & R & P). exists len. auto.
      + destruct P5 as (b & c & k & S & P6 & P7 & P8). exists b, c, k.
        split; [apply SL, S|]. split; [auto|]. split; [auto|].
        intros w Hw Hr. cbn. rewrite (A4 _ b c k H Eb S w Hw Hr). auto.
    - intros t h H. destruct (V10 _ _ H) as (b & c & k & S). eauto 6.
    - intros c t h H. destruct (V11 _ _ _ H) as (b & k & S). eauto 6.
    - intros N c Hc. destruct (V13 N c Hc) as (b & P1 & P2 & P3 & P4 & P5).
      exists b. repeat split; auto. rewrite P3 in *. rewrite A2; auto; lia.
    - intros b c H. rewrite (A1 _ _ H). auto.
    - intros b c H. rewrite (A1 _ _ H). auto.
  Qed.
End Inv.
