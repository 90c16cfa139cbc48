(** Consequences of the allocator's invariant. *)
From Coq Require Import List ZArith Lia Bool Permutation.
From Verif Require Import Base AllocModel AllocSpec AllocProofs AllocProofs2 AllocProofs3 AllocProofs4 AllocProofs5.
Import ListNotations.
Open Scope Z_scope.

Section Facts.
  Variable ns : nat -> Z.
  Hypothesis NS : classes ns.
  Notation Inv := (Inv ns).

  Lemma reach_inv : forall s, reach ns s -> Inv [] s.
  Proof. intros s (l & U & E). apply (used_inv ns NS l init s); auto. apply init_inv. Qed.

  Lemma inv_disjoint : forall hand s, Inv hand s -> all_disjoint (live s).
  Proof.
    intros hand s V. unfold all_disjoint.
    assert (A : forall x y, In x (live s) -> In y (live s) -> bh x <> bh y ->
              forall w, byte_of x w -> byte_of y w -> False).
    { intros x y Hx Hy N w Wx Wy. apply N.
      apply (owned_same ns _ _ _ _ w V); apply block_owned; auto; apply (v_live ns _ _ V); auto. }
    pose proof (live_nodup ns _ _ V) as N. revert A N. generalize (live s). clear.
    induction l as [|a l IH]; intros A N; constructor.
    - apply Forall_forall. intros y Hy. apply A; [left; auto|right; auto|].
      inversion N as [|? ? N1 _]; subst. intros X. apply N1. rewrite X. apply in_map; auto.
    - apply IH; [intros; apply (A x y) with (w := w); auto; right; auto|]. inversion N; auto.
  Qed.

  Lemma inv_in_area : forall hand s x w, Inv hand s -> In x (live s) -> byte_of x w -> in_area ns s w.
  Proof.
    intros hand s x w V Hx W. pose proof (v_live ns _ _ V _ Hx) as G.
    destruct (block_owned ns _ _ _ G W) as [(b & c & k & S & Wh)|(len & (R1 & R2) & Wh)].
    - destruct (slab_inseg ns _ _ _ _ _ w S) as [J1 J2]; [lia|].
      exists b, (seglen ns c). split; [|exact J2].
      unfold areas. apply in_or_app; left. apply in_map_iff. exists (b, c); auto.
    - exists (bh x), len. split; [unfold areas; apply in_or_app; auto|exact Wh].
  Qed.

  (** Segments leave the list only in steps that add no memory. *)
  Lemma newslab_segs : forall s c b f s1, newslab ns s c b f = Some s1 -> incl (segs s) (segs s1).
  Proof.
    intros s c b f s1 E. unfold newslab in E. destruct (_ && _); [|discriminate]. injection E as <-.
    cbn. intros x H. apply in_or_app; auto.
  Qed.
  Lemma carve_segs : forall s c, segs (fst (carve s c)) = segs s.
  Proof. intros. unfold carve. destruct (avail s c - 1 =? 0); reflexivity. Qed.
  Lemma getitem_segs : forall s c o s1 h, getitem ns s c o = Some (s1, h) -> incl (segs s) (segs s1).
  Proof.
    intros s c o s1 h E. unfold getitem in E. destruct (0 <? avail s c).
    - injection E as E. assert (X : s1 = fst (carve s c)) by (rewrite E; auto). subst. rewrite carve_segs.
      apply incl_refl.
    - destruct o as [t|b f].
      + destruct (pop (lq s) c t) as [[h0 q]|]; [|discriminate]. injection E as <- <-. apply incl_refl.
      + destruct (newslab ns s c b f) as [s0|] eqn:En; [|discriminate]. injection E as E.
        assert (X : s1 = fst (carve s0 c)) by (rewrite E; auto). subst. rewrite carve_segs.
        apply (newslab_segs _ _ _ _ _ En).
  Qed.
  Lemma malloc_segs : forall s al req o s1, do_malloc ns s al req o = Some s1 ->
    incl (segs s) (segs s1) /\ nomore s1 = nomore s.
  Proof.
    intros s al req o s1 E. unfold do_malloc in E.
    destruct (_ && _); [injection E as <-; split; auto; apply incl_refl|].
    assert (Sys : forall b f,
      match sysalloc ns s b (((req + al) mod W64 + 8) mod W64) f with
            | None => None
            | Some s1 =>
              let m1 := wr (mem s1) b 0 in
              let p := if al =? 0 then b + 8 else align_up (b + 8) al in
              let m2 := wr m1 (p - 8) 0 in
              Some (set_live (set_mem s1 m2) (mkB true b p req al :: live s1))
            end = Some s1 -> incl (segs s) (segs s1) /\ nomore s1 = nomore s).
    { clear E. intros b f E. unfold sysalloc in E. destruct (os_fresh _ _ _); [|discriminate].
      apply Some_inj in E. subst. cbn [segs set_live set_mem nomore]. split; auto; apply incl_refl. }
    destruct (8192 <? (req + al) mod W64).
    - cbn [orb] in E. destruct o as [t|b f]; [discriminate|]. apply (Sys b f); auto.
    - destruct (getslabs _) as [c|]; [|injection E as <-; split; auto; apply incl_refl].
      cbn [orb] in E. destruct (ns c =? 0).
      + destruct o as [t|b f]; [discriminate|]. apply (Sys b f); auto.
      + destruct (getitem ns s c o) as [[s0 h]|] eqn:Eg; [|discriminate]. apply Some_inj in E. subst.
        cbn [segs set_live set_mem nomore]. split; [apply (getitem_segs _ _ _ _ _ Eg)|].
        unfold getitem in Eg. destruct (0 <? avail s c).
        * unfold carve in Eg. destruct (avail s c - 1 =? 0); injection Eg as <- <-; reflexivity.
        * destruct o as [t|b f].
          -- destruct (pop (lq s) c t) as [[h0 q]|]; [|discriminate]. injection Eg as <- <-. reflexivity.
          -- unfold newslab in Eg. destruct (_ && _); [|discriminate].
             unfold carve in Eg. cbn [avail] in Eg. destruct (_ =? 0) in Eg; injection Eg as <- <-; reflexivity.
  Qed.
  Lemma reclaim_shrinks : forall s h,
    incl (segs (check_reclaim ns s h)) (segs s) /\ regs (check_reclaim ns s h) = regs s.
  Proof.
    intros. unfold check_reclaim. destruct (seg_class _ _); [|split; auto; apply incl_refl].
    cbn. split; auto. destruct (_ =? _); [|apply incl_refl]. intros x H. apply filter_In in H; apply H.
  Qed.

  Lemma step_segs : forall s a s', step ns s a = Some s' ->
    incl (segs s) (segs s') \/ (incl (segs s') (segs s) /\ incl (regs s') (regs s)).
  Proof.
    intros s a s' E. destruct a as [al req o|t p|t|p n o|w v|c b f| |c t|c t]; cbn [step] in E.
    - destruct (nomore s); [discriminate|]. left. apply (malloc_segs _ _ _ _ _ E).
    - unfold do_free in E. destruct (find_live _ _); [|discriminate].
      destruct (free_finds (mem s) p).
      + left. injection E as <-. unfold sysfree. destruct (existsb _ _); apply incl_refl.
      + unfold putitem in E. destruct (seg_class _ _); [|left; injection E as <-; apply incl_refl].
        destruct (nomore _) eqn:Nm; cbn [nomore set_live] in Nm; [|left; destruct (existsb _ _); [discriminate|]; injection E as <-; apply incl_refl].
        right. injection E as <-. destruct (reclaim_shrinks (set_live s (drop_live (live s) p)) h) as [A B].
        split; auto. rewrite B. apply incl_refl.
      + left. injection E as <-. apply incl_refl.
    - destruct (pop_pend _ _) as [[h r]|]; [|discriminate].
      destruct (seg_class _ _); injection E as <-; left; apply incl_refl.
    - destruct (nomore s) eqn:Nm; [discriminate|]. left. unfold do_realloc in E.
      destruct (find_live _ _) as [x|]; [|discriminate]. destruct (mem s (p - 8) =? 0).
      + destruct (find _ _) as [[a len]|]; [|injection E as <-; apply incl_refl].
        destruct o as [t|b f]; [discriminate|]. unfold sysalloc in E. destruct (os_fresh _ _ _); [|discriminate].
        apply Some_inj in E. subst. cbn [segs set_live set_mem].
        unfold sysfree. destruct (existsb _ _); apply incl_refl.
      + destruct (seg_class s _); [|injection E as <-; apply incl_refl].
        destruct (n <=? csize _); [injection E as <-; apply incl_refl|].
        destruct (do_malloc ns s 0 n o) as [s1|] eqn:Em; [|discriminate].
        destruct (malloc_segs _ _ _ _ _ Em) as [A B].
        destruct (live s1) as [|y l]; [discriminate|]. unfold putitem in E.
        destruct (seg_class _ _); [|apply Some_inj in E; subst; exact A].
        replace (nomore _) with (nomore s1) in E by reflexivity. rewrite B, Nm in E.
        destruct (existsb _ _); [discriminate|]. apply Some_inj in E; subst; exact A.
    - destruct (existsb _ _); [|discriminate]. injection E as <-. left; apply incl_refl.
    - destruct (_ && _); [|discriminate]. left; apply (newslab_segs _ _ _ _ _ E).
    - injection E as <-. left; apply incl_refl.
    - destruct (nomore s); [|discriminate]. destruct (pop _ _ _) as [[h q]|]; [|discriminate].
      injection E as <-. right. destruct (reclaim_shrinks (set_lq s q) h) as [A B].
      split; auto. rewrite B. apply incl_refl.
    - destruct (_ && _); [|discriminate]. destruct (pop _ _ _) as [[h q]|]; [|discriminate].
      injection E as <-. right. destruct (reclaim_shrinks (set_lq s q) h) as [A B].
      split; auto. rewrite B. apply incl_refl.
  Qed.

  Lemma release_unused : forall s a s' b c, reach ns s -> proper ns s a -> step ns s a = Some s' ->
    In (b, c) (segs s) -> ~ In (b, c) (segs s') ->
    forall x w, In x (live s') -> byte_of x w -> ~ (b <= w < b + seglen ns c).
  Proof.
    intros s a s' b c R Pr E H N x w Hx Wx W.
    pose proof (reach_inv _ R) as V. destruct (step_ok ns NS _ _ _ V Pr E) as [V' _].
    destruct (step_segs _ _ _ E) as [I|[I1 I2]]; [apply N, I, H|].
    pose proof (v_live ns _ _ V' _ Hx) as G.
    destruct (block_owned ns _ _ _ G Wx) as [(b' & c' & k & S & Wh)|(len & (R1 & R2) & Wh)].
    - destruct (slab_inseg ns _ _ _ _ _ w S) as [J1 J2]; [lia|].
      pose proof (seg_same ns _ _ _ _ w V H (I1 _ J1) W J2) as Q. apply N. rewrite Q; auto.
    - apply (seg_reg ns _ _ _ _ w V H (I2 _ R1) W Wh).
  Qed.

  Lemma all_returned : forall s, reach ns s -> live s = [] -> pend s = [] -> lq s = [] ->
    forall b c, In (b, c) (segs s) -> bp s c = b + 24 /\ avail s c = ns c.
  Proof.
    intros s R L P Q b c H. pose proof (reach_inv _ R) as V.
    apply (v_full ns _ _ V); auto. pose proof (v_av ns _ _ V _ _ H) as A.
    unfold toks in A. rewrite L, P, Q in A. cbn in A. unfold cnt in A. cbn in A. lia.
  Qed.

  Lemma pop_some : forall q c t h, In (c, t, h) q -> exists h' r, pop q c t = Some (h', r) /\ In (c, t, h') q.
  Proof.
    induction q as [|((c', t'), h') q IH]; intros c t h H; [destruct H|]. cbn [pop].
    destruct (Nat.eqb_spec c' c) as [->|Nc]; cbn [andb].
    - destruct (Nat.eqb_spec t' t) as [->|Nt]; [exists h', q; split; auto; left; auto|].
      destruct H as [H|H]; [congruence|]. destruct (IH _ _ _ H) as (h1 & r & E & I). rewrite E.
      eexists _, _. split; [reflexivity|right; auto].
    - destruct H as [H|H]; [congruence|]. destruct (IH _ _ _ H) as (h1 & r & E & I). rewrite E.
      eexists _, _. split; [reflexivity|right; auto].
  Qed.
End Facts.

(** * The scan of getfrom_fb *)
Lemma scan_from_spec : forall A n (qs : list (list A)) last i,
  match scan_from n qs last i with
  | Some (k, x) => (k < length qs)%nat /\ exists q, nth k qs [] = x :: q
  | None => forall j, (i <= j < i + n)%nat -> nth (Nat.modulo (last + j) (length qs)) qs [] = []
  end.
Proof.
  induction n as [|n IH]; intros qs last i; cbn [scan_from]; [intros; lia|].
  destruct (nth (Nat.modulo (last + i) (length qs)) qs []) as [|x q] eqn:E.
  - specialize (IH qs last (S i)). destruct (scan_from n qs last (S i)) as [[k x]|]; auto.
    intros j Hj. destruct (Nat.eq_dec j i) as [->|]; auto. apply IH. lia.
  - split; [|eauto]. destruct qs as [|q0 qs]; [rewrite nth_overflow in E by (cbn; lia); discriminate|].
    apply Nat.mod_upper_bound. discriminate.
Qed.

Lemma scan_spec : forall A (qs : list (list A)) last,
  match scan qs last with
  | Some (k, x) => (k < length qs)%nat /\ exists q, nth k qs [] = x :: q
  | None => forall q, In q qs -> q = []
  end.
Proof.
  intros A qs last. unfold scan. pose proof (scan_from_spec A (length qs) qs last 0) as H.
  destruct (scan_from (length qs) qs last 0) as [[k x]|]; auto.
  intros q Hq. apply (In_nth _ _ []) in Hq as (k & Hk & <-).
  set (n := length qs) in *.
  destruct (Nat.eq_dec n 0) as [Z|Z]; [lia|].
  pose proof (Nat.mod_upper_bound last n Z) as B.
  specialize (H ((k + (n - last mod n)) mod n)%nat).
  etransitivity; [|apply H].
  - f_equal. rewrite Nat.add_mod_idemp_r by auto.
    replace (last + (k + (n - last mod n)))%nat with (k + (last / n + 1) * n)%nat.
    + rewrite Nat.mod_add by auto. symmetry. apply Nat.mod_small; auto.
    + pose proof (Nat.div_mod last n Z). nia.
  - split; [lia|]. apply Nat.mod_upper_bound; auto.
Qed.
