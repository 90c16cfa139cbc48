From Coq Require Import List Arith Lia Bool.
From Verif Require Import Base SpscSeqModel SpscSpec.
Import ListNotations.

Section P.
Context {A : Type}.

Lemma wrap_mod : forall n i, i < n -> wrap n i = (i + 1) mod n.
Proof.
  intros n i H. unfold wrap. destruct (Nat.leb_spec n (i + 1)).
  - assert (i + 1 = n) as -> by lia. rewrite Nat.mod_same by lia. lia.
  - symmetry; apply Nat.mod_small; lia.
Qed.

Lemma wrap_lt : forall n i, i < n -> wrap n i < n.
Proof. intros. rewrite wrap_mod by lia. apply Nat.mod_upper_bound; lia. Qed.

(** [q] is the abstract content of the ring [r] of size [n]. *)
Record rep (n : nat) (r : ring A) (q : list A) : Prop := {
  rep_n : 1 <= n;
  rep_size : size r = n;
  rep_len : length (buf r) = n;
  rep_pr : pread r < n;
  rep_q : length q <= n;
  rep_pw : pwrite r = (pread r + length q) mod n;
  rep_slots : forall k, k < n -> nth_error (buf r) ((pread r + k) mod n) = Some (nth_error q k)
}.

Lemma rep_reset : forall n r b,
  1 <= n -> size r = n -> (b = true -> longxCacheLine <= n) -> rep n (reset r b) [].
Proof.
  intros n r b Hn Hs Hb. unfold reset. rewrite Hs.
  assert (Hp : (if b then longxCacheLine - 1 else 0) < n).
  { destruct b; [specialize (Hb eq_refl); unfold longxCacheLine in *|]; lia. }
  constructor; simpl; auto; try lia.
  - apply repeat_length.
  - rewrite Nat.add_0_r, Nat.mod_small; auto.
  - intros k Hk. rewrite nth_error_repeat.
    + destruct k; reflexivity.
    + apply Nat.mod_upper_bound; lia.
Qed.

Lemma rep_head : forall n r q, rep n r q -> nth_error (buf r) (pread r) = Some (nth_error q 0).
Proof.
  intros n r q H. destruct H. rewrite <- (rep_slots0 0) by lia.
  rewrite Nat.add_0_r, Nat.mod_small; auto.
Qed.

Lemma rep_tail : forall n r q, rep n r q -> length q < n ->
  nth_error (buf r) (pwrite r) = Some None.
Proof.
  intros n r q H L. destruct H. rewrite rep_pw0, rep_slots0 by lia.
  f_equal. apply nth_error_None. lia.
Qed.

Lemma rep_full : forall n r q, rep n r q -> length q = n -> pwrite r = pread r.
Proof.
  intros n r q H L. destruct H. rewrite rep_pw0, L, mod_add_n by lia.
  now apply Nat.mod_small.
Qed.

Lemma rep_available : forall n r q, rep n r q -> available r = Ok (length q <? n).
Proof.
  intros n r q H. unfold available.
  destruct (Nat.ltb_spec (length q) n).
  - now rewrite (rep_tail _ _ _ H H0).
  - assert (length q = n) by (destruct H; lia).
    rewrite (rep_full _ _ _ H H1), (rep_head _ _ _ H).
    destruct q; simpl in *; [destruct H; lia|reflexivity].
Qed.

Lemma rep_empty : forall n r q, rep n r q ->
  empty r = Ok (match q with [] => true | _ => false end).
Proof.
  intros n r q H. unfold empty. rewrite (rep_head _ _ _ H). destruct q; reflexivity.
Qed.

Lemma rep_push : forall n r q x, rep n r q -> length q < n ->
  rep n (mkRing (lupd (buf r) (pwrite r) (Some x)) (pread r) (wrap (size r) (pwrite r)) (size r))
      (q ++ [x]).
Proof.
  intros n r q x H L. pose proof H as H0. destruct H.
  assert (pwrite r < n) by (rewrite rep_pw0; apply Nat.mod_upper_bound; lia).
  constructor; simpl; auto; try lia.
  - now rewrite lupd_length.
  - rewrite app_length; simpl; lia.
  - rewrite rep_size0, wrap_mod by auto. rewrite rep_pw0, app_length; simpl.
    rewrite Nat.add_mod_idemp_l by lia. f_equal; lia.
  - intros k Hk. rewrite nth_error_lupd, rep_len0, nth_error_snoc.
    assert ((pread r + k) mod n < n) by (apply Nat.mod_upper_bound; lia).
    destruct (Nat.eqb_spec (pwrite r) ((pread r + k) mod n)) as [e|ne].
    + rewrite rep_pw0 in e.
      assert (length q = k).
      { destruct (Nat.le_gt_cases (length q) k).
        - enough (pread r + length q = pread r + k) by lia.
          apply (mod_inj_window n); auto; lia.
        - enough (pread r + k = pread r + length q) by lia.
          apply (mod_inj_window n); auto; lia. }
      subst k.
      rewrite (proj2 (Nat.ltb_lt _ _)) by auto.
      rewrite Nat.ltb_irrefl, Nat.eqb_refl. reflexivity.
    + rewrite rep_slots0 by auto.
      destruct (Nat.ltb_spec k (length q)); auto.
      destruct (Nat.eqb_spec k (length q)) as [->|].
      * exfalso; apply ne. exact rep_pw0.
      * f_equal. apply nth_error_None. lia.
Qed.

Lemma rep_inc : forall n r x q, rep n r (x :: q) -> rep n (inc r) q.
Proof.
  intros n r x q H. pose proof H as H0. destruct H. simpl in *.
  assert (pwrite r < n) by (rewrite rep_pw0; apply Nat.mod_upper_bound; lia).
  unfold inc. constructor; simpl; auto; try lia.
  - now rewrite lupd_length.
  - rewrite rep_size0. now apply wrap_lt.
  - rewrite rep_size0, wrap_mod, rep_pw0 by auto.
    rewrite Nat.add_mod_idemp_l by lia. f_equal; lia.
  - intros k Hk. rewrite rep_size0, wrap_mod by auto.
    rewrite Nat.add_mod_idemp_l by lia.
    replace (pread r + 1 + k) with (pread r + S k) by lia.
    rewrite nth_error_lupd, rep_len0.
    destruct (Nat.eq_dec (S k) n) as [e|ne].
    + rewrite e, mod_add_n, (Nat.mod_small (pread r)) by lia.
      rewrite Nat.eqb_refl, (proj2 (Nat.ltb_lt _ _)) by auto.
      f_equal. symmetry; apply nth_error_None; lia.
    + destruct (Nat.eqb_spec (pread r) ((pread r + S k) mod n)) as [e|].
      * exfalso.
        rewrite <- (Nat.mod_small (pread r) n) in e at 1 by auto.
        apply (mod_inj_window n) in e; lia.
      * rewrite rep_slots0 by lia. reflexivity.
Qed.

Lemma rep_length : forall n r q, rep n r q -> length_ r = Ok (length q).
Proof.
  intros n r q H. unfold length_. pose proof H as H0. destruct H0.
  assert (Hc : pread r + length q < n /\ pwrite r = pread r + length q \/
          n <= pread r + length q /\ pwrite r = pread r + length q - n).
  { destruct (Nat.lt_ge_cases (pread r + length q) n).
    - left; split; auto. rewrite rep_pw0. now apply Nat.mod_small.
    - right; split; auto. rewrite rep_pw0.
      symmetry; apply Nat.mod_unique with (q := 1); lia. }
  destruct (Nat.ltb_spec (pread r) (pwrite r)); [f_equal; lia|].
  destruct (Nat.ltb_spec (pwrite r) (pread r)); [f_equal; lia|].
  destruct (Nat.lt_ge_cases (length q) n).
  - rewrite (rep_tail _ _ _ H) by auto. f_equal; lia.
  - assert (pwrite r = pread r) as -> by lia.
    rewrite (rep_head _ _ _ H). destruct q; simpl in *; [lia|]. f_equal; lia.
Qed.

Definition op_ok (n : nat) (o : op A) : Prop :=
  match o with OReset true => longxCacheLine <= n | _ => True end.

Lemma step_refines : forall n r q o, rep n r q -> op_ok n o ->
  exists r', step r o = Ok (r', snd (spec_step n q o)) /\ rep n r' (fst (spec_step n q o)).
Proof.
  intros n r q o H Ho. destruct o; simpl.
  - unfold push. rewrite (rep_available _ _ _ H).
    destruct (Nat.ltb_spec (length q) n); simpl.
    + eexists; split; [reflexivity|]. now apply rep_push.
    + eexists; split; [reflexivity|]. auto.
  - unfold pop. rewrite (rep_empty _ _ _ H), (rep_head _ _ _ H).
    destruct q; simpl; eexists; (split; [reflexivity|]); auto.
    now apply rep_inc with a.
  - rewrite (rep_empty _ _ _ H). eexists; split; [reflexivity|]; auto.
  - rewrite (rep_available _ _ _ H). eexists; split; [reflexivity|]; auto.
  - rewrite (rep_length _ _ _ H). eexists; split; [reflexivity|]; auto.
  - unfold top. rewrite (rep_head _ _ _ H). eexists; split; [|eassumption].
    destruct q; reflexivity.
  - eexists; split; [reflexivity|]. apply rep_reset; try apply H.
    intros ->; exact Ho.
Qed.

Lemma run_refines : forall n l r q, rep n r q -> Forall (op_ok n) l ->
  exists r', run r l = Ok (r', snd (spec_run n q l)) /\ rep n r' (fst (spec_run n q l)).
Proof.
  intros n l; induction l as [|o l IH]; intros r q H Hl; simpl.
  - eauto.
  - inversion Hl; subst.
    destruct (step_refines n r q o H H2) as (r' & E & H'). rewrite E.
    destruct (spec_step n q o) as [q' x]; simpl in *.
    destruct (IH r' q' H' H3) as (r'' & E' & H''). rewrite E'.
    destruct (spec_run n q' l) as [q'' xs]; simpl in *. eauto.
Qed.

Lemma ring_refines : forall n b l, 1 <= n -> (b = true -> longxCacheLine <= n) ->
  Forall (op_ok n) l ->
  exists r0 r', init n b = Some r0 /\ run r0 l = Ok (r', snd (spec_run n [] l)).
Proof.
  intros n b l Hn Hb Hl. unfold init.
  destruct (Nat.eqb_spec n 0); [lia|].
  assert (R : rep n (reset (mkRing [] 0 0 n) b) []) by (apply rep_reset; auto).
  destruct (run_refines n l _ _ R Hl) as (r' & E & _). eauto.
Qed.

(** ** multipush *)
Lemma store_batch_length : forall (data : list A) b n w,
  length (store_batch b n w data) = length b.
Proof. induction data; simpl; intros; auto. rewrite IHdata. apply lupd_length. Qed.

Lemma mod_sub_if : forall n w, 1 <= n -> w < 2 * n ->
  (if n <=? w then w - n else w) = w mod n.
Proof.
  intros. destruct (Nat.leb_spec n w).
  - apply Nat.mod_unique with (q := 1); lia.
  - symmetry; apply Nat.mod_small; lia.
Qed.

(** From write index 0 with room for the batch, multipush appends the batch. *)
Lemma multipush_at_zero : forall n r q data, rep n r q -> pwrite r = 0 ->
  data <> [] -> length data < n -> length q + length data <= n ->
  exists r', multipush r data = Ok (r', true) /\ rep n r' (q ++ data).
Proof.
  intros n r q data H W ND LD LQ. pose proof H as H0. destruct H0.
  unfold multipush. rewrite rep_size0.
  destruct (Nat.leb_spec n (length data)); [lia|].
  destruct (Nat.eqb_spec (length data) 0); [destruct data; simpl in *; congruence|].
  rewrite W. simpl.
  destruct (Nat.leb_spec n (length data - 1)); [lia|].
  assert (Hlast : nth_error (buf r) (length data - 1) = Some None).
  { replace (length data - 1) with ((pread r + (length q + (length data - 1))) mod n).
    - rewrite rep_slots0 by lia. f_equal. apply nth_error_None. lia.
    - replace (pread r + (length q + (length data - 1)))
        with (pread r + length q + (length data - 1)) by lia.
      rewrite <- Nat.add_mod_idemp_l, <- rep_pw0, W by lia.
      simpl. apply Nat.mod_small; lia. }
  rewrite Hlast.
  destruct (Nat.leb_spec n (length data - 1 + 1)); [lia|].
  eexists; split; [reflexivity|].
  assert (G : forall d m b,
    m + length d <= length data -> length b = n ->
    (forall k, k < n -> nth_error b ((pread r + k) mod n) =
        Some (nth_error (q ++ firstn m data) k)) -> skipn m data = d ->
    forall k, k < n -> nth_error (store_batch b n m d) ((pread r + k) mod n)
        = Some (nth_error (q ++ data) k)).
  { induction d as [|x d IH]; intros m b Hm Hb Hs Hd k Hk.
    - simpl. rewrite Hs by auto. f_equal. f_equal. f_equal.
      rewrite <- (firstn_skipn m data) at 2. now rewrite Hd, app_nil_r.
    - simpl in *. rewrite mod_sub_if, (Nat.mod_small m) by lia.
      pose proof (skipn_cons_nth _ _ _ _ _ Hd) as Hnx. rewrite Nat.add_1_r.
      apply IH; try lia.
      + now rewrite lupd_length.
      + intros k' Hk'. rewrite nth_error_lupd, Hb.
        rewrite (firstn_snoc_nth _ _ _ _ Hnx), app_assoc, nth_error_snoc.
        rewrite app_length, firstn_length, Nat.min_l by lia.
        assert (Em : m = (pread r + (length q + m)) mod n).
        { replace (pread r + (length q + m)) with (pread r + length q + m) by lia.
          rewrite <- Nat.add_mod_idemp_l, <- rep_pw0, W by lia.
          simpl. symmetry; apply Nat.mod_small; lia. }
        destruct (Nat.eqb_spec m ((pread r + k') mod n)) as [e|ne].
        * assert (k' = length q + m).
          { rewrite Em in e at 1.
            destruct (Nat.le_gt_cases (length q + m) k').
            - enough (pread r + (length q + m) = pread r + k') by lia.
              apply (mod_inj_window n); auto; lia.
            - enough (pread r + k' = pread r + (length q + m)) by lia.
              apply (mod_inj_window n); auto; lia. }
          subst k'. rewrite <- e.
          rewrite (proj2 (Nat.ltb_lt m n)) by lia.
          rewrite Nat.ltb_irrefl, Nat.eqb_refl. reflexivity.
        * rewrite Hs by auto.
          destruct (Nat.ltb_spec k' (length q + m)); auto.
          destruct (Nat.eqb_spec k' (length q + m)) as [->|]; [congruence|].
          f_equal. apply nth_error_None.
          rewrite app_length, firstn_length. lia.
      + eapply skipn_S_cons; exact Hd. }
  constructor; simpl; auto; try lia.
  - now rewrite store_batch_length.
  - rewrite app_length; lia.
  - rewrite app_length, Nat.add_assoc.
    rewrite <- Nat.add_mod_idemp_l, <- rep_pw0, W by lia.
    simpl. rewrite Nat.mod_small; lia.
  - apply G; auto; try lia.
    intros k Hk. simpl. rewrite app_nil_r. auto.
Qed.

Lemma multipush_full : forall n r q data, rep n r q -> data <> [] -> n < length q + length data ->
  multipush r data = Ok (r, false).
Proof.
  intros n r q data H ND LQ. destruct H. unfold multipush. rewrite rep_size0.
  destruct (Nat.leb_spec n (length data)); [auto|].
  destruct (Nat.eqb_spec (length data) 0); [destruct data; simpl in *; congruence|].
  assert (W : pwrite r < n) by (rewrite rep_pw0; apply Nat.mod_upper_bound; lia).
  assert (E : (if n <=? pwrite r + (length data - 1) then pwrite r + (length data - 1) - n else pwrite r + (length data - 1))
              = (pread r + (length q + length data - 1 - n)) mod n).
  { rewrite mod_sub_if by lia. rewrite rep_pw0, Nat.add_mod_idemp_l by lia.
    replace (pread r + length q + (length data - 1)) with (pread r + (length q + length data - 1 - n) + 1 * n) by lia.
    apply Nat.mod_add. lia. }
  cbv zeta. rewrite E. rewrite rep_slots0 by lia.
  destruct (nth_error q (length q + length data - 1 - n)) eqn:EN; [reflexivity|].
  apply nth_error_None in EN. lia.
Qed.


(** ** Lamport ring *)
Record lrep (n : nat) (r : ring A) (q : list A) : Prop := {
  lrep_n : 2 <= n;
  lrep_size : size r = n;
  lrep_len : length (buf r) = n;
  lrep_pr : pread r < n;
  lrep_q : length q < n;
  lrep_pw : pwrite r = (pread r + length q) mod n;
  lrep_slots : forall k, k < length q ->
     nth_error (buf r) ((pread r + k) mod n) = Some (nth_error q k)
}.

Lemma lrep_reset : forall n r, 2 <= n -> size r = n -> lrep n (lreset r) [].
Proof.
  intros n r Hn Hs. unfold lreset. rewrite Hs. constructor; simpl; auto; try lia.
  - apply repeat_length.
  - symmetry; apply Nat.mod_small; lia.
Qed.

Lemma lrep_empty : forall n r q, lrep n r q ->
  lempty r = match q with [] => true | _ => false end.
Proof.
  intros n r q H. destruct H. unfold lempty. destruct q; simpl in *.
  - apply Nat.eqb_eq. rewrite lrep_pw0, Nat.add_0_r. apply Nat.mod_small; auto.
  - apply Nat.eqb_neq. intro E. rewrite lrep_pw0 in E.
    rewrite <- (Nat.mod_small (pread r) n) in E at 2 by auto.
    symmetry in E. apply (mod_inj_window n) in E; lia.
Qed.

Lemma lrep_next : forall n r q, lrep n r q ->
  wrap (size r) (pwrite r) = (pread r + (length q + 1)) mod n.
Proof.
  intros n r q H. destruct H.
  assert (pwrite r < n) by (rewrite lrep_pw0; apply Nat.mod_upper_bound; lia).
  rewrite lrep_size0, wrap_mod by auto. rewrite lrep_pw0.
  rewrite Nat.add_mod_idemp_l by lia. f_equal; lia.
Qed.

Lemma lrep_available : forall n r q, lrep n r q -> lavailable r = (length q <? n - 1).
Proof.
  intros n r q H. unfold lavailable. rewrite (lrep_next _ _ _ H). destruct H.
  destruct (Nat.ltb_spec (length q) (n - 1)).
  - apply negb_true_iff, Nat.eqb_neq. intro E.
    rewrite <- (Nat.mod_small (pread r) n) in E at 2 by auto.
    symmetry in E. apply (mod_inj_window n) in E; lia.
  - apply negb_false_iff, Nat.eqb_eq.
    replace (length q + 1) with n by lia.
    rewrite mod_add_n by lia. now apply Nat.mod_small.
Qed.

(** Every call except length() (and top(), which does not exist) agrees with the
    FIFO of capacity n-1. *)
Lemma lrep_length : forall n r q, lrep n r q -> q <> [] -> llength r = Ok (length q).
Proof.
  intros n r q H Q. unfold llength, length_. destruct H.
  assert (1 <= length q) by (destruct q; simpl in *; [congruence|lia]).
  assert (Hc : pread r + length q < n /\ pwrite r = pread r + length q \/
          n <= pread r + length q /\ pwrite r = pread r + length q - n).
  { destruct (Nat.lt_ge_cases (pread r + length q) n).
    - left; split; auto. rewrite lrep_pw0. now apply Nat.mod_small.
    - right; split; auto. rewrite lrep_pw0.
      symmetry; apply Nat.mod_unique with (q := 1); lia. }
  destruct (Nat.ltb_spec (pread r) (pwrite r)); [f_equal; lia|].
  destruct (Nat.ltb_spec (pwrite r) (pread r)); [f_equal; lia|]. lia.
Qed.

Definition lop_ok (o : op A) : Prop :=
  match o with OLength | OTop => False | _ => True end.

Lemma lstep_refines : forall n r q o, lrep n r q -> lop_ok o ->
  exists r', lstep r o = Ok (r', snd (spec_step (n - 1) q o)) /\
             lrep n r' (fst (spec_step (n - 1) q o)).
Proof.
  intros n r q o H Ho. destruct o; simpl in *; try contradiction.
  - unfold lpush.
    pose proof (lrep_available _ _ _ H) as Av. unfold lavailable in Av. rewrite Av.
    pose proof (lrep_next _ _ _ H) as Nx.
    destruct (Nat.ltb_spec (length q) (n - 1)); simpl.
    + pose proof H as H1. destruct H1.
      assert (pwrite r < n) by (rewrite lrep_pw0; apply Nat.mod_upper_bound; lia).
      rewrite lrep_len0, (proj2 (Nat.ltb_lt _ _)) by auto.
      eexists; split; [reflexivity|].
      constructor; simpl; auto; try lia.
      * now rewrite lupd_length.
      * rewrite app_length; simpl; lia.
      * rewrite Nx, app_length. reflexivity.
      * intros k Hk. rewrite app_length in Hk; simpl in Hk.
        rewrite nth_error_lupd, lrep_len0, nth_error_snoc.
        destruct (Nat.eqb_spec (pwrite r) ((pread r + k) mod n)) as [e|ne].
        -- rewrite lrep_pw0 in e. symmetry in e.
           assert (pread r + k = pread r + length q) by (apply (mod_inj_window n); auto; lia).
           assert (k = length q) by lia. subst k.
           rewrite (proj2 (Nat.ltb_lt _ _)) by (apply Nat.mod_upper_bound; lia).
           rewrite Nat.ltb_irrefl, Nat.eqb_refl. reflexivity.
        -- destruct (Nat.ltb_spec k (length q)); auto.
           exfalso. apply ne. rewrite lrep_pw0. do 2 f_equal. lia.
    + eexists; split; [reflexivity|]; auto.
  - unfold lpop. rewrite (lrep_empty _ _ _ H). destruct q as [|a q]; simpl.
    + eexists; split; [reflexivity|]; auto.
    + pose proof H as H1. destruct H1. simpl in *.
      pose proof (lrep_slots0 0 ltac:(lia)) as H0.
      rewrite Nat.add_0_r, Nat.mod_small in H0 by auto. rewrite H0. simpl.
      eexists; split; [reflexivity|].
      constructor; simpl; auto; try lia.
      * rewrite lrep_size0. now apply wrap_lt.
      * rewrite lrep_size0, wrap_mod, lrep_pw0 by auto.
        rewrite Nat.add_mod_idemp_l by lia. f_equal; lia.
      * intros k Hk. rewrite lrep_size0, wrap_mod by auto.
        rewrite Nat.add_mod_idemp_l by lia.
        replace (pread r + 1 + k) with (pread r + S k) by lia.
        rewrite lrep_slots0 by lia. reflexivity.
  - rewrite (lrep_empty _ _ _ H). eexists; split; [reflexivity|]; auto.
  - rewrite (lrep_available _ _ _ H). eexists; split; [reflexivity|]; auto.
  - eexists; split; [reflexivity|]. destruct H. apply lrep_reset; auto.
Qed.

Lemma lrun_refines : forall n l r q, lrep n r q -> Forall lop_ok l ->
  exists r', lrun r l = Ok (r', snd (spec_run (n - 1) q l)) /\
             lrep n r' (fst (spec_run (n - 1) q l)).
Proof.
  intros n l; induction l as [|o l IH]; intros r q H Hl; simpl.
  - eauto.
  - inversion Hl; subst.
    destruct (lstep_refines n r q o H H2) as (r' & E & H'). rewrite E.
    destruct (spec_step (n - 1) q o) as [q' x]; simpl in *.
    destruct (IH r' q' H' H3) as (r'' & E' & H''). rewrite E'.
    destruct (spec_run (n - 1) q' l) as [q'' xs]; simpl in *. eauto.
Qed.

Lemma lamport_refines : forall n l, 2 <= n -> Forall lop_ok l ->
  exists r', lrun (linit n) l = Ok (r', snd (spec_run (n - 1) [] l)).
Proof.
  intros n l Hn Hl.
  assert (R : lrep n (linit n) (@nil A)) by (apply lrep_reset; auto).
  destruct (lrun_refines n l _ _ R Hl) as (r' & E & _). eauto.
Qed.
End P.
