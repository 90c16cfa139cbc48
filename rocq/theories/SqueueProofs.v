From Coq Require Import ZArith List Bool Lia.
From Verif Require Import Outcome SqueueModel SqueueSpec.
Import ListNotations.
Local Open Scope Z_scope.

Section P.
  Context {T : Type}.
  Variable c : Z.
  Hypothesis Hc : 1 <= c.

  Definition F (s : sq T) := head s * c + hs s (head s).
  Definition L (s : sq T) := tail s * c + ts s (tail s).
  Definition slot (s : sq T) (p : Z) : option T :=
    match ent s (p / c) with Some f => f (p mod c) | None => None end.

  Record Inv (s : sq T) (l : list T) : Prop := {
    i_h : 0 <= hs s (head s) < c;
    i_t : -1 <= ts s (tail s) <= c - 1;
    i_head : 0 <= head s <= tail s + 1;
    i_tail : 0 <= tail s < datacap s;
    i_len : Z.of_nat (length l) = L s + 1 - F s;
    i_nel : nel s = Z.of_nat (length l);
    i_hs : forall k, head s < k <= tail s -> hs s k = 0;
    i_hs' : head s = tail s + 1 -> hs s (head s) = 0;
    i_t' : tail s > 0 -> 0 <= ts s (tail s);
    i_ent : forall k, head s <= k <= tail s -> ent s k <> None;
    i_val : forall i x, nth_error l i = Some x -> slot s (F s + Z.of_nat i) = Some x }.

  Lemma slot_at : forall s k i, 0 <= i < c -> slot s (k * c + i) = match ent s k with Some f => f i | None => None end.
  Proof.
    intros s k i Hi. unfold slot. rewrite Z.add_comm.
    rewrite Z.div_add, Z.mod_add, Z.div_small, Z.mod_small by lia. reflexivity.
  Qed.

  Lemma rd_slot : forall s k i x, 0 <= i < c -> slot s (k * c + i) = Some x -> rd c s k i = Done x.
  Proof.
    intros s k i x Hi E. rewrite slot_at in E by auto. unfold rd.
    destruct (ent s k) as [f|]; [|discriminate].
    replace (0 <=? i) with true by (symmetry; apply Z.leb_le; lia).
    replace (i <? c) with true by (symmetry; apply Z.ltb_lt; lia). simpl. rewrite E. auto.
  Qed.

  Lemma nth_snoc_inv : forall (l : list T) x i y, nth_error (l ++ [x]) i = Some y ->
    ((i < length l)%nat /\ nth_error l i = Some y) \/ (i = length l /\ y = x).
  Proof.
    intros l x i y E. destruct (Nat.lt_ge_cases i (length l)) as [Hi|Hi].
    - rewrite nth_error_app1 in E by auto. auto.
    - right. rewrite nth_error_app2 in E by auto. destruct (i - length l)%nat as [|[|]] eqn:D; simpl in E; try discriminate.
      split; [lia|congruence].
  Qed.

  Lemma Inv_mk : Inv mk [].
  Proof.
    constructor; unfold F, L; cbn [mk head tail hs ts nel datacap ent length]; try lia.
    - intros k Hk. assert (k = 0) by lia. subst. rewrite zupd_eq. discriminate.
    - intros i x E. destruct i; discriminate.
  Qed.

  (** Decomposition of a position. *)
  Lemma pos_dec : forall p, exists k i, p = k * c + i /\ 0 <= i < c.
  Proof. intros p. exists (p / c), (p mod c). split; [pose proof (Z.div_mod p c); nia|apply Z.mod_pos_bound; lia]. Qed.

  Lemma pos_uniq : forall k j a b, 0 <= j < c -> 0 <= b < c -> k * c + j = a * c + b -> k = a /\ j = b.
  Proof.
    intros k j a b Hj Hb E. assert (k = a); [|subst; split; lia].
    destruct (Z.lt_trichotomy k a) as [X|[X|X]]; auto; exfalso.
    - assert (k * c + c <= a * c) by nia. lia.
    - assert (a * c + c <= k * c) by nia. lia.
  Qed.

  Lemma Inv_push : forall s l x, Inv s l -> exists s', push_back c s x = Done s' /\ Inv s' (l ++ [x]).
  Proof.
    intros s l x I. destruct I as [Ih It Ihd Itl Il In_ Ihs Ihs' It' Ie Iv]. unfold F, L in *.
    unfold push_back.
    destruct (Z.eqb_spec (ts s (tail s)) (c - 1)) as [E|E].
    - match goal with |- context [?a <? ?b] => replace (a <? b) with true end.
      2:{ symmetry. apply Z.ltb_lt. destruct (Z.eqb_spec (tail s) (datacap s - 1)); lia. }
      eexists. split; [reflexivity|].
      assert (HH : hs s (head s) = 0 /\ head s = tail s + 1 \/ head s <= tail s) by (destruct (Z.eq_dec (head s) (tail s + 1)); [left|right]; auto; lia).
      assert (HV : zupd (hs s) (tail s + 1) 0 (head s) = hs s (head s)).
      { destruct HH as [[A B]|B]; [rewrite B; rewrite zupd_eq; rewrite <- B; auto|rewrite zupd_neq by lia; auto]. }
      constructor; unfold F, L; cbn [head tail hs ts nel datacap ent]; rewrite ?HV, ?zupd_eq; try lia.
      + destruct (Z.eqb_spec (tail s) (datacap s - 1)); lia.
      + rewrite app_length. cbn [length]. nia.
      + rewrite app_length. cbn [length]. lia.
      + intros k Hk. destruct (Z.eq_dec k (tail s + 1)) as [->|]; [apply zupd_eq|]. rewrite zupd_neq by auto. apply Ihs. lia.
      + intros k Hk. destruct (Z.eq_dec k (tail s + 1)) as [->|]; [rewrite zupd_eq; discriminate|]. rewrite zupd_neq by auto. apply Ie. lia.
      + intros i y Ey. destruct (pos_dec (head s * c + hs s (head s) + Z.of_nat i)) as (k & j & Ep & Hj).
        rewrite Ep. rewrite slot_at by auto. cbn [ent].
        destruct (nth_snoc_inv l x i y Ey) as [[Hi Ey']|[-> ->]]; clear Ey.
        * specialize (Iv i y Ey'). rewrite Ep, slot_at in Iv by auto.
          rewrite zupd_neq; auto. intros ->. nia.
        * assert (k = tail s + 1 /\ j = 0) as [-> ->] by (apply pos_uniq; [lia|lia|nia]).
          rewrite zupd_eq. apply zupd_eq.
    - assert (HT : head s <= tail s). { destruct (Z.eq_dec (head s) (tail s + 1)) as [e|]; [|lia]. rewrite (Ihs' e), e in Il. nia. }
      destruct (ent s (tail s)) as [f|] eqn:Ef; [|destruct (Ie (tail s) ltac:(lia) Ef)].
      replace (0 <=? ts s (tail s) + 1) with true by (symmetry; apply Z.leb_le; lia).
      replace (ts s (tail s) + 1 <? c) with true by (symmetry; apply Z.ltb_lt; lia).
      cbn [andb]. eexists. split; [reflexivity|].
      constructor; unfold F, L; cbn [head tail hs ts nel datacap ent]; rewrite ?zupd_eq; try lia.
      + rewrite app_length. cbn [length]. nia.
      + rewrite app_length. cbn [length]. lia.
      + exact Ihs.
      + intros k Hk. destruct (Z.eq_dec k (tail s)) as [->|]; [rewrite zupd_eq; discriminate|]. rewrite zupd_neq by auto. apply Ie. lia.
      + intros i y Ey. destruct (pos_dec (head s * c + hs s (head s) + Z.of_nat i)) as (k & j & Ep & Hj).
        rewrite Ep. rewrite slot_at by auto. cbn [ent].
        destruct (nth_snoc_inv l x i y Ey) as [[Hi Ey']|[-> ->]]; clear Ey.
        * specialize (Iv i y Ey'). rewrite Ep, slot_at in Iv by auto.
          destruct (Z.eq_dec k (tail s)) as [->|Nk]; [|rewrite zupd_neq; auto].
          rewrite zupd_eq. rewrite zupd_neq; [rewrite Ef in Iv; auto|]. nia.
        * assert (k = tail s /\ j = ts s (tail s) + 1) as [-> ->] by (apply pos_uniq; [lia|lia|nia]).
          rewrite zupd_eq. apply zupd_eq.
  Qed.

  Lemma nonempty_pos : forall s l, Inv s l -> l <> [] -> head s <= tail s /\ 0 <= ts s (tail s).
  Proof.
    intros s l I N. destruct I as [Ih It Ihd Itl Il In_ Ihs Ihs' It' Ie Iv]. unfold F, L in *.
    assert (Z.of_nat (length l) > 0) by (destruct l; [congruence|simpl; lia]).
    assert (head s <= tail s).
    { destruct (Z.eq_dec (head s) (tail s + 1)) as [e|]; [|lia]. rewrite (Ihs' e), e in Il. nia. }
    split; auto.
    destruct (Z.eq_dec (tail s) 0) as [e|]; [|lia].
    assert (head s = tail s) by lia. rewrite H1 in *. lia.
  Qed.

  Lemma Inv_front : forall s x l, Inv s (x :: l) -> front c s = Done x.
  Proof.
    intros s x l I. destruct (nonempty_pos s _ I ltac:(discriminate)) as [P1 P2].
    destruct I as [Ih It Ihd Itl Il In_ Ihs Ihs' It' Ie Iv]. unfold front.
    replace (nel s =? 0) with false by (symmetry; apply Z.eqb_neq; cbn [length] in *; lia).
    apply rd_slot; [lia|]. specialize (Iv 0%nat x eq_refl). unfold F in Iv. rewrite Z.add_0_r in Iv. auto.
  Qed.

  Lemma Inv_back : forall s l x, Inv s (l ++ [x]) -> rd c s (tail s) (ts s (tail s)) = Done x /\ back c s = Done x.
  Proof.
    intros s l x I. destruct (nonempty_pos s _ I ltac:(destruct l; discriminate)) as [P1 P2].
    destruct I as [Ih It Ihd Itl Il In_ Ihs Ihs' It' Ie Iv]. unfold back.
    rewrite app_length in *. cbn [length] in *.
    replace (nel s =? 0) with false by (symmetry; apply Z.eqb_neq; lia).
    assert (R : rd c s (tail s) (ts s (tail s)) = Done x); [|split; exact R].
    apply rd_slot; [lia|]. specialize (Iv (length l) x). rewrite nth_error_app2, Nat.sub_diag in Iv by lia.
    specialize (Iv eq_refl). unfold F, L in *. replace (tail s * c + ts s (tail s)) with (head s * c + hs s (head s) + Z.of_nat (length l)) by lia. auto.
  Qed.

  Lemma Inv_pop_back : forall s l x, Inv s (l ++ [x]) -> exists s', pop_back c s = Done s' /\ Inv s' l.
  Proof.
    intros s l x I. destruct (nonempty_pos s _ I ltac:(destruct l; discriminate)) as [P1 P2].
    destruct (Inv_back s l x I) as [R _].
    destruct I as [Ih It Ihd Itl Il In_ Ihs Ihs' It' Ie Iv]. unfold F, L in *.
    rewrite app_length in *. cbn [length] in *. unfold pop_back.
    replace (nel s =? 0) with false by (symmetry; apply Z.eqb_neq; lia).
    rewrite R. cbn [obind].
    assert (IV : forall i y, nth_error l i = Some y -> slot s (head s * c + hs s (head s) + Z.of_nat i) = Some y /\ (i < length l)%nat).
    { intros i y E. assert (i < length l)%nat by (apply nth_error_Some; congruence). split; auto. apply Iv. rewrite nth_error_app1; auto. }
    destruct ((ts s (tail s) =? 0) && (tail s >? 0)) eqn:B.
    - apply andb_true_iff in B as [B1 B2]. apply Z.eqb_eq in B1. rewrite Z.gtb_ltb in B2. apply Z.ltb_lt in B2.
      eexists. split; [reflexivity|].
      constructor; unfold F, L; cbn [head tail hs ts nel datacap ent]; rewrite ?zupd_eq; try lia.
      + intros k Hk. apply Ihs. lia.
      + intros k Hk. rewrite zupd_neq by lia. apply Ie. lia.
      + intros i y Ey. destruct (IV i y Ey) as [S1 Hi].
        destruct (pos_dec (head s * c + hs s (head s) + Z.of_nat i)) as (k & j & Ep & Hj).
        rewrite Ep in *. rewrite slot_at in * by auto. cbn [ent]. rewrite zupd_neq; auto. intros ->. nia.
    - assert (BB : ts s (tail s) <> 0 \/ tail s = 0).
      { apply andb_false_iff in B as [B|B]; [left; apply Z.eqb_neq; auto|right]. rewrite Z.gtb_ltb in B. apply Z.ltb_ge in B. lia. }
      destruct (ent s (tail s)) as [f|] eqn:Ef; [|destruct (Ie (tail s) ltac:(lia) Ef)].
      eexists. split; [reflexivity|].
      constructor; unfold F, L; cbn [head tail hs ts nel datacap ent]; rewrite ?zupd_eq; try lia.
      + exact Ihs.
      + intros k Hk. destruct (Z.eq_dec k (tail s)) as [->|]; [rewrite zupd_eq; discriminate|]. rewrite zupd_neq by auto. apply Ie. lia.
      + intros i y Ey. destruct (IV i y Ey) as [S1 Hi].
        destruct (pos_dec (head s * c + hs s (head s) + Z.of_nat i)) as (k & j & Ep & Hj).
        rewrite Ep in *. rewrite slot_at in * by auto. cbn [ent].
        destruct (Z.eq_dec k (tail s)) as [->|Nk]; [|rewrite zupd_neq; auto].
        rewrite zupd_eq. rewrite zupd_neq; [rewrite Ef in S1; auto|]. nia.
  Qed.

  (** pop_front is right unless it removes the only element from the last slot of a chunk. *)
  Lemma Inv_pop_front : forall s x l, Inv s (x :: l) -> (l <> [] \/ hs s (head s) < c - 1) ->
    exists s', pop_front c s = Done s' /\ Inv s' l.
  Proof.
    intros s x l I NE. destruct (nonempty_pos s _ I ltac:(discriminate)) as [P1 P2].
    pose proof (Inv_front s x l I) as R. unfold front in R.
    destruct I as [Ih It Ihd Itl Il In_ Ihs Ihs' It' Ie Iv]. unfold F, L in *.
    cbn [length] in *. unfold pop_front.
    replace (nel s =? 0) with false in * by (symmetry; apply Z.eqb_neq; lia).
    rewrite R. cbn [obind].
    assert (IV : forall i y, nth_error l i = Some y -> slot s (head s * c + hs s (head s) + 1 + Z.of_nat i) = Some y /\ (i < length l)%nat).
    { intros i y E. assert (i < length l)%nat by (apply nth_error_Some; congruence). split; auto.
      specialize (Iv (S i) y E). rewrite Nat2Z.inj_succ in Iv. rewrite <- Iv. f_equal. lia. }
    destruct ((hs s (head s) =? c - 1) && (tail s >? head s)) eqn:B.
    - apply andb_true_iff in B as [B1 B2]. apply Z.eqb_eq in B1. rewrite Z.gtb_ltb in B2. apply Z.ltb_lt in B2.
      assert (H0 : hs s (head s + 1) = 0) by (apply Ihs; lia).
      eexists. split; [reflexivity|].
      constructor; unfold F, L; cbn [head tail hs ts nel datacap ent]; rewrite ?(zupd_neq _ (hs s)) by lia; try lia.
      + intros k Hk. rewrite zupd_neq by lia. apply Ihs. lia.
      + intros k Hk. rewrite zupd_neq by lia. apply Ie. lia.
      + intros i y Ey. destruct (IV i y Ey) as [S1 Hi]. rewrite H0.
        replace ((head s + 1) * c + 0 + Z.of_nat i) with (head s * c + hs s (head s) + 1 + Z.of_nat i) by nia.
        destruct (pos_dec (head s * c + hs s (head s) + 1 + Z.of_nat i)) as (k & j & Ep & Hj).
        rewrite Ep in *. rewrite slot_at in * by auto. cbn [ent]. rewrite zupd_neq; auto. intros ->. nia.
    - assert (BB : hs s (head s) < c - 1).
      { destruct NE as [NE|]; auto. apply andb_false_iff in B as [B|B]; [apply Z.eqb_neq in B; lia|].
        rewrite Z.gtb_ltb in B. apply Z.ltb_ge in B. assert (e : head s = tail s) by lia. rewrite e in *.
        assert (Z.of_nat (length l) > 0) by (destruct l; [congruence|simpl; lia]). lia. }
      destruct (ent s (head s)) as [f|] eqn:Ef; [|destruct (Ie (head s) ltac:(lia) Ef)].
      eexists. split; [reflexivity|].
      constructor; unfold F, L; cbn [head tail hs ts nel datacap ent]; rewrite ?zupd_eq; try lia.
      + intros k Hk. rewrite zupd_neq by lia. apply Ihs. lia.
      + intros k Hk. destruct (Z.eq_dec k (head s)) as [->|]; [rewrite zupd_eq; discriminate|]. rewrite zupd_neq by auto. apply Ie. lia.
      + intros i y Ey. destruct (IV i y Ey) as [S1 Hi].
        replace (head s * c + (hs s (head s) + 1) + Z.of_nat i) with (head s * c + hs s (head s) + 1 + Z.of_nat i) by lia.
        destruct (pos_dec (head s * c + hs s (head s) + 1 + Z.of_nat i)) as (k & j & Ep & Hj).
        rewrite Ep in *. rewrite slot_at in * by auto. cbn [ent].
        destruct (Z.eq_dec k (head s)) as [->|Nk]; [|rewrite zupd_neq; auto].
        rewrite zupd_eq. rewrite zupd_neq; [rewrite Ef in S1; auto|]. nia.
  Qed.

  Lemma Inv_at : forall s l i x, Inv s l -> nth_error l i = Some x -> hs s (head s) + Z.of_nat i < c ->
    at_ c s (Z.of_nat i) = Done x.
  Proof.
    intros s l i x I E B. assert (i < length l)%nat by (apply nth_error_Some; congruence).
    destruct I as [Ih It Ihd Itl Il In_ Ihs Ihs' It' Ie Iv]. unfold at_.
    replace (nel s =? 0) with false by (symmetry; apply Z.eqb_neq; lia).
    replace (Z.of_nat i >? nel s) with false by (symmetry; rewrite Z.gtb_ltb; apply Z.ltb_ge; lia).
    cbn [orb]. apply rd_slot; [lia|]. specialize (Iv i x E). unfold F in Iv. rewrite <- Iv. f_equal. lia.
  Qed.

  (** Precondition of the first theorem: legal, no [at], and pop_front never removes the only element. *)
  Definition pre1 (l : list T) (o : op T) : Prop :=
    legal l o /\ match o with PopFront => length l <> 1%nat | At _ => False | _ => True end.

  Lemma snoc_cases : forall (l : list T), l = [] \/ exists l' x, l = l' ++ [x].
  Proof. intros l. destruct l as [|a l] using rev_ind; eauto. Qed.

  Lemma removelast_snoc : forall (l : list T) x, removelast (l ++ [x]) = l.
  Proof. intros. rewrite removelast_app by discriminate. simpl. apply app_nil_r. Qed.

  Lemma step_refines : forall s l o, Inv s l -> legal l o ->
    match o with PopFront => length l <> 1%nat \/ hs s (head s) < c - 1
            | At i => hs s (head s) + Z.of_nat i < c | _ => True end ->
    exists s', step c s o = Done (s', snd (spec_step l o)) /\ Inv s' (fst (spec_step l o)).
  Proof.
    intros s l o I LG C. destruct o as [x| | | | |i|]; cbn [step spec_step fst snd legal] in *.
    - destruct (Inv_push s l x I) as (s' & E & I'). rewrite E. simpl. eauto.
    - destruct (snoc_cases l) as [->|(l' & x & ->)].
      + exists s. unfold pop_back. rewrite (i_nel _ _ I). simpl. auto.
      + destruct (Inv_pop_back s l' x I) as (s' & E & I'). rewrite E, removelast_snoc. simpl. eauto.
    - destruct l as [|x l].
      + exists s. unfold pop_front. rewrite (i_nel _ _ I). simpl. auto.
      + destruct (Inv_pop_front s x l I) as (s' & E & I').
        { destruct C as [C|C]; auto. left. intros ->. apply C. reflexivity. }
        rewrite E. simpl. eauto.
    - destruct (snoc_cases l) as [->|(l' & x & ->)]; [congruence|].
      destruct (Inv_back s l' x I) as [_ E]. rewrite E. simpl. exists s. split; auto.
      rewrite app_length. simpl. replace (length l' + 1 - 1)%nat with (length l') by lia.
      rewrite nth_error_app2, Nat.sub_diag by lia. reflexivity.
    - destruct l as [|x l]; [congruence|]. rewrite (Inv_front s x l I). simpl. eauto.
    - destruct (nth_error l i) as [x|] eqn:E; [|apply nth_error_None in E; lia].
      rewrite (Inv_at s l i x I E C). simpl. eauto.
    - unfold size. rewrite (i_nel _ _ I). eauto.
  Qed.

  Lemma squeue_refines : forall l, allowed spec_step pre1 [] l ->
    exists s', orun (step c) mk l = Done (s', snd (srun spec_step [] l)).
  Proof.
    intros l A.
    destruct (orun_refines (step c) spec_step pre1 Inv) with (l := l) (s := @mk T) (q := @nil T) as (s' & E & _).
    - intros s q o I [LG C]. apply step_refines; auto. destruct o; auto; contradiction.
    - apply Inv_mk.
    - exact A.
    - eauto.
  Qed.

  (** Second theorem: with at most [chunk] pushes in the whole history everything is right,
      including [at] and emptying by pop_front. *)
  Definition pushes (l : list (op T)) : nat := length (filter (fun o => match o with PushBack _ => true | _ => false end) l).

  (** While only chunk 0 is used: like [Inv] but h may reach c. *)
  Record Inv1 (s : sq T) (l : list T) : Prop := {
    j_h : 0 <= hs s 0 <= c; j_t : -1 <= ts s 0 <= c - 1; j_head : head s = 0; j_tail : tail s = 0;
    j_len : Z.of_nat (length l) = ts s 0 + 1 - hs s 0; j_nel : nel s = Z.of_nat (length l);
    j_val : exists f, ent s 0 = Some f /\ forall i x, nth_error l i = Some x -> f (hs s 0 + Z.of_nat i) = Some x }.

  Lemma Inv1_rd : forall s l i x, Inv1 s l -> nth_error l i = Some x -> rd c s 0 (hs s 0 + Z.of_nat i) = Done x.
  Proof.
    intros s l i x I E. assert (i < length l)%nat by (apply nth_error_Some; congruence).
    destruct I as [Jh Jt Jhd Jtl Jl Jn (f & Ef & Jv)]. unfold rd. rewrite Ef.
    replace (0 <=? hs s 0 + Z.of_nat i) with true by (symmetry; apply Z.leb_le; lia).
    replace (hs s 0 + Z.of_nat i <? c) with true by (symmetry; apply Z.ltb_lt; lia).
    simpl. rewrite (Jv i x E). auto.
  Qed.

  Lemma Inv1_step : forall s l o, Inv1 s l -> legal l o ->
    (match o with PushBack _ => ts s 0 < c - 1 | _ => True end) ->
    exists s', step c s o = Done (s', snd (spec_step l o)) /\ Inv1 s' (fst (spec_step l o)) /\
      ts s' 0 <= ts s 0 + (match o with PushBack _ => 1 | _ => 0 end).
  Proof.
    intros s l o I LG C. assert (I0 := I). destruct I as [Jh Jt Jhd Jtl Jl Jn (f & Ef & Jv)].
    destruct o as [x| | | | |i|]; cbn [step spec_step fst snd legal] in *.
    - unfold push_back. rewrite Jtl.
      replace (ts s 0 =? c - 1) with false by (symmetry; apply Z.eqb_neq; lia). rewrite Ef.
      replace (0 <=? ts s 0 + 1) with true by (symmetry; apply Z.leb_le; lia).
      replace (ts s 0 + 1 <? c) with true by (symmetry; apply Z.ltb_lt; lia).
      cbn [andb obind]. eexists. split; [reflexivity|]. split.
      + constructor; cbn [head tail hs ts nel ent]; rewrite ?zupd_eq, ?app_length; cbn [length]; try lia.
        eexists. split; [reflexivity|]. intros i y E.
        destruct (nth_snoc_inv l x i y E) as [[Hi Ey']|[-> ->]]; clear E.
        * rewrite zupd_neq by lia. auto.
        * replace (hs s 0 + Z.of_nat (length l)) with (ts s 0 + 1) by lia. apply zupd_eq.
      + cbn [ts]. rewrite zupd_eq. lia.
    - destruct (snoc_cases l) as [->|(l' & x & ->)].
      + exists s. unfold pop_back. rewrite Jn. simpl. split; auto. split; auto. lia.
      + assert (E0 : nth_error (l' ++ [x]) (length l') = Some x) by (rewrite nth_error_app2, Nat.sub_diag by lia; auto).
        pose proof (Inv1_rd s _ _ _ I0 E0) as R. rewrite app_length in *. cbn [length] in *.
        replace (hs s 0 + Z.of_nat (length l')) with (ts s 0) in R by lia.
        unfold pop_back. replace (nel s =? 0) with false by (symmetry; apply Z.eqb_neq; lia).
        rewrite Jtl, R. cbn [obind]. replace (0 >? 0) with false by reflexivity. rewrite andb_false_r.
        rewrite removelast_snoc. eexists. split; [reflexivity|]. split; [|cbn [ts]; rewrite zupd_eq; lia].
        constructor; cbn [head tail hs ts nel ent]; rewrite ?zupd_eq, ?Ef; try lia.
        eexists. split; [reflexivity|]. intros i y E.
        assert (i < length l')%nat by (apply nth_error_Some; congruence).
        rewrite zupd_neq by lia. apply Jv. rewrite nth_error_app1; auto.
    - destruct l as [|x l].
      + exists s. unfold pop_front. rewrite Jn. simpl. split; auto. split; auto. lia.
      + pose proof (Inv1_rd s _ 0%nat x I0 eq_refl) as R. rewrite Z.add_0_r in R. cbn [length tl] in *.
        unfold pop_front. replace (nel s =? 0) with false by (symmetry; apply Z.eqb_neq; lia).
        rewrite Jhd, R, Jtl. cbn [obind]. replace (0 >? 0) with false by reflexivity. rewrite andb_false_r.
        eexists. split; [reflexivity|]. split; [|cbn [ts]; lia].
        constructor; cbn [head tail hs ts nel ent]; rewrite ?zupd_eq, ?Ef; try lia.
        eexists. split; [reflexivity|]. intros i y E.
        rewrite zupd_neq by lia. specialize (Jv (S i) y E). rewrite <- Jv. f_equal. lia.
    - destruct (snoc_cases l) as [->|(l' & x & ->)]; [congruence|].
      assert (E0 : nth_error (l' ++ [x]) (length l') = Some x) by (rewrite nth_error_app2, Nat.sub_diag by lia; auto).
      pose proof (Inv1_rd s _ _ _ I0 E0) as R. rewrite app_length in *. cbn [length] in *.
      replace (hs s 0 + Z.of_nat (length l')) with (ts s 0) in R by lia.
      unfold back. replace (nel s =? 0) with false by (symmetry; apply Z.eqb_neq; lia). rewrite Jtl, R. cbn [obind].
      exists s. replace (length l' + 1 - 1)%nat with (length l') by lia. rewrite E0. simpl. split; auto. split; auto. lia.
    - destruct l as [|x l]; [congruence|].
      pose proof (Inv1_rd s _ 0%nat x I0 eq_refl) as R. rewrite Z.add_0_r in R. cbn [length] in *.
      unfold front. replace (nel s =? 0) with false by (symmetry; apply Z.eqb_neq; lia). rewrite Jhd, R. simpl.
      exists s. split; auto. split; auto. lia.
    - destruct (nth_error l i) as [x|] eqn:E; [|apply nth_error_None in E; lia].
      pose proof (Inv1_rd s _ _ x I0 E) as R. unfold at_.
      replace (nel s =? 0) with false by (symmetry; apply Z.eqb_neq; lia).
      replace (Z.of_nat i >? nel s) with false by (symmetry; rewrite Z.gtb_ltb; apply Z.ltb_ge; lia).
      cbn [orb]. rewrite Jhd, R. simpl. exists s. split; auto. split; auto. lia.
    - exists s. unfold size. rewrite Jn. split; auto. split; auto. lia.
  Qed.

  Lemma squeue_one_chunk : forall l, allowed spec_step legal [] l -> Z.of_nat (pushes l) <= c ->
    exists s', orun (step c) mk l = Done (s', snd (srun spec_step [] l)).
  Proof.
    assert (G : forall l s q, Inv1 s q -> allowed spec_step legal q l -> ts s 0 + Z.of_nat (pushes l) <= c - 1 ->
      exists s', orun (step c) s l = Done (s', snd (srun spec_step q l))).
    { induction l as [|o l IH]; intros s q I A B; simpl in *; [eauto|].
      destruct A as [LG A].
      destruct (Inv1_step s q o I LG) as (s1 & E & I1 & T1).
      { destruct o; auto. unfold pushes in B. simpl in B. lia. }
      rewrite E. cbn [obind]. destruct (spec_step q o) as [q1 r]. cbn [fst snd] in *.
      destruct (IH s1 q1 I1 A) as (s2 & E2).
      { unfold pushes in *. destruct o; simpl in B; lia. }
      rewrite E2. cbn [obind]. destruct (srun spec_step q1 l) as [q2 rs]. cbn [snd]. eauto. }
    intros l A B. apply G; auto.
    - constructor; cbn [mk head tail hs ts nel ent length]; try lia.
      eexists. split; [rewrite zupd_eq; reflexivity|]. intros i x E. destruct i; discriminate.
    - cbn [mk ts]. lia.
  Qed.
End P.
