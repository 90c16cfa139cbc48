(** Proofs about the pool evolution pattern. *)
From Coq Require Import List ZArith Lia Bool.
From Verif Require Import Base ParForSpec ParForModel ParForBlocks PoolModel PoolSpec.
From Verif Require ParForLoop ParForStatic ParForMain.
Import ListNotations.

Section Accesses.
  Context {T : Type} (f : T -> nat -> T) (x0 : nat -> T).

  Definition hl (h : option nat) : list nat := match h with Some i => [i] | None => [] end.
  Definition hold_ev (w : nat) (h : option nat) : list ev :=
    match h with Some i => [Wr w i] | None => [] end.
  Definition pairs (w : nat) (l : list nat) : list ev := flat_map (fun i => [Rd w i; Wr w i]) l.

  Lemma accesses_run : forall q b reg (todo : nat -> list nat) (hold : nat -> option nat),
    (forall w, filter (fun e => Nat.eqb (ev_w e) w) q = hold_ev w (hold w) ++ pairs w (todo w)) ->
    (forall w i, hold w = Some i -> reg w = Some (x0 i)) ->
    (forall w i, In i (hl (hold w) ++ todo w) -> nth_error b i = Some (x0 i)) ->
    (forall w, NoDup (hl (hold w) ++ todo w)) ->
    (forall w v i, In i (hl (hold w) ++ todo w) -> In i (hl (hold v) ++ todo v) -> w = v) ->
    exists b' reg', exec (estep f) (b, reg) q = Some (b', reg') /\ length b' = length b /\
      (forall w i, In i (hl (hold w) ++ todo w) -> nth_error b' i = Some (f (x0 i) w)) /\
      (forall i, (forall w, ~ In i (hl (hold w) ++ todo w)) -> nth_error b' i = nth_error b i).
  Proof.
    induction q as [|a q IH]; intros b reg todo hold HF HR HB HN HD.
    - assert (Z : forall w, hl (hold w) ++ todo w = []).
      { intros w. specialize (HF w). cbn [filter] in HF. symmetry in HF.
        apply app_eq_nil in HF as [A B]. destruct (hold w); [discriminate|].
        destruct (todo w); [reflexivity|discriminate]. }
      exists b, reg. split; [reflexivity|]. split; [reflexivity|]. split; [|auto].
      intros w i I. rewrite Z in I. destruct I.
    - cbn [exec]. destruct a as [w i|w i].
      + (* a read *)
        pose proof (HF w) as Fw. cbn [filter ev_w] in Fw. rewrite Nat.eqb_refl in Fw.
        destruct (hold w) as [j|] eqn:Hw; [discriminate|]. cbn [hold_ev app] in Fw.
        destruct (todo w) as [|k rest] eqn:Tw; [discriminate|].
        cbn [pairs flat_map app] in Fw. injection Fw as <- Fw.
        assert (Bi : nth_error b i = Some (x0 i)) by (apply (HB w); rewrite Hw, Tw; left; reflexivity).
        cbn [estep]. rewrite Bi.
        assert (PE : forall v, hl (fupd hold w (Some i) v) ++ fupd todo w rest v = hl (hold v) ++ todo v).
        { intros v. unfold fupd. destruct (Nat.eqb_spec v w) as [->|]; [|reflexivity].
          rewrite Hw, Tw. reflexivity. }
        destruct (IH b (fupd reg w (Some (x0 i))) (fupd todo w rest) (fupd hold w (Some i)))
          as (b' & reg' & E1 & E2 & E3 & E4).
        * intros v. specialize (HF v). cbn [filter ev_w] in HF. unfold fupd.
          destruct (Nat.eqb_spec v w) as [->|NE]; [exact Fw|].
          destruct (Nat.eqb_spec w v); [congruence|]. exact HF.
        * intros v j. unfold fupd. destruct (Nat.eqb_spec v w) as [->|NE]; [congruence|apply HR].
        * intros v j. rewrite PE. apply HB.
        * intros v. rewrite PE. apply HN.
        * intros v v' j. rewrite !PE. apply HD.
        * exists b', reg'. split; [exact E1|]. split; [exact E2|]. split.
          -- intros v j J. apply E3. rewrite PE. exact J.
          -- intros j J. apply E4. intros v. rewrite PE. apply J.
      + (* a write *)
        pose proof (HF w) as Fw. cbn [filter ev_w] in Fw. rewrite Nat.eqb_refl in Fw.
        destruct (hold w) as [j|] eqn:Hw; [|destruct (todo w); discriminate].
        cbn [hold_ev app] in Fw. injection Fw as <- Fw.
        cbn [estep]. rewrite (HR w i Hw).
        assert (Bi : nth_error b i = Some (x0 i)) by (apply (HB w); rewrite Hw; left; reflexivity).
        assert (Li : i < length b) by (apply nth_error_Some; congruence).
        rewrite (proj2 (Nat.ltb_lt _ _) Li).
        assert (PE : forall v, v <> w -> hl (fupd hold w None v) ++ todo v = hl (hold v) ++ todo v).
        { intros v NE. unfold fupd. destruct (Nat.eqb_spec v w); [congruence|reflexivity]. }
        assert (PW : hl (fupd hold w None w) ++ todo w = todo w).
        { unfold fupd. rewrite Nat.eqb_refl. reflexivity. }
        assert (NW : ~ In i (todo w)).
        { specialize (HN w). rewrite Hw in HN. inversion HN. assumption. }
        assert (NI : forall v, ~ In i (hl (fupd hold w None v) ++ todo v)).
        { intros v I. destruct (Nat.eq_dec v w) as [->|NE]; [rewrite PW in I; contradiction|].
          rewrite PE in I by exact NE. apply NE. apply (HD v w i I). rewrite Hw. left; reflexivity. }
        assert (SUB : forall v j, In j (hl (fupd hold w None v) ++ todo v) -> In j (hl (hold v) ++ todo v)).
        { intros v j J. destruct (Nat.eq_dec v w) as [->|NE]; [|rewrite PE in J; auto].
          rewrite PW in J. apply in_or_app. auto. }
        destruct (IH (lupd b i (f (x0 i) w)) reg todo (fupd hold w None))
          as (b' & reg' & E1 & E2 & E3 & E4).
        * intros v. specialize (HF v). cbn [filter ev_w] in HF. unfold fupd.
          destruct (Nat.eqb_spec v w) as [->|NE]; [exact Fw|].
          destruct (Nat.eqb_spec w v); [congruence|]. exact HF.
        * intros v j. unfold fupd. destruct (Nat.eqb_spec v w) as [->|NE]; [discriminate|apply HR].
        * intros v j J. rewrite nth_error_lupd_neq; [apply (HB v), SUB, J|].
          intros <-. apply (NI v J).
        * intros v. destruct (Nat.eq_dec v w) as [->|NE]; [|rewrite PE; auto].
          rewrite PW. specialize (HN w). rewrite Hw in HN. inversion HN. assumption.
        * intros v v' j J J'. apply (HD v v' j); apply SUB; assumption.
        * exists b', reg'. rewrite lupd_length in E2. split; [exact E1|]. split; [exact E2|]. split.
          -- intros v j J. destruct (Nat.eq_dec j i) as [->|NE].
             ++ assert (v = w) as -> by (apply (HD v w i J); rewrite Hw; left; reflexivity).
                rewrite (E4 i NI). apply nth_error_lupd_eq. exact Li.
             ++ apply E3. destruct (Nat.eq_dec v w) as [->|NV]; [|rewrite PE; auto].
                rewrite PW. rewrite Hw in J. destruct J as [J|J]; [congruence|exact J].
          -- intros j J. rewrite E4.
             ++ apply nth_error_lupd_neq. intros <-. apply (J w). rewrite Hw. left; reflexivity.
             ++ intros v I. apply (J v), SUB, I.
  Qed.
End Accesses.

(** Blocks of given sizes and the list of their owners. *)
Lemma owner_of : forall (X : Type) (g : nat -> list X) (sz : nat -> nat) m k i x,
  (forall w, k <= w < k + m -> length (g w) = sz w) ->
  nth_error (flat_map g (seq k m)) i = Some x ->
  exists w, k <= w < k + m /\ In x (g w) /\
    nth_error (flat_map (fun w => repeat w (sz w)) (seq k m)) i = Some w.
Proof.
  induction m as [|m IH]; intros k i x L E; [destruct i; discriminate|].
  cbn [seq flat_map] in *.
  destruct (Nat.lt_ge_cases i (length (g k))) as [C|C].
  - rewrite nth_error_app1 in E by exact C. exists k. split; [lia|].
    split; [eapply nth_error_In; eauto|]. rewrite L in C by lia.
    rewrite nth_error_app1 by (rewrite repeat_length; exact C). apply nth_error_repeat. exact C.
  - rewrite nth_error_app2 in E by exact C. destruct (IH (S k) _ _ ltac:(intros; apply L; lia) E)
      as (w & A & B & D).
    exists w. split; [lia|]. split; [exact B|]. rewrite L in C by lia.
    rewrite nth_error_app2 by (rewrite repeat_length; exact C). rewrite repeat_length.
    rewrite L in D by lia. exact D.
Qed.

Lemma loop_seq : forall n a, loop (Z.of_nat a) (Z.of_nat (a + n)) 1 = map Z.of_nat (seq a n).
Proof.
  intros n a. unfold loop.
  replace (Z.to_nat (Z.of_nat (a + n) - Z.of_nat a)) with n by lia.
  revert a. induction n as [|n IH]; intros a; [reflexivity|].
  cbn [loop_fuel seq map]. destruct (Z.ltb_spec (Z.of_nat a) (Z.of_nat (a + S n))); [|lia].
  f_equal. rewrite <- (IH (S a)). f_equal; lia.
Qed.

Lemma owners_length : forall n nw, 1 <= nw -> length (owners n nw) = n.
Proof.
  intros n nw W. unfold owners.
  assert (G : forall m k, length (flat_map (fun w => repeat w (block_size n nw w)) (seq k m)) =
              m * (n / nw) + (Nat.min (k + m) (n mod nw) - Nat.min k (n mod nw))).
  { induction m as [|m IH]; intros k; cbn [seq flat_map]; [simpl; lia|].
    rewrite app_length, repeat_length, IH. unfold block_size.
    destruct (Nat.ltb_spec k (n mod nw)); lia. }
  rewrite G. pose proof (Nat.div_mod n nw ltac:(lia)). pose proof (Nat.mod_upper_bound n nw ltac:(lia)).
  lia.
Qed.

Lemma evolved_length : forall T (f : T -> nat -> T) nw l, 1 <= nw -> length (evolved f nw l) = length l.
Proof.
  intros. unfold evolved. rewrite map_length, combine_length, owners_length by assumption. lia.
Qed.

Lemma nth_error_combine : forall A B (l : list A) (m : list B) i x y,
  nth_error l i = Some x -> nth_error m i = Some y -> nth_error (combine l m) i = Some (x, y).
Proof.
  induction l as [|a l IH]; intros [|b m] [|i] x y E F; simpl in *; try discriminate; [congruence|auto].
Qed.

Lemma evolved_nth : forall T (f : T -> nat -> T) nw l i x w,
  nth_error l i = Some x -> nth_error (owners (length l) nw) i = Some w ->
  nth_error (evolved f nw l) i = Some (f x w).
Proof.
  intros. unfold evolved. erewrite map_nth_error; [|eapply nth_error_combine; eauto]. reflexivity.
Qed.

Lemma ran_by_nil : forall nw lg, (forall e, In e lg -> fst e < nw) ->
  forall w, nw <= w -> ran_by w lg = [].
Proof.
  intros nw lg B w W. unfold ran_by.
  induction lg as [|a lg IH]; [reflexivity|]. cbn [filter].
  pose proof (B a (or_introl eq_refl)). destruct (Nat.eqb_spec (fst a) w); [lia|].
  apply IH. intros e I. apply B. right. exact I.
Qed.

Section Fm.
  Context {X Y : Type}.
  Lemma in_fm : forall (g : nat -> list X) k m w x,
    k <= w < k + m -> In x (g w) -> In x (flat_map g (seq k m)).
  Proof. intros. apply in_flat_map. exists w. split; [apply in_seq; lia|assumption]. Qed.

  Lemma nodup_fm : forall (g : nat -> list X) m k, NoDup (flat_map g (seq k m)) ->
    (forall w, k <= w < k + m -> NoDup (g w)) /\
    (forall w v x, k <= w < k + m -> k <= v < k + m -> In x (g w) -> In x (g v) -> w = v).
  Proof.
    assert (AP : forall (a b : list X), NoDup (a ++ b) ->
              NoDup a /\ NoDup b /\ forall x, In x a -> ~ In x b).
    { induction a as [|x a IH]; intros b N; simpl in N; [split; [constructor|]; split; [exact N|]; intros x []|].
      inversion N as [|? ? A B]; subst. destruct (IH b B) as (P & Q & R). split.
      - constructor; [|exact P]. intros I. apply A, in_or_app; auto.
      - split; [exact Q|]. intros y [<-|I]; [|auto]. intros J. apply A, in_or_app; auto. }
    intros g. induction m as [|m IH]; intros k N; [split; intros; lia|].
    cbn [seq flat_map] in N. apply AP in N as (A & B & C). destruct (IH (S k) B) as (P & Q). split.
    - intros w Lw. destruct (Nat.eq_dec w k) as [->|]; [exact A|apply P; lia].
    - intros w v x Lw Lv Iw Iv.
      destruct (Nat.eq_dec w k) as [->|NW], (Nat.eq_dec v k) as [->|NV]; try reflexivity.
      + exfalso. apply (C x Iw). apply (in_fm g (S k) m v); [lia|exact Iv].
      + exfalso. apply (C x Iv). apply (in_fm g (S k) m w); [lia|exact Iw].
      + apply (Q w v x); auto; lia.
  Qed.
End Fm.

Lemma list_ext_len : forall X (a b : list X), length a = length b ->
  (forall i, i < length a -> nth_error a i = nth_error b i) -> a = b.
Proof.
  induction a as [|x a IH]; intros [|y b] L E; try discriminate L; [reflexivity|].
  pose proof (E 0 ltac:(simpl; lia)) as E0. injection E0 as ->. f_equal.
  apply IH; [simpl in L; lia|]. intros i Li. apply (E (S i)). simpl. lia.
Qed.

Lemma nth_seq : forall n k i, i < n -> nth_error (seq k n) i = Some (k + i).
Proof.
  induction n as [|n IH]; intros k [|i] L; try lia; cbn [seq nth_error]; [f_equal; lia|].
  rewrite IH by lia. f_equal. lia.
Qed.

(** The evolution phase computes the same buffer whatever the interleaving. *)
Lemma evolve_spec : forall T env (u : user T env) nw e b b',
  1 <= nw -> (Z.of_nat (length b) < 2 ^ 64)%Z ->
  evolve u nw e b b' -> b' = evolved (fun x w => u_evol u x e w) nw b.
Proof.
  intros T env u nw e b b' W SZ EV. destruct EV as [data used lg data' tr reg' R AC EX].
  destruct (ParForMain.static_main 0 (Z.of_nat (length b)) 1 nw data used lg data') as (_ & BW & FM);
    try lia; try exact R.
  pose proof (static_sizes 0 (Z.of_nat (length b)) 1 nw data used lg data' ltac:(lia) W ltac:(lia) R) as SS.
  set (f := fun x w => u_evol u x e w) in *.
  set (g := fun w => map Z.to_nat (ran_by w lg)) in *.
  assert (LP : ParForSpec.loop 0 (Z.of_nat (length b)) 1 = map Z.of_nat (seq 0 (length b))).
  { apply (loop_seq (length b) 0). }
  assert (FG : flat_map g (seq 0 nw) = seq 0 (length b)).
  { assert (MM : forall l, flat_map g l = map Z.to_nat (flat_map (fun w => ran_by w lg) l)).
    { induction l as [|a l IH]; [reflexivity|]. cbn [flat_map]. rewrite map_app, IH. reflexivity. }
    rewrite MM. change (fun w => ran_by w lg) with (fun w => ParForStatic.wlog w lg).
    rewrite FM, LP, map_map. rewrite <- (map_id (seq 0 (length b))) at 2. apply map_ext. intros; lia. }
  assert (GL : forall w, 0 <= w < 0 + nw -> length (g w) = block_size (length b) nw w).
  { intros w Lw. unfold g. rewrite map_length. specialize (SS w ltac:(lia)).
    unfold ParForLoop.len in SS. rewrite LP, map_length, seq_length in SS.
    rewrite <- Nat2Z.inj_div, <- Nat2Z.inj_mod in SS. unfold block_size.
    change (ParForStatic.wlog w lg) with (ran_by w lg) in SS.
    destruct (Nat.ltb_spec w (length b mod nw)), (Z.ltb_spec (Z.of_nat w) (Z.of_nat (length b mod nw))); lia. }
  assert (GN : forall w, nw <= w -> g w = []).
  { intros w Lw. unfold g. rewrite (ran_by_nil nw lg BW w Lw). reflexivity. }
  destruct (nodup_fm g nw 0) as (ND & DJ); [rewrite FG; apply seq_NoDup|].
  assert (b = [] \/ exists d : T, True) as [->|[d _]]
    by (destruct b as [|d ?]; [left; reflexivity|right; exists d; exact Logic.I]).
  { (* nothing selected *)
    assert (G0 : forall w, g w = []).
    { intros w. destruct (Nat.lt_ge_cases w nw) as [C|C]; [|apply GN; exact C].
      simpl in FG. destruct (g w) as [|x l] eqn:Eg; [reflexivity|exfalso].
      assert (In x (flat_map g (seq 0 nw))) by (apply (in_fm g 0 nw w); [lia|rewrite Eg; left; reflexivity]).
      rewrite FG in *. contradiction. }
    assert (tr = []) as ->.
    { destruct tr as [|a tr]; [reflexivity|exfalso]. specialize (AC (ev_w a)). cbn [filter] in AC.
      rewrite Nat.eqb_refl in AC. fold (g (ev_w a)) in AC. rewrite G0 in AC. discriminate. }
    injection EX as <- <-. reflexivity. }
  destruct (accesses_run f (fun i => nth i b d) tr b (fun _ => None) g (fun _ => None))
    as (b1 & reg1 & E1 & E2 & E3 & _).
  - intros w. apply AC.
  - discriminate.
  - intros w i I. cbn [hl app] in I.
    assert (w < nw) by (destruct (Nat.lt_ge_cases w nw) as [C|C]; [exact C|rewrite GN in I by exact C; destruct I]).
    assert (J : In i (seq 0 (length b))) by (rewrite <- FG; apply (in_fm g 0 nw w); [lia|exact I]).
    apply in_seq in J. apply nth_error_nth'. lia.
  - intros w. cbn [hl app]. destruct (Nat.lt_ge_cases w nw) as [C|C]; [apply ND; lia|rewrite GN by exact C; constructor].
  - intros w v i I J. cbn [hl app] in I, J.
    assert (w < nw) by (destruct (Nat.lt_ge_cases w nw) as [C|C]; [exact C|rewrite GN in I by exact C; destruct I]).
    assert (v < nw) by (destruct (Nat.lt_ge_cases v nw) as [C|C]; [exact C|rewrite GN in J by exact C; destruct J]).
    apply (DJ w v i); auto; lia.
  - rewrite E1 in EX. injection EX as <- <-.
    apply list_ext_len; [rewrite evolved_length by exact W; exact E2|].
    intros i Li. rewrite E2 in Li.
    destruct (owner_of nat g (block_size (length b) nw) nw 0 i i GL) as (w & A & B & C).
    { rewrite FG. apply (nth_seq (length b) 0). exact Li. }
    rewrite (E3 w i B). symmetry. apply evolved_nth; [|exact C]. apply nth_error_nth'. exact Li.
Qed.

(** An evolution phase exists. *)
Definition acc_seq (lg : list (nat * Z)) : list ev :=
  flat_map (fun p => [Rd (fst p) (Z.to_nat (snd p)); Wr (fst p) (Z.to_nat (snd p))]) lg.

Lemma acc_seq_ok : forall lg, accesses_of lg (acc_seq lg).
Proof.
  intros lg w. unfold acc_seq, ran_by. induction lg as [|[v i] lg IH]; [reflexivity|].
  cbn [flat_map app filter ev_w fst snd]. destruct (Nat.eqb_spec v w) as [->|NE].
  - cbn [map flat_map app snd]. rewrite IH. reflexivity.
  - exact IH.
Qed.

Lemma evolve_exists : forall T env (u : user T env) nw e b,
  1 <= nw -> (Z.of_nat (length b) < 2 ^ 64)%Z -> exists b', evolve u nw e b b'.
Proof.
  intros T env u nw e b W SZ.
  destruct (static_run_exists 0 (Z.of_nat (length b)) 1 nw [] ltac:(lia) W ltac:(lia)) as (lg & data' & R).
  destruct (ParForMain.static_main 0 (Z.of_nat (length b)) 1 nw [] nw lg data') as (_ & BW & FM);
    try lia; try exact R.
  set (f := fun x w => u_evol u x e w).
  set (g := fun w => map Z.to_nat (ran_by w lg)) in *.
  assert (LP : ParForSpec.loop 0 (Z.of_nat (length b)) 1 = map Z.of_nat (seq 0 (length b))).
  { apply (loop_seq (length b) 0). }
  assert (FG : flat_map g (seq 0 nw) = seq 0 (length b)).
  { assert (MM : forall l, flat_map g l = map Z.to_nat (flat_map (fun w => ran_by w lg) l)).
    { induction l as [|a l IH]; [reflexivity|]. cbn [flat_map]. rewrite map_app, IH. reflexivity. }
    rewrite MM. change (fun w => ran_by w lg) with (fun w => ParForStatic.wlog w lg).
    rewrite FM, LP, map_map. rewrite <- (map_id (seq 0 (length b))) at 2. apply map_ext. intros; lia. }
  assert (GN : forall w, nw <= w -> g w = []).
  { intros w Lw. unfold g. rewrite (ran_by_nil nw lg BW w Lw). reflexivity. }
  destruct (nodup_fm g nw 0) as (ND & DJ); [rewrite FG; apply seq_NoDup|].
  assert (GI : forall w i, In i (g w) -> w < nw /\ i < length b).
  { intros w i I.
    assert (w < nw) by (destruct (Nat.lt_ge_cases w nw) as [C|C]; [exact C|rewrite GN in I by exact C; destruct I]).
    assert (J : In i (seq 0 (length b))) by (rewrite <- FG; apply (in_fm g 0 nw w); [lia|exact I]).
    apply in_seq in J. lia. }
  assert (DX : (exists x0 : nat -> T, forall i, i < length b -> nth_error b i = Some (x0 i)) \/ b = []).
  { destruct b as [|d b']; [right; reflexivity|left]. exists (fun i => nth i (d :: b') d).
    intros i Li. apply nth_error_nth'. exact Li. }
  destruct DX as [(x0 & X0)|B0].
  - destruct (accesses_run f x0 (acc_seq lg) b (fun _ => None) g (fun _ => None))
      as (b1 & reg1 & E1 & _).
    + intros w. apply acc_seq_ok.
    + discriminate.
    + intros w i I. apply X0, (GI w i I).
    + intros w. cbn [hl app]. destruct (Nat.lt_ge_cases w nw) as [C|C]; [apply ND; lia|rewrite GN by exact C; constructor].
    + intros w v i I J. cbn [hl app] in I, J. apply (DJ w v i); auto.
      * pose proof (GI w i I). lia.
      * pose proof (GI v i J). lia.
    + exists b1. econstructor; [exact R|apply acc_seq_ok|exact E1].
  - assert (lg = []) as ->.
    { destruct lg as [|[w i] lg]; [reflexivity|exfalso].
      assert (In (Z.to_nat i) (g w)) as I.
      { unfold g, ran_by. cbn [filter fst]. rewrite Nat.eqb_refl. left. reflexivity. }
      apply GI in I. rewrite B0 in I. simpl in I. lia. }
    exists b. econstructor; [exact R|apply (acc_seq_ok [])|reflexivity].
Qed.

(** ** The loop. *)
Section Loop.
  Context {T env : Type} (u : user T env) (nw : nat).
  Hypothesis W : 1 <= nw.
  Hypothesis FIT : forall P e P1 N e2, u_sel u P [] e = (P1, N, e2) -> (Z.of_nat (length N) < 2 ^ 64)%Z.

  Definition evo (e : env) (l : list T) : list T := evolved (fun x w => u_evol u x e w) nw l.
  Definition pseq := pool_seq (u_sel u) evo (u_fil u) (u_term u).

  Lemma loop_spec : forall s r, pool_loop u nw s r ->
    exists k, pseq k (fst (fst s)) (snd s) = Some (fst (fst r), snd r).
  Proof using W FIT.
    induction 1 as [P B e e' ET|P B e e1 P1 B1 e2 B2 P2 B3 e3 r ET ES EV EF H IH]; cbn [fst snd] in *.
    - exists 0. unfold pseq. cbn [pool_seq]. rewrite ET. reflexivity.
    - destruct IH as (k & IH). exists (S k). unfold pseq in *. cbn [pool_seq]. rewrite ET, ES.
      apply evolve_spec in EV; [|exact W|eapply FIT; exact ES]. unfold evo at 1. rewrite <- EV, EF.
      exact IH.
  Qed.

  Lemma seq_mono : forall k P e r, pseq k P e = Some r -> forall j, k <= j -> pseq j P e = Some r.
  Proof using W FIT.
    unfold pseq. induction k as [|k IH]; intros P e r E j L; cbn [pool_seq] in E.
    - destruct j; cbn [pool_seq]; destruct (u_term u P e) as [[] e1]; try discriminate; exact E.
    - destruct j; [lia|]. cbn [pool_seq]. destruct (u_term u P e) as [[] e1]; [exact E|].
      destruct (u_sel u P [] e1) as [[P1 N] e2]. destruct (u_fil u P1 (evo e2 N) e2) as [[P2 N'] e3].
      apply IH; [exact E|lia].
  Qed.

  Lemma seq_unique : forall k j P e r r', pseq k P e = Some r -> pseq j P e = Some r' -> r = r'.
  Proof using W FIT.
    intros k j P e r r' A B. pose proof (seq_mono _ _ _ _ A (k + j) ltac:(lia)).
    pose proof (seq_mono _ _ _ _ B (k + j) ltac:(lia)). congruence.
  Qed.

  Lemma loop_exists : forall k P B e P' e', pseq k P e = Some (P', e') ->
    exists B', pool_loop u nw (P, B, e) (P', B', e').
  Proof using W FIT.
    unfold pseq. induction k as [|k IH]; intros P B e P' e' E; cbn [pool_seq] in E;
      destruct (u_term u P e) as [[] e1] eqn:ET; try discriminate.
    - injection E as <- <-. exists B. constructor. exact ET.
    - injection E as <- <-. exists B. constructor. exact ET.
    - destruct (u_sel u P [] e1) as [[P1 N] e2] eqn:ES.
      pose proof (FIT _ _ _ _ _ ES) as SZ.
      destruct (evolve_exists T env u nw e2 N W SZ) as (N1 & EV).
      pose proof (evolve_spec T env u nw e2 N N1 W SZ EV) as EE. unfold evo in E at 1. rewrite <- EE in E.
      destruct (u_fil u P1 N1 e2) as [[P2 N'] e3] eqn:EF.
      destruct (IH N' P2 e3 P' e' E) as (B' & L). exists B'.
      eapply pl_go; eauto.
  Qed.
End Loop.

Lemma evolved_plain : forall T (f : T -> nat -> T) nw l, 1 <= nw ->
  (forall x w v, f x w = f x v) -> evolved f nw l = map (fun x => f x 0) l.
Proof.
  intros T f nw l W H. unfold evolved.
  assert (L : length l <= length (owners (length l) nw)) by (rewrite owners_length by exact W; lia).
  revert L. generalize (owners (length l) nw).
  induction l as [|x l IH]; intros [|w m] L; simpl in L; try lia; [reflexivity|reflexivity|].
  cbn [combine map fst snd]. f_equal; [apply H|apply IH; lia].
Qed.

Lemma seq_ext : forall T env sel (e1 e2 : env -> list T -> list T) fil term,
  (forall e l, e1 e l = e2 e l) ->
  forall k P e, pool_seq sel e1 fil term k P e = pool_seq sel e2 fil term k P e.
Proof.
  intros T env sel e1 e2 fil term H. induction k as [|k IH]; intros P e; cbn [pool_seq]; [reflexivity|].
  destruct (term P e) as [[] a]; [reflexivity|]. destruct (sel P [] a) as [[P1 N] b].
  rewrite H. destruct (fil P1 (e2 b N) b) as [[P2 N'] c]. apply IH.
Qed.
