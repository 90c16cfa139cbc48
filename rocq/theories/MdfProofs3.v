(** Proofs about the data-flow scheduler: ready queues, workers, executions. *)
From Coq Require Import List Arith Bool Lia ZArith Relations Sorted.
From Verif Require Import Base MdfModel MdfSpec MdfProofs MdfProofs2.
Import ListNotations.

Definition ol (x : option nat) : list nat := match x with Some t => [t] | None => [] end.

(** Tasks at worker [i]. *)
Definition atw (s : ss) (i : nat) : list nat := inb s i ++ ol (exe s i) ++ fbk s i.

(** The queues: [X x] copies of [x] overall. *)
Record qinv (n : nat) (X : nat -> nat) (s : ss) : Prop := {
  q_cnt : forall x, sumf n (fun i => cnt (qs s i) x) + sumf n (fun i => cnt (atw s i) x) = X x;
  q_nr : nready s = sumf n (fun i => length (qs s i));
  q_ns : forall i, i < n -> nsch s i = length (atw s i);
  q_mm : mmax s < n;
  q_qm : qm s < n }.

(** The parts of the state that scheduling leaves alone. *)
Definition same_rest (s s' : ss) : Prop :=
  gr s' = gr s /\ qm s' = qm s /\ exe s' = exe s /\ fbk s' = fbk s /\ prog s' = prog s /\ log s' = log s /\ fin s' = fin s.
Lemma same_refl : forall s, same_rest s s.
Proof. intros. unfold same_rest. auto 10. Qed.
Lemma same_trans : forall a b c, same_rest a b -> same_rest b c -> same_rest a c.
Proof. unfold same_rest. intros a b c H1 H2. intuition congruence. Qed.

Lemma cut_cnt : forall k l x, k < length l -> cnt (cut k l) x + cnt [nth k l 0] x = cnt l x.
Proof.
  intros k l x. revert k. induction l as [|y l IH]; intros k L; cbn in L; [lia|]. destruct k as [|k].
  - unfold cut. cbn [firstn skipn app nth]. rewrite cnt_one. cbn [count_occ]. destruct (Nat.eq_dec y x); lia.
  - specialize (IH k ltac:(lia)). unfold cut in *. cbn [firstn skipn nth app count_occ] in *. cbn [skipn] in IH. destruct (Nat.eq_dec y x); lia.
Qed.
Lemma cut_len : forall k l, k < length l -> S (length (cut k l)) = length l.
Proof. intros k l L. unfold cut. rewrite app_length, firstn_length, skipn_length. lia. Qed.

Lemma send_inv : forall n X o s i j, qinv n X s -> i < n -> j < n -> qs s j <> [] ->
  qinv n X (send o s i j) /\ same_rest s (send o s i j) /\ nready (send o s i j) = nready s - 1 /\
  nsch (send o s i j) i = S (nsch s i) /\ (forall a, nsch s a <= nsch (send o s i j) a) /\ mmax (send o s i j) = mmax s.
Proof.
  intros n X o s i j I Li Lj NE. unfold send. assert (L0 : 0 < length (qs s j)) by (destruct (qs s j); [congruence|cbn; lia]).
  set (k := o j (qs s j) mod length (qs s j)). assert (Lk : k < length (qs s j)) by (apply Nat.mod_upper_bound; lia). clearbody k.
  set (x0 := nth k (qs s j) 0). split; [|split; [unfold same_rest; cbn; auto 10|split; [reflexivity|split; [cbn; apply fupd_eq|split; [|reflexivity]]]]].
  - destruct I as [I1 I2 I3 I4 I5]. constructor; cbn [qs nready nsch mmax qm]; auto.
    + intros x. rewrite <- (I1 x). unfold atw. cbn [inb exe fbk].
      assert (A := sumf_upd n (fun a => cnt (qs s a) x) (fun a => cnt (fupd (qs s) j (cut k (qs s j)) a) x) j Lj). cbn beta in A. rewrite fupd_eq in A.
      assert (B := sumf_upd n (fun a => cnt (inb s a ++ ol (exe s a) ++ fbk s a) x) (fun a => cnt (fupd (inb s) i (inb s i ++ [x0]) a ++ ol (exe s a) ++ fbk s a) x) i Li).
      cbn beta in B. rewrite fupd_eq in B.
      specialize (A ltac:(intros; rewrite fupd_neq; auto)). specialize (B ltac:(intros; rewrite fupd_neq; auto)).
      pose proof (cut_cnt k (qs s j) x Lk) as C. fold x0 in C. rewrite !cnt_app in B. pose proof (sumf_le n (fun a => cnt (qs s a) x) j Lj). cbn beta in *. lia.
    + assert (A := sumf_upd n (fun a => length (qs s a)) (fun a => length (fupd (qs s) j (cut k (qs s j)) a)) j Lj). cbn beta in A. rewrite fupd_eq in A.
      specialize (A ltac:(intros; rewrite fupd_neq; auto)). pose proof (cut_len k (qs s j) Lk). lia.
    + intros a La. unfold atw. cbn [inb exe fbk]. destruct (Nat.eq_dec a i) as [->|N].
      * rewrite !fupd_eq, (I3 i La). unfold atw. rewrite !app_length. cbn. lia.
      * rewrite !fupd_neq by auto. apply I3. auto.
  - intros a. cbn. destruct (Nat.eq_dec a i) as [->|N]; [rewrite fupd_eq; lia|rewrite fupd_neq by auto; lia].
Qed.

Lemma set_mmax_inv : forall n X s m, qinv n X s -> m < n -> qinv n X (set_mmax s m).
Proof. intros n X s m [I1 I2 I3 I4 I5] L. constructor; auto. Qed.

Lemma steal_inv : forall n X o fuel s i, qinv n X s -> i < n ->
  (exists d, d < fuel /\ qs s ((mmax s + d) mod n) <> []) ->
  qinv n X (steal n o fuel s i) /\ same_rest s (steal n o fuel s i) /\ nready (steal n o fuel s i) = nready s - 1 /\
  nsch (steal n o fuel s i) i = S (nsch s i) /\ (forall a, nsch s a <= nsch (steal n o fuel s i) a).
Proof.
  intros n X o fuel. induction fuel as [|f IH]; intros s i I Li (d & Ld & NE); [lia|]. cbn [steal].
  assert (LM : mmax s < n) by (eapply q_mm; eauto). assert (LM2 : (mmax s + 1) mod n < n) by (apply Nat.mod_upper_bound; lia).
  pose proof (set_mmax_inv n X s _ I LM2) as I2. destruct (qs s (mmax s)) as [|y l] eqn:E.
  - destruct d as [|d]; [rewrite Nat.add_0_r, Nat.mod_small in NE by auto; congruence|].
    destruct (IH (set_mmax s ((mmax s + 1) mod n)) i I2 Li) as (R1 & R2 & R3 & R4 & R5).
    { exists d. split; [lia|]. cbn [mmax qs set_mmax]. rewrite Nat.add_mod_idemp_l by lia. replace (mmax s + 1 + d) with (mmax s + S d) by lia. auto. }
    auto 10.
  - assert (NE2 : qs (set_mmax s ((mmax s + 1) mod n)) (mmax s) <> []) by (cbn; congruence).
    destruct (send_inv n X o (set_mmax s ((mmax s + 1) mod n)) i (mmax s) I2 Li LM NE2) as (R1 & R2 & R3 & R4 & R5 & R6).
    split; auto.
Qed.

Lemma sched_inv : forall n X o th is s, qinv n X s -> (forall i, In i is -> i < n) ->
  qinv n X (sched n o th is s) /\ same_rest s (sched n o th is s) /\ (forall a, nsch s a <= nsch (sched n o th is s) a) /\
  (nready (sched n o th is s) = 0 \/ forall i, In i is -> 1 <= nsch (sched n o th is s) i).
Proof.
  intros n X o th is. induction is as [|i is IH]; intros s I L.
  - cbn. split; auto. split; [apply same_refl|]. split; auto. right. intros i [].
  - cbn [sched]. destruct (nready s =? 0) eqn:R0.
    + apply Nat.eqb_eq in R0. split; auto. split; [apply same_refl|]. auto.
    + apply Nat.eqb_neq in R0. assert (Li : i < n) by (apply L; cbn; auto). assert (L' : forall a, In a is -> a < n) by (intros; apply L; cbn; auto).
      destruct (nsch s i <=? th) eqn:TH.
      * assert (G : exists s1, qinv n X s1 /\ same_rest s s1 /\ nsch s1 i = S (nsch s i) /\ (forall a, nsch s a <= nsch s1 a) /\
          match qs s i with [] => sched n o th is (steal n o n s i) | _ => sched n o th is (send o s i i) end = sched n o th is s1).
        { destruct (qs s i) as [|y l] eqn:E.
          - exists (steal n o n s i). destruct (steal_inv n X o n s i I Li) as (R1 & R2 & R3 & R4 & R5).
            { rewrite (q_nr _ _ _ I) in R0. destruct (sumf_pos n (fun a => length (qs s a)) ltac:(lia)) as (j & Lj & Hj).
              pose proof (q_mm _ _ _ I) as LM. exists ((j + n - mmax s) mod n). split; [apply Nat.mod_upper_bound; lia|].
              rewrite Nat.add_mod_idemp_r by lia. replace (mmax s + (j + n - mmax s)) with (j + 1 * n) by lia. rewrite Nat.mod_add by lia.
              rewrite Nat.mod_small by auto. intros Z. rewrite Z in Hj. cbn in Hj. lia. }
            auto 10.
          - exists (send o s i i). destruct (send_inv n X o s i i I Li Li) as (R1 & R2 & R3 & R4 & R5 & R6); [congruence|]. auto 10. }
        destruct G as (s1 & I1 & S1 & N1 & M1 & ->). destruct (IH s1 I1 L') as (Q1 & Q2 & Q3 & Q4).
        split; auto. split; [eapply same_trans; eauto|]. split; [intros a; specialize (M1 a); specialize (Q3 a); lia|].
        destruct Q4 as [Q4|Q4]; auto. right. intros a [<-|Ha]; auto. specialize (Q3 i). lia.
      * apply Nat.leb_gt in TH. destruct (IH s I L') as (Q1 & Q2 & Q3 & Q4). split; auto. split; auto. split; auto.
        destruct Q4 as [Q4|Q4]; auto. right. intros a [<-|Ha]; auto. specialize (Q3 i). lia.
Qed.

Lemma schedule_inv : forall n X o th s, qinv n X s ->
  qinv n X (schedule n o th s) /\ same_rest s (schedule n o th s) /\
  (nready (schedule n o th s) = 0 \/ forall i, i < n -> 1 <= nsch (schedule n o th s) i).
Proof.
  intros n X o th s I. destruct (sched_inv n X o th (seq 0 n) s I) as (R1 & R2 & R3 & R4).
  { intros i Hi. apply in_seq in Hi. lia. }
  split; auto. split; auto. destruct R4 as [R4|R4]; auto. right. intros i Li. apply R4. apply in_seq. lia.
Qed.

(** ** The global invariant *)
Definition ev_dec : forall a b : ev, {a = b} + {a <> b}.
Proof. decide equality; apply Nat.eq_dec. Qed.
Notation ecnt := (count_occ ev_dec).

Definition rdy s x : nat := if is_ready (tset (gr s)) x then 1 else 0.

Record winv (n : nat) (s : ss) : Prop := {
  w_g : ginv (gr s) (prog s) (fin s) 0;
  w_q : qinv n (rdy s) s;
  w_th : nready s = 0 \/ forall i, i < n -> 1 <= nsch s i;
  w_beg : forall x, ecnt (log s) (Begin x) = cnt (fin s) x + sumf n (fun i => cnt (ol (exe s i)) x) + sumf n (fun i => cnt (fbk s i) x);
  w_end : forall x, ecnt (log s) (End x) = cnt (fin s) x + sumf n (fun i => cnt (fbk s i) x);
  w_ord : forall a pa b pb, In (a, pa) (prog s) -> In (b, pb) (prog s) -> a < b -> conflict pa pb -> occurs_before (log s) (End a) (Begin b);
  w_seq : forall x, occurs_before (log s) (Begin x) (End x);
  w_out : forall i, n <= i -> inb s i = [] /\ exe s i = None /\ fbk s i = [] }.

Lemma init_inv : forall n, 1 <= n -> winv n init.
Proof.
  intros n Hn. constructor; cbn.
  - split; [|split; [|split; auto]].
    + constructor; cbn; try (intros; congruence); try (intros; contradiction); auto; try constructor; intros y x (k & E & _); discriminate.
    + constructor; cbn; try (intros; contradiction); [constructor|intros; discriminate].
    + constructor; cbn; intros; try contradiction; auto.
  - constructor; cbn; auto; try lia.
    + intros x. rewrite !sumf_zero; auto.
    + rewrite sumf_zero; auto.
  - auto.
  - intros x. rewrite !sumf_zero; auto.
  - intros x. rewrite sumf_zero; auto.
  - intros a pa b pb [].
  - intros x l1 l2 E. destruct l1; discriminate.
  - auto.
Qed.

Lemma occ_snoc : forall l e f g, occurs_before l e f -> (g = f -> In e l) -> occurs_before (l ++ [g]) e f.
Proof.
  intros l e f g H G l1 l2 E. destruct l2 as [|y l2] using rev_ind.
  - apply app_inj_tail in E. destruct E as [-> ->]. auto.
  - clear IHl2. rewrite app_comm_cons, app_assoc in E. apply app_inj_tail in E. destruct E as [E _]. eapply H; eauto.
Qed.

Lemma start_inv : forall n s w s', winv n s -> step n s (Start w) = Some s' -> winv n s'.
Proof.
  intros n s w s' W E. unfold step in E. destruct (w <? n) eqn:Lw; [|discriminate]. apply Nat.ltb_lt in Lw. destruct (exe s w) as [?|] eqn:Ex; [discriminate|].
  destruct (inb s w) as [|t r] eqn:Ei; [discriminate|]. injection E as <-. destruct W as [G Q TH BG EN OR SQ OU].
  assert (AT : forall x i, cnt (fupd (inb s) w r i ++ ol (fupd (exe s) w (Some t) i) ++ fbk s i) x = cnt (atw s i) x).
  { intros x i. unfold atw. destruct (Nat.eq_dec i w) as [->|N].
    - rewrite !fupd_eq, Ei, Ex. rewrite !cnt_app. cbn. destruct (Nat.eq_dec t x); lia.
    - rewrite !fupd_neq by auto. auto. }
  assert (RT : is_ready (tset (gr s)) t = true).
  { destruct Q as [Q1 _ _ _ _]. specialize (Q1 t). pose proof (sumf_le n (fun i => cnt (atw s i) t) w Lw) as B. cbn beta in B.
    unfold atw in B at 1. rewrite Ei in B. cbn [app count_occ] in B. destruct (Nat.eq_dec t t); [|congruence]. unfold rdy in Q1. destruct (is_ready (tset (gr s)) t); [auto|lia]. }
  assert (SE : forall x, sumf n (fun i => cnt (ol (fupd (exe s) w (Some t) i)) x) = sumf n (fun i => cnt (ol (exe s i)) x) + if Nat.eq_dec t x then 1 else 0).
  { intros x. assert (A := sumf_upd n (fun i => cnt (ol (exe s i)) x) (fun i => cnt (ol (fupd (exe s) w (Some t) i)) x) w Lw). cbn beta in A.
    rewrite fupd_eq, Ex in A. specialize (A ltac:(intros; rewrite fupd_neq; auto)). cbn in A. destruct (Nat.eq_dec t x); lia. }
  constructor; cbn [gr qs nready qm mmax nsch inb exe fbk prog log fin]; auto.
  - destruct Q as [Q1 Q2 Q3 Q4 Q5]. constructor; cbn [gr qs nready qm mmax nsch]; auto.
    + intros x. etransitivity; [|exact (Q1 x)]. f_equal. apply sumf_ext. intros i Li. unfold atw at 1. cbn [inb exe fbk]. apply AT.
    + intros i Li. rewrite (Q3 i Li). unfold atw. cbn [inb exe fbk]. destruct (Nat.eq_dec i w) as [->|N].
      * rewrite !fupd_eq, Ei, Ex. rewrite !app_length. cbn. lia.
      * rewrite !fupd_neq by auto. auto.
  - intros x. rewrite SE. rewrite count_occ_app, BG. cbn. destruct (ev_dec (Begin t) (Begin x)) as [X|X]; destruct (Nat.eq_dec t x); try congruence; lia.
  - intros x. rewrite count_occ_app, EN. cbn. destruct (ev_dec (Begin t) (End x)); [discriminate|lia].
  - intros a pa b pb Ha Hb L C. apply occ_snoc; [eauto|]. intros X. injection X as <-.
    (* [t] is ready: nothing pending leads to it *)
    destruct G as (SI & AI & SM & HN). unfold is_ready in RT. destruct (tset (gr s) t) as [k|] eqn:Et; [|discriminate]. destruct (tst k) eqn:St; try discriminate.
    destruct (m_ord _ _ _ _ SM a pa t pb Ha Hb L C) as [X|[_ Y]].
    + apply (count_occ_In ev_dec). rewrite EN. apply cnt_pos in X. lia.
    + exfalso. assert (R0 : trem k = 0%Z) by (apply (s_st _ _ _ _ _ SI t k Et); auto; [congruence|lia]).
      pose proof (s_rem _ _ _ _ _ SI t k Et ltac:(congruence)) as D0.
      assert (LE : exists y, edge (tset (gr s)) y t) by (clear - Y; induction Y; eauto). destruct LE as (y & LE).
      assert (Ly : y < nextid (gr s)) by (destruct LE as (ky & Ey & _); apply (s_ent _ _ _ _ _ SI) in Ey; lia).
      apply edge_occ in LE. pose proof (sumf_le (nextid (gr s)) (occ (tset (gr s)) t) y Ly). unfold indeg in D0. lia.
  - intros x. apply occ_snoc; [auto|]. intros X. discriminate.
  - intros i Li. rewrite !fupd_neq by lia. auto.
Qed.

Lemma finish_inv : forall n s w s', winv n s -> step n s (Finish w) = Some s' -> winv n s'.
Proof.
  intros n s w s' W E. unfold step in E. destruct (w <? n) eqn:Lw; [|discriminate]. apply Nat.ltb_lt in Lw. destruct (exe s w) as [t|] eqn:Ex; [|discriminate].
  injection E as <-. destruct W as [G Q TH BG EN OR SQ OU].
  assert (AT : forall x i, cnt (inb s i ++ ol (fupd (exe s) w None i) ++ fupd (fbk s) w (fbk s w ++ [t]) i) x = cnt (atw s i) x).
  { intros x i. unfold atw. destruct (Nat.eq_dec i w) as [->|N].
    - rewrite !fupd_eq, Ex. rewrite !cnt_app. cbn. destruct (Nat.eq_dec t x); lia.
    - rewrite !fupd_neq by auto. auto. }
  assert (SE : forall x, sumf n (fun i => cnt (ol (fupd (exe s) w None i)) x) + (if Nat.eq_dec t x then 1 else 0) = sumf n (fun i => cnt (ol (exe s i)) x)).
  { intros x. assert (A := sumf_upd n (fun i => cnt (ol (exe s i)) x) (fun i => cnt (ol (fupd (exe s) w None i)) x) w Lw). cbn beta in A.
    rewrite fupd_eq, Ex in A. specialize (A ltac:(intros; rewrite fupd_neq; auto)). cbn in A. destruct (Nat.eq_dec t x); lia. }
  assert (SF : forall x, sumf n (fun i => cnt (fupd (fbk s) w (fbk s w ++ [t]) i) x) = sumf n (fun i => cnt (fbk s i) x) + if Nat.eq_dec t x then 1 else 0).
  { intros x. assert (A := sumf_upd n (fun i => cnt (fbk s i) x) (fun i => cnt (fupd (fbk s) w (fbk s w ++ [t]) i) x) w Lw). cbn beta in A.
    rewrite fupd_eq, cnt_app in A. specialize (A ltac:(intros; rewrite fupd_neq; auto)). cbn in A. destruct (Nat.eq_dec t x); lia. }
  constructor; cbn [gr qs nready qm mmax nsch inb exe fbk prog log fin]; auto.
  - destruct Q as [Q1 Q2 Q3 Q4 Q5]. constructor; cbn [gr qs nready qm mmax nsch]; auto.
    + intros x. etransitivity; [|exact (Q1 x)]. f_equal. apply sumf_ext. intros i Li. unfold atw at 1. cbn [inb exe fbk]. apply AT.
    + intros i Li. rewrite (Q3 i Li). unfold atw. cbn [inb exe fbk]. destruct (Nat.eq_dec i w) as [->|N].
      * rewrite !fupd_eq, Ex. rewrite !app_length. cbn. lia.
      * rewrite !fupd_neq by auto. auto.
  - intros x. specialize (SE x). rewrite SF, count_occ_app, BG. cbn. destruct (ev_dec (End t) (Begin x)); [discriminate|lia].
  - intros x. rewrite SF, count_occ_app, EN. cbn. destruct (ev_dec (End t) (End x)) as [X|X]; destruct (Nat.eq_dec t x); try congruence; lia.
  - intros a pa b pb Ha Hb L C. apply occ_snoc; [eauto|]. intros X. discriminate.
  - intros x. apply occ_snoc; [auto|]. intros X. injection X as <-. apply (count_occ_In ev_dec). rewrite BG. specialize (SE t). destruct (Nat.eq_dec t t); [lia|congruence].
  - intros i Li. rewrite !fupd_neq by lia. auto.
Qed.

Lemma sched_out : forall n o th is s i, n <= i -> (forall j, In j is -> j < n) -> inb (sched n o th is s) i = inb s i.
Proof.
  assert (SD : forall o s a b i, a <> i -> inb (send o s a b) i = inb s i) by (intros; cbn; apply fupd_neq; auto).
  assert (ST : forall n o f s a i, a <> i -> inb (steal n o f s a) i = inb s i).
  { intros n o f. induction f as [|f IH]; intros s a i N; cbn [steal]; auto. destruct (qs s (mmax s)); [rewrite IH by auto; auto|rewrite SD by auto; auto]. }
  intros n o th is. induction is as [|a is IH]; intros s i L H; cbn [sched]; auto.
  assert (Na : a <> i) by (assert (a < n) by (apply H; cbn; auto); lia). assert (H' : forall j, In j is -> j < n) by (intros; apply H; cbn; auto).
  destruct (nready s =? 0); auto. destruct (nsch s a <=? th); [|auto]. destruct (qs s a); rewrite IH by auto; auto.
Qed.
Lemma schedule_out : forall n o th s i, n <= i -> inb (schedule n o th s) i = inb s i.
Proof. intros. apply sched_out; auto. intros j Hj. apply in_seq in Hj. lia. Qed.

Lemma push_ready_inv : forall n X s j xs, qinv n X s -> j < n -> qinv n (fun x => X x + cnt xs x) (push_ready s j xs).
Proof.
  intros n X s j xs [Q1 Q2 Q3 Q4 Q5] Lj. constructor; cbn [push_ready gr qs nready qm mmax nsch]; auto.
  - intros x. specialize (Q1 x). assert (A := sumf_upd n (fun a => cnt (qs s a) x) (fun a => cnt (fupd (qs s) j (qs s j ++ xs) a) x) j Lj). cbn beta in A.
    rewrite fupd_eq, cnt_app in A. specialize (A ltac:(intros; rewrite fupd_neq; auto)). unfold atw in *. cbn [push_ready inb exe fbk] in *. lia.
  - assert (A := sumf_upd n (fun a => length (qs s a)) (fun a => length (fupd (qs s) j (qs s j ++ xs) a)) j Lj). cbn beta in A.
    rewrite fupd_eq, app_length in A. specialize (A ltac:(intros; rewrite fupd_neq; auto)). lia.
Qed.

Lemma qinv_ext : forall n X Y s s', qinv n X s -> (forall x, X x = Y x) -> qs s' = qs s -> nready s' = nready s -> nsch s' = nsch s ->
  (forall i, i < n -> atw s' i = atw s i) -> mmax s' < n -> qm s' < n -> qinv n Y s'.
Proof.
  intros n X Y s s' [Q1 Q2 Q3 Q4 Q5] EX E1 E2 E3 E4 L1 L2. constructor; auto.
  - intros x. rewrite <- EX, <- Q1, E1. f_equal. apply sumf_ext. intros i Li. rewrite E4; auto.
  - rewrite E1, E2. auto.
  - intros i Li. rewrite E3, E4 by auto. auto.
Qed.

Lemma ginv_new : forall g P F, ginv g P F 0 -> forall a pa, In (a, pa) P -> a < nextid g.
Proof. intros g P F (SI & _) a pa H. apply ids_in in H. apply (s_rng _ _ _ _ _ SI) in H. lia. Qed.

(** A step that only schedules. *)
Lemma winv_schedule : forall n o th s, 1 <= n ->
  ginv (gr s) (prog s) (fin s) 0 -> qinv n (rdy s) s ->
  (forall x, ecnt (log s) (Begin x) = cnt (fin s) x + sumf n (fun i => cnt (ol (exe s i)) x) + sumf n (fun i => cnt (fbk s i) x)) ->
  (forall x, ecnt (log s) (End x) = cnt (fin s) x + sumf n (fun i => cnt (fbk s i) x)) ->
  (forall a pa b pb, In (a, pa) (prog s) -> In (b, pb) (prog s) -> a < b -> conflict pa pb -> occurs_before (log s) (End a) (Begin b)) ->
  (forall x, occurs_before (log s) (Begin x) (End x)) ->
  (forall i, n <= i -> inb s i = [] /\ exe s i = None /\ fbk s i = []) -> winv n (schedule n o th s).
Proof.
  intros n o th s Hn G Q BG EN OR SQ OU. destruct (schedule_inv n (rdy s) o th s Q) as (Q' & (E1 & E2 & E3 & E4 & E5 & E6 & E7) & TH).
  pose proof (fun i => schedule_out n o th s i) as SO. remember (schedule n o th s) as s' eqn:ES. clear ES.
  constructor; rewrite ?E1, ?E3, ?E4, ?E5, ?E6, ?E7; auto.
  - unfold rdy in *. rewrite E1. exact Q'.
  - intros i Li. rewrite SO by auto. auto.
Qed.

(** Insertion does not change which of the other tasks are ready. *)
Lemma upd_ready : forall T x f y, (forall k, tst (f k) = tst k) -> is_ready (upd T x f) y = is_ready T y.
Proof.
  intros T x f y H. unfold is_ready. rewrite upd_get. destruct (y =? x) eqn:A; auto. apply Nat.eqb_eq in A. subst y.
  destruct (T x) as [k|]; cbn; auto. rewrite H. auto.
Qed.
Lemma war_ready : forall b us T y, is_ready (war b T us) y = is_ready T y.
Proof.
  intros b us. induction us as [|x us IH]; intros T y; [reflexivity|]. unfold war. cbn [fold_left]. fold (war b).
  change (fold_left _ us ?t) with (war b t us). rewrite IH. destruct (T x) as [k|]; auto. destruct (negb (x =? b) && negb (st_done (tst k))); auto.
  rewrite !upd_ready by reflexivity. auto.
Qed.
Lemma add_param_ready : forall b g p y, tset g (nextid g) = None -> is_ready (tset (add_param b g p)) y = is_ready (tset g) y.
Proof.
  intros b g [d r] y FN. unfold add_param. cbn [fst snd]. destruct r; auto.
  - destruct (holder g d) as [[t k]|]; cbn [tset].
    + destruct (st_done (tst k)); rewrite !upd_ready by reflexivity; auto.
    + unfold is_ready. destruct (Nat.eq_dec y (nextid g)) as [->|N]; [rewrite fupd_eq, FN; reflexivity|rewrite fupd_neq by auto; auto].
  - cbn [tset]. rewrite upd_ready by reflexivity. destruct (holder g d) as [[t k]|]; auto.
    set (T1 := match tunb k with [] => _ | _ => _ end).
    assert (E1 : is_ready T1 y = is_ready (tset g) y).
    { unfold T1. destruct (tunb k) as [|u us]; [|apply war_ready]. destruct (st_done (tst k)); rewrite ?upd_ready by reflexivity; auto. }
    clearbody T1. assert (E2 : is_ready (upd T1 t (add_out (-1))) y = is_ready (tset g) y) by (rewrite upd_ready by reflexivity; auto).
    set (T2 := upd T1 t (add_out (-1))) in *. clearbody T2. destruct (T2 t) as [k2|] eqn:E; auto.
    destruct (st_done (tst k2) && (tnout k2 =? 0)%Z) eqn:C; auto. apply andb_prop in C. destruct C as [C _]. apply st_done_spec in C.
    rewrite <- E2. unfold is_ready. destruct (Nat.eq_dec y t) as [->|N]; [rewrite fupd_eq, E, C; reflexivity|rewrite fupd_neq by auto; auto].
Qed.
Lemma params_ready : forall ps, supported ps -> forall g P F x, ginv g P F 0 ->
  is_ready (tset (fold_left (add_param (nextid g)) ps (create g))) x = is_ready (tset g) x.
Proof.
  intros ps SU. induction SU as [|ps d r SU IH HS]; intros g P F x G.
  - cbn. unfold is_ready. pose proof G as (SI & _). pose proof (fresh_none _ _ _ _ _ SI) as FN.
    destruct (Nat.eq_dec x (nextid g)) as [->|N]; [rewrite fupd_eq, FN; reflexivity|rewrite fupd_neq by auto; auto].
  - rewrite fold_left_app. cbn [fold_left]. rewrite add_param_ready; [eauto|]. pose proof (params_inv ps SU g P F G) as (SI & _). eapply fresh_none; eauto.
Qed.

Lemma insert_inv : forall n s ps o s', 1 <= n -> winv n s -> supported ps -> step n s (Insert ps o) = Some s' -> winv n s'.
Proof.
  intros n s ps o s' Hn W SU E. cbn [step] in E. injection E as <-. pose proof W as [G Q TH BG EN OR SQ OU].
  pose proof (params_inv ps SU (gr s) (prog s) (fin s) G) as G1. unfold insert.
  set (b := nextid (gr s)) in *. set (g1 := fold_left (add_param b) ps (create (gr s))) in *.
  assert (Hb : b <> 0) by (destruct G as (_ & _ & _ & HN); unfold b; lia).
  pose proof G1 as (SI1 & _). destruct (s_cur _ _ _ _ _ SI1 Hb) as ((kb & Eb & Sb & Db) & MX). rewrite Eb.
  pose proof (ready_inv g1 (prog s ++ [(b, ps)]) (fin s) b kb G1 Hb Eb) as G2.
  pose proof (q_mm _ _ _ Q) as LM. pose proof (q_qm _ _ _ Q) as LQ.
  (* readiness of the other tasks is untouched by the insertion *)
  assert (RD : forall x, is_ready (tset g1) x = is_ready (tset (gr s)) x).
  { intros x. unfold g1, b. eapply params_ready; eauto. }
  (* no event of the new task so far *)
  assert (NB : ~ In (Begin b) (log s)).
  { intros X. apply (count_occ_In ev_dec) in X. rewrite BG in X.
    assert (IN : In b (ids (prog s))).
    { destruct (Nat.eq_dec (cnt (fin s) b) 0) as [Z|Z].
      - assert (R1 : rdy s b <> 0).
        { rewrite <- (q_cnt _ _ _ Q b). destruct (sumf_pos n (fun i => cnt (ol (exe s i)) b + cnt (fbk s i) b)) as (i & Li & Hi); [rewrite sumf_add; lia|].
          pose proof (sumf_le n (fun i => cnt (atw s i) b) i Li) as B. cbn beta in B. unfold atw in B at 1. rewrite !cnt_app in B. lia. }
        unfold rdy, is_ready in R1. destruct G as (SI & _). destruct (tset (gr s) b) as [k|] eqn:E; [|congruence].
        destruct (tst k) eqn:ST; try congruence. destruct (tdum k) eqn:D; [destruct (s_dum _ _ _ _ _ SI b k E D); congruence|eapply s_real; eauto].
      - destruct G as (SI & _). apply (s_sub _ _ _ _ _ SI). apply cnt_pos. lia. }
    destruct G as (SI & _). apply (s_rng _ _ _ _ _ SI) in IN. unfold b in IN. lia. }
  assert (OR' : forall a pa c pc, In (a, pa) (prog s ++ [(b, ps)]) -> In (c, pc) (prog s ++ [(b, ps)]) -> a < c -> conflict pa pc -> occurs_before (log s) (End a) (Begin c)).
  { intros a pa c pc Ha Hc L C. apply in_last in Ha. apply in_last in Hc. destruct Hc as [Hc|[-> ->]].
    - destruct Ha as [Ha|[-> ->]]; [eauto|]. exfalso. apply (ginv_new _ _ _ G) in Hc. unfold b in L. lia.
    - intros l1 l2 X. exfalso. apply NB. rewrite X. apply in_app_iff. cbn. auto. }
  destruct (trem kb =? 0)%Z eqn:R0.
  - cbn [set_gr push_ready gr qs nready qm mmax nsch inb exe fbk prog log fin].
    apply winv_schedule; cbn [gr qs nready qm mmax nsch inb exe fbk prog log fin]; auto.
    eapply (qinv_ext n _ _ (push_ready s (qm s) [b])); [apply push_ready_inv; eauto| |reflexivity|reflexivity|reflexivity|reflexivity|exact LM|apply Nat.mod_upper_bound; lia].
    intros x. unfold rdy. cbn [gr tset]. rewrite cnt_one. unfold is_ready at 2. rewrite upd_get. destruct (Nat.eq_dec b x) as [<-|NE].
    + rewrite Nat.eqb_refl, Eb. cbn [option_map set_st tst]. rewrite <- RD. unfold is_ready. rewrite Eb, Sb. reflexivity.
    + rewrite (proj2 (Nat.eqb_neq x b)) by auto. rewrite <- RD. unfold is_ready. lia.
  - apply winv_schedule; cbn [gr qs nready qm mmax nsch inb exe fbk prog log fin]; auto.
    eapply (qinv_ext n _ _ s); [exact Q| |reflexivity|reflexivity|reflexivity|reflexivity|exact LM|exact LQ].
    intros x. unfold rdy. cbn [gr]. rewrite RD. reflexivity.
Qed.

Lemma handle_inv : forall n s w o1 o2 s', 1 <= n -> winv n s -> step n s (Handle w o1 o2) = Some s' -> winv n s'.
Proof.
  intros n s w o1 o2 s' Hn W E. unfold step in E. destruct (w <? n) eqn:Lw; [|discriminate]. apply Nat.ltb_lt in Lw.
  destruct (fbk s w) as [|t r] eqn:Ef; [discriminate|]. pose proof W as [G Q TH BG EN OR SQ OU].
  assert (RT : is_ready (tset (gr s)) t = true).
  { pose proof (q_cnt _ _ _ Q t) as Q1. pose proof (sumf_le n (fun i => cnt (atw s i) t) w Lw) as B. cbn beta in B.
    unfold atw in B at 1. rewrite Ef, !cnt_app in B. cbn [count_occ] in B. destruct (Nat.eq_dec t t); [|congruence]. unfold rdy in Q1. destruct (is_ready (tset (gr s)) t); [auto|lia]. }
  unfold is_ready in RT. destruct (tset (gr s) t) as [k|] eqn:Et; [|discriminate]. destruct (tst k) eqn:St; try discriminate. clear RT.
  destruct (unblock (tset (gr s)) (tunb k)) as [T' nr] eqn:EU.
  destruct (complete_inv (gr s) (prog s) (fin s) t k T' nr G Et St EU) as (G' & ND & IT & NF & RD).
  injection E as <-.
  match goal with |- context [push_ready ?x w nr] => set (s1 := x) in * end.
  assert (Q1 : qinv n (fun x => rdy s x - if Nat.eq_dec t x then 1 else 0) s1).
  { destruct Q as [Q1 Q2 Q3 Q4 Q5]. constructor; cbn [s1 gr qs nready qm mmax nsch]; auto.
    - intros x. specialize (Q1 x). assert (A := sumf_upd n (fun a => cnt (atw s a) x) (fun a => cnt (atw s1 a) x) w Lw). cbn beta in A.
      assert (B : cnt (atw s1 w) x + (if Nat.eq_dec t x then 1 else 0) = cnt (atw s w) x).
      { unfold atw. cbn [s1 inb exe fbk]. rewrite fupd_eq, Ef, !cnt_app. cbn [count_occ]. destruct (Nat.eq_dec t x); lia. }
      specialize (A ltac:(intros i Li NE; unfold atw; cbn [s1 inb exe fbk]; rewrite fupd_neq; auto)). cbn [s1 qs]. destruct (Nat.eq_dec t x); lia.
    - intros i Li. unfold atw. cbn [s1 inb exe fbk]. specialize (Q3 i Li). unfold atw in Q3. destruct (Nat.eq_dec i w) as [->|NE].
      + rewrite !fupd_eq. rewrite Q3, Ef, !app_length. cbn. lia.
      + rewrite !fupd_neq by auto. auto. }
  assert (Q2 := push_ready_inv n _ s1 w nr Q1 Lw).
  destruct (schedule_inv n _ o1 0 (push_ready s1 w nr) Q2) as (Q3 & (E1 & E2 & E3 & E4 & E5 & E6 & E7) & _).
  pose proof (fun i => schedule_out n o1 0 (push_ready s1 w nr) i) as SO.
  remember (schedule n o1 0 (push_ready s1 w nr)) as s2 eqn:ES. clear ES. cbn [push_ready s1 gr qm exe fbk prog log fin] in E1, E2, E3, E4, E5, E6, E7.
  assert (EG : gr (set_gr s2 (mkG (retire (tset (gr s2)) t) (aset (gr s2)) (nextid (gr s2)))) = mkG (retire T' t) (aset (gr s)) (nextid (gr s))) by (cbn; rewrite E1; reflexivity).
  assert (SF : forall x, sumf n (fun i => cnt (fupd (fbk s) w r i) x) + (if Nat.eq_dec t x then 1 else 0) = sumf n (fun i => cnt (fbk s i) x)).
  { intros x. assert (A := sumf_upd n (fun i => cnt (fbk s i) x) (fun i => cnt (fupd (fbk s) w r i) x) w Lw). cbn beta in A.
    rewrite fupd_eq, Ef in A. specialize (A ltac:(intros; rewrite fupd_neq; auto)). cbn [count_occ] in A. destruct (Nat.eq_dec t x); lia. }
  apply winv_schedule; rewrite ?EG; cbn [set_gr prog fin exe fbk log inb]; rewrite ?E3, ?E4, ?E5, ?E6, ?E7; auto.
  - eapply (qinv_ext n _ _ s2); [exact Q3| |reflexivity|reflexivity|reflexivity|reflexivity|exact (q_mm _ _ _ Q3)|exact (q_qm _ _ _ Q3)].
    intros x. specialize (RD x). unfold rdy. rewrite EG. cbn [tset]. destruct (Nat.eq_dec t x) as [<-|NE].
    + assert (is_ready (tset (gr s)) t = true) as -> by (unfold is_ready; rewrite Et, St; auto).
      assert (is_ready (tset (gr s)) t = true) as X by (unfold is_ready; rewrite Et, St; auto). rewrite X in RD. lia.
    + lia.
  - intros x. rewrite BG, cnt_app, cnt_one. specialize (SF x). lia.
  - intros x. rewrite EN, cnt_app, cnt_one. specialize (SF x). lia.
  - intros i Li. rewrite SO by auto. cbn [push_ready s1 inb]. rewrite fupd_neq by lia. auto.
Qed.

(** ** Executions *)
Definition ok_act (a : act) : Prop := match a with Insert ps _ => supported ps | _ => True end.

Lemma step_inv : forall n s a s', 1 <= n -> winv n s -> ok_act a -> step n s a = Some s' -> winv n s'.
Proof.
  intros n s a s' Hn W OK E. destruct a as [ps o|w|w|w o1 o2].
  - eapply insert_inv; eauto.
  - eapply start_inv; eauto.
  - eapply finish_inv; eauto.
  - eapply handle_inv; eauto.
Qed.

Lemma reach_inv : forall n l s s', 1 <= n -> winv n s -> Forall ok_act l -> exec (step n) s l = Some s' -> winv n s'.
Proof.
  intros n l. induction l as [|a l IH]; intros s s' Hn W OK E; cbn [exec] in E; [congruence|].
  inversion OK as [|? ? O1 O2]; subst. destruct (step n s a) as [m|] eqn:Em; [|discriminate]. exact (IH m s' Hn (step_inv n s a m Hn W O1 Em) O2 E).
Qed.

(** ** Progress *)
Lemma worker_can : forall n s i, i < n -> atw s i <> [] ->
  exists a, match a with Insert _ _ => False | _ => True end /\ step n s a <> None.
Proof.
  intros n s i Li NE. unfold atw in NE. assert (LB : i <? n = true) by (apply Nat.ltb_lt; auto). destruct (fbk s i) as [|t r] eqn:Ef.
  - destruct (exe s i) as [t|] eqn:Ex.
    + exists (Finish i). split; [exact Logic.I|]. unfold step. rewrite LB, Ex. discriminate.
    + destruct (inb s i) as [|t r] eqn:Ei; [cbn in NE; congruence|]. exists (Start i). split; [exact Logic.I|]. unfold step. rewrite LB, Ex, Ei. discriminate.
  - exists (Handle i (fun _ _ => 0) (fun _ _ => 0)). split; [exact Logic.I|]. unfold step. rewrite LB, Ef.
    destruct (unblock _ _). discriminate.
Qed.

Lemma min_unfinished : forall (l F : list nat), (exists x, In x l /\ ~ In x F) -> exists x, In x l /\ ~ In x F /\ forall y, In y l -> ~ In y F -> x <= y.
Proof.
  induction l as [|a l IH]; intros F (x & Hx & Nx); [destruct Hx|].
  destruct (in_dec Nat.eq_dec a F) as [Fa|Fa].
  - destruct Hx as [->|Hx]; [tauto|]. destruct (IH F) as (m & M1 & M2 & M3); [eauto|]. exists m. split; [cbn; auto|]. split; auto. intros y [->|Hy] Ny; [tauto|auto].
  - assert (D : (exists y, In y l /\ ~ In y F) \/ forall y, In y l -> In y F).
    { clear. induction l as [|b l IH]; [right; intros y []|]. destruct (in_dec Nat.eq_dec b F) as [Fb|Fb]; [|left; exists b; cbn; auto].
      destruct IH as [(y & H1 & H2)|IH]; [left; exists y; cbn; auto|right; intros y [<-|Hy]; auto]. }
    destruct D as [D|D].
    + destruct (IH F D) as (m & M1 & M2 & M3). destruct (le_lt_dec a m) as [L|L].
      * exists a. split; [cbn; auto|]. split; auto. intros y [->|Hy] Ny; [lia|]. specialize (M3 y Hy Ny). lia.
      * exists m. split; [cbn; auto|]. split; auto. intros y [->|Hy] Ny; [lia|auto].
    + exists a. split; [cbn; auto|]. split; auto. intros y [->|Hy] Ny; [lia|]. apply D in Hy. tauto.
Qed.

Lemma progress : forall n s, 1 <= n -> winv n s -> (exists x, In x (ids (prog s)) /\ ~ In x (fin s)) ->
  exists a, match a with Insert _ _ => False | _ => True end /\ step n s a <> None.
Proof.
  intros n s Hn W U. apply min_unfinished in U. destruct U as (x & Hx & Nx & MIN). pose proof W as [G Q TH BG EN OR SQ OU].
  destruct G as (SI & AI & SM & HN). set (T := tset (gr s)) in *.
  assert (PX : pend T x).
  { destruct (T x) as [k|] eqn:E; [destruct (tst k) eqn:S|]; [exists k; split; auto; congruence|exists k; split; auto; congruence| |];
      exfalso; apply Nx; apply (s_fin _ _ _ _ _ SI x Hx); intros (k2 & E2 & D); congruence. }
  destruct PX as (k & Ek & Dk).
  assert (D0 : indeg T (nextid (gr s)) x = 0).
  { unfold indeg. apply sumf_zero. intros y Ly. destruct (occ T x y) as [|m] eqn:O; auto. exfalso.
    assert (E : edge T y x) by (apply edge_occ; lia). pose proof (s_fwd _ _ _ _ _ SI y x E) as L. destruct E as (ky & Ey & Dy & _).
    assert (Iy : In y (ids (prog s))) by (destruct (tdum ky) eqn:D; [destruct (s_dum _ _ _ _ _ SI y ky Ey D); congruence|eapply s_real; eauto]).
    assert (Ny : ~ In y (fin s)) by (intros X; apply (s_fin _ _ _ _ _ SI y Iy) in X; apply X; exists ky; auto). specialize (MIN y Iy Ny). lia. }
  assert (ST : tst k = Ready).
  { apply (s_st _ _ _ _ _ SI x k Ek Dk); [apply (s_rng _ _ _ _ _ SI) in Hx; lia|]. rewrite (s_rem _ _ _ _ _ SI x k Ek Dk), D0. reflexivity. }
  assert (R1 : rdy s x = 1) by (unfold rdy, is_ready; fold T; rewrite Ek, ST; reflexivity).
  pose proof (q_cnt _ _ _ Q x) as C. rewrite R1 in C.
  destruct (Nat.eq_dec (sumf n (fun i => cnt (qs s i) x)) 0) as [Z|Z].
  - destruct (sumf_pos n (fun i => cnt (atw s i) x) ltac:(lia)) as (i & Li & Hi). apply (worker_can n s i Li). intros X. rewrite X in Hi. cbn in Hi. lia.
  - destruct (sumf_pos n (fun i => cnt (qs s i) x) ltac:(lia)) as (i & Li & Hi).
    destruct TH as [TH|TH].
    + rewrite (q_nr _ _ _ Q) in TH. pose proof (sumf_le n (fun i => length (qs s i)) i Li) as B. cbn beta in B.
      assert (In x (qs s i)) as X by (apply cnt_pos; auto). destruct (qs s i); [destruct X|cbn in B; lia].
    + apply (worker_can n s 0); [lia|]. intros X. specialize (TH 0 ltac:(lia)). rewrite (q_ns _ _ _ Q 0) in TH by lia. rewrite X in TH. cbn in TH. lia.
Qed.

(** ** Number of steps *)
Definition run_act (a : act) : Prop := match a with Insert _ _ => False | _ => True end.

Lemma step_measure : forall n s a s', run_act a -> step n s a = Some s' ->
  length (log s') + length (fin s') = S (length (log s) + length (fin s)) /\ prog s' = prog s.
Proof.
  assert (SC : forall n o th s, log (schedule n o th s) = log s /\ fin (schedule n o th s) = fin s /\ prog (schedule n o th s) = prog s).
  { assert (SD : forall o s a b, log (send o s a b) = log s /\ fin (send o s a b) = fin s /\ prog (send o s a b) = prog s) by (intros; cbn; auto).
    assert (ST : forall n o f s a, log (steal n o f s a) = log s /\ fin (steal n o f s a) = fin s /\ prog (steal n o f s a) = prog s).
    { intros n o f. induction f as [|f IH]; intros s a; cbn [steal]; auto. destruct (qs s (mmax s)); [exact (IH (set_mmax s ((mmax s + 1) mod n)) a)|exact (SD o (set_mmax s ((mmax s + 1) mod n)) a (mmax s))]. }
    intros n o th s. unfold schedule. revert s. induction (seq 0 n) as [|i is IH]; intros s; cbn [sched]; auto.
    destruct (nready s =? 0); auto. destruct (nsch s i <=? th); auto. destruct (qs s i).
    - destruct (IH (steal n o n s i)) as (-> & -> & ->). apply ST.
    - destruct (IH (send o s i i)) as (-> & -> & ->). apply SD. }
  intros n s a s' R E. destruct a as [ps o|w|w|w o1 o2]; [destruct R| | |]; unfold step in E; destruct (w <? n); try discriminate.
  - destruct (exe s w); [discriminate|]. destruct (inb s w); [discriminate|]. injection E as <-. cbn. rewrite app_length. cbn. split; [lia|auto].
  - destruct (exe s w); [|discriminate]. injection E as <-. cbn. rewrite app_length. cbn. split; [lia|auto].
  - destruct (fbk s w) as [|t r]; [discriminate|]. destruct (unblock _ _) as [T' nr].
    match type of E with Some (schedule n o2 1 ?x) = _ => destruct (SC n o2 1 x) as (A1 & A2 & A3) end. injection E as <-. rewrite A1, A2, A3.
    cbn [set_gr log fin prog]. match goal with |- context [schedule n o1 0 ?x] => destruct (SC n o1 0 x) as (B1 & B2 & B3) end. rewrite B1, B2, B3.
    cbn [push_ready log fin prog]. rewrite app_length. cbn. split; [lia|auto].
Qed.

Lemma run_measure : forall n l s s', Forall run_act l -> exec (step n) s l = Some s' ->
  length (log s') + length (fin s') = length l + (length (log s) + length (fin s)) /\ prog s' = prog s.
Proof.
  intros n l. induction l as [|a l IH]; intros s s' R E; cbn [exec] in E; [injection E as <-; auto|].
  inversion R as [|? ? R1 R2]; subst. destruct (step n s a) as [m|] eqn:Em; [|discriminate].
  destruct (step_measure n s a m R1 Em) as [M1 M2]. destruct (IH m s' R2 E) as [M3 M4]. rewrite M3, M1, M4, M2. cbn. split; [lia|auto].
Qed.

Lemma begun_known : forall n s x, winv n s -> ecnt (log s) (Begin x) <= 1 /\ ecnt (log s) (End x) <= ecnt (log s) (Begin x) /\ (0 < ecnt (log s) (Begin x) -> In x (ids (prog s))).
Proof.
  intros n s x W. pose proof W as [G Q TH BG EN OR SQ OU]. destruct G as (SI & AI & SM & HN). rewrite BG, EN.
  assert (C := q_cnt _ _ _ Q x).
  assert (LE : sumf n (fun i => cnt (ol (exe s i)) x) + sumf n (fun i => cnt (fbk s i) x) <= sumf n (fun i => cnt (atw s i) x)).
  { rewrite <- sumf_add. clear. induction n as [|n IH]; cbn; auto. unfold atw at 2. rewrite !cnt_app. lia. }
  assert (R : rdy s x = 0 \/ rdy s x = 1 /\ In x (ids (prog s)) /\ ~ In x (fin s)).
  { unfold rdy, is_ready. destruct (tset (gr s) x) as [k|] eqn:E; auto. destruct (tst k) eqn:S; auto. right. split; auto.
    assert (IX : In x (ids (prog s))) by (destruct (tdum k) eqn:D; [destruct (s_dum _ _ _ _ _ SI x k E D); congruence|eapply s_real; eauto]).
    split; auto. intros X. apply (s_fin _ _ _ _ _ SI x IX) in X. apply X. exists k. split; auto. congruence. }
  assert (F1 : cnt (fin s) x <= 1) by (apply NoDup_count_occ; eapply s_nd; eauto).
  destruct R as [R|(R & IX & NF)].
  - split; [lia|]. split; [lia|]. intros P. apply (s_sub _ _ _ _ _ SI). apply cnt_pos. lia.
  - apply (count_occ_not_In Nat.eq_dec) in NF. split; [lia|]. split; [lia|auto].
Qed.

Lemma log_bound : forall n s, winv n s -> length (log s) <= 2 * length (prog s) /\ length (fin s) <= length (prog s).
Proof.
  intros n s W. split.
  - assert (ND : NoDup (log s)).
    { apply (NoDup_count_occ ev_dec). intros [x|x]; destruct (begun_known n s x W) as (A & B & _); lia. }
    assert (IC : incl (log s) (map Begin (ids (prog s)) ++ map End (ids (prog s)))).
    { intros e He. apply in_app_iff. destruct e as [x|x]; destruct (begun_known n s x W) as (A & B & C); apply (count_occ_In ev_dec) in He; [left|right]; apply in_map; apply C; lia. }
    pose proof (NoDup_incl_length ND IC) as L. rewrite app_length, !map_length in L. unfold ids in L. rewrite map_length in L. lia.
  - destruct W as [(SI & _) _ _ _ _ _ _ _]. pose proof (NoDup_incl_length (s_nd _ _ _ _ _ SI) (s_sub _ _ _ _ _ SI)) as L. unfold ids in L. rewrite map_length in L. auto.
Qed.
