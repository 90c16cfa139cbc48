(** C30, C31: the memory allocator. *)
From Coq Require Import List ZArith Lia Bool Permutation.
From Verif Require Import Base AllocModel AllocSpec AllocProofs AllocProofs2 AllocProofs3
  AllocProofs4 AllocProofs5 AllocProofs6.
Import ListNotations.
Open Scope Z_scope.

(** * Concrete histories *)
Definition two (c : nat) : Z := if (c <? 9)%nat then 2 else 0.
Lemma two_classes : classes two.
Proof.
  split; intros c; unfold two; destruct (Nat.ltb_spec c 9); lia.
Qed.
Definition new (b : Z) : src := SNew b (fun _ => 1).

(** A checker for [proper] on actions whose new memory is filled with ones. *)
Definition src_plain (o : src) : Prop := match o with SNew b f => f = (fun _ => 1) | SQueue _ => True end.
Definition plain (a : act) : Prop :=
  match a with AMalloc _ _ o | ARealloc _ _ o => src_plain o | APrealloc _ _ f => f = (fun _ => 1) | _ => True end.
Definition srcb (o : src) : bool := match o with SNew b _ => negb (b =? 1) | SQueue _ => true end.
Definition properb (ns : nat -> Z) (s : st) (a : act) : bool :=
  match a with
  | AMalloc al req o =>
      (0 <? req) && (0 <=? al) && (req + al + 8 <? W64) && srcb o &&
      ((al =? 0) || ((req + al <=? 8192) &&
                     match getslabs (req + al) with Some c => negb (ns c =? 0) | None => true end))
  | ARealloc p n o => (0 <=? n) && (n + 8 <? W64) && srcb o &&
                      forallb (fun x => negb (bptr x =? p) || (bal x =? 0)) (live s)
  | AWrite w v => forallb (fun x => negb (v =? fst x)) (segs s)
  | APrealloc c b f => negb (b =? 1)
  | _ => true
  end.
Fixpoint obeysb (ns : nat -> Z) (P : st -> act -> bool) (s : st) (l : list act) : bool :=
  match l with
  | [] => true
  | a :: l' => P s a && match step ns s a with Some s' => obeysb ns P s' l' | None => true end
  end.
Lemma srcb_ok : forall o, src_plain o -> srcb o = true -> clean_src o.
Proof.
  intros [t|b f]; unfold src_plain, srcb, clean_src; auto. intros -> H w.
  destruct (Z.eqb_spec b 1); [discriminate|congruence].
Qed.
Lemma properb_ok : forall ns s a, plain a -> properb ns s a = true -> proper ns s a.
Proof.
  intros ns s [al req o|t p|t|p n o|w v|c b f| |c t|c t] Pl H; unfold proper, properb, plain in *; auto.
  - rewrite !andb_true_iff in H. destruct H as ((((H1 & H2) & H3) & H4) & H5).
    apply Z.ltb_lt in H1, H3. apply Z.leb_le in H2.
    refine (conj H1 (conj H2 (conj H3 (conj (srcb_ok _ Pl H4) _)))). intros Na.
    apply Z.eqb_neq in Na. rewrite Na in H5. cbn [orb] in H5. apply andb_true_iff in H5 as [H5 H6].
    apply Z.leb_le in H5. split; [exact H5|]. intros c Hc. rewrite Hc in H6.
    destruct (Z.eqb_spec (ns c) 0); [discriminate|auto].
  - rewrite !andb_true_iff in H. destruct H as (((H1 & H2) & H3) & H4).
    apply Z.ltb_lt in H2. apply Z.leb_le in H1.
    refine (conj H1 (conj H2 (conj (srcb_ok _ Pl H3) _))).
    rewrite forallb_forall in H4. intros x Hx E. specialize (H4 x Hx). cbn beta in H4.
    apply Z.eqb_eq in E. rewrite E in H4. cbn [negb orb] in H4. apply Z.eqb_eq; auto.
  - rewrite forallb_forall in H. intros b c Hb _. specialize (H _ Hb). cbn [fst] in H.
    destruct (Z.eqb_spec v b); [discriminate|auto].
  - subst f. intros. destruct (Z.eqb_spec b 1); [discriminate|congruence].
Qed.
Lemma obeysb_ok : forall ns (P : st -> act -> Prop) (Q : st -> act -> bool) l s,
  (forall s a, In a l -> Q s a = true -> P s a) -> obeysb ns Q s l = true -> obeys ns P s l.
Proof.
  induction l as [|a l IH]; cbn; intros s H E; auto.
  apply andb_true_iff in E as [E1 E2]. split; [apply H; auto; left; auto|].
  destruct (step ns s a); auto.
Qed.

(** Two threads: the owner allocates, stores, aligned and large blocks, another thread
    frees, the owner reuses, grows a block, deregisters; the last block is freed after. *)
Definition h1 : list act :=
  [APrealloc 1 65536 (fun _ => 1);
   AMalloc 0 32 (new 4096); AWrite 4128 77; AMalloc 0 30 (new 0); AMalloc 16 16 (new 8192);
   AMalloc 0 10000 (new 131072); AWrite 8240 5;
   AFree 1 4128; APush 1; AMalloc 0 20 (new 0); AMalloc 0 20 (SQueue 1); AWrite 4128 78;
   ARealloc 4128 40 (new 0); AWrite 65576 9; AFree 2 8240; AFree 0 131080; APush 2; APush 0].
Lemma h1_used : well_used two init h1.
Proof.
  apply (obeysb_ok two (proper two) (properb two)).
  - intros s a H E. apply properb_ok; auto.
    repeat (destruct H as [<-|H]; [cbn; auto|]). destruct H.
  - vm_compute. reflexivity.
Qed.
Lemma h1_end_eq :
  option_map (fun s => (live s, segs s, bad s, mem s 65568)) (exec (step two) init h1) =
  Some ([mkB false 65560 65568 40 0; mkB false 8256 8264 20 0; mkB false 4160 4168 30 0],
        [(65536, 1%nat); (4096, 0%nat); (8192, 0%nat)], false, 78).
Proof. vm_compute. reflexivity. Qed.

Lemma reach_end : forall A l (f : st -> A) v, well_used two init l ->
  option_map f (exec (step two) init l) = Some v -> exists s, reach two s /\ f s = v.
Proof.
  intros A l f v U E. destruct (exec (step two) init l) as [s|] eqn:Es; [|discriminate].
  exists s. split; [exists l; auto|]. cbn in E. congruence.
Qed.

(** The rules can be followed: three blocks held, one of them grown with its contents. *)
Example h1_runs : exists s, reach two s /\
  (live s, segs s, bad s, mem s 65568) =
    ([mkB false 65560 65568 40 0; mkB false 8256 8264 20 0; mkB false 4160 4168 30 0],
     [(65536, 1%nat); (4096, 0%nat); (8192, 0%nat)], false, 78).
Proof.
  exact (reach_end _ h1 (fun s => (live s, segs s, bad s, mem s 65568)) _ h1_used h1_end_eq).
Qed.

(** * C30 *)

(** No byte belongs to two held blocks. *)
Theorem alloc_disjoint_partial : forall ns s, classes ns -> reach ns s -> all_disjoint (live s).
Proof. intros ns s NS R. apply (inv_disjoint ns []), reach_inv; auto. Qed.

(** All the bytes asked for lie in memory obtained from, and not yet returned to, the
    system. *)
Theorem alloc_inside_partial : forall ns s x w, classes ns -> reach ns s ->
  In x (live s) -> byte_of x w -> in_area ns s w.
Proof. intros ns s x w NS R. apply (inv_in_area ns []), reach_inv; auto. Qed.

(** malloc hands out one more block, of the size asked for. *)
Theorem alloc_malloc_partial : forall ns s al req o s', classes ns -> reach ns s ->
  proper ns s (AMalloc al req o) -> step ns s (AMalloc al req o) = Some s' ->
  al = 0 \/ pow2_multiple al 8 = true ->
  exists y, live s' = y :: live s /\ breq y = req /\ bal y = al.
Proof.
  intros ns s al req o s' NS R Pr E H.
  destruct (malloc_ok ns NS _ _ _ _ _ (reach_inv ns NS _ R) Pr E) as (_ & _ & A & _). auto.
Qed.

(** Nothing the allocator or other users do changes a held block. *)
Theorem alloc_contents_partial : forall ns s a s' x, classes ns -> reach ns s -> proper ns s a ->
  step ns s a = Some s' -> In x (live s) -> leaves_alone a x ->
  In x (live s') /\ forall w, holds_word x w = true -> mem s' w = mem s w.
Proof.
  intros ns s a s' x NS R Pr E Hx L.
  destruct (step_ok ns NS _ _ _ (reach_inv ns NS _ R) Pr E) as [_ A]. auto.
Qed.

(** A segment is returned to the system only when no held block lies in it. *)
Theorem alloc_release_partial : forall ns s a s' b c, classes ns -> reach ns s -> proper ns s a ->
  step ns s a = Some s' -> In (b, c) (segs s) -> ~ In (b, c) (segs s') ->
  forall x w, In x (live s') -> byte_of x w -> ~ (b <= w < b + seglen ns c).
Proof. intros ns s a s' b c NS. apply release_unused; auto. Qed.

(** The allocator never passes the system a pointer it did not get from it, and never
    indexes its caches out of range. *)
Theorem alloc_no_misuse_partial : forall ns s, classes ns -> reach ns s -> bad s = false.
Proof. intros ns s NS R. apply (v_bad ns []), reach_inv; auto. Qed.

(** When every block has been freed and the queues are drained, the only segments not
    returned to the system are those no block was ever cut from, at most one per size. *)
Theorem alloc_all_returned_partial : forall ns s b b' c, classes ns -> reach ns s ->
  live s = [] -> pend s = [] -> lq s = [] -> In (b, c) (segs s) ->
  avail s c = ns c /\ (In (b', c) (segs s) -> b' = b).
Proof.
  intros ns s b b' c NS R L P Q H.
  destruct (all_returned ns NS s R L P Q b c H) as [B A]. split; auto.
  intros H'. destruct (all_returned ns NS s R L P Q b' c H'). lia.
Qed.

(** The class chosen is the smallest that fits. *)
Theorem alloc_class : forall size, 0 < size <= 8192 ->
  exists c, getslabs size = Some c /\ (c < 9)%nat /\ size <= csize c /\
            forall c', (c' < c)%nat -> csize c' < size.
Proof. exact getslabs_spec. Qed.

(** A freed block is available to the next request of its size: the free puts the
    block itself into the queue of the freeing thread ... *)
Theorem alloc_free_queued_partial : forall ns s x t, classes ns -> reach ns s -> In x (live s) ->
  bsys x = false -> nomore s = false -> (forall h, ~ In (t, h) (pend s)) ->
  exists s1 s2 c, step ns s (AFree t (bptr x)) = Some s1 /\ step ns s1 (APush t) = Some s2 /\
    lq s2 = lq s ++ [(c, t, bh x)] /\ breq x <= csize c /\ segs s2 = segs s /\
    forall y, In y (live s2) <-> In y (live s) /\ y <> x.
Proof.
  intros ns s x t NS R Hx Bs Nm Np. pose proof (reach_inv ns NS _ R) as V.
  pose proof (v_live ns _ _ V _ Hx) as (P1 & P2 & P3 & P4 & P4' & P5). rewrite Bs in P5.
  destruct P5 as (b & c & k & (S1 & S2 & S3 & S4) & Q & Q' & A).
  assert (Fx : find_live (live s) (bptr x) = Some x).
  { destruct (find_live (live s) (bptr x)) as [y|] eqn:F.
    - destruct (find_live_in _ _ _ F) as [Hy Ey]. pose proof (ptr_inj ns _ _ _ _ V Hy Hx Ey) as Eh.
      f_equal. pose proof (live_nodup ns _ _ V) as N. clear - N Hx Hy Eh.
      induction (live s) as [|a l IH]; [destruct Hx|]. cbn [map] in N. inversion N as [|? ? N1 N2]; subst.
      destruct Hx as [->|Hx], Hy as [->|Hy]; auto; exfalso; apply N1.
      + rewrite <- Eh. apply in_map; auto.
      + rewrite Eh. apply in_map; auto.
    - exfalso. unfold find_live in F. apply (find_none _ _ F) in Hx. lia. }
  assert (E1 : step ns s (AFree t (bptr x)) =
    Some (mkS (mem s) (segs s) (regs s) (bp s) (avail s) (lq s) (nomore s) (pend s ++ [(t, bh x)])
              (drop_live (live s) (bptr x)) (bad s))).
  { cbn [step]. unfold do_free. rewrite Fx, (free_finds_own ns NS [] s x V Hx), Bs.
    unfold putitem. cbn [mem set_live]. rewrite S4.
    replace (seg_class (set_live s (drop_live (live s) (bptr x))) b) with (Some c)
      by (symmetry; apply (seg_class_eq ns [] s b c V S1)).
    cbn [nomore set_live pend]. rewrite Nm.
    replace (existsb _ _) with false; [reflexivity|].
    symmetry. apply not_true_is_false. intros X. apply existsb_exists in X as ((t', h) & X1 & X2).
    cbn [fst] in X2. apply Nat.eqb_eq in X2. subst t'. apply (Np h X1). }
  assert (Pp : forall q, (forall h, ~ In (t, h) q) -> pop_pend (q ++ [(t, bh x)]) t = Some (bh x, q)).
  { clear. induction q as [|(t', h) q IH]; intros N; cbn [app pop_pend].
    - rewrite Nat.eqb_refl. reflexivity.
    - destruct (Nat.eqb_spec t' t) as [->|]; [exfalso; apply (N h); left; auto|].
      rewrite IH; auto. intros h' H'. apply (N h'). right; auto. }
  eexists _, _, c. split; [exact E1|]. split.
  - cbn [step pend mem]. rewrite Pp by auto. rewrite S4.
    rewrite (seg_class_eq ns [] _ b c (proj1 (free_ok ns NS _ _ _ _ V E1)) S1). reflexivity.
  - cbn [lq segs live]. split; [auto|]. split; [lia|]. split; [auto|].
    intros y. unfold drop_live. rewrite filter_In, negb_true_iff, Z.eqb_neq.
    split; intros [H1 H2]; split; auto; [congruence|].
    intros X. apply H2. pose proof (ptr_inj ns _ _ _ _ V H1 Hx X) as Eh.
    pose proof (live_nodup ns _ _ V) as N. clear - N Hx H1 Eh.
    induction (live s) as [|a l IH]; [destruct Hx|]. cbn [map] in N. inversion N as [|? ? N1 N2]; subst.
    destruct Hx as [->|Hx], H1 as [->|H1]; auto; exfalso; apply N1.
    + rewrite <- Eh. apply in_map; auto.
    + rewrite Eh. apply in_map; auto.
Qed.

(** ... a request finds a non-empty queue whenever there is one ... *)
Theorem alloc_scan : forall A (qs : list (list A)) last,
  match scan qs last with
  | Some (k, x) => (k < length qs)%nat /\ exists q, nth k qs [] = x :: q
  | None => forall q, In q qs -> q = []
  end.
Proof. exact scan_spec. Qed.

(** ... and takes its block without asking the system for memory. *)
Theorem alloc_reuse_partial : forall ns s req c t h, reach ns s -> nomore s = false ->
  0 < req <= 8192 -> getslabs req = Some c -> ns c <> 0 -> avail s c = 0 -> In (c, t, h) (lq s) ->
  exists s' y h', step ns s (AMalloc 0 req (SQueue t)) = Some s' /\ In (c, t, h') (lq s) /\
    live s' = y :: live s /\ bptr y = h' + 8 /\ breq y = req /\ areas ns s' = areas ns s.
Proof.
  intros ns s req c t h R Nm Hr Ec Nc Ha Hq. destruct (pop_some _ _ _ _ Hq) as (h' & r & Ep & Hi).
  cbn [step]. rewrite Nm. unfold do_malloc. cbn [Z.eqb negb andb].
  rewrite Z.add_0_r, Z.mod_small by (unfold W64; lia).
  destruct (Z.ltb_spec 8192 req); [lia|]. rewrite Ec. cbn [orb].
  destruct (Z.eqb_spec (ns c) 0); [contradiction|].
  unfold getitem. rewrite Ha. cbn [Z.ltb Z.compare]. rewrite Ep.
  eexists _, _, h'. split; [reflexivity|]. repeat split; auto.
Qed.

(** ** Non-vacuity of the hypotheses above *)
Example alloc_examples : exists s, reach two s /\
  proper two s (AMalloc 64 100 (new 1048576)) /\
  step two s (AMalloc 64 100 (new 1048576)) <> None /\
  (exists t h, In (0%nat, t, h) (lq s)) /\ avail s 0%nat = 0 /\ nomore s = false /\ length (live s) = 3%nat.
Proof.
  destruct (reach_end _ h1 (fun s => (properb two s (AMalloc 64 100 (new 1048576)),
     match step two s (AMalloc 64 100 (new 1048576)) with Some _ => true | None => false end,
     lq s, avail s 0%nat, nomore s, length (live s)))
     (true, true, [(0%nat, 2%nat, 8216); (0%nat, 0%nat, 4120)], 0, false, 3%nat) h1_used) as (s & R & E).
  { vm_compute. reflexivity. }
  exists s. apply pair_equal_spec in E as [E E6]. apply pair_equal_spec in E as [E E5]. apply pair_equal_spec in E as [E E4]. apply pair_equal_spec in E as [E E3]. apply pair_equal_spec in E as [E1 E2]. split; auto. split; [apply properb_ok; reflexivity|].
  split; [destruct (step two s _); [discriminate|discriminate]|].
  split; [exists 2%nat, 8216; rewrite E3; left; auto|]. auto.
Qed.

(** A segment goes back to the system: both blocks freed, allocator deregistered. *)
Definition h2 : list act :=
  [AMalloc 0 32 (new 4096); AMalloc 0 30 (new 0); AFree 1 4128; APush 1; ADereg; AFree 2 4168].
Example alloc_release_example :
  (exists s, reach two s /\ segs s = [(4096, 0%nat)] /\ length (lq s) = 1%nat /\ nomore s = true) /\
  (exists s, reach two s /\ segs s = [] /\ live s = [] /\ pend s = [] /\ lq s = []).
Proof.
  split.
  - destruct (reach_end _ h2 (fun s => (segs s, length (lq s), nomore s)) ([(4096, 0%nat)], 1%nat, true)) as (s & R & E).
    + apply (obeysb_ok two (proper two) (properb two)); [|vm_compute; reflexivity].
      intros s a H E. apply properb_ok; auto. repeat (destruct H as [<-|H]; [cbn; auto|]). destruct H.
    + vm_compute. reflexivity.
    + exists s. apply pair_equal_spec in E as [E E3]. apply pair_equal_spec in E as [E1 E2]. auto.
  - destruct (reach_end _ (h2 ++ [ADrain 0 1]) (fun s => (segs s, live s, pend s, lq s)) ([], [], [], [])) as (s & R & E).
    + apply (obeysb_ok two (proper two) (properb two)); [|vm_compute; reflexivity].
      intros s a H E. apply properb_ok; auto. repeat (destruct H as [<-|H]; [cbn; auto|]). destruct H.
    + vm_compute. reflexivity.
    + exists s. apply pair_equal_spec in E as [E E4]. apply pair_equal_spec in E as [E E3]. apply pair_equal_spec in E as [E1 E2]. auto.
Qed.

(** * C31 *)

(** Exactly the powers of two from 8 on are accepted as alignments; another alignment
    is refused and changes nothing. *)
Theorem memalign_accepts : forall al, 0 <= al < W64 ->
  (pow2_multiple al 8 = true <-> exists k, 3 <= k /\ al = 2 ^ k).
Proof. exact pow2_multiple_spec. Qed.

Theorem memalign_refuses : forall ns s al req o s', nomore s = false -> al <> 0 ->
  pow2_multiple al 8 = false -> step ns s (AMalloc al req o) = Some s' -> s' = s.
Proof.
  intros ns s al req o s' Nm Na F E. cbn [step] in E. rewrite Nm in E. unfold do_malloc in E.
  apply Z.eqb_neq in Na. rewrite Na, F in E. cbn [negb andb] in E. congruence.
Qed.

(** A block asked for with an alignment starts at a multiple of it. *)
Theorem memalign_aligned_partial : forall ns s x, classes ns -> reach ns s -> In x (live s) ->
  bal x <> 0 -> (bal x | bptr x).
Proof.
  intros ns s x NS R Hx N. destruct (v_live ns _ _ (reach_inv ns NS _ R) _ Hx) as (_ & _ & _ & _ & A & _). auto.
Qed.

(** free() finds, from the pointer alone, the block the pointer was cut from. *)
Theorem free_exact_partial : forall ns s x, classes ns -> reach ns s -> In x (live s) ->
  free_finds (mem s) (bptr x) = if bsys x then FSys (bh x) else FSlab (bh x).
Proof. intros ns s x NS R Hx. apply (free_finds_own ns NS []); auto. apply reach_inv; auto. Qed.

(** realloc hands out one block of the new size that starts with the old contents, and
    takes the old one back. *)
Theorem realloc_keeps_partial : forall ns s p n o s', classes ns -> reach ns s ->
  proper ns s (ARealloc p n o) -> step ns s (ARealloc p n o) = Some s' ->
  exists x y, In x (live s) /\ bptr x = p /\ live s' = y :: drop_live (live s) p /\ breq y = n /\
    forall i, 0 <= i -> 8 * i < breq x -> 8 * i < n -> mem s' (bptr y + 8 * i) = mem s (p + 8 * i).
Proof.
  intros ns s p n o s' NS R Pr E.
  destruct (realloc_ok ns NS _ _ _ _ _ (reach_inv ns NS _ R) Pr E) as (_ & _ & A). exact A.
Qed.

Example memalign_example : exists s x, reach two s /\ In x (live s) /\ bal x = 64 /\ bptr x = 1048640 /\
  proper two s (ARealloc 4168 33 (new 2097152)) /\ step two s (ARealloc 4168 33 (new 2097152)) <> None.
Proof.
  destruct (reach_end _ (h1 ++ [AMalloc 64 100 (new 1048576)])
     (fun s => (live s, properb two s (ARealloc 4168 33 (new 2097152)),
        match step two s (ARealloc 4168 33 (new 2097152)) with Some _ => true | None => false end))
     ([mkB false 1048600 1048640 100 64;
       mkB false 65560 65568 40 0; mkB false 8256 8264 20 0; mkB false 4160 4168 30 0], true, true)) as (s & R & E).
  { apply (obeysb_ok two (proper two) (properb two)); [|vm_compute; reflexivity].
    intros s a H E. apply properb_ok; auto. repeat (destruct H as [<-|H]; [cbn; auto|]). destruct H. }
  { vm_compute. reflexivity. }
  apply pair_equal_spec in E as [E E3]. apply pair_equal_spec in E as [E1 E2]. exists s, (mkB false 1048600 1048640 100 64).
  rewrite E1. split; [exact R|]. split; [left; auto|]. split; [auto|]. split; [auto|]. split.
  - apply properb_ok; auto; reflexivity.
  - destruct (step two s _); discriminate.
Qed.

(** * What the rules exclude: the full claims fail *)

(** The rules with one of them dropped. *)
Definition or_store (ns : nat -> Z) (s : st) (a : act) : Prop :=
  proper ns s a \/ exists w v, a = AWrite w v.
Definition or_large (ns : nat -> Z) (s : st) (a : act) : Prop :=
  proper ns s a \/ exists al req o, a = AMalloc al req o /\ 0 < req /\ req + al + 8 < W64 /\ clean_src o.
Definition or_realloc (ns : nat -> Z) (s : st) (a : act) : Prop :=
  proper ns s a \/ exists p n o, a = ARealloc p n o /\ 0 <= n /\ n + 8 < W64 /\ clean_src o.
Definition or_zero (ns : nat -> Z) (s : st) (a : act) : Prop :=
  proper ns s a \/ exists o, a = AMalloc 0 0 o.
Definition or_zero_aligned (ns : nat -> Z) (s : st) (a : act) : Prop :=
  proper ns s a \/ exists al o, a = AMalloc al 0 o /\ 0 < al <= 8192 /\ clean_src o.

Definition alloc_disjoint_claim (rule : (nat -> Z) -> st -> act -> Prop) : Prop :=
  forall ns l s, classes ns -> obeys ns (rule ns) init l -> exec (step ns) init l = Some s ->
  all_disjoint (live s).
Definition alloc_no_misuse_claim (rule : (nat -> Z) -> st -> act -> Prop) : Prop :=
  forall ns l s, classes ns -> obeys ns (rule ns) init l -> exec (step ns) init l = Some s ->
  bad s = false.

Lemma obeys_by : forall (rule : (nat -> Z) -> st -> act -> Prop) (Q : act -> bool) l,
  Forall plain l ->
  (forall s a, In a l -> Q a = true -> rule two s a) -> (forall s a, proper two s a -> rule two s a) ->
  obeysb two (fun s a => properb two s a || Q a) init l = true -> obeys two (rule two) init l.
Proof.
  intros rule Q l Pl H1 H2 E. apply (obeysb_ok two _ (fun s a => properb two s a || Q a)); auto.
  intros s a Ha E1. apply orb_true_iff in E1 as [E1|E1]; auto. apply H2, properb_ok; auto.
  rewrite Forall_forall in Pl. auto.
Qed.

Lemma overlap : forall (l : list blk) x y w r, l = x :: y :: r -> byte_of x w -> byte_of y w -> ~ all_disjoint l.
Proof.
  intros l x y w r -> Wx Wy H. inversion H as [|? ? F _]; subst. rewrite Forall_forall in F.
  apply (F y (or_introl eq_refl) w Wx Wy).
Qed.

(** A block whose words hold the address of its segment: freeing the next block frees
    this one instead, and it is handed out again. *)
Definition h_store : list act :=
  [AMalloc 0 32 (new 4096); AMalloc 0 32 (new 0);
   AWrite 4128 4096; AWrite 4136 4096; AWrite 4144 4096; AWrite 4152 4096;
   AFree 0 4168; APush 0; AMalloc 0 32 (SQueue 0)].
Lemma h_store_used : obeys two (or_store two) init h_store.
Proof.
  apply (obeys_by or_store (fun a => match a with AWrite _ _ => true | _ => false end)).
    - repeat constructor.
    - intros s0 a _ Q. destruct a; try discriminate. right; do 2 eexists; reflexivity.
    - intros; left; auto.
    - vm_compute. reflexivity.
Qed.

Theorem alloc_disjoint_stores_refuted : ~ alloc_disjoint_claim or_store.
Proof.
  intros H. destruct (exec (step two) init h_store) as [s|] eqn:E; [|vm_compute in E; discriminate].
  assert (L : live s = [mkB false 4120 4128 32 0; mkB false 4120 4128 32 0]).
  { assert (X : option_map live (exec (step two) init h_store) =
       Some [mkB false 4120 4128 32 0; mkB false 4120 4128 32 0]) by (vm_compute; reflexivity).
    rewrite E in X. cbn in X. congruence. }
  pose proof h_store_used as U.
  refine (overlap _ _ _ 4128 _ L _ _ (H two h_store s two_classes U E)); unfold byte_of; cbn; lia.
Qed.

(** An aligned request of zero bytes fills a whole block with back pointers: the free of
    the next block releases the wrong one, which is then handed out twice. *)
Definition h_zero : list act :=
  [AMalloc 32 0 (new 4096); AMalloc 0 32 (new 0);
   AFree 0 4168; APush 0; AFree 0 4160; APush 0; AMalloc 0 32 (SQueue 0); AMalloc 0 32 (SQueue 0)].
Lemma h_zero_used : obeys two (or_zero_aligned two) init h_zero.
Proof.
  apply (obeys_by or_zero_aligned (fun a => match a with AMalloc 32 0 _ => true | _ => false end)).
    - repeat constructor.
    - intros s0 a Ha Q. repeat (destruct Ha as [<-|Ha]; [try discriminate|]); [|destruct Ha].
      right. eexists _, _. split; [reflexivity|]. split; [lia|]. cbn. intros; lia.
    - intros; left; auto.
    - vm_compute. reflexivity.
Qed.

Theorem alloc_disjoint_zero_aligned_refuted : ~ alloc_disjoint_claim or_zero_aligned.
Proof.
  intros H. destruct (exec (step two) init h_zero) as [s|] eqn:E; [|vm_compute in E; discriminate].
  assert (L : live s = [mkB false 4120 4128 32 0; mkB false 4120 4128 32 0]).
  { assert (X : option_map live (exec (step two) init h_zero) =
       Some [mkB false 4120 4128 32 0; mkB false 4120 4128 32 0]) by (vm_compute; reflexivity).
    rewrite E in X. cbn in X. congruence. }
  pose proof h_zero_used as U.
  refine (overlap _ _ _ 4128 _ L _ _ (H two h_zero s two_classes U E)); unfold byte_of; cbn; lia.
Qed.

(** realloc of an aligned pointer keeps the pointer although the rest of its block is
    too small: the result overlaps the next block. *)
Definition h_realloc : list act :=
  [AMalloc 16 16 (new 4096); AMalloc 0 32 (new 0); ARealloc 4144 32 (new 0)].
Lemma h_realloc_used : obeys two (or_realloc two) init h_realloc.
Proof.
  apply (obeys_by or_realloc (fun a => match a with ARealloc _ _ _ => true | _ => false end)).
    - repeat constructor.
    - intros s0 a Ha Q. repeat (destruct Ha as [<-|Ha]; [try discriminate|]); [|destruct Ha].
      right. eexists _, _, _. split; [reflexivity|]. unfold W64. cbn. repeat split; intros; lia.
    - intros; left; auto.
    - vm_compute. reflexivity.
Qed.

Theorem realloc_disjoint_refuted : ~ alloc_disjoint_claim or_realloc.
Proof.
  intros H. destruct (exec (step two) init h_realloc) as [s|] eqn:E; [|vm_compute in E; discriminate].
  assert (L : live s = [mkB false 4120 4144 32 16; mkB false 4160 4168 32 0]).
  { assert (X : option_map live (exec (step two) init h_realloc) =
       Some [mkB false 4120 4144 32 16; mkB false 4160 4168 32 0]) by (vm_compute; reflexivity).
    rewrite E in X. cbn in X. congruence. }
  pose proof h_realloc_used as U.
  refine (overlap _ _ _ 4170 _ L _ _ (H two h_realloc s two_classes U E)); unfold byte_of; cbn; lia.
Qed.

(** free() of an aligned block too large for the slabs passes the system a pointer that
    the system never returned. *)
Definition h_large : list act := [AMalloc 4096 8000 (new 65536); AFree 0 69632].
Lemma h_large_used : obeys two (or_large two) init h_large.
Proof.
  apply (obeys_by or_large (fun a => match a with AMalloc _ _ _ => true | _ => false end)).
    - repeat constructor.
    - intros s0 a Ha Q. repeat (destruct Ha as [<-|Ha]; [try discriminate|]); [|destruct Ha].
      right. eexists _, _, _. split; [reflexivity|]. unfold W64. cbn. repeat split; intros; lia.
    - intros; left; auto.
    - vm_compute. reflexivity.
Qed.

Theorem memalign_large_free_refuted : ~ alloc_no_misuse_claim or_large.
Proof.
  intros H. destruct (exec (step two) init h_large) as [s|] eqn:E; [|vm_compute in E; discriminate].
  assert (L : bad s = true).
  { assert (X : option_map bad (exec (step two) init h_large) = Some true) by (vm_compute; reflexivity).
    rewrite E in X. cbn in X. congruence. }
  pose proof h_large_used as U.
  pose proof (H two h_large s two_classes U E). congruence.
Qed.

(** It does so for every large aligned block: the pointer handed to the system is never
    the one it returned. *)
Theorem memalign_large_free_always : forall b k, 3 <= k -> 0 < b -> b + 8 + 2 ^ k < W64 ->
  align_up (b + 8) (2 ^ k) - 8 <> b.
Proof.
  intros b k Hk Hb Hw.
  assert (k <= 64).
  { destruct (Z.le_gt_cases k 64); auto. exfalso.
    assert (2 ^ 64 < 2 ^ k) by (apply Z.pow_lt_mono_r; lia). unfold W64 in Hw. lia. }
  destruct (align_up_spec (b + 8) k); lia.
Qed.

(** malloc(0) indexes the caches with -1. *)
Lemma h_empty_used : obeys two (or_zero two) init [AMalloc 0 0 (new 4096)].
Proof.
  apply (obeys_by or_zero (fun a => match a with AMalloc 0 0 _ => true | _ => false end)).
    - repeat constructor.
    - intros s0 a Ha Q. destruct Ha as [<-|[]]. right; eexists; reflexivity.
    - intros; left; auto.
    - vm_compute. reflexivity.
Qed.

Theorem malloc_zero_refuted : ~ alloc_no_misuse_claim or_zero.
Proof.
  intros H. set (l := [AMalloc 0 0 (new 4096)]).
  destruct (exec (step two) init l) as [s|] eqn:E; [|vm_compute in E; discriminate].
  assert (L : bad s = true).
  { assert (X : option_map bad (exec (step two) init l) = Some true) by (vm_compute; reflexivity).
    rewrite E in X. cbn in X. congruence. }
  pose proof h_empty_used as U.
  pose proof (H two l s two_classes U E). congruence.
Qed.

Print Assumptions alloc_disjoint_partial.
Print Assumptions alloc_inside_partial.
Print Assumptions alloc_malloc_partial.
Print Assumptions alloc_contents_partial.
Print Assumptions alloc_release_partial.
Print Assumptions alloc_no_misuse_partial.
Print Assumptions alloc_all_returned_partial.
Print Assumptions alloc_class.
Print Assumptions alloc_free_queued_partial.
Print Assumptions alloc_scan.
Print Assumptions alloc_reuse_partial.
Print Assumptions memalign_accepts.
Print Assumptions memalign_refuses.
Print Assumptions memalign_aligned_partial.
Print Assumptions free_exact_partial.
Print Assumptions realloc_keeps_partial.
Print Assumptions alloc_disjoint_stores_refuted.
Print Assumptions alloc_disjoint_zero_aligned_refuted.
Print Assumptions realloc_disjoint_refuted.
Print Assumptions memalign_large_free_refuted.
Print Assumptions memalign_large_free_always.
Print Assumptions malloc_zero_refuted.
