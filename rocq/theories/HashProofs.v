From Coq Require Import List Arith Bool ZArith Lia Permutation.
From Verif Require Import Base Outcome HashModel HashSpec.
Import ListNotations.

Section P.
  Context {K V : Type}.
  Variables (h : K -> nat) (cmp : K -> K -> bool) (n : nat).
  Hypothesis Hn : 1 <= n.
  Hypothesis Crefl : forall a, cmp a a = true.
  Hypothesis Csym : forall a b, cmp a b = true -> cmp b a = true.
  Hypothesis Ctrans : forall a b c, cmp a b = true -> cmp b c = true -> cmp a c = true.
  Hypothesis Chash : forall a b, cmp a b = true -> h a = h b.
  Notation entry := (K * option V)%type.

  Definition distinct (l : list entry) : Prop := ForallOrdPairs (fun a b => cmp (fst a) (fst b) = false) l.

  Lemma Cneg : forall a b, cmp a b = false -> cmp b a = false.
  Proof. intros a b H. destruct (cmp b a) eqn:E; auto. apply Csym in E. congruence. Qed.

  Lemma distinct_perm : forall l l', Permutation l l' -> distinct l -> distinct l'.
  Proof.
    unfold distinct. induction 1; intros D; auto.
    - inversion D; subst. constructor; auto. rewrite Forall_forall in *. intros y Hy. apply H2.
      eapply Permutation_in; [apply Permutation_sym; eauto|auto].
    - inversion D as [|? ? F1 D1]; subst. inversion D1 as [|? ? F2 D2]; subst.
      inversion F1; subst. constructor; [|constructor]; auto. constructor; auto. apply Cneg. auto.
  Qed.

  Lemma distinct_app : forall l1 l2, distinct (l1 ++ l2) -> distinct l1 /\ distinct l2 /\
    (forall a b, In a l1 -> In b l2 -> cmp (fst a) (fst b) = false).
  Proof.
    unfold distinct. induction l1 as [|e l1 IH]; simpl; intros l2 D.
    - split; [constructor|]. split; auto. intros a b [].
    - inversion D as [|? ? F D1]; subst. destruct (IH l2 D1) as (A & B & C).
      apply Forall_app in F as [F1 F2]. split; [constructor; auto|]. split; auto.
      intros a b [<-|Ha] Hb; auto. rewrite Forall_forall in F2. auto.
  Qed.

  Lemma find_none : forall k (l : list entry), (forall e, In e l -> cmp (fst e) k = false) -> find (hit cmp k) l = None.
  Proof.
    induction l; simpl; intros H; auto. unfold hit at 1. rewrite (H a) by auto. apply IHl. auto.
  Qed.

  Lemma find_unique : forall k l e, distinct l -> In e l -> cmp (fst e) k = true -> find (hit cmp k) l = Some e.
  Proof.
    unfold distinct. induction l as [|a l IH]; simpl; intros e D Hi Hc; [contradiction|].
    inversion D as [|? ? F D1]; subst. unfold hit at 1. destruct Hi as [->|Hi].
    - rewrite Hc. auto.
    - destruct (cmp (fst a) k) eqn:E; auto. rewrite Forall_forall in F. specialize (F e Hi).
      apply Csym in Hc. rewrite (Ctrans _ _ _ E Hc) in F. discriminate.
  Qed.

  (** Lookup only depends on the set of entries. *)
  Lemma find_perm : forall k l l', Permutation l l' -> distinct l -> find (hit cmp k) l = find (hit cmp k) l'.
  Proof.
    intros k l l' P D. pose proof (distinct_perm _ _ P D) as D'.
    destruct (find (hit cmp k) l) as [e|] eqn:E.
    - apply find_some in E as [Hi Hc]. symmetry. apply find_unique; auto. eapply Permutation_in; eauto.
    - symmetry. apply find_none. intros e Hi. apply (List.find_none _ _ E). eapply Permutation_in; [apply Permutation_sym; eauto|auto].
  Qed.

  Lemma find_app : forall k (l1 l2 : list entry), find (hit cmp k) (l1 ++ l2) =
    match find (hit cmp k) l1 with Some e => Some e | None => find (hit cmp k) l2 end.
  Proof. induction l1; simpl; intros; auto. destruct (hit cmp k a); auto. Qed.

  Lemma existsb_find : forall k (l : list entry), existsb (hit cmp k) l = match find (hit cmp k) l with Some _ => true | None => false end.
  Proof. induction l; simpl; auto. destruct (hit cmp k a); auto. Qed.

  (** Buckets seen as one list, bucket i first. *)
  Lemma flat_fupd_out : forall (b : nat -> list entry) i l m, ~ In i m -> flat_map (fupd b i l) m = flat_map b m.
  Proof.
    induction m; simpl; intros H; auto. rewrite IHm by tauto. rewrite fupd_neq by tauto. auto.
  Qed.

  Lemma flat_focus : forall (b : nat -> list entry) i m, NoDup m -> In i m ->
    exists rest, (forall l, Permutation (flat_map (fupd b i l) m) (l ++ rest)) /\ 
      (forall e, In e rest -> exists j, j <> i /\ In j m /\ In e (b j)).
  Proof.
    induction m as [|j m IH]; intros ND Hi; [contradiction|]. inversion ND as [|? ? N1 ND1]; subst.
    simpl. destruct (Nat.eq_dec i j) as [->|N].
    - exists (flat_map b m). split.
      + intros l. rewrite fupd_eq, flat_fupd_out by auto. auto.
      + intros e He. apply in_flat_map in He as (j' & Hj & He). exists j'. split; auto. intros ->. auto.
    - destruct Hi as [->|Hi]; [congruence|]. destruct (IH ND1 Hi) as (rest & P & Q).
      exists (b j ++ rest). split.
      + intros l. rewrite fupd_neq by auto. rewrite P. rewrite !app_assoc. apply Permutation_app_tail. apply Permutation_app_comm.
      + intros e He. apply in_app_or in He as [He|He]; [exists j; auto|]. destruct (Q e He) as (j' & A & B & C). exists j'. auto.
  Qed.

  Lemma fupd_same : forall (b : nat -> list entry) i m, flat_map (fupd b i (b i)) m = flat_map b m.
  Proof.
    induction m; simpl; auto. rewrite IHm. destruct (Nat.eq_dec a i) as [->|N]; [rewrite fupd_eq|rewrite fupd_neq by auto]; auto.
  Qed.

  Record R (t : ht K V) (m : list entry) : Prop := {
    r_home : forall i e, i < n -> In e (buckets t i) -> idx h n (fst e) = i;
    r_perm : Permutation (flat_map (buckets t) (seq 0 n)) m;
    r_dist : distinct m }.

  Lemma idx_lt : forall k, idx h n k < n.
  Proof. intros. unfold idx. apply Nat.mod_upper_bound. lia. Qed.

  Lemma focus : forall t m k, R t m -> exists rest,
    (forall l, Permutation (flat_map (fupd (buckets t) (idx h n k) l) (seq 0 n)) (l ++ rest)) /\
    Permutation m (buckets t (idx h n k) ++ rest) /\
    (forall e, In e rest -> cmp (fst e) k = false).
  Proof.
    intros t m k HR. pose proof (idx_lt k) as L.
    destruct (flat_focus (buckets t) (idx h n k) (seq 0 n)) as (rest & P & Q).
    - apply seq_NoDup.
    - apply in_seq. lia.
    - exists rest. split; auto. split.
      + rewrite <- P, fupd_same. apply Permutation_sym. apply (r_perm _ _ HR).
      + intros e He. destruct (Q e He) as (j & Nj & Hj & He'). apply in_seq in Hj.
        destruct (cmp (fst e) k) eqn:E; auto. exfalso. apply Nj.
        rewrite <- (r_home _ _ HR j e ltac:(lia) He'). unfold idx. rewrite (Chash _ _ E). reflexivity.
  Qed.

  Lemma find_bucket : forall t m k, R t m -> find (hit cmp k) (buckets t (idx h n k)) = find (hit cmp k) m.
  Proof.
    intros t m k HR. destruct (focus t m k HR) as (rest & _ & P & Q).
    rewrite (find_perm k _ _ P (r_dist _ _ HR)). rewrite find_app, (find_none k rest Q).
    destruct (find _ _); auto.
  Qed.

  Lemma filter_id : forall (l : list entry) k, (forall e, In e l -> cmp (fst e) k = false) -> filter (fun e => negb (cmp (fst e) k)) l = l.
  Proof. induction l; simpl; intros k H; auto. rewrite (H a) by auto. simpl. f_equal. auto. Qed.

  Lemma unlink_all_filter : forall k l, distinct l -> forall dead,
    (dead = true -> forall e, In e l -> cmp (fst e) k = false) ->
    unlink_all cmp k dead l = filter (fun e => negb (cmp (fst e) k)) l.
  Proof.
    unfold distinct. induction l as [|e l IH]; intros D dead Hd; cbn [unlink_all filter]; auto.
    inversion D as [|? ? F D1]; subst. unfold hit.
    destruct (cmp (fst e) k) eqn:E.
    - assert (NF : forall e', In e' l -> cmp (fst e') k = false).
      { intros e' Hi. destruct (cmp (fst e') k) eqn:E'; auto. rewrite Forall_forall in F. specialize (F e' Hi).
        rewrite (Ctrans _ _ _ E (Csym _ _ E')) in F. discriminate. }
      destruct dead; [rewrite (Hd eq_refl e) in E by (left; auto); discriminate|]. simpl.
      apply IH; auto.
    - cbn [negb]. f_equal. apply IH; auto. discriminate.
  Qed.

  Lemma unlink_first_filter : forall k l, distinct l -> unlink_first cmp k l = filter (fun e => negb (cmp (fst e) k)) l.
  Proof.
    unfold distinct. induction l as [|e l IH]; intros D; cbn [unlink_first filter]; auto.
    inversion D as [|? ? F D1]; subst. unfold hit.
    destruct (cmp (fst e) k) eqn:E; cbn [negb].
    - symmetry. apply filter_id. intros e' Hi. destruct (cmp (fst e') k) eqn:E'; auto.
      rewrite Forall_forall in F. specialize (F e' Hi). rewrite (Ctrans _ _ _ E (Csym _ _ E')) in F. discriminate.
    - f_equal. apply IH. auto.
  Qed.

  Lemma distinct_filter : forall f l, distinct l -> distinct (filter f l).
  Proof.
    unfold distinct. induction l as [|e l IH]; simpl; intros D; auto. inversion D as [|? ? F D1]; subst.
    destruct (f e); auto. constructor; auto. rewrite Forall_forall in *. intros x Hx. apply F. apply filter_In in Hx. tauto.
  Qed.

  Lemma filter_perm : forall (f : entry -> bool) l l', Permutation l l' -> Permutation (filter f l) (filter f l').
  Proof.
    induction 1; simpl; auto.
    - destruct (f x); auto.
    - destruct (f x), (f y); auto. apply perm_swap.
    - eapply Permutation_trans; eauto.
  Qed.

  Lemma distinct_cons_remove : forall m k v, distinct m -> distinct ((k, v) :: remove cmp m k).
  Proof.
    intros m k v D. constructor; [|apply distinct_filter; auto].
    rewrite Forall_forall. intros e He. apply filter_In in He as [_ He]. simpl. apply Cneg. destruct (cmp (fst e) k); auto.
  Qed.

  Lemma remove_perm : forall t m k, R t m -> exists rest,
    (forall l, Permutation (flat_map (fupd (buckets t) (idx h n k) l) (seq 0 n)) (l ++ rest)) /\
    Permutation (remove cmp m k) (filter (fun e => negb (cmp (fst e) k)) (buckets t (idx h n k)) ++ rest) /\
    distinct (buckets t (idx h n k)).
  Proof.
    intros t m k HR. destruct (focus t m k HR) as (rest & P & Q & N). exists rest. split; auto. split.
    - unfold remove. eapply Permutation_trans; [apply (filter_perm _ _ _ Q)|]. rewrite filter_app.
      apply Permutation_app_head. 
      match goal with |- Permutation ?a ?b => replace a with b; [apply Permutation_refl|symmetry; apply (filter_id rest k N)] end.
    - pose proof (distinct_perm _ _ Q (r_dist _ _ HR)) as D.
      apply distinct_app in D. tauto.
  Qed.

  Lemma home_upd : forall t m k l, R t m -> (forall e, In e l -> In e (buckets t (idx h n k)) \/ idx h n (fst e) = idx h n k) ->
    forall i e, i < n -> In e (fupd (buckets t) (idx h n k) l i) -> idx h n (fst e) = i.
  Proof.
    intros t m k l HR H i e Hi He. destruct (Nat.eq_dec i (idx h n k)) as [->|N].
    - rewrite fupd_eq in He. destruct (H e He) as [X|X]; auto. apply (r_home _ _ HR); auto.
    - rewrite fupd_neq in He by auto. apply (r_home _ _ HR); auto.
  Qed.

  Definition countless (o : op K V) : Prop := match o with Count => False | _ => True end.

  Lemma step_refines : forall t m o, R t m -> countless o ->
    snd (step h cmp n t o) = snd (spec_step cmp m o) /\ R (fst (step h cmp n t o)) (fst (spec_step cmp m o)).
  Proof.
    intros t m o HR C. destruct o as [k v|k v|k|k|]; cbn [step spec_step]; [| | | |contradiction].
    - unfold hinsert, has. change (fun e : entry => cmp (fst e) k) with (hit cmp k (V:=V)).
      rewrite !existsb_find, (find_bucket t m k HR).
      destruct (find (hit cmp k) m) eqn:E; cbn [fst snd]; split; auto.
      destruct (focus t m k HR) as (rest & P & Q & N).
      constructor; cbn [buckets].
      + apply (home_upd t m k); auto. intros e [<-|He]; auto.
      + rewrite P. simpl. constructor. apply Permutation_sym. auto.
      + constructor; [|apply (r_dist _ _ HR)]. rewrite Forall_forall. intros e He. simpl. apply Cneg. apply (List.find_none _ _ E). auto.
    - split; auto. cbn [fst]. destruct (remove_perm t m k HR) as (rest & P & Q & D).
      unfold hupdate. constructor; cbn [buckets].
      + apply (home_upd t m k); auto. intros e [<-|He]; auto. left.
        rewrite unlink_all_filter in He by (auto; discriminate). apply filter_In in He. tauto.
      + rewrite P. simpl. constructor. rewrite unlink_all_filter by (auto; discriminate). apply Permutation_sym. auto.
      + apply distinct_cons_remove. apply (r_dist _ _ HR).
    - unfold hdelete, has. change (fun e : entry => cmp (fst e) k) with (hit cmp k (V:=V)).
      rewrite !existsb_find, (find_bucket t m k HR).
      destruct (find (hit cmp k) m) eqn:E; cbn [fst snd]; split; auto.
      destruct (remove_perm t m k HR) as (rest & P & Q & D).
      constructor; cbn [buckets].
      + apply (home_upd t m k); auto. intros e' He. left.
        rewrite unlink_first_filter in He by auto. apply filter_In in He. tauto.
      + rewrite P. rewrite unlink_first_filter by auto. apply Permutation_sym. auto.
      + apply distinct_filter. apply (r_dist _ _ HR).
    - cbn [fst snd]. split; auto. unfold hfind, get. change (fun e : entry => cmp (fst e) k) with (hit cmp k (V:=V)).
      rewrite (find_bucket t m k HR). auto.
  Qed.

  Lemma R_create : R create [].
  Proof.
    constructor; cbn [create buckets].
    - intros i e _ [].
    - induction (seq 0 n); simpl; auto.
    - constructor.
  Qed.

  Lemma run_refines : forall l t m, R t m -> Forall countless l ->
    snd (srun (step h cmp n) t l) = snd (srun (spec_step cmp) m l) /\
    R (fst (srun (step h cmp n) t l)) (fst (srun (spec_step cmp) m l)).
  Proof.
    induction l as [|o l IH]; intros t m HR F; simpl; auto.
    inversion_clear F as [|? ? Ho Fl]. destruct (step_refines t m o HR Ho) as [E HR'].
    destruct (step h cmp n t o) as [t1 r1], (spec_step cmp m o) as [m1 r2]. cbn [fst snd] in *. subst r2.
    destruct (IH t1 m1 HR' Fl) as [E2 HR2].
    destruct (srun (step h cmp n) t1 l), (srun (spec_step cmp) m1 l). cbn [fst snd] in *. subst. auto.
  Qed.

  (** Entry counter: right as long as nothing was deleted or replaced. *)
  Definition growing (m : list entry) (o : op K V) : Prop :=
    match o with Delete k => has cmp m k = false | Update k _ => has cmp m k = false | _ => True end.

  Lemma remove_absent : forall (m : list entry) k, has cmp m k = false -> remove cmp m k = m.
  Proof.
    intros m k H. apply filter_id. intros e He. destruct (cmp (fst e) k) eqn:E; auto.
    assert (has cmp m k = true) by (apply existsb_exists; eauto). congruence.
  Qed.

  Lemma count_refines : forall l t m, R t m -> nentries t = Z.of_nat (length m) -> allowed (spec_step cmp) growing m l ->
    snd (srun (step h cmp n) t l) = snd (srun (spec_step cmp) m l).
  Proof.
    induction l as [|o l IH]; intros t m HR EN A; [reflexivity|]. destruct A as [G A].
    cbn [srun].
    assert (X : snd (step h cmp n t o) = snd (spec_step cmp m o) /\ R (fst (step h cmp n t o)) (fst (spec_step cmp m o)) /\
                nentries (fst (step h cmp n t o)) = Z.of_nat (length (fst (spec_step cmp m o)))).
    { destruct o as [k v|k v|k|k|].
      - destruct (step_refines t m (Insert k v) HR I) as [E HR']. split; auto. split; auto.
        cbn [step spec_step] in *. unfold hinsert in *. destruct (existsb _ _), (has cmp m k); cbn [fst snd nentries length] in *; try discriminate; lia.
      - destruct (step_refines t m (Update k v) HR I) as [E HR']. split; auto. split; auto.
        cbn [step spec_step fst hupdate nentries growing] in *. rewrite remove_absent by auto. cbn [length]. lia.
      - destruct (step_refines t m (Delete k) HR I) as [E HR']. split; auto. split; auto.
        cbn [step spec_step growing] in *. rewrite G in *. unfold hdelete in *. destruct (existsb _ _); cbn [fst snd] in *; [discriminate|auto].
      - destruct (step_refines t m (Find k) HR I) as [E HR']. split; auto.
      - cbn [step spec_step fst snd]. split; auto. rewrite EN. reflexivity. }
    destruct X as (E & HR' & EN').
    destruct (step h cmp n t o) as [t1 r1], (spec_step cmp m o) as [m1 r2]. cbn [fst snd] in *. subst r2.
    specialize (IH t1 m1 HR' EN' A). destruct (srun (step h cmp n) t1 l), (srun (spec_step cmp) m1 l). cbn [snd] in *. subst. auto.
  Qed.

  (** Traversal. *)
  Lemma chain_visit_all : forall l : list entry, Forall (fun e => snd e <> None) l ->
    map (fun p => (fst p, Some (snd p))) (chain_visit l) = l.
  Proof.
    induction l as [|[k [v|]] l IH]; intros F; simpl; auto; inversion_clear F as [|? ? F1 F2].
    - f_equal. auto.
    - simpl in F1. congruence.
  Qed.

  Lemma foreach_all : forall t m, R t m -> Forall (fun e => snd e <> None) m ->
    Permutation (map (fun p => (fst p, Some (snd p))) (foreach n t)) m.
  Proof.
    intros t m HR F. rewrite <- (r_perm _ _ HR). unfold foreach.
    assert (FB : forall l, Forall (fun e => snd e <> None) (flat_map (buckets t) l) ->
      map (fun p => (fst p, Some (snd p))) (flat_map (fun i => chain_visit (buckets t i)) l) = flat_map (buckets t) l).
    { induction l as [|i l IH]; simpl; intros FF; auto. apply Forall_app in FF as [F1 F2].
      rewrite map_app, (chain_visit_all _ F1), IH; auto. }
    rewrite FB; auto. rewrite Forall_forall in *. intros e He. apply F. eapply Permutation_in; [apply (r_perm _ _ HR)|auto].
  Qed.
End P.
