From Coq Require Import List Arith Bool Lia.
From Verif Require Import CwsModel CwsSpec CwsProofs CfmModel CfmSpec.
Import ListNotations.
Local Arguments prod : simpl never.

Lemma combs_map : forall f l l', combs f l = Some l' -> l' = map f l.
Proof.
  induction l as [|x l IH]; simpl; intros l' E; [congruence|]. destruct (same (kindof x) KSeq); [|discriminate].
  destruct (combs f l) as [t|]; [|discriminate]. injection E as <-. rewrite (IH t); auto.
Qed.
Lemma paths_comb_r : forall n l, flat_map paths (map (fun x => Comb x (Node n)) l) = prod (flat_map paths l) [[n]].
Proof. intros. apply (paths_r (fun x y => y = Comb x (Node n))); [intros x y -> _; reflexivity|]. apply Forall2_map. Qed.
Lemma paths_comb_l : forall n l, flat_map paths (map (Comb (Node n)) l) = prod [[n]] (flat_map paths l).
Proof. intros. apply (paths_l (fun x y => y = Comb (Node n) x)); [intros x y -> _; reflexivity|]. apply Forall2_map. Qed.
Lemma pairs_paths : forall a b l, pairs a b = Some l -> flat_map paths l = flat_map (fun p => prod (paths (fst p)) (paths (snd p))) (combine a b).
Proof.
  induction a as [|x a IH]; intros [|y b] l E; try discriminate; [injection E as <-; reflexivity|]. simpl in E.
  destruct (same (kindof x) KSeq && same (kindof y) KSeq); [|discriminate]. destruct (pairs a b) as [t|] eqn:P; [|discriminate].
  injection E as <-. simpl. rewrite (IH b t); auto.
Qed.
Lemma one_path : forall f1 f2 l r, paths (Pipe [Farm (em f1) (co f2) [A2a l r]]) = prod (opath (em f1)) (prod (flat_map paths l) (prod (flat_map paths r) (opath (own (co f2))))).
Proof.
  intros. change (paths (Pipe [?x])) with (prod (paths x) [[]]). rewrite prod_1_r.
  change (prod (opath (em f1)) (prod (prod (flat_map paths l) (flat_map paths r) ++ []) (match co f2 with Some (Some x) => paths x | _ => [[]] end)) =
          prod (opath (em f1)) (prod (flat_map paths l) (prod (flat_map paths r) (opath (own (co f2)))))).
  rewrite app_nil_r, prod_assoc. destruct (co f2) as [[x|]|]; reflexivity.
Qed.
Lemma two_path : forall f1 f2 e, paths (Pipe [Farm (em f1) None (wk f1); Farm e (co f2) (wk f2)]) =
  prod (opath (em f1)) (prod (flat_map paths (wk f1)) (prod (opath e) (prod (flat_map paths (wk f2)) (opath (own (co f2)))))).
Proof.
  intros. change (paths (Pipe [?x; ?y])) with (prod (paths x) (prod (paths y) [[]])). rewrite prod_1_r.
  change (paths (Farm (em f1) None (wk f1))) with (prod (opath (em f1)) (prod (flat_map paths (wk f1)) [[]])). rewrite prod_1_r, !prod_assoc.
  do 2 f_equal. change (prod (opath e) (prod (flat_map paths (wk f2)) (match co f2 with Some (Some x) => paths x | _ => [[]] end)) =
     prod (opath e) (prod (flat_map paths (wk f2)) (opath (own (co f2))))). destruct (co f2) as [[x|]|]; reflexivity.
Qed.

Lemma nf_paths : forall mi mo f1 f2 st, farms_nf mi mo f1 f2 = Ok st -> paths (Pipe st) = in_pairs f1 f2.
Proof.
  intros mi mo f1 f2 st E. unfold farms_nf in E. destruct (negb (length (wk f1) =? length (wk f2))); [discriminate|].
  destruct (wk f1) as [|x a] eqn:W1; [discriminate|]. destruct (wk f2) as [|y b] eqn:W2; [discriminate|].
  destruct (mo x || mi y); [discriminate|]. destruct (is_pipe_b x || is_pipe_b y); [discriminate|].
  destruct (pairs (x :: a) (y :: b)) as [l|] eqn:P; [|discriminate]. injection E as <-. apply pairs_paths in P.
  change (paths (Pipe [?z])) with (prod (paths z) [[]]). rewrite prod_1_r.
  change (prod (opath (em f1)) (prod (flat_map paths l) (match co f2 with Some (Some x) => paths x | _ => [[]] end)) = in_pairs f1 f2).
  unfold in_pairs. rewrite W1, W2, P. destruct (co f2) as [[z|]|]; reflexivity.
Qed.

Lemma documented : forall mi mo f1 n1 f2 n2 merge st, (ord f1 || ord f2 = true -> open_farms f1 f2) ->
  ~ (merge = true /\ n1 = None /\ n2 <> None) ->
  combine_farms mi mo f1 n1 f2 n2 merge = Ok st -> as_documented f1 n1 f2 n2 merge st.
Proof.
  intros mi mo f1 n1 f2 n2 merge st OP N E.
  assert (Q : forall P : Prop, (normal_form f1 n1 f2 n2 merge -> False) -> paths (Pipe st) = in_sequence f1 n1 f2 n2 -> as_documented f1 n1 f2 n2 merge st).
  { intros _ A B. split; [intros X; destruct (A X)|auto]. }
  unfold combine_farms in E. destruct merge.
  - destruct (ord f1 || ord f2) eqn:O.
    + destruct (OP eq_refl) as (C1 & E2). destruct n1; [discriminate|]. destruct n2; [discriminate|]. destruct (length (wk f1) =? length (wk f2)) eqn:L; [discriminate|].
      apply (Q True).
      { intros (_ & _ & _ & A & B & _). rewrite A, B in O. discriminate. }
      unfold in_sequence. simpl npath. rewrite !prod_1_l. destruct (ord f1).
      * unfold ofarm_farm in E. rewrite L, andb_false_r, E2 in E.
        assert (X : match co f1 with Some (Some c) => Some c | _ => None end = None) by (destruct (co f1) as [[c|]|]; simpl in C1; congruence).
        rewrite X in E. injection E as <-. rewrite two_path. simpl opath at 2. rewrite prod_1_l. reflexivity.
      * unfold two_farms in E. rewrite E2 in E. injection E as <-. rewrite two_path. simpl opath at 2. rewrite prod_1_l. reflexivity.
    + apply orb_false_iff in O. destruct O as (O1 & O2). destruct n1 as [a|].
      * apply (Q True); [intros (_ & X & _); discriminate|]. destruct n2 as [b|].
        -- destruct (negb (mo (Node b)) && mi (Node b)); [discriminate|]. injection E as <-. rewrite two_path. unfold in_sequence. simpl npath.
           change (opath (Some (Comb (Node a) (Node b)))) with (prod [[a]] [[b]]). rewrite prod_assoc. reflexivity.
        -- injection E as <-. rewrite two_path. unfold in_sequence. simpl npath. rewrite prod_1_l. reflexivity.
      * destruct n2 as [b|]; [destruct N; repeat split; discriminate|].
        destruct (length (wk f1) =? length (wk f2)) eqn:L.
        -- apply nf_paths in E. split; auto. intros X. destruct X. apply Nat.eqb_eq in L. repeat split; auto.
        -- apply (Q True). { intros (_ & _ & _ & _ & _ & X). apply Nat.eqb_neq in L. auto. }
           injection E as <-. change (em f1) with (em (mkFarm (ord f1) (em f1) None (wk f1))) at 1.
           rewrite (one_path f1 f2). unfold in_sequence. simpl npath. rewrite !prod_1_l. reflexivity.
  - apply (Q True); [intros (X & _); discriminate|]. destruct (ord f1 || ord f2); [discriminate|].
    unfold in_sequence. destruct n1 as [a|], n2 as [b|].
    + destruct (mi (Node a)); [discriminate|]. destruct (mo (Node b)); [discriminate|]. unfold farms_a2a_both in E.
      destruct (combs (fun x => Comb x (Node a)) (wk f1)) as [l|] eqn:A; [|discriminate]. destruct (combs (Comb (Node b)) (wk f2)) as [r|] eqn:B; [|discriminate].
      apply combs_map in A, B. subst. injection E as <-. rewrite one_path, paths_comb_r, paths_comb_l, !prod_assoc. reflexivity.
    + unfold farms_a2a_node in E. destruct (combs (fun x => Comb x (Node a)) (wk f1)) as [l|] eqn:A; [|discriminate].
      apply combs_map in A. subst. injection E as <-. rewrite one_path, paths_comb_r, !prod_assoc. simpl npath. rewrite prod_1_l. reflexivity.
    + unfold farms_a2a_node in E. destruct (combs (fun x => Comb x (Node b)) (wk f1)) as [l|] eqn:A; [|discriminate].
      apply combs_map in A. subst. injection E as <-. rewrite one_path, paths_comb_r, !prod_assoc. simpl npath. rewrite prod_1_l. reflexivity.
    + injection E as <-. rewrite (one_path f1 f2). simpl npath. rewrite !prod_1_l. reflexivity.
Qed.

Lemma pairs_some : forall a b, length a = length b -> Forall seq a -> Forall seq b -> exists l, pairs a b = Some l.
Proof.
  induction a as [|x a IH]; intros [|y b] L A B; try discriminate; [simpl; eauto|]. inversion A as [|? ? Ax At]; inversion B as [|? ? Bx Bt]; subst.
  apply seq_kind in Ax, Bx. simpl. rewrite Ax, Bx. simpl. destruct (IH b) as (l & ->); simpl in L; auto. eauto.
Qed.
Lemma accepted : forall mi mo f1 n1 f2 n2 merge, acceptable mi mo f1 n1 f2 n2 merge -> exists st, combine_farms mi mo f1 n1 f2 n2 merge = Ok st.
Proof.
  intros mi mo f1 n1 f2 n2 merge (O1 & O2 & W1 & W2 & F1 & F2 & N1 & N2). unfold combine_farms. rewrite O1, O2. simpl.
  assert (S1 : Forall seq (wk f1)) by (eapply Forall_impl; [|exact F1]; simpl; tauto).
  assert (S2 : Forall seq (wk f2)) by (eapply Forall_impl; [|exact F2]; simpl; tauto).
  destruct merge.
  - destruct n1 as [a|], n2 as [b|].
    + destruct (N2 b eq_refl) as (M & _). rewrite M, andb_false_r. unfold two_farms. eauto.
    + unfold two_farms. eauto.
    + unfold two_farms. eauto.
    + destruct (length (wk f1) =? length (wk f2)) eqn:L; [|unfold farms_a2a; simpl; unfold one_farm; eauto].
      unfold farms_nf. rewrite L. simpl. apply Nat.eqb_eq in L. destruct (pairs_some _ _ L S1 S2) as (l & P). rewrite P.
      destruct (wk f1) as [|x a]; [congruence|]. destruct (wk f2) as [|y b]; [congruence|].
      inversion F1 as [|? ? (Sx & Mx) _]; inversion F2 as [|? ? (Sy & My) _]; subst. rewrite Mx, My. simpl. unfold is_pipe_b.
      apply seq_kind, same_kind in Sx. apply seq_kind, same_kind in Sy. rewrite Sx, Sy. simpl. eauto.
  - destruct n1 as [a|], n2 as [b|].
    + rewrite (N1 a eq_refl). destruct (N2 b eq_refl) as (_ & M). rewrite M. unfold farms_a2a_both. rewrite !combs_all by auto. unfold one_farm. eauto.
    + unfold farms_a2a_node. rewrite !combs_all by auto. unfold one_farm. eauto.
    + unfold farms_a2a_node. rewrite !combs_all by auto. unfold one_farm. eauto.
    + unfold farms_a2a. simpl. unfold one_farm. eauto.
Qed.

Lemma ordered_first : forall mi mo f1 f2 st, ord f1 = true -> combine_farms mi mo f1 None f2 None true = Ok st ->
  paths (Pipe st) = prod (opath (em f1)) (prod (flat_map paths (wk f1)) (prod (opath (own (co f1))) (prod (opath (em f2)) (prod (flat_map paths (wk f2)) (opath (own (co f2))))))).
Proof.
  intros mi mo f1 f2 st O E. unfold combine_farms in E. rewrite O in E. simpl in E. destruct (length (wk f1) =? length (wk f2)) eqn:L; [discriminate|].
  unfold ofarm_farm in E. rewrite L, andb_false_r in E. revert E.
  destruct (co f1) as [[c|]|]; destruct (em f2) as [e|]; try destruct (mo _); intros E; try discriminate; injection E as <-;
    rewrite two_path; do 2 f_equal; simpl own; simpl opath; rewrite ?prod_1_l; try reflexivity. apply prod_assoc.
Qed.
Lemma ordered_accepted : forall mi mo f1 f2, ord f1 = true -> length (wk f1) <> length (wk f2) ->
  (em f2 = None -> forall c, own (co f1) = Some c -> mo c = true) -> (forall e, em f2 = Some e -> mo e = true) ->
  exists st, combine_farms mi mo f1 None f2 None true = Ok st.
Proof.
  intros mi mo f1 f2 O L A B. apply Nat.eqb_neq in L. unfold combine_farms. rewrite O. simpl. rewrite L. unfold ofarm_farm. rewrite L, andb_false_r.
  destruct (co f1) as [[c|]|]; destruct (em f2) as [e|]; rewrite ?(B e eq_refl), ?(A eq_refl c eq_refl); eauto.
Qed.
