From Coq Require Import List Arith Bool Lia.
From Verif Require Import CwsModel CwsSpec CwsProofs CfmModel CfmSpec CfmProofs CnpModel CnpSpec.
Import ListNotations.
Local Arguments prod : simpl never.

Lemma farm_path : forall e c w, paths (Farm e c w) = prod (opath e) (prod (flat_map paths w) (opath (own c))).
Proof. intros e [[c|]|] w; reflexivity. Qed.
Lemma pipe_1 : forall x, paths (Pipe [x]) = paths x.
Proof. intros. change (paths (Pipe [x])) with (prod (paths x) [[]]). apply prod_1_r. Qed.

Lemma ok_sequence : forall mo x y st, listed x y -> nodes_in_pipeline mo x y = Ok st -> sequence x y st.
Proof.
  intros mo x y st L E. unfold sequence, nodes_in_pipeline in *. destruct (is_a2a_s x || is_a2a_s y); [discriminate|].
  destruct x as [f|b], y as [g|d]; simpl block; rewrite ?farm_path, ?prod_assoc.
  - destruct (ord f).
    + unfold ofarm_farm in E. destruct (ord g && (length (wk f) =? length (wk g))); [discriminate|].
      destruct (co f) as [[c|]|]; destruct (em g) as [e|]; try destruct (mo _); try discriminate; injection E as <-;
        rewrite two_path; simpl own; simpl opath; rewrite ?prod_1_l, ?prod_assoc; reflexivity.
    + unfold farm_farm in E. destruct (co f) as [[c|]|]; destruct (em g) as [e|]; try destruct (mo _); try discriminate; injection E as <-;
        rewrite two_path; simpl own; simpl opath; rewrite ?prod_1_l, ?prod_assoc; reflexivity.
  - destruct L as (O & S). rewrite O in E. unfold farm_seq, is_seq in E. apply seq_kind in S. rewrite S in E.
    destruct (co f) as [[c|]|]; injection E as <-; rewrite pipe_1, farm_path; simpl own; simpl opath; rewrite ?prod_1_l; reflexivity.
  - unfold seq_farm, is_seq in E. apply seq_kind in L. rewrite L in E. simpl in E. destruct (em g) as [e|].
    + injection E as <-. rewrite pipe_1, farm_path. simpl opath at 1. rewrite prod_assoc. reflexivity.
    + destruct (is_comb b && negb (mo b)); [discriminate|]. injection E as <-. rewrite pipe_1, farm_path. simpl opath at 3. rewrite prod_1_l. reflexivity.
  - injection E as <-. change (prod (paths b) (prod (paths d) [[]]) = prod (paths b) (paths d)). rewrite prod_1_r. reflexivity.
Qed.

Lemma seq_not_a2a : forall b, seq b -> same (kindof b) KA2a = false.
Proof. intros [i|l r|st|e c w|l r] H; destruct H; reflexivity. Qed.
Lemma suited_ok : forall mo x y, listed x y -> suited mo x y -> exists st, nodes_in_pipeline mo x y = Ok st.
Proof.
  intros mo x y L S. unfold nodes_in_pipeline. destruct x as [f|b], y as [g|d]; simpl in L, S; simpl is_a2a_s.
  - simpl. destruct (ord f) eqn:O.
    + destruct S as (N & A & C). apply Nat.eqb_neq in N. unfold ofarm_farm. rewrite N, andb_false_r.
      destruct (co f) as [[c|]|]; destruct (em g) as [e|]; rewrite ?(A e eq_refl), ?(C eq_refl c eq_refl); eauto.
    + unfold farm_farm. destruct (co f) as [[c|]|].
      * destruct (S c eq_refl) as (e & E & M). rewrite E, M. unfold two_farms. eauto.
      * unfold two_farms. eauto.
      * unfold two_farms. eauto.
  - destruct L as (O & Q). rewrite (seq_not_a2a _ Q), O. simpl. unfold farm_seq, is_seq. apply seq_kind in Q. rewrite Q.
    destruct (co f) as [[c|]|]; eauto.
  - rewrite (seq_not_a2a _ L). simpl. unfold seq_farm, is_seq. apply seq_kind in L. rewrite L. simpl. destruct (em g) as [e|]; [eauto|].
    destruct (S eq_refl) as [(i & ->)|M]; [simpl; eauto|]. rewrite M, andb_false_r. eauto.
  - destruct L as (P & Q). rewrite (seq_not_a2a _ P), (seq_not_a2a _ Q). simpl. eauto.
Qed.
