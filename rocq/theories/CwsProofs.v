From Coq Require Import List Arith Bool Lia.
From Verif Require Import CwsModel CwsSpec.
Import ListNotations.

Local Arguments prod : simpl never.
Lemma prod_1_l : forall B, prod [[]] B = B.
Proof. intros. unfold prod. simpl. rewrite app_nil_r. apply map_id. Qed.
Lemma prod_1_r : forall A, prod A [[]] = A.
Proof. induction A as [|x A IH]; auto. change (prod (x :: A) [[]]) with ((x ++ []) :: prod A [[]]). rewrite app_nil_r, IH. reflexivity. Qed.
Lemma prod_app_l : forall A A' B, prod (A ++ A') B = prod A B ++ prod A' B.
Proof. intros. unfold prod. apply flat_map_app. Qed.
Lemma prod_nil : forall B, prod [] B = [].
Proof. reflexivity. Qed.
Lemma prod_map : forall x B C, prod (map (app x) B) C = map (app x) (prod B C).
Proof.
  intros x B C. induction B as [|y B IH]; auto. cbn [map]. change (prod ((x ++ y) :: map (app x) B) C) with (map (app (x ++ y)) C ++ prod (map (app x) B) C).
  change (prod (y :: B) C) with (map (app y) C ++ prod B C). rewrite map_app, IH. f_equal. rewrite map_map.
  apply map_ext. intros. rewrite app_assoc. reflexivity.
Qed.
Lemma prod_assoc : forall A B C, prod (prod A B) C = prod A (prod B C).
Proof.
  induction A as [|x A IH]; intros B C; auto. change (prod (x :: A) B) with (map (app x) B ++ prod A B).
  rewrite prod_app_l, prod_map, IH. reflexivity.
Qed.
Lemma snoc_prod : forall n A, map (fun p => p ++ [n]) A = prod A [[n]].
Proof. induction A as [|x A IH]; [reflexivity|]. change (prod (x :: A) [[n]]) with ((x ++ [n]) :: prod A [[n]]). rewrite <- IH. reflexivity. Qed.
Lemma cons_prod : forall n A, map (cons n) A = prod [[n]] A.
Proof. intros. unfold prod. simpl. rewrite app_nil_r. reflexivity. Qed.

Definition along (l : list bb) : list path := fold_right prod [[]] (map paths l).
Lemma along_app : forall a b, along (a ++ b) = prod (along a) (along b).
Proof.
  induction a as [|x a IH]; intros b; unfold along in *; simpl; [rewrite prod_1_l; reflexivity|]. rewrite IH, prod_assoc. reflexivity.
Qed.
Lemma along_1 : forall x, along [x] = paths x.
Proof. intros. unfold along. simpl. apply prod_1_r. Qed.
Lemma along_flat_n : forall k b, size b <= k -> along (flat b) = paths b.
Proof.
  induction k as [|k IH]; intros b S; [destruct b; simpl in S; lia|]. destruct b as [i|l r|st|e c w|l r]; try (simpl flat; apply along_1).
  simpl in S. change (along (flat_map flat st) = along st). assert (Q : list_sum (map size st) <= k) by lia. clear S.
  induction st as [|x st IS]; auto. simpl in Q. simpl flat_map. rewrite along_app, IH, IS by lia. reflexivity.
Qed.
Lemma along_flat : forall st, along (flat_map flat st) = along st.
Proof. intros st. exact (along_flat_n _ (Pipe st) (le_n _)). Qed.

(** The nodes of the flattened pipeline. *)
Lemma flat_no_pipe_n : forall k b x, size b <= k -> In x (flat b) -> kindof x <> KPipe /\ size x <= size b.
Proof.
  induction k as [|k IH]; intros b x S I; [destruct b; simpl in S; lia|].
  destruct b as [i|l r|st|e c w|l r]; try (simpl flat in I; destruct I as [<-|[]]; split; [discriminate|lia]).
  simpl in S, I. apply in_flat_map in I. destruct I as (y & Iy & I).
  assert (Q : size y <= list_sum (map size st)).
  { clear - Iy. induction st as [|z st IS]; [destruct Iy|]. simpl. destruct Iy as [->|Iy]; [lia|]. specialize (IS Iy). lia. }
  destruct (IH y x) as (A & B); [lia|auto|]. split; auto. simpl. lia.
Qed.
Lemma flat_no_pipe : forall st x, In x (flat_map flat st) -> kindof x <> KPipe /\ size x < size (Pipe st).
Proof.
  intros st x I. apply in_flat_map in I. destruct I as (y & Iy & I). destruct (flat_no_pipe_n _ y x (le_n _) I) as (A & B). split; auto.
  assert (Q : size y <= list_sum (map size st)).
  { clear - Iy. induction st as [|z st IS]; [destruct Iy|]. simpl. destruct Iy as [->|Iy]; [lia|]. specialize (IS Iy). lia. }
  simpl. lia.
Qed.
Lemma size_in : forall x l, In x l -> size x <= list_sum (map size l).
Proof. induction l as [|y l IH]; simpl; [tauto|]. intros [->|I]; [lia|]. specialize (IH I). lia. Qed.

Lemma seq_kind : forall b, seq b <-> same (kindof b) KSeq = true.
Proof. intros []; simpl; intuition discriminate. Qed.
Lemma same_kind : forall a b, same a b = true <-> a = b.
Proof. intros [] []; simpl; intuition congruence. Qed.

Lemma ends_flat_n : forall k b, size b <= k -> ends b -> exists i x, flat b = i ++ [x] /\ ends x.
Proof.
  induction k as [|k IH]; intros b S E; [destruct b; simpl in S; lia|].
  destruct b as [i|l r|st|e c w|l r]; try (exists [], (Node i); split; auto; fail); try (eexists [], _; split; [reflexivity|exact E]).
  inversion E as [? Q|ini x Q| | | | |]; subst; [destruct Q|].
  destruct (IH x) as (i & y & F & Y); auto.
  { simpl in S. rewrite map_app, list_sum_app in S. simpl in S. lia. }
  exists (flat_map flat ini ++ i), y. split; auto. simpl. rewrite flat_map_app. simpl. rewrite app_nil_r, F, app_assoc. reflexivity.
Qed.
Lemma starts_flat_n : forall k b, size b <= k -> starts b -> exists x t, flat b = x :: t /\ starts x.
Proof.
  induction k as [|k IH]; intros b S E; [destruct b; simpl in S; lia|].
  destruct b as [i|l r|st|e c w|l r]; try (eexists _, []; split; [reflexivity|exact E]).
  inversion E as [? Q|x t Q| | |]; subst; [destruct Q|].
  destruct (IH x) as (y & i & F & Y); auto.
  { simpl in S. lia. }
  exists y, (i ++ flat_map flat t). split; auto. simpl. rewrite F. reflexivity.
Qed.

(** Sets of nodes. *)
Lemma combs_all : forall f l, Forall seq l -> combs f l = Some (map f l).
Proof. induction 1 as [|x l S F IH]; auto. simpl. apply seq_kind in S. rewrite S, IH. reflexivity. Qed.
Lemma rest_all : forall f k l, Forall (fun x => kindof x = k /\ exists y, f x = R true y) l ->
  exists l', rest f k l = Some l' /\ Forall2 (fun x y => f x = R true y) l l'.
Proof.
  induction 1 as [|x l (K & y & Y) F (l' & E & Q)]; [exists []; split; auto|]. exists (y :: l'). simpl. rewrite K.
  assert (S : same k k = true) by (apply same_kind; auto). rewrite S, Y, E. split; auto.
Qed.
Lemma each_all : forall f k mk h t, Forall (fun x => kindof x = k /\ exists y, f x = R true y) (h :: t) ->
  exists l', each f k mk h t = R true (mk l') /\ Forall2 (fun x y => f x = R true y) (h :: t) l'.
Proof.
  intros f k mk h t F. inversion F as [|? ? (K & y & Y) Ft]; subst. destruct (rest_all f (kindof h) t Ft) as (l' & E & Q).
  exists (y :: l'). unfold each. rewrite Y, E. split; auto.
Qed.
Lemma paths_r : forall (P : bb -> bb -> Prop) n l l', (forall x y, P x y -> In x l -> paths y = prod (paths x) [[n]]) -> Forall2 P l l' ->
  flat_map paths l' = prod (flat_map paths l) [[n]].
Proof.
  intros P n l l' H F. induction F as [|x y l l' Q F IH]; auto. simpl. rewrite prod_app_l, IH, (H x y); simpl; auto. intros; apply H; simpl; auto.
Qed.
Lemma prod_cons_app : forall n A B, prod [[n]] (A ++ B) = prod [[n]] A ++ prod [[n]] B.
Proof. intros. rewrite <- !cons_prod. apply map_app. Qed.
Lemma paths_l : forall (P : bb -> bb -> Prop) n l l', (forall x y, P x y -> In x l -> paths y = prod [[n]] (paths x)) -> Forall2 P l l' ->
  flat_map paths l' = prod [[n]] (flat_map paths l).
Proof.
  intros P n l l' H F. induction F as [|x y l l' Q F IH]; auto. simpl. rewrite prod_cons_app, IH, (H x y); simpl; auto. intros; apply H; simpl; auto.
Qed.
Lemma Forall2_map : forall (f : bb -> bb) l, Forall2 (fun x y => y = f x) l (map f l).
Proof. induction l; simpl; auto. Qed.

Lemma right_ok : forall k n b, size b <= k -> ends b -> ~ seq b ->
  exists b', right k n b = R true b' /\ paths b' = prod (paths b) [[n]].
Proof.
  induction k as [|k IH]; intros n b S E N; [destruct b; simpl in S; lia|].
  destruct b as [i|l r|st|e c w|l r]; try (simpl in N; tauto).
  - (* pipeline *)
    destruct (ends_flat_n _ (Pipe st) (le_n _) E) as (i & x & F & X). simpl flat in F.
    assert (Ix : In x (flat_map flat st)) by (rewrite F; apply in_or_app; simpl; auto).
    destruct (flat_no_pipe st x Ix) as (Kx & Sx).
    assert (P0 : along st = prod (along i) (paths x)) by (rewrite <- along_flat, F, along_app, along_1; reflexivity).
    simpl right. rewrite F, rev_app_distr. simpl. rewrite rev_involutive.
    destruct (same (kindof x) KSeq) eqn:Q.
    + eexists. split; [reflexivity|]. change (along (i ++ [Comb x (Node n)]) = prod (along st) [[n]]).
      rewrite along_app, along_1, P0, prod_assoc. reflexivity.
    + assert (Nx : ~ seq x) by (intros H; apply seq_kind in H; congruence).
      destruct (IH n x) as (y & Y & Py); auto; [lia|]. rewrite Y. simpl. eexists. split; [reflexivity|].
      change (along (i ++ [y]) = prod (along st) [[n]]). rewrite along_app, along_1, P0, Py, prod_assoc. reflexivity.
  - (* farm *)
    inversion E as [? Q|? ? Q|? ? ?|? ? W Q|? ? W K Q| |]; subst; try (simpl in Q; tauto).
    + eexists. split; [reflexivity|]. simpl. rewrite !prod_assoc. reflexivity.
    + destruct w as [|h t]; [congruence|]. simpl right. inversion Q as [|? ? Qh Qt]; subst. apply seq_kind in Qh. rewrite Qh.
      unfold combine_all. rewrite combs_all by auto. eexists. split; [reflexivity|].
      change (prod (match e with Some x => paths x | None => [[]] end) (prod (flat_map paths (map (fun x => Comb x (Node n)) (h :: t))) [[]]) =
              prod (prod (match e with Some x => paths x | None => [[]] end) (prod (flat_map paths (h :: t)) [[]])) [[n]]).
      rewrite (paths_r (fun x y => y = Comb x (Node n)) n (h :: t)); [rewrite !prod_1_r, prod_assoc; reflexivity| |apply Forall2_map].
      intros x y -> _. reflexivity.
    + destruct w as [|h t]; [congruence|].
      assert (H : exists kd, kd <> KSeq /\ Forall (fun x => kindof x = kd) (h :: t)).
      { destruct K as [K|[K|K]]; [exists KPipe|exists KFarm|exists KA2a]; (split; [discriminate|]);
        eapply Forall_impl; [|exact K| |exact K| |exact K]; intros []; simpl; intros; tauto. }
      destruct H as (kd & Nk & Hk).
      assert (Hh : Forall (fun x => kindof x = kd /\ exists y, right k n x = R true y) (h :: t)).
      { rewrite Forall_forall in *. intros x Ix. split; [auto|]. destruct (IH n x) as (y & Y & _); eauto.
        - apply size_in in Ix. change (1 + (match e with Some x => size x | None => 0 end + 0 + list_sum (map size (h :: t))) <= 1 + k) in S. lia.
        - intros C. apply seq_kind, same_kind in C. rewrite Hk in C by auto. congruence. }
      simpl right. inversion Hk as [|? ? Kh Kt]; subst. destruct (same (kindof h) KSeq) eqn:C; [apply same_kind in C; congruence|].
      destruct (each_all (right k n) (kindof h) (Farm e None) h t Hh) as (l' & EE & F2). rewrite EE. eexists. split; [reflexivity|].
      change (prod (match e with Some x => paths x | None => [[]] end) (prod (flat_map paths l') [[]]) =
              prod (prod (match e with Some x => paths x | None => [[]] end) (prod (flat_map paths (h :: t)) [[]])) [[n]]).
      rewrite (paths_r (fun x y => right k n x = R true y) n (h :: t)); auto; [rewrite !prod_1_r, prod_assoc; reflexivity|].
      intros x y Y Ix. rewrite Forall_forall in *. destruct (IH n x) as (y' & Y' & P'); auto.
      * apply size_in in Ix. change (1 + (match e with Some x => size x | None => 0 end + 0 + list_sum (map size (h :: t))) <= 1 + k) in S. lia.
      * intros Cx. apply seq_kind, same_kind in Cx. rewrite Hk in Cx by auto. congruence.
      * congruence.
  - (* all-to-all *)
    inversion E as [? Q|? ? Q| | | |? ? W Q|? ? W K Q]; subst; try (simpl in Q; tauto).
    + destruct r as [|h t]; [congruence|]. simpl right. inversion Q as [|? ? Qh Qt]; subst. apply seq_kind in Qh. pose proof Qh as Qh'. apply same_kind in Qh'. rewrite Qh'. simpl same.
      unfold combine_all. rewrite combs_all by auto. eexists. split; [reflexivity|].
      change (prod (flat_map paths l) (flat_map paths (map (fun x => Comb x (Node n)) (h :: t))) = prod (prod (flat_map paths l) (flat_map paths (h :: t))) [[n]]).
      rewrite (paths_r (fun x y => y = Comb x (Node n)) n (h :: t) (map (fun x => Comb x (Node n)) (h :: t))); [rewrite prod_assoc; reflexivity| |apply Forall2_map].
      intros x y -> _. reflexivity.
    + destruct r as [|h t]; [congruence|].
      assert (Hk : Forall (fun x => kindof x = KPipe) (h :: t)) by (eapply Forall_impl; [|exact K]; intros []; simpl; intros; tauto).
      assert (Sx : forall x, In x (h :: t) -> size x <= k).
      { intros x Ix. apply size_in in Ix. change (1 + (list_sum (map size l) + list_sum (map size (h :: t))) <= 1 + k) in S. lia. }
      assert (Nx : forall x, In x (h :: t) -> ~ seq x).
      { rewrite Forall_forall in Hk. intros x Ix C. apply seq_kind, same_kind in C. rewrite Hk in C by auto. congruence. }
      assert (Hh : Forall (fun x => kindof x = KPipe /\ exists y, right k n x = R true y) (h :: t)).
      { rewrite Forall_forall in *. intros x Ix. split; [auto|]. destruct (IH n x) as (y & Y & _); eauto. }
      simpl right. inversion Hk as [|? ? Kh Kt]; subst. rewrite Kh. simpl same.
      destruct (each_all (right k n) KPipe (A2a l) h t Hh) as (l' & EE & F2). rewrite EE. eexists. split; [reflexivity|].
      change (prod (flat_map paths l) (flat_map paths l') = prod (prod (flat_map paths l) (flat_map paths (h :: t))) [[n]]).
      rewrite (paths_r (fun x y => right k n x = R true y) n (h :: t) l'); auto; [rewrite prod_assoc; reflexivity|].
      intros x y Y Ix. rewrite Forall_forall in *. destruct (IH n x) as (y' & Y' & P'); auto. congruence.
Qed.

Lemma left_ok : forall k n b, size b <= k -> starts b -> ~ seq b ->
  exists b', left k n b = R true b' /\ paths b' = prod [[n]] (paths b).
Proof.
  induction k as [|k IH]; intros n b S E N; [destruct b; simpl in S; lia|].
  destruct b as [i|l r|st|e c w|l r]; try (simpl in N; tauto).
  - destruct (starts_flat_n _ (Pipe st) (le_n _) E) as (x & t & F & X). simpl flat in F.
    assert (Ix : In x (flat_map flat st)) by (rewrite F; simpl; auto).
    destruct (flat_no_pipe st x Ix) as (Kx & Sx).
    assert (P0 : along st = prod (paths x) (along t)) by (rewrite <- along_flat, F; reflexivity).
    simpl left. rewrite F. destruct (same (kindof x) KSeq) eqn:Q.
    + eexists. split; [reflexivity|]. change (prod (prod [[n]] (paths x)) (along t) = prod [[n]] (along st)). rewrite P0, prod_assoc. reflexivity.
    + assert (Nx : ~ seq x) by (intros H; apply seq_kind in H; congruence).
      destruct (IH n x) as (y & Y & Py); auto; [lia|]. rewrite Y. simpl wrap. eexists. split; [reflexivity|].
      change (prod (paths y) (along t) = prod [[n]] (along st)). rewrite P0, Py, prod_assoc. reflexivity.
  - destruct e as [e|]; eexists; (split; [reflexivity|]); simpl; [rewrite prod_assoc; reflexivity|]. rewrite prod_1_l. reflexivity.
  - inversion E as [? Q|? ? Q| |? ? W Q|? ? W K Q]; subst; try (simpl in Q; tauto).
    + destruct l as [|h t]; [congruence|]. simpl left. inversion Q as [|? ? Qh Qt]; subst. apply seq_kind in Qh. pose proof Qh as Qh'. apply same_kind in Qh'. rewrite Qh'. simpl same.
      unfold combine_all. rewrite combs_all by auto. eexists. split; [reflexivity|].
      change (prod (flat_map paths (map (Comb (Node n)) (h :: t))) (flat_map paths r) = prod [[n]] (prod (flat_map paths (h :: t)) (flat_map paths r))).
      rewrite (paths_l (fun x y => y = Comb (Node n) x) n (h :: t) (map (Comb (Node n)) (h :: t))); [rewrite prod_assoc; reflexivity| |apply Forall2_map].
      intros x y -> _. reflexivity.
    + destruct l as [|h t]; [congruence|].
      assert (Hk : Forall (fun x => kindof x = KPipe) (h :: t)) by (eapply Forall_impl; [|exact K]; intros []; simpl; intros; tauto).
      assert (Sx : forall x, In x (h :: t) -> size x <= k).
      { intros x Ix. apply size_in in Ix. change (1 + (list_sum (map size (h :: t)) + list_sum (map size r)) <= 1 + k) in S. lia. }
      assert (Nx : forall x, In x (h :: t) -> ~ seq x).
      { rewrite Forall_forall in Hk. intros x Ix C. apply seq_kind, same_kind in C. rewrite Hk in C by auto. congruence. }
      assert (Hh : Forall (fun x => kindof x = KPipe /\ exists y, left k n x = R true y) (h :: t)).
      { rewrite Forall_forall in *. intros x Ix. split; [auto|]. destruct (IH n x) as (y & Y & _); eauto. }
      simpl left. inversion Hk as [|? ? Kh Kt]; subst. rewrite Kh. simpl same.
      destruct (each_all (left k n) KPipe (fun l => A2a l r) h t Hh) as (l' & EE & F2). rewrite EE. eexists. split; [reflexivity|].
      change (prod (flat_map paths l') (flat_map paths r) = prod [[n]] (prod (flat_map paths (h :: t)) (flat_map paths r))).
      rewrite (paths_l (fun x y => left k n x = R true y) n (h :: t) l'); auto; [rewrite prod_assoc; reflexivity|].
      intros x y Y Ix. rewrite Forall_forall in *. destruct (IH n x) as (y' & Y' & P'); auto. congruence.
Qed.

(** A refused call changes no path. *)
Lemma each_refused : forall f k mk h t b', each f k mk h t = R false b' -> exists x, f h = R false x /\ b' = mk (x :: t).
Proof.
  intros f k mk h t b' E. unfold each in E. destruct (f h) as [|[] x]; try discriminate; [destruct (rest f k t); discriminate|].
  injection E as <-. eauto.
Qed.
Lemma combs_not : forall f mk l b', combine_all f mk l <> R false b'.
Proof. intros. unfold combine_all. destruct (combs f l); discriminate. Qed.
Lemma right_refused : forall k n b b', right k n b = R false b' -> paths b' = paths b.
Proof.
  induction k as [|k IH]; intros n b b' E; [discriminate|]. destruct b as [i|l r|st|e c w|l r]; try discriminate.
  - simpl right in E. change (paths (Pipe st)) with (along st). rewrite <- along_flat.
    destruct (rev (flat_map flat st)) as [|x ini] eqn:F.
    + injection E as <-. reflexivity.
    + destruct (same (kindof x) KSeq); [discriminate|]. destruct (right k n x) as [|ok y] eqn:Y; [discriminate|]. simpl in E. injection E as -> <-.
      apply IH in Y. apply (f_equal (@rev bb)) in F. rewrite rev_involutive in F. rewrite F. simpl rev.
      change (along (rev ini ++ [y]) = along (rev ini ++ [x])). rewrite !along_app, !along_1, Y. reflexivity.
  - destruct c as [[c|]|]; simpl right in E; [discriminate|injection E as <-; reflexivity|].
    destruct w as [|h t]; [discriminate|]. destruct (same (kindof h) KSeq); [exfalso; eapply combs_not; eauto|].
    apply each_refused in E. destruct E as (x & X & ->). apply IH in X. simpl. rewrite X. reflexivity.
  - simpl right in E. destruct r as [|h t]; [discriminate|]. destruct (same (kindof h) KPipe); [|exfalso; eapply combs_not; eauto].
    apply each_refused in E. destruct E as (x & X & ->). apply IH in X. simpl. rewrite X. reflexivity.
Qed.
Lemma left_refused : forall k n b b', left k n b = R false b' -> paths b' = paths b.
Proof.
  induction k as [|k IH]; intros n b b' E; [discriminate|]. destruct b as [i|l r|st|e c w|l r]; try discriminate.
  - simpl left in E. change (paths (Pipe st)) with (along st). rewrite <- along_flat. destruct (flat_map flat st) as [|x t].
    + injection E as <-. reflexivity.
    + destruct (same (kindof x) KSeq); [discriminate|]. destruct (left k n x) as [|ok y] eqn:Y; [discriminate|]. simpl in E. injection E as -> <-.
      apply IH in Y. change (prod (paths y) (along t) = prod (paths x) (along t)). rewrite Y. reflexivity.
  - destruct e; discriminate.
  - simpl left in E. destruct l as [|h t]; [discriminate|]. destruct (same (kindof h) KPipe); [|exfalso; eapply combs_not; eauto].
    apply each_refused in E. destruct E as (x & X & ->). apply IH in X. simpl. rewrite X. reflexivity.
Qed.
