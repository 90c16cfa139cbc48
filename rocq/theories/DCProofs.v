(** Divide and conquer: the sequential recursion, and the invariant. *)
From Coq Require Import List Arith Bool Lia Permutation.
From Verif Require Import Base DCModel DCSpec.
Import ListNotations.

(** ** The sequential recursion *)
Section SpecFacts.
Context {Op Res : Type}.
Variable cond : Op -> bool.
Variable divide : Op -> list Op.
Variable seqf : Op -> Res.
Variable combine : list Res -> Res.
Notation solve := (solve cond divide seqf combine).
Notation solves := (solves cond divide seqf combine).

Lemma all_some_iff : forall A (l : list (option A)) v,
  all_some l = Some v <-> l = map Some v.
Proof.
  induction l as [|[x|] l IH]; intros v; simpl.
  - split; [intros E; injection E as <-; auto | destruct v; [auto | discriminate]].
  - destruct (all_some l) as [y|] eqn:E.
    + split.
      * intros E'; injection E' as <-. simpl. f_equal. now apply IH.
      * destruct v as [|z v]; simpl; intros E'; [discriminate|]. injection E' as -> E'.
        apply IH in E'. congruence.
    + split; [discriminate|]. destruct v as [|z v]; simpl; intros E'; [discriminate|].
      injection E' as -> E'. apply IH in E'. congruence.
  - split; [discriminate | destruct v; simpl; discriminate].
Qed.

Lemma solve_S : forall m op, solve (S m) op =
  if cond op then Some (seqf op)
  else match divide op with [] => None | o :: l => option_map combine (all_some (map (solve m) (o :: l))) end.
Proof. reflexivity. Qed.

Lemma solve_mono : forall n op v, solve n op = Some v -> forall m, n <= m -> solve m op = Some v.
Proof.
  induction n as [|n IH]; intros op v E m Hm; [discriminate|].
  destruct m as [|m]; [lia|]. rewrite solve_S in *. destruct (cond op); auto.
  destruct (divide op) as [|o l]; [discriminate|].
  destruct (all_some (map (solve n) (o :: l))) as [x|] eqn:E1; [|discriminate].
  apply all_some_iff in E1.
  assert (E2 : map (solve m) (o :: l) = map Some x).
  { rewrite <- E1. apply map_ext_in. intros a Ha.
    assert (In (solve n a) (map Some x)) as I by (rewrite <- E1; now apply in_map).
    apply in_map_iff in I as (y & E3 & _). rewrite <- E3. apply IH; [auto | lia]. }
  rewrite (proj2 (all_some_iff _ _ _) E2). exact E.
Qed.

Lemma solves_det : forall op v w, solves op v -> solves op w -> v = w.
Proof.
  intros op v w (n & E) (m & F).
  apply solve_mono with (m := n + m) in E; [|lia]. apply solve_mono with (m := n + m) in F; [|lia].
  congruence.
Qed.

Lemma solves_base : forall op, cond op = true -> solves op (seqf op).
Proof. intros op H. exists 1. simpl. now rewrite H. Qed.

Lemma solves_common : forall l vs, Forall2 solves l vs ->
  exists n, map (solve n) l = map Some vs.
Proof.
  induction 1 as [|x y l vs (n & E) F (m & G)]; [exists 0; auto|].
  exists (n + m). simpl. f_equal.
  - eapply solve_mono; eauto; lia.
  - rewrite <- G. apply map_ext_in. intros a Ha.
    assert (In (solve m a) (map Some vs)) as I by (rewrite <- G; now apply in_map).
    apply in_map_iff in I as (z & E3 & _). rewrite <- E3. eapply solve_mono; eauto; lia.
Qed.

Lemma solves_step : forall op vs, cond op = false -> divide op <> [] ->
  Forall2 solves (divide op) vs -> solves op (combine vs).
Proof.
  intros op vs H N F. destruct (solves_common _ _ F) as (n & E). exists (S n). rewrite solve_S, H. destruct (divide op) as [|o l]; [congruence|].
  rewrite (proj2 (all_some_iff _ _ _) E). reflexivity.
Qed.

Lemma solve_sub : forall n op v, solve n op = Some v -> cond op = false ->
  divide op <> [] /\
  (forall o, In o (divide op) -> exists m w, m < n /\ solve m o = Some w).
Proof.
  intros [|n] op v E H; [discriminate|]. rewrite solve_S, H in E.
  destruct (divide op) as [|o l]; [discriminate|]. split; [congruence|].
  destruct (all_some (map (solve n) (o :: l))) as [x|] eqn:E1; [|discriminate].
  apply all_some_iff in E1. intros a Ha.
  assert (In (solve n a) (map Some x)) as I by (rewrite <- E1; now apply in_map).
  apply in_map_iff in I as (z & E3 & _). exists n, z. split; [lia | auto].
Qed.
End SpecFacts.

(** ** Streams of events *)
Definition evk (e : ev) : option kind :=
  match e with
  | Snd k => Some k
  | Cal b i => Some (KDac b i)
  | Cmb b n r => Some (KComb b n r)
  | Don _ => None
  end.

Definition lab_out (k : kind) : list nat := [kout k].
Definition lab_base (k : kind) : list nat := match k with KComb b _ _ => [b] | KDac _ _ => [] end.
Definition lab1 (lab : kind -> list nat) (e : ev) : list nat :=
  match evk e with Some k => lab k | None => [] end.
Definition labs (lab : kind -> list nat) (l : list ev) : list nat := flat_map (lab1 lab) l.
Definition outs := labs lab_out.

Definition don1 (e : ev) : list nat := match e with Don t => [t] | _ => [] end.
Definition dons (l : list ev) : list nat := flat_map don1 l.

Lemma labs_app : forall lab a b, labs lab (a ++ b) = labs lab a ++ labs lab b.
Proof. intros. apply flat_map_app. Qed.
Lemma dons_app : forall a b, dons (a ++ b) = dons a ++ dons b.
Proof. intros. apply flat_map_app. Qed.
Lemma labs_cons : forall lab e l, labs lab (e :: l) = lab1 lab e ++ labs lab l.
Proof. reflexivity. Qed.
Lemma dons_cons : forall e l, dons (e :: l) = don1 e ++ dons l.
Proof. reflexivity. Qed.

Lemma in_dons : forall t l, In t (dons l) <-> In (Don t) l.
Proof.
  intros. unfold dons. rewrite in_flat_map. split.
  - intros (e & I & J). destruct e; simpl in J; try tauto. destruct J as [->|[]]. auto.
  - intros I. exists (Don t). simpl. auto.
Qed.
Lemma in_labs : forall lab x l, In x (labs lab l) <-> exists e k, In e l /\ evk e = Some k /\ In x (lab k).
Proof.
  intros. unfold labs. rewrite in_flat_map. unfold lab1. split.
  - intros (e & I & J). destruct (evk e) eqn:E; [|destruct J]. eauto 6.
  - intros (e & k & I & E & J). exists e. rewrite E. auto.
Qed.

(** [pre S t a]: an event with output [a] comes before the end of task [t]. *)
Fixpoint pre (l : list ev) (t a : nat) : Prop :=
  match l with
  | [] => False
  | e :: r => (In a (lab1 lab_out e) /\ In t (dons r)) \/ pre r t a
  end.

Lemma pre_app : forall l m t a,
  pre (l ++ m) t a <-> pre l t a \/ (In a (outs l) /\ In t (dons m)) \/ pre m t a.
Proof.
  induction l as [|e l IH]; simpl; intros m t a; [tauto|].
  rewrite IH, dons_app, in_app_iff. change (outs (e :: l)) with (lab1 lab_out e ++ outs l).
  rewrite in_app_iff. tauto.
Qed.
Lemma pre_don : forall l t a, pre l t a -> In t (dons l) /\ In a (outs l).
Proof.
  induction l as [|e l IH]; simpl; intros t a; [tauto|].
  change (outs (e :: l)) with (lab1 lab_out e ++ outs l). change (dons (e :: l)) with (don1 e ++ dons l).
  rewrite !in_app_iff. intros [[H H']|H]; [tauto|]. apply IH in H. tauto.
Qed.

(** Every combine message is preceded by the holders of its inputs, or they satisfy [Q]. *)
Fixpoint wfs (Q : nat -> Prop) (P : list nat) (l : list ev) : Prop :=
  match l with
  | [] => True
  | e :: r =>
    match e with
    | Snd (KComb b n _) => forall d, b <= d < b + n -> In d P \/ Q d
    | _ => True
    end /\ wfs Q (P ++ lab1 lab_out e) r
  end.

Lemma wfs_app : forall Q l m P, wfs Q P (l ++ m) <-> wfs Q P l /\ wfs Q (P ++ outs l) m.
Proof.
  induction l as [|e l IH]; simpl; intros m P.
  - unfold outs; simpl. rewrite app_nil_r. tauto.
  - rewrite IH. change (outs (e :: l)) with (lab1 lab_out e ++ outs l). rewrite app_assoc. tauto.
Qed.

Lemma wfs_mono : forall (Q Q' : nat -> Prop) l P P',
  (forall b n r d, In (Snd (KComb b n r)) l -> b <= d < b + n -> In d P -> In d P' \/ Q' d) ->
  (forall b n r d, In (Snd (KComb b n r)) l -> b <= d < b + n -> Q d -> Q' d) ->
  wfs Q P l -> wfs Q' P' l.
Proof.
  induction l as [|e l IH]; simpl; intros P P' HP HQ W; auto.
  destruct W as [W1 W2]. split.
  - destruct e as [[|b n r]| | |]; auto. intros d Hd.
    destruct (W1 d Hd) as [I|I]; [eapply HP; eauto | right; eapply HQ; eauto].
  - apply IH with (P := P ++ lab1 lab_out e); auto.
    + intros b n r d I Hd J. apply in_app_iff in J as [J|J].
      * destruct (HP b n r d (or_intror I) Hd J); [left; apply in_app_iff; auto | auto].
      * left; apply in_app_iff; auto.
    + intros b n r d I Hd J. eapply HQ; eauto.
Qed.

Definition fresh (SS : nat -> list ev) (t : nat) : Prop := forall j, ~ In t (dons (SS j)).

(** ** Uniqueness of labels *)
Record uniq (lab : kind -> list nat) (SS : nat -> list ev) (tk : nat -> option task) : Prop := {
  u_nd : forall j, NoDup (labs lab (SS j));
  u_st : forall j j' x, In x (labs lab (SS j)) -> In x (labs lab (SS j')) -> j = j';
  u_tk : forall t v x j, tk t = Some v -> fresh SS t -> In x (lab (kd v)) -> ~ In x (labs lab (SS j));
  u_tt : forall t v t' v' x, tk t = Some v -> fresh SS t -> tk t' = Some v' -> fresh SS t' ->
         In x (lab (kd v)) -> In x (lab (kd v')) -> t = t' }.

Lemma uniq_repl : forall lab SS tk SS' tk' j,
  uniq lab SS tk ->
  (forall j', j' <> j -> SS' j' = SS j') ->
  NoDup (labs lab (SS' j)) ->
  (forall x, In x (labs lab (SS' j)) -> In x (labs lab (SS j)) \/
     ((forall j', ~ In x (labs lab (SS j'))) /\
      forall t v, tk t = Some v -> fresh SS t -> ~ In x (lab (kd v)))) ->
  (forall t v', tk' t = Some v' -> fresh SS' t -> exists v, tk t = Some v /\ kd v = kd v' /\ fresh SS t) ->
  uniq lab SS' tk'.
Proof.
  intros lab SS tk SS' tk' j [A B C D] E N X F. split.
  - intros j'. destruct (Nat.eq_dec j' j) as [->|Hj]; [auto | rewrite E; auto].
  - intros j1 j2 x I1 I2.
    destruct (Nat.eq_dec j1 j) as [->|H1], (Nat.eq_dec j2 j) as [->|H2]; auto.
    + rewrite E in I2 by auto. destruct (X _ I1) as [I|[I _]]; [eapply B; eauto | destruct (I _ I2)].
    + rewrite E in I1 by auto. destruct (X _ I2) as [I|[I _]]; [eapply B; eauto | destruct (I _ I1)].
    + rewrite E in I1, I2 by auto. eapply B; eauto.
  - intros t v x j' Ht Hf Hx I. destruct (F _ _ Ht Hf) as (w & Hw & Ek & Hf'). rewrite <- Ek in Hx.
    destruct (Nat.eq_dec j' j) as [->|Hj].
    + destruct (X _ I) as [J|[_ J]]; [eapply C; eauto | eapply J; eauto].
    + rewrite E in I by auto. eapply C; eauto.
  - intros t v t' v' x Ht Hf Ht' Hf' Hx Hx'.
    destruct (F _ _ Ht Hf) as (w & Hw & Ek & Hf1), (F _ _ Ht' Hf') as (w' & Hw' & Ek' & Hf2).
    rewrite <- Ek in Hx. rewrite <- Ek' in Hx'. eapply D; eauto.
Qed.

(** The head of a stream becomes a task. *)
Lemma uniq_insert : forall lab SS tk SS' tk' j k act w,
  uniq lab SS tk ->
  SS j = Snd k :: SS' j ->
  (forall j', j' <> j -> SS' j' = SS j') ->
  tk' act = Some w -> kd w = k ->
  (forall t v', t <> act -> tk' t = Some v' -> exists v, tk t = Some v /\ kd v = kd v') ->
  uniq lab SS' tk'.
Proof.
  intros lab SS tk SS' tk' j k act w [A B C D] Ej E Ha Hk F.
  assert (Fr : forall t, fresh SS' t -> fresh SS t).
  { intros t H j' I. destruct (Nat.eq_dec j' j) as [->|Hj].
    - rewrite Ej in I. simpl in I. destruct (H j I).
    - apply (H j'). rewrite E; auto. }
  assert (Ls : labs lab (SS j) = lab k ++ labs lab (SS' j)) by (rewrite Ej; reflexivity).
  assert (Sub : forall j' x, In x (labs lab (SS' j')) -> In x (labs lab (SS j'))).
  { intros j' x I. destruct (Nat.eq_dec j' j) as [->|Hj].
    - rewrite Ls. apply in_app_iff; auto.
    - rewrite E in I; auto. }
  assert (Out : forall x j', In x (lab k) -> ~ In x (labs lab (SS' j'))).
  { intros x j' I J. destruct (Nat.eq_dec j' j) as [->|Hj].
    - pose proof (A j) as N. rewrite Ls in N. clear - N I J. induction (lab k) as [|y l IH]; simpl in *; auto.
      inversion N; subst. destruct I as [->|I]; auto. apply H1. apply in_app_iff; auto.
    - rewrite E in J by auto. apply Hj. eapply B; [exact J|]. rewrite Ls. apply in_app_iff; auto. }
  split.
  - intros j'. destruct (Nat.eq_dec j' j) as [->|Hj].
    + pose proof (A j) as N. rewrite Ls in N. clear - N. induction (lab k); simpl in *; auto.
      inversion N; auto.
    + rewrite E; auto.
  - intros. eapply B; eauto.
  - intros t v x j' Ht Hf Hx. destruct (Nat.eq_dec t act) as [->|Na].
    + rewrite Ha in Ht. injection Ht as <-. rewrite Hk in Hx. auto.
    + destruct (F _ _ Na Ht) as (v0 & H0 & E0). rewrite <- E0 in Hx. intros I. eapply C; eauto.
  - intros t v t' v' x Ht Hf Ht' Hf' Hx Hx'.
    destruct (Nat.eq_dec t act) as [->|Na], (Nat.eq_dec t' act) as [->|Na']; auto.
    + exfalso. rewrite Ha in Ht. injection Ht as <-. rewrite Hk in Hx.
      destruct (F _ _ Na' Ht') as (v0 & H0 & E0). rewrite <- E0 in Hx'.
      eapply (C _ _ x j H0); eauto. rewrite Ls. apply in_app_iff; auto.
    + exfalso. rewrite Ha in Ht'. injection Ht' as <-. rewrite Hk in Hx'.
      destruct (F _ _ Na Ht) as (v0 & H0 & E0). rewrite <- E0 in Hx.
      eapply (C _ _ x j H0); eauto. rewrite Ls. apply in_app_iff; auto.
    + destruct (F _ _ Na Ht) as (v0 & H0 & E0), (F _ _ Na' Ht') as (v1 & H1 & E1).
      rewrite <- E0 in Hx. rewrite <- E1 in Hx'. eapply (D t v0 t' v1); eauto.
Qed.

(** A task is started. *)
Lemma uniq_start : forall lab SS tk SS' j t v e,
  uniq lab SS tk ->
  SS' j = SS j ++ [e; Don t] ->
  (forall j', j' <> j -> SS' j' = SS j') ->
  tk t = Some v -> fresh SS t -> evk e = Some (kd v) -> NoDup (lab (kd v)) ->
  uniq lab SS' tk.
Proof.
  intros lab SS tk SS' j t v e [A B C D] Ej E Ht Hft Ek Nk.
  assert (Fr : forall t', fresh SS' t' -> fresh SS t' /\ t' <> t).
  { intros t' H. split.
    - intros j' I. destruct (Nat.eq_dec j' j) as [->|Hj].
      + apply (H j). rewrite Ej, dons_app. apply in_app_iff; auto.
      + apply (H j'). rewrite E; auto.
    - intros ->. apply (H j). rewrite Ej, dons_app. apply in_app_iff. right.
      unfold dons; simpl. apply in_app_iff. right; left; auto. }
  assert (Ls : labs lab (SS' j) = labs lab (SS j) ++ lab (kd v)).
  { rewrite Ej, labs_app. f_equal. unfold labs, lab1. simpl. rewrite Ek. rewrite app_nil_r. auto. }
  assert (Sub : forall j' x, In x (labs lab (SS' j')) -> In x (labs lab (SS j')) \/ (j' = j /\ In x (lab (kd v)))).
  { intros j' x I. destruct (Nat.eq_dec j' j) as [->|Hj].
    - rewrite Ls in I. apply in_app_iff in I as [I|I]; auto.
    - rewrite E in I; auto. }
  split.
  - intros j'. destruct (Nat.eq_dec j' j) as [->|Hj]; [|rewrite E; auto].
    rewrite Ls. pose proof (C t v) as Cx. specialize (A j).
    assert (forall x, In x (lab (kd v)) -> ~ In x (labs lab (SS j))) as Cx' by eauto.
    clear - A Nk Cx'. induction (lab (kd v)) as [|x l IH]; [rewrite app_nil_r; auto|].
    apply NoDup_Add with (a := x) (l := labs lab (SS j) ++ l); [apply Add_app|].
    inversion Nk; subst. split; [apply IH; auto; intros y I; apply Cx'; right; auto|].
    rewrite in_app_iff. intros [I|I]; auto. apply (Cx' x); [left; auto | auto].
  - intros j1 j2 x I1 I2. apply Sub in I1, I2.
    destruct I1 as [I1|[-> I1]], I2 as [I2|[-> I2]]; eauto; exfalso; eapply C; eauto.
  - intros t' v' x j' Ht' Hf Hx I. destruct (Fr _ Hf) as [Hf' Hn].
    apply Sub in I as [I|[-> I]]; [eapply C; eauto|]. apply Hn. eapply D; eauto.
  - intros t1 v1 t2 v2 x H1 F1 H2 F2 X1 X2. eapply (D t1 v1 t2 v2); eauto; eapply Fr; eauto.
Qed.
