From Coq Require Import Ascii String DecimalString Decimal DecimalNat Arith Bool Lia List.
From Verif Require Import FlgModel FlgSpec.
Import ListNotations.
Open Scope list_scope.

Lemma prefix_spec : forall p l, prefix p l = true <-> exists r, l = p ++ r.
Proof.
  induction p as [|x p IH]; intros l; simpl; [split; eauto|]. destruct l as [|y l].
  - split; [discriminate|]. intros (r & E). discriminate.
  - rewrite andb_true_iff, Ascii.eqb_eq, IH. split.
    + intros (-> & r & ->). eauto.
    + intros (r & E). injection E as -> ->. eauto.
Qed.
Lemma has_spec : forall c l, has c l = true <-> In c l.
Proof.
  intros c l. unfold has. rewrite existsb_exists. split.
  - intros (y & I & E). apply Ascii.eqb_eq in E. subst. auto.
  - intros I. exists c. split; auto. apply Ascii.eqb_refl.
Qed.
Lemma has_out : forall c l, ~ In c l -> has c l = false.
Proof. intros c l N. destruct (has c l) eqn:E; auto. apply has_spec in E. tauto. Qed.

(** Decimal digits. *)
Lemma uint_digits : forall (u : uint) c, In c (list_ascii_of_string (NilEmpty.string_of_uint u)) -> In c (list_ascii_of_string "0123456789").
Proof. induction u; simpl; intros c I; try tauto; destruct I as [<-|I]; auto; try tauto; apply IHu in I; simpl in I; tauto. Qed.
Lemma dec_digits : forall n c, In c (dec n) -> In c (list_ascii_of_string "0123456789").
Proof. intros n c. apply uint_digits. Qed.
Lemma dec_not : forall c n, ~ In c (list_ascii_of_string "0123456789") -> ~ In c (dec n).
Proof. intros c n N I. apply N. eapply dec_digits; eauto. Qed.

(** Where kernel_k can start. *)
Definition never (p a b : text) : Prop := forall u v, a = u ++ v -> v <> [] -> prefix p (v ++ b) = false.
Lemma rfind_skip : forall p a b, never p a b -> rfind p b <> None \/ prefix p b = false \/ a = [] \/ True -> rfind p (a ++ b) = rfind p b.
Proof.
  intros p a b. induction a as [|x a IH]; intros N _; auto.
  change ((x :: a) ++ b) with (x :: (a ++ b)). simpl rfind. rewrite IH; [|intros u v E; apply (N (x :: u) v); simpl; congruence|auto].
  destruct (rfind p b); auto. pose proof (N [] (x :: a) eq_refl ltac:(discriminate)) as Q. simpl app in Q. rewrite Q. reflexivity.
Qed.
Lemma rfind_none : forall p a, p <> [] -> never p a [] -> rfind p a = None.
Proof. intros p a E N. rewrite <- (app_nil_r a), rfind_skip by auto. simpl. destruct p; [congruence|reflexivity]. Qed.

Lemma kid_no : forall q d a b, ~ In dollar q -> ~ In "_"%char a -> (b = [] \/ exists r, b = dollar :: r) -> prefix (q ++ "_"%char :: d) (a ++ b) = false.
Proof.
  intros q d a b Q A B. revert q Q. induction a as [|x a IH]; intros q Q; simpl.
  - destruct B as [->|(r & ->)]; destruct q as [|y q]; simpl; auto. destruct (Ascii.eqb_spec y dollar) as [->|]; auto. simpl in Q. tauto.
  - destruct q as [|y q]; simpl app; cbn [prefix].
    + destruct (Ascii.eqb_spec "_"%char x) as [<-|]; auto. simpl in A. tauto.
    + rewrite IH; [apply andb_false_r| |]; simpl in *; tauto.
Qed.
Lemma kid_never : forall k a b, ~ In "_"%char a -> (b = [] \/ exists r, b = dollar :: r) -> never (kid k) a b.
Proof.
  intros k a b A B u v E _. unfold kid. change kernel with (list_ascii_of_string "kernel" ++ ["_"%char]). rewrite <- app_assoc.
  apply kid_no; auto.
  - simpl. intros I. repeat (destruct I as [I|I]; [discriminate I|]). exact I.
  - intros I. apply A. subst a. apply in_or_app. auto.
Qed.
Lemma kid_never_k : forall k a b, ~ In "k"%char a -> never (kid k) a b.
Proof.
  intros k a b A u v E N. destruct v as [|x v]; [congruence|]. change (kid k) with ("k"%char :: (list_ascii_of_string "ernel_" ++ dec k)).
  simpl app. cbn [prefix]. destruct (Ascii.eqb_spec "k"%char x) as [<-|]; auto. exfalso. apply A. subst a. apply in_or_app. simpl. auto.
Qed.

Lemma prefix_stop : forall p a c b, ~ In c p -> prefix p (a ++ c :: b) = prefix p a.
Proof.
  induction p as [|x p IH]; intros a c b N; auto. destruct a as [|y a]; simpl.
  - destruct (Ascii.eqb_spec x c) as [->|]; auto. simpl in N. tauto.
  - rewrite IH; auto. simpl in N. tauto.
Qed.
Lemma prefix_same : forall q p l, prefix (q ++ p) (q ++ l) = prefix p l.
Proof. induction q as [|x q IH]; intros; simpl; auto. rewrite Ascii.eqb_refl. apply IH. Qed.

Definition body (e : entry) : text := concat (map (fun a => a ++ [semicolon]) (args e)).
Definition chunk (e : entry) : text := kernel ++ dec (num e) ++ [semicolon] ++ dev e ++ [semicolon] ++ body e.
Lemma entry_chunk : forall e, entry_text e = dollar :: chunk e.
Proof. reflexivity. Qed.
Lemma body_not : forall c e, wf_entry e -> (c = "_"%char \/ c = dollar) -> ~ In c (body e).
Proof.
  intros c e (_ & F & _) C I. unfold body in I. apply in_concat in I. destruct I as (l & I & J). apply in_map_iff in I. destruct I as (a & <- & I).
  rewrite Forall_forall in F. destruct (F a I) as (A & B & D). apply in_app_or in J. simpl in J.
  destruct C as [->| ->]; destruct J as [J|[J|J]]; try tauto; discriminate J.
Qed.

Lemma rfind_cons : forall p x l, rfind p (x :: l) = match rfind p l with Some s => Some s | None => if prefix p (x :: l) then Some (x :: l) else None end.
Proof. reflexivity. Qed.
Lemma rfind_entry : forall k e r, wf_entry e ->
  rfind (kid k) (entry_text e ++ dollar :: r) =
  match rfind (kid k) (dollar :: r) with
  | Some s => Some s
  | None => if prefix (dec k) (dec (num e)) then Some (chunk e ++ dollar :: r) else None
  end.
Proof.
  intros k e r W. rewrite entry_chunk.
  change ((dollar :: chunk e) ++ dollar :: r) with ([dollar] ++ (chunk e ++ dollar :: r)).
  rewrite rfind_skip; [|apply kid_never_k; simpl; intros [I|I]; [discriminate I|exact I]|auto].
  assert (R : rfind (kid k) (list_ascii_of_string "ernel_" ++ (dec (num e) ++ [semicolon]) ++ ((dev e ++ [semicolon] ++ body e) ++ dollar :: r)) = rfind (kid k) (dollar :: r)).
  { rewrite rfind_skip; [|apply kid_never_k|auto].
    2:{ simpl. intros I. repeat (destruct I as [I|I]; [discriminate I|]). exact I. }
    rewrite rfind_skip; [|apply kid_never_k|auto].
    2:{ rewrite in_app_iff. simpl. intros [I|[I|I]]; [|discriminate I|exact I]. revert I. apply dec_not. simpl. intros I.
        repeat (destruct I as [I|I]; [discriminate I|]). exact I. }
    rewrite rfind_skip; [reflexivity|apply kid_never; eauto|auto].
    rewrite !in_app_iff. simpl. intros [I|[[I|I]|I]]; [|discriminate I|exact I|].
    - destruct W as ((A & _) & _). tauto.
    - revert I. apply body_not; auto. }
  assert (E : chunk e ++ dollar :: r = "k"%char :: (list_ascii_of_string "ernel_" ++ (dec (num e) ++ [semicolon]) ++ ((dev e ++ [semicolon] ++ body e) ++ dollar :: r))).
  { unfold chunk. change kernel with ("k"%char :: list_ascii_of_string "ernel_"). rewrite <- !app_assoc. reflexivity. }
  rewrite E at 1. rewrite rfind_cons, R. destruct (rfind (kid k) (dollar :: r)); auto.
  rewrite <- E. unfold kid, chunk at 1. rewrite <- app_assoc, prefix_same. rewrite <- app_assoc. simpl app. rewrite prefix_stop; auto.
  apply dec_not. simpl. intros I. repeat (destruct I as [I|I]; [discriminate I|]). exact I.
Qed.

Local Arguments entry_text : simpl never.
Local Arguments chunk : simpl never.
Lemma begins_prefix : forall k j, prefix (dec k) (dec j) = true <-> begins k j.
Proof. intros. apply prefix_spec. Qed.
Lemma concat_dollar : forall es t, exists r, concat (map entry_text es) ++ dollar :: t = dollar :: r.
Proof. intros [|e es] t; simpl; eauto. Qed.

Lemma rfind_none_es : forall k es t, Forall wf_entry es -> ~ In "_"%char t -> Forall (fun e => ~ begins k (num e)) es ->
  rfind (kid k) (concat (map entry_text es) ++ dollar :: t) = None.
Proof.
  intros k es t W T. induction es as [|e es IH]; intros N.
  - simpl concat. simpl app. apply rfind_none; [discriminate|]. apply kid_never; auto. simpl. intros [I|I]; [discriminate I|tauto].
  - inversion W as [|? ? We Wes]; subst. inversion N as [|? ? Ne Nes]; subst. cbn [map concat]. rewrite <- app_assoc.
    destruct (concat_dollar es t) as (r & E). specialize (IH Wes Nes). rewrite E in IH |- *. rewrite rfind_entry, IH by auto.
    destruct (prefix (dec k) (dec (num e))) eqn:P; auto. apply begins_prefix in P. tauto.
Qed.
Lemma rfind_es : forall k a e c t, Forall wf_entry (a ++ e :: c) -> ~ In "_"%char t -> begins k (num e) -> Forall (fun e => ~ begins k (num e)) c ->
  rfind (kid k) (concat (map entry_text (a ++ e :: c)) ++ dollar :: t) = Some (chunk e ++ concat (map entry_text c) ++ dollar :: t).
Proof.
  intros k a e c t W T B N. induction a as [|x a IH].
  - change ([] ++ e :: c) with (e :: c) in *. inversion W as [|? ? We Wes]; subst. cbn [map concat]. rewrite <- app_assoc.
    pose proof (rfind_none_es k c t Wes T N) as R. destruct (concat_dollar c t) as (r & E). rewrite E in R |- *. rewrite rfind_entry, R by auto.
    apply begins_prefix in B. rewrite B. reflexivity.
  - inversion W as [|? ? We Wes]; subst. change ((x :: a) ++ e :: c) with (x :: (a ++ e :: c)). cbn [map concat]. rewrite <- app_assoc. specialize (IH Wes).
    destruct (concat_dollar (a ++ e :: c) t) as (r & E). rewrite E in IH |- *. rewrite rfind_entry, IH by auto. reflexivity.
Qed.

(** Reading an entry. *)
Lemma find_skip : forall c a b, ~ In c a -> find c (a ++ c :: b) = Some (c :: b).
Proof.
  induction a as [|x a IH]; intros b N; simpl; [rewrite Ascii.eqb_refl; reflexivity|].
  destruct (Ascii.eqb_spec x c) as [->|]; [simpl in N; tauto|]. apply IH. simpl in N. tauto.
Qed.
Lemma before_skip : forall c a b, ~ In c a -> before c (a ++ c :: b) = a.
Proof.
  induction a as [|x a IH]; intros b N; simpl; [rewrite Ascii.eqb_refl; reflexivity|].
  destruct (Ascii.eqb_spec x c) as [->|]; [simpl in N; tauto|]. rewrite IH; auto. simpl in N. tauto.
Qed.
Lemma fields_one : forall a r acc, ~ In semicolon a -> fields (a ++ semicolon :: r) acc = decode (rev acc ++ a) :: fields r [].
Proof.
  induction a as [|x a IH]; intros r acc N; cbn [app fields].
  - rewrite Ascii.eqb_refl, app_nil_r. reflexivity.
  - destruct (Ascii.eqb_spec x semicolon) as [->|]; [simpl in N; tauto|]. rewrite IH by (simpl in N; tauto). cbn [rev]. rewrite <- app_assoc. reflexivity.
Qed.
Lemma fields_all : forall l, Forall plain l -> fields (concat (map (fun a => a ++ [semicolon]) l)) [] = map decode l.
Proof.
  induction 1 as [|a l (A & B & C) F IH]; auto. cbn [map concat]. rewrite <- app_assoc. change ([semicolon] ++ ?x) with (semicolon :: x).
  simpl app. rewrite fields_one by auto. rewrite IH. reflexivity.
Qed.
Lemma head_not : forall e, ~ In semicolon (kernel ++ dec (num e)).
Proof.
  intros e. rewrite in_app_iff. intros [I|I].
  - simpl in I. repeat (destruct I as [I|I]; [discriminate I|]). exact I.
  - revert I. apply dec_not. simpl. intros I. repeat (destruct I as [I|I]; [discriminate I|]). exact I.
Qed.
Lemma chunk_eq : forall e r, chunk e ++ r = (kernel ++ dec (num e)) ++ semicolon :: (dev e ++ semicolon :: (body e ++ r)).
Proof. intros. unfold chunk. rewrite <- !app_assoc. reflexivity. Qed.

Lemma command_cons : forall pre es tail, exists x r, command pre es tail = x :: r.
Proof. intros [|x pre] es tail; unfold command; simpl; eauto. apply (concat_dollar es tail) || (destruct (concat_dollar es tail) as (r & E); simpl in E; rewrite E; eauto). Qed.
Lemma rfind_pre : forall k pre es tail, ~ In "_"%char pre -> rfind (kid k) (command pre es tail) = rfind (kid k) (concat (map entry_text es) ++ dollar :: tail).
Proof. intros. unfold command. simpl app. apply rfind_skip; auto. apply kid_never; auto. right. apply concat_dollar. Qed.

Lemma extract_last : forall k pre a e c tail, wf pre (a ++ e :: c) tail -> begins k (num e) -> Forall (fun e => ~ begins k (num e)) c ->
  extractFlags (command pre (a ++ e :: c) tail) k = Some (map decode (args e)).
Proof.
  intros k pre a e c tail (P & T & W) B N. unfold extractFlags. destruct (command_cons pre (a ++ e :: c) tail) as (x & r & E). rewrite E, <- E.
  rewrite rfind_pre, rfind_es by auto. rewrite chunk_eq, find_skip by apply head_not. cbn [tl].
  assert (We : wf_entry e) by (rewrite Forall_forall in W; apply W; apply in_or_app; simpl; auto).
  pose proof We as ((D1 & D2 & D3) & F & A). rewrite find_skip by auto. cbn [tl].
  destruct (concat_dollar c tail) as (q & Q). rewrite Q. assert (Bd : ~ In dollar (body e)) by (apply body_not; auto).
  rewrite find_skip, before_skip by auto.
  assert (H : has semicolon (body e) = true).
  { apply has_spec. unfold body. destruct (args e) as [|y l]; [congruence|]. simpl. rewrite !in_app_iff. simpl. auto. }
  rewrite H. unfold body. rewrite fields_all by auto. reflexivity.
Qed.
Lemma device_last : forall k pre a e c tail, wf pre (a ++ e :: c) tail -> begins k (num e) -> Forall (fun e => ~ begins k (num e)) c ->
  getDevice (command pre (a ++ e :: c) tail) k = Some (dev e).
Proof.
  intros k pre a e c tail (P & T & W) B N. unfold getDevice.
  rewrite rfind_pre, rfind_es by auto. rewrite chunk_eq, find_skip by apply head_not. cbn [tl].
  assert (We : wf_entry e) by (rewrite Forall_forall in W; apply W; apply in_or_app; simpl; auto).
  destruct We as ((D1 & D2 & D3) & F & A). rewrite find_skip, before_skip by auto. reflexivity.
Qed.
Lemma extract_none : forall k pre es tail, wf pre es tail -> Forall (fun e => ~ begins k (num e)) es ->
  extractFlags (command pre es tail) k = None /\ getDevice (command pre es tail) k = None.
Proof.
  intros k pre es tail (P & T & W) N. unfold extractFlags, getDevice. destruct (command_cons pre es tail) as (x & r & E).
  assert (R : rfind (kid k) (command pre es tail) = None) by (rewrite rfind_pre; auto; apply rfind_none_es; auto).
  rewrite R. rewrite E. auto.
Qed.
Lemma decode_means : forall a f, means a f <-> f = decode a.
Proof.
  assert (M : forall a, means a (decode a)).
  { intros a. unfold means, decode. simpl. rewrite !has_spec. repeat split; try tauto.
    - destruct (has "S"%char a) eqn:S; [apply has_spec in S; auto|]. destruct (has "R"%char a) eqn:R; [apply has_spec in R; auto|discriminate].
    - intros [I|I]; apply has_spec in I; rewrite I; destruct (has "S"%char a); reflexivity. }
  intros a f. split; [|intros ->; apply M]. destruct f as [x y z]. destruct (M a) as (A & B & C). destruct (decode a) as [x' y' z'].
  intros (A' & B' & C'). simpl in *. f_equal; apply eq_true_iff_eq; tauto.
Qed.
Lemma uint_inj : forall u v, list_ascii_of_string (NilEmpty.string_of_uint u) = list_ascii_of_string (NilEmpty.string_of_uint v) -> u = v.
Proof. induction u; destruct v; simpl; intros E; try discriminate; auto; injection E as E; f_equal; auto. Qed.
Lemma dec_inj : forall a b, dec a = dec b -> a = b.
Proof. intros a b E. apply Unsigned.to_uint_inj. apply uint_inj. exact E. Qed.
Lemma dec_length_begins : forall k j, List.length (dec k) = List.length (dec j) -> begins k j -> k = j.
Proof.
  intros k j L (r & E). rewrite E, app_length in L. destruct r; [|simpl in L; lia]. rewrite app_nil_r in E. symmetry. apply dec_inj; auto.
Qed.
