(** Lemmas on merges, routing and combined nodes. *)
From Coq Require Import List Arith Bool Lia.
From Verif Require Import Base OptModel OptSpec.
Import ListNotations.

Section Merge.
  Context {T : Type}.

  Lemma merge_single : forall (l m : list T), merge [l] m <-> m = l.
  Proof.
    intros l m; split.
    - revert l; induction m as [|x m IH]; intros l H; inversion H as [ls Hn | ls i y r l' Hi Hm]; subst.
      + inversion Hn; subst; auto.
      + destruct i as [|[|i]]; simpl in *; try discriminate. injection Hi as ->.
        f_equal. now apply IH.
    - intros ->. induction l as [|x l IH].
      + constructor; auto.
      + eapply merge_cons with (i := 0); simpl; eauto.
  Qed.

  Lemma lupd_lupd : forall B (l : list B) i a b, lupd (lupd l i a) i b = lupd l i b.
  Proof. induction l; destruct i; simpl; intros; f_equal; auto. Qed.
  Lemma lupd_same : forall B (l : list B) i v, nth_error l i = Some v -> lupd l i v = l.
  Proof. induction l; destruct i; simpl; intros; try discriminate; f_equal; auto; congruence. Qed.
  Lemma lupd_app1 : forall B (l m : list B) i v, i < length l -> lupd (l ++ m) i v = lupd l i v ++ m.
  Proof. induction l; destruct i; simpl; intros; try lia; f_equal; auto. apply IHl; lia. Qed.
  Lemma lupd_app2 : forall B (l m : list B) i v, lupd (l ++ m) (length l + i) v = l ++ lupd m i v.
  Proof. induction l; simpl; intros; f_equal; auto. Qed.

  Lemma concat_pos : forall (lss : list (list (list T))) k ls j v,
    nth_error lss k = Some ls -> nth_error ls j = Some v ->
    exists i, nth_error (concat lss) i = Some v /\
              forall r, lupd (concat lss) i r = concat (lupd lss k (lupd ls j r)).
  Proof.
    induction lss as [|l0 lss IH]; intros k ls j v Hk Hj; destruct k; simpl in Hk; try discriminate.
    - injection Hk as ->. exists j.
      assert (j < length ls) by (apply nth_error_Some; congruence).
      split; [simpl; rewrite nth_error_app1; auto|]. intros r; simpl. now apply lupd_app1.
    - destruct (IH _ _ _ _ Hk Hj) as (i & Hi & Hr). exists (length l0 + i). split.
      + simpl. rewrite nth_error_app2 by lia. now replace (length l0 + i - length l0) with i by lia.
      + intros r; simpl. now rewrite lupd_app2, Hr.
  Qed.

  Lemma concat_inv : forall (lss : list (list (list T))) i v,
    nth_error (concat lss) i = Some v ->
    exists k ls j, nth_error lss k = Some ls /\ nth_error ls j = Some v /\
              forall r, lupd (concat lss) i r = concat (lupd lss k (lupd ls j r)).
  Proof.
    induction lss as [|l0 lss IH]; intros i v H; simpl in H; [destruct i; discriminate|].
    destruct (Nat.ltb_spec i (length l0)).
    - rewrite nth_error_app1 in H by lia. exists 0, l0, i. repeat split; auto.
      intros r; simpl. now apply lupd_app1.
    - rewrite nth_error_app2 in H by lia. destruct (IH _ _ H) as (k & ls & j & Hk & Hj & Hr).
      exists (S k), ls, j. repeat split; auto. intros r; simpl.
      replace i with (length l0 + (i - length l0)) at 1 by lia. now rewrite lupd_app2, Hr.
  Qed.

  Lemma Forall2_nth1 : forall B C (R : B -> C -> Prop) l m k x, Forall2 R l m -> nth_error l k = Some x ->
    exists y, nth_error m k = Some y /\ R x y.
  Proof.
    intros B C R l m k x H; revert k; induction H; intros [|k] E; simpl in *; try discriminate; eauto.
    injection E as ->; eauto.
  Qed.
  Lemma Forall2_nth2 : forall B C (R : B -> C -> Prop) l m k y, Forall2 R l m -> nth_error m k = Some y ->
    exists x, nth_error l k = Some x /\ R x y.
  Proof.
    intros B C R l m k x H; revert k; induction H; intros [|k] E; simpl in *; try discriminate; eauto.
    injection E as ->; eauto.
  Qed.
  Lemma Forall2_lupd : forall B C (R : B -> C -> Prop) l m k x y, Forall2 R l m -> R x y ->
    Forall2 R (lupd l k x) (lupd m k y).
  Proof. intros B C R l m k x y H Hr; revert k; induction H; intros [|k]; simpl; constructor; auto. Qed.
  Lemma Forall2_len : forall B C (R : B -> C -> Prop) l m, Forall2 R l m -> length l = length m.
  Proof. induction 1; simpl; auto. Qed.

  Lemma merge_concat : forall (lss : list (list (list T))) m,
    merge (concat lss) m <-> exists ms, Forall2 merge lss ms /\ merge ms m.
  Proof.
    intros lss m; split.
    - intros H. remember (concat lss) as L eqn:E. revert lss E.
      induction H as [ls Hn | ls i x r l Hi Hm IH]; intros lss ->.
      + exists (map (fun _ => []) lss). split.
        * clear -Hn. induction lss as [|a lss IH]; simpl in *; constructor.
          -- constructor. apply Forall_app in Hn. tauto.
          -- apply IH. apply Forall_app in Hn. tauto.
        * constructor. apply Forall_forall. intros y Hy. apply in_map_iff in Hy. destruct Hy as (? & <- & _); auto.
      + destruct (concat_inv _ _ _ Hi) as (k & ls & j & Hk & Hj & Hr).
        destruct (IH (lupd lss k (lupd ls j r)) (Hr r)) as (ms & Hf & Hms).
        assert (Hk' : k < length lss) by (apply nth_error_Some; congruence).
        destruct (Forall2_nth1 _ _ _ _ _ k (lupd ls j r) Hf) as (mk & Hmk & Hmm).
        { now apply nth_error_lupd_eq. }
        exists (lupd ms k (x :: mk)). split.
        * replace lss with (lupd (lupd lss k (lupd ls j r)) k ls).
          2:{ rewrite lupd_lupd. now apply lupd_same. }
          apply Forall2_lupd; auto. eapply merge_cons; eauto.
        * eapply merge_cons with (i := k) (r := mk).
          -- apply nth_error_lupd_eq. apply nth_error_Some; congruence.
          -- rewrite lupd_lupd, lupd_same; auto.
    - intros (ms & Hf & Hm). revert lss Hf.
      induction Hm as [ls Hn | ls i x r l Hi Hm IH]; intros lss Hf.
      + constructor. clear -Hf Hn. induction Hf as [|a b la lb Hab _ IH]; simpl; auto.
        inversion Hn; subst. apply Forall_app; split; auto. inversion Hab; auto.
      + destruct (Forall2_nth2 _ _ _ _ _ _ _ Hf Hi) as (lk & Hk & Hmk).
        inversion Hmk as [|? j ? r' ? Hj Hr]; subst.
        destruct (concat_pos _ _ _ _ _ Hk Hj) as (p & Hp & Hup).
        eapply merge_cons with (i := p); eauto. rewrite Hup. apply IH.
        now apply Forall2_lupd.
  Qed.

  Lemma merge_singles : forall (l : list (list T)), Forall2 merge (map (fun x => [x]) l) l.
  Proof. induction l; simpl; constructor; auto. now apply merge_single. Qed.

  Lemma merge_app : forall (l : list (list T)) a m, merge l m -> merge (a :: l) (a ++ m).
  Proof.
    intros l a; induction a as [|x a IH]; intros m H; simpl.
    - induction H.
      + constructor; auto.
      + eapply merge_cons with (i := S i); simpl; eauto.
    - eapply merge_cons with (i := 0); simpl; eauto.
  Qed.
  Lemma merge_concat_self : forall (l : list (list T)), merge l (concat l).
  Proof. induction l; simpl; [constructor; auto|now apply merge_app]. Qed.

  Lemma merge_in : forall (ls : list (list T)) l, merge ls l -> forall x, In x l -> exists m, In m ls /\ In x m.
  Proof.
    induction 1 as [ls Hn | ls i x r l Hi Hm IH]; intros y Hy; [destruct Hy|].
    destruct Hy as [<-|Hy].
    - exists (x :: r). split; [eapply nth_error_In; eauto | now left].
    - destruct (IH _ Hy) as (m & Hin & Hym). apply In_nth_error in Hin. destruct Hin as (k & Hk).
      rewrite nth_error_lupd in Hk. destruct (Nat.eqb_spec i k) as [->|N].
      + destruct (k <? length ls); [|discriminate]. injection Hk as <-.
        exists (x :: r). split; [eapply nth_error_In; eauto | now right].
      + exists m. split; auto. eapply nth_error_In; eauto.
  Qed.
End Merge.

Section Nodes.
  Context {A : Type}.
  Implicit Types (n : node A).

  Lemma replies_app : forall n xs h ys, replies n h (xs ++ ys) = replies n h xs ++ replies n (h ++ xs) ys.
  Proof.
    intros n xs; induction xs as [|x xs IH]; intros h ys; simpl; [now rewrite app_nil_r|].
    rewrite IH, <- !app_assoc. reflexivity.
  Qed.
  Lemma payload_app : forall (a b : list (out A)), payload (a ++ b) = payload a ++ payload b.
  Proof. intros; apply map_app. Qed.

  Lemma replies_comb : forall n1 n2 xs h,
    replies (comb n1 n2) h xs = replies n2 (payload (replies n1 [] h)) (payload (replies n1 h xs)).
  Proof.
    intros n1 n2 xs; induction xs as [|x xs IH]; intros h; simpl; auto.
    rewrite payload_app, replies_app, IH. f_equal. f_equal.
    rewrite replies_app, payload_app. simpl. now rewrite app_nil_r.
  Qed.

  Lemma payload_plain : forall (l : list (out A)), payload (plain l) = payload l.
  Proof. intros; unfold payload, plain; rewrite map_map; apply map_ext; auto. Qed.
  Lemma plain_plain : forall (l : list (out A)), plain (plain l) = plain l.
  Proof. intros; unfold plain; rewrite map_map; apply map_ext; auto. Qed.
  Lemma plain_payload : forall (l m : list (out A)), payload l = payload m -> plain l = plain m.
  Proof.
    intros l m H. unfold plain, payload in *.
    rewrite <- (map_map snd (fun x => (None, x)) l), <- (map_map snd (fun x => (None, x)) m). now rewrite H.
  Qed.
  Lemma payload_sends : forall n xs, payload (sends n xs) = payload (replies n [] xs ++ fin n xs).
  Proof. intros; unfold sends. destruct (nmo n); auto. apply payload_plain. Qed.

  (** A combined node sends what the second sends on what the first sends. *)
  Lemma sends_comb : forall n1 n2 xs, sends (comb n1 n2) xs = sends n2 (payload (sends n1 xs)).
  Proof.
    intros. unfold sends at 1 2. rewrite payload_sends. simpl nmo.
    replace (replies (comb n1 n2) [] xs ++ fin (comb n1 n2) xs)
      with (replies n2 [] (payload (replies n1 [] xs ++ fin n1 xs)) ++ fin n2 (payload (replies n1 [] xs ++ fin n1 xs))).
    { reflexivity. }
    rewrite replies_comb. cbn [fin comb]. rewrite payload_app, replies_app. simpl. rewrite <- app_assoc. reflexivity.
  Qed.

  Lemma emission_payload : forall em (l m : list (out A)), payload l = payload m -> emission em l = emission em m.
  Proof. intros [n|] l m H; simpl; [now rewrite H | now apply plain_payload]. Qed.

  Lemma plain_id : forall (l : list (out A)), (forall p, In p l -> fst p = None) -> plain l = l.
  Proof.
    induction l as [|[t x] l IH]; simpl; intros H; auto. f_equal.
    - specialize (H (t, x) (or_introl eq_refl)). simpl in H. now subst.
    - apply IH; auto.
  Qed.

  (** ** Routing *)
  Lemma route_length : forall ws (l : list (out A)) parts, route ws l parts -> length parts = length ws.
  Proof. induction 1; simpl; [apply map_length | now rewrite lupd_length]. Qed.

  Lemma locate_ones : forall k i, i < k -> locate (repeat 1 k) i = Some (i, 0).
  Proof.
    induction k; simpl; intros i H; [lia|].
    destruct i; simpl; auto. rewrite Nat.sub_0_r, IHk by lia. reflexivity.
  Qed.

  (** Undirected values may be given to single-port stages in any chosen way. *)
  Lemma route_one : forall k i (xs : list (out A)) l parts,
    i < k -> (forall p, In p xs -> fst p = None) -> route (repeat 1 k) l parts ->
    forall q, nth_error parts i = Some q ->
    route (repeat 1 k) (xs ++ l) (lupd parts i (map (fun p => (Some 0, snd p)) xs ++ q)).
  Proof.
    intros k i xs l parts Hi Hx Hr; induction xs as [|[t x] xs IH]; intros q Hq.
    - simpl. now rewrite lupd_same.
    - simpl app. replace t with (@None nat) by (symmetry; apply (Hx (t, x)); now left).
      rewrite <- (lupd_lupd _ parts i (map (fun p => (Some 0, snd p)) xs ++ q)).
      apply route_cons with (j := i).
      + discriminate.
      + now apply locate_ones.
      + apply IH; auto. intros; apply Hx; now right.
      + apply nth_error_lupd_eq. apply nth_error_Some. congruence.
  Qed.

  (** Any family of undirected streams, one after the other, can be routed back to them. *)
  Lemma route_back : forall k (ls pre : list (list (out A))),
    k = length pre + length ls -> (forall l, In l ls -> forall p, In p l -> fst p = None) ->
    route (repeat 1 k) (concat ls) (map (fun _ => @nil (out A)) pre ++ map (map (fun p => (Some 0, snd p))) ls).
  Proof.
    intros k ls; induction ls as [|l ls IH]; intros pre Hk Hp.
    - simpl. rewrite app_nil_r. simpl in Hk. rewrite Nat.add_0_r in Hk.
      replace (map (fun _ : list (out A) => @nil (out A)) pre) with (map (fun _ : nat => @nil (out A)) (repeat 1 k)).
      { constructor. }
      rewrite Hk. clear. induction pre; simpl; f_equal; auto.
    - simpl concat.
      assert (H := IH (pre ++ [[]])). rewrite app_length in H. simpl in H, Hk.
      specialize (H ltac:(lia) ltac:(intros; eapply Hp; [right; eauto | eauto])).
      assert (R := route_one k (length pre) l (concat ls) _ ltac:(lia) ltac:(intros; eapply Hp; [left; reflexivity | eauto]) H []).
      rewrite map_app in R. simpl in R. rewrite <- app_assoc in R. simpl in R.
      rewrite <- (map_length (fun _ => @nil (out A)) pre) in R.
      rewrite nth_error_app2, Nat.sub_diag in R by lia. specialize (R eq_refl).
      rewrite <- (Nat.add_0_r (length (map _ pre))), lupd_app2 in R. simpl in R.
      rewrite app_nil_r in R. simpl. exact R.
  Qed.
End Nodes.

(** Induction on skeletons. *)
Section Ind.
  Context {A : Type}.
  Variable P : skel A -> Prop.
  Hypothesis HS : forall n, P (Seq n).
  Hypothesis HP : forall l, Forall P l -> P (Pipe l).
  Hypothesis HF : forall o e ws c, Forall P ws -> P (Farm o e ws c).
  Hypothesis HA : forall l r, Forall P l -> Forall P r -> P (A2A l r).
  Fixpoint skel_ind' (s : skel A) : P s :=
    let fix all (l : list (skel A)) : Forall P l :=
      match l with [] => Forall_nil _ | x :: r => Forall_cons _ (skel_ind' x) (all r) end in
    match s with
    | Seq n => HS n
    | Pipe l => HP l (all l)
    | Farm o e ws c => HF o e ws c (all ws)
    | A2A l r => HA l r (all l) (all r)
    end.
End Ind.
