(** Proofs for C41. *)
From Coq Require Import List Lia.
From Verif Require Import CombModel CombSpec.
Import ListNotations.

Section P.
Context {T : Type}.
Notation val := (val T).
Notation tree := (@tree T).

(** One item through a tree all of whose nodes are endless, depth first. *)
Fixpoint feed (t : tree) : st t -> T -> st t * list T :=
  match t return st t -> T -> st t * list T with
  | Leaf n => fun s x => let '(s', vs, r) := nsvc n s (Item x) in (s', items (vs ++ [r]))
  | Comb l r => fun s x =>
    let (sl', o) := feed l (fst s) x in
    let (sr', o') := (fix go (sr : st r) (o : list T) : st r * list T :=
      match o with
      | [] => (sr, [])
      | y :: o' => let (s1, a) := feed r sr y in let (s2, b) := go s1 o' in (s2, a ++ b)
      end) (snd s) o in
    ((sl', sr'), o')
  end.

Fixpoint feeds (t : tree) (s : st t) (o : list T) : st t * list T :=
  match o with
  | [] => (s, [])
  | y :: o' => let (s1, a) := feed t s y in let (s2, b) := feeds t s1 o' in (s2, a ++ b)
  end.

Lemma feed_comb : forall l r s x,
  feed (Comb l r) s x =
    let (sl', o) := feed l (fst s) x in let (sr', o') := feeds r (snd s) o in ((sl', sr'), o').
Proof.
  intros l r s x. cbn [feed]. destruct (feed l (fst s) x) as [sl' o].
  match goal with |- (let (_, _) := ?f _ _ in _) = _ =>
    assert (H : forall o sr, f sr o = feeds r sr o) end.
  { clear. induction o as [|y o IH]; intros sr; cbn; auto.
    destruct (feed r sr y). rewrite IH. reflexivity. }
  rewrite H. reflexivity.
Qed.

Lemma feeds_app : forall t a b s,
  feeds t s (a ++ b) = let (s1, o1) := feeds t s a in let (s2, o2) := feeds t s1 b in (s2, o1 ++ o2).
Proof.
  induction a as [|y a IH]; intros b s; cbn.
  - destruct (feeds t s b); auto.
  - destruct (feed t s y) as [s1 o1]. rewrite IH. destruct (feeds t s1 a) as [s2 o2].
    destruct (feeds t s2 b). rewrite app_assoc. reflexivity.
Qed.

(** End of stream. *)
Fixpoint fin (t : tree) : st t -> st t * list T :=
  match t return st t -> st t * list T with
  | Leaf n => fun s => let (s', vs) := neos n s in (s', items vs)
  | Comb l r => fun s =>
    let (sl', o) := fin l (fst s) in
    let (sr', a) := feeds r (snd s) o in
    let (sr'', b) := fin r sr' in
    ((sl', sr''), a ++ b)
  end.

(** One item through a tree whose first node may end the stream. *)
Fixpoint feedx (t : tree) : st t -> T -> st t * list T * bool :=
  match t return st t -> T -> st t * list T * bool with
  | Leaf n => fun s x =>
    let '(s', vs, r) := nsvc n s (Item x) in
    (s', items (vs ++ [r]), match r with Eos => true | _ => false end)
  | Comb l r => fun s x =>
    let '(sl', o, e) := feedx l (fst s) x in
    let (sr', a) := feeds r (snd s) o in
    if e then let (sr'', b) := fin r sr' in ((sl', sr''), a ++ b, true)
    else ((sl', sr'), a, false)
  end.

Fixpoint run (t : tree) (s : st t) (ins : list T) : st t * list T :=
  match ins with
  | [] => fin t s
  | x :: rest =>
    let '(s', o, e) := feedx t s x in
    if e then (s', o) else let (s'', o') := run t s' rest in (s'', o ++ o')
  end.

Definition all_endless (t : tree) : Prop := Forall endless (leaves t).
Definition all_plain (t : tree) : Prop := Forall plain (leaves t).

(** Every node but the first is endless. *)
Fixpoint first_only (t : tree) : Prop :=
  match t with Leaf _ => True | Comb l r => first_only l /\ all_endless r end.

Lemma split_end : forall l r, all_endless (Comb l r) -> all_endless l /\ all_endless r.
Proof. intros l r H. apply Forall_app in H. auto. Qed.
Lemma split_plain : forall l r, all_plain (Comb l r) -> all_plain l /\ all_plain r.
Proof. intros l r H. apply Forall_app in H. auto. Qed.
Lemma end_first : forall t, all_endless t -> first_only t.
Proof. induction t; cbn; auto. intros H. apply split_end in H as []. auto. Qed.

Lemma items_app : forall a b : list val, items (a ++ b) = items a ++ items b.
Proof. induction a as [|v a IH]; intros b; cbn; auto. destruct v; cbn; rewrite ?IH; auto. Qed.

Lemma feedx_endless : forall t s x, all_endless t ->
  feedx t s x = (let (s', o) := feed t s x in (s', o, false)).
Proof.
  induction t as [n|l IHl r IHr]; intros s x H.
  - cbn. inversion H as [|? ? E _]; subst. specialize (E s x).
    destruct (nsvc n s (Item x)) as [[s' vs] ret]. cbn in E. destruct ret; auto. congruence.
  - apply split_end in H as [Hl Hr]. cbn [feedx]. rewrite IHl by auto. rewrite feed_comb.
    destruct (feed l (fst s) x) as [sl' o]. destruct (feeds r (snd s) o). reflexivity.
Qed.

(** ** The stage-by-stage meaning equals the item-by-item one *)
Lemma run_endless_app : forall t a b s, all_endless t ->
  run t s (a ++ b) = let (s1, o1) := feeds t s a in let (s2, o2) := run t s1 b in (s2, o1 ++ o2).
Proof.
  induction a as [|y a IH]; intros b s H; cbn [app run feeds].
  - destruct (run t s b); auto.
  - rewrite feedx_endless by auto. destruct (feed t s y) as [s1 o1]. rewrite IH by auto.
    destruct (feeds t s1 a) as [s2 o2]. destruct (run t s2 b). rewrite app_assoc. reflexivity.
Qed.

Lemma run_endless : forall t a s, all_endless t ->
  run t s a = let (s1, o1) := feeds t s a in let (s2, o2) := fin t s1 in (s2, o1 ++ o2).
Proof. intros t a s H. rewrite <- (app_nil_r a) at 1. rewrite run_endless_app by auto. reflexivity. Qed.

Lemma chain_run : forall t s ins, first_only t -> chain t s ins = run t s ins.
Proof.
  induction t as [n|l IHl r IHr]; intros s ins H.
  - cbn [chain]. revert s. induction ins as [|x rest IH]; intros s; cbn; auto.
    destruct (nsvc n s (Item x)) as [[s' vs] ret]. rewrite IH, items_app.
    destruct ret; auto. cbn. rewrite app_nil_r. reflexivity.
  - destruct H as [Hl Hr]. cbn [chain]. rewrite IHl by auto. revert s.
    induction ins as [|x rest IH]; intros [sl sr]; cbn [run fst snd].
    + cbn [fin fst snd]. destruct (fin l sl) as [sl' o]. rewrite IHr by (apply end_first; auto).
      rewrite run_endless by auto. destruct (feeds r sr o) as [s1 o1]. destruct (fin r s1). reflexivity.
    + cbn [feedx fst snd]. destruct (feedx l sl x) as [[sl' o] e]. destruct e.
      * rewrite IHr by (apply end_first; auto). rewrite run_endless by auto.
        destruct (feeds r sr o) as [s1 o1]. destruct (fin r s1). reflexivity.
      * specialize (fun q => IH (sl', q)). cbn [fst snd] in IH.
        destruct (run l sl' rest) as [sl2 o2].
        rewrite IHr by (apply end_first; auto). rewrite run_endless_app by auto.
        destruct (feeds r sr o) as [s1 o1]. rewrite <- IH, IHr by (apply end_first; auto).
        destruct (run r s1 o2). reflexivity.
Qed.

(** ** The code is the item-by-item meaning *)
Section K.
Context {W : Type}.

Definition send_items (k : val -> W -> W) (o : list T) (w : W) : W :=
  sends k (map Item o) w.

Lemma sends_app : forall (k : val -> W -> W) a b w, sends k (a ++ b) w = sends k b (sends k a w).
Proof. intros; unfold sends; apply fold_left_app. Qed.

Lemma send_items_app : forall (k : val -> W -> W) a b w,
  send_items k (a ++ b) w = send_items k b (send_items k a w).
Proof. intros; unfold send_items; rewrite map_app; apply sends_app. Qed.

Lemma sends_items : forall (k : val -> W -> W) vs w, Forall is_item vs ->
  sends k vs w = send_items k (items vs) w.
Proof.
  intros k vs. induction vs as [|v vs IH]; intros w H; auto. inversion H as [|? ? [x ->] Hr]; subst.
  cbn. apply IH; auto.
Qed.

Lemma send_out_k : forall t (k : val -> W -> W) v w, send_out t k v w = k v w.
Proof. induction t; intros; cbn; auto. Qed.
Lemma propagate_k : forall l r (k : val -> W -> W) w, propagate (Comb l r) k w = k Eos w.
Proof.
  intros l r. revert l. induction r as [n|a _ b IH]; intros l k w; [reflexivity|].
  change (propagate (Comb l (Comb a b)) k w) with (propagate (Comb a b) k w). apply IH.
Qed.
End K.

(** What push_comp_local does with the result of svc. *)
Definition after {W} (t : tree) (k : val -> W -> W) (q : st t * W * val) : st t * W :=
  let '(s, w, r) := q in if quiet r then (s, w) else (s, k r w).

Definition svc_ok (t : tree) : Prop := forall W (k : val -> W -> W) x s w,
  after t k (svc t k (Item x) s w) = (let (s', o) := feed t s x in (s', send_items k o w)).
Definition eos_ok (t : tree) : Prop := forall W (k : val -> W -> W) s w,
  eosn t k s w = (let (s', o) := fin t s in (s', send_items k o w)).

Notation pushk l r k := (push_comp l r k (fun v s w => svc r k v s w) (fun s w => eosn r k s w)).

Lemma push_item : forall l r, svc_ok r -> forall W (k : val -> W -> W) y sr w,
  pushk l r k (Item y) (sr, w) = (let (s', o) := feed r sr y in (s', send_items k o w)).
Proof.
  intros l r H W k y sr w. rewrite <- H. unfold push_comp, after.
  destruct (svc r k (Item y) sr w) as [[s' w'] ret]. destruct (quiet ret); auto.
  rewrite send_out_k, propagate_k. destruct ret; auto.
Qed.

Lemma push_items : forall l r, svc_ok r -> forall W (k : val -> W -> W) o sr w,
  send_items (pushk l r k) o (sr, w) = (let (s', o') := feeds r sr o in (s', send_items k o' w)).
Proof.
  intros l r H W k. induction o as [|y o IH]; intros sr w; cbn [feeds]; auto.
  unfold send_items in *. cbn [map sends fold_left]. rewrite push_item by auto.
  destruct (feed r sr y) as [s1 a]. fold (sends (pushk l r k) (map Item o)).
  unfold sends in IH. fold (sends k (map Item a) w). unfold sends at 1. rewrite IH.
  destruct (feeds r s1 o) as [s2 b]. rewrite map_app. fold (sends k (map Item b)).
  unfold sends. rewrite fold_left_app. reflexivity.
Qed.

Lemma push_eos : forall l r, eos_ok r -> forall W (k : val -> W -> W) sr w,
  pushk l r k Eos (sr, w) = (let (s', o) := fin r sr in (s', k Eos (send_items k o w))).
Proof.
  intros l r H W k sr w. unfold push_comp. rewrite H. destruct (fin r sr) as [s' o].
  rewrite propagate_k. reflexivity.
Qed.

(** A combination returns GO_ON unless its first node ends the stream. *)
Lemma comb_svc : forall l r, all_plain l -> all_endless l -> svc_ok l -> svc_ok r ->
  forall W (k : val -> W -> W) x s w,
  svc (Comb l r) k (Item x) s w = (let (s', o) := feed (Comb l r) s x in (s', send_items k o w, GoOn)).
Proof.
  intros l. induction l as [n|a IHa b IHb]; intros r Pl El Hl Hr W k x [sl sr] w.
  - rewrite feed_comb. cbn [svc is_comb fst snd feed].
    inversion Pl as [|? ? [P1 P2] _]; subst. inversion El as [|? ? E _]; subst. specialize (E sl x).
    destruct (nsvc n sl (Item x)) as [[s' vs] ret] eqn:N. destruct (P1 _ _ _ _ _ N) as [V Rt].
    cbn in E. rewrite sends_items by auto. rewrite send_out_k.
    rewrite push_items by auto. rewrite items_app.
    destruct Rt as [[y ->]|[->| ->]]; [| |congruence]; cbn [quiet items].
    + destruct (feeds r sr (items vs)) as [s1 o1] eqn:F. rewrite push_item by auto.
      rewrite feeds_app, F. cbn [feeds]. destruct (feed r s1 y) as [s2 o2].
      rewrite app_nil_r, send_items_app. reflexivity.
    + rewrite app_nil_r. destruct (feeds r sr (items vs)) as [s1 o1]. reflexivity.
  - apply split_plain in Pl as [Pa Pb]. apply split_end in El as [Ea Eb].
    rewrite feed_comb.
    change (svc (Comb (Comb a b) r) k (Item x) (sl, sr) w) with
      (let '(sl', (sr', w'), ret) := svc (Comb a b) (pushk (Comb a b) r k) (Item x) sl (sr, w) in
       ((sl', sr'), w', ret)).
    assert (Q : svc (Comb a b) (pushk (Comb a b) r k) (Item x) sl (sr, w) =
       (let (s', o) := feed (Comb a b) sl x in (s', send_items (pushk (Comb a b) r k) o (sr, w), GoOn))).
    { pose proof (Hl _ (pushk (Comb a b) r k) x sl (sr, w)) as Z.
      (* the result of svc on a combination is always GO_ON here *)
      destruct (feed (Comb a b) sl x) as [s' o] eqn:F.
      assert (G : snd (svc (Comb a b) (pushk (Comb a b) r k) (Item x) sl (sr, w)) = GoOn).
      { clear - Pa Ea. revert Pa Ea. generalize (pushk (Comb a b) r k) as k0. generalize (sr, w) as w0.
        generalize (st r * W)%type as V. revert b sl. induction a as [n|a1 IH1 a2 _]; intros b sl V w0 k0 Pa Ea.
        - destruct sl as [s1 s2]. cbn [svc is_comb]. inversion Pa as [|? ? [P1 P2] _]; subst.
          inversion Ea as [|? ? E _]; subst. specialize (E s1 x).
          destruct (nsvc n s1 (Item x)) as [[s' vs] ret] eqn:N. cbn in E.
          match goal with |- context [if ?c then ?u else ?v] => destruct (if c then u else v) end.
          cbn. destruct ret; congruence.
        - destruct sl as [s1 s2]. apply split_plain in Pa as [Pa _]. apply split_end in Ea as [Ea _].
          specialize (IH1 a2 s1 _ (s2, w0) (pushk (Comb a1 a2) b k0) Pa Ea).
          change (svc (Comb (Comb a1 a2) b) k0 (Item x) (s1, s2) w0) with
            (let '(sl', (sr', w'), ret) := svc (Comb a1 a2) (pushk (Comb a1 a2) b k0) (Item x) s1 (s2, w0) in
             ((sl', sr'), w', ret)).
          destruct (svc (Comb a1 a2) _ _ _ _) as [[q1 [q2 q3]] q4]. exact IH1. }
      destruct (svc (Comb a b) (pushk (Comb a b) r k) (Item x) sl (sr, w)) as [[q1 q2] q3].
      cbn in G. subst q3. cbn in Z. congruence. }
    cbn [fst snd]. rewrite Q. destruct (feed (Comb a b) sl x) as [s' o].
    rewrite push_items by auto. destruct (feeds r sr o). reflexivity.
Qed.

Lemma tree_ok : forall t, all_plain t -> all_endless t -> svc_ok t /\ eos_ok t.
Proof.
  induction t as [n|l IHl r IHr]; intros P E.
  - inversion P as [|? ? [P1 P2] _]; subst. inversion E as [|? ? E1 _]; subst. split.
    + intros W k x s w. cbn [svc feed]. specialize (E1 s x).
      destruct (nsvc n s (Item x)) as [[s' vs] ret] eqn:N. destruct (P1 _ _ _ _ _ N) as [V Rt].
      cbn in E1. rewrite items_app. unfold after. rewrite sends_items by auto.
      destruct Rt as [[y ->]|[->| ->]]; [| |congruence]; cbn [quiet items].
      * rewrite send_items_app. reflexivity.
      * rewrite app_nil_r. reflexivity.
    + intros W k s w. cbn [eosn fin]. destruct (neos n s) as [s' vs] eqn:N.
      rewrite sends_items by eauto. reflexivity.
  - apply split_plain in P as [Pl Pr]. apply split_end in E as [El Er].
    destruct (IHl Pl El) as [Sl Ol], (IHr Pr Er) as [Sr Or]. split.
    + intros W k x s w. rewrite comb_svc by auto. destruct (feed (Comb l r) s x). reflexivity.
    + intros W k [sl sr] w. cbn [eosn fin fst snd]. rewrite Ol.
      destruct (fin l sl) as [sl' o]. rewrite push_items by auto.
      destruct (feeds r sr o) as [sr' a]. rewrite Or. destruct (fin r sr') as [sr'' b].
      rewrite send_items_app. reflexivity.
Qed.

(** The first node may end the stream. *)
Lemma eos_any : forall t, all_plain t -> first_only t -> eos_ok t.
Proof.
  induction t as [n|l IHl r IHr]; intros P F.
  - inversion P as [|? ? [P1 P2] _]; subst. intros W k s w. cbn [eosn fin].
    destruct (neos n s) as [s' vs] eqn:N. rewrite sends_items by eauto. reflexivity.
  - apply split_plain in P as [Pl Pr]. destruct F as [Fl Er]. destruct (tree_ok r Pr Er) as [Sr Or].
    specialize (IHl Pl Fl). intros W k [sl sr] w. cbn [eosn fin fst snd]. rewrite IHl.
    destruct (fin l sl) as [sl' o]. rewrite push_items by auto.
    destruct (feeds r sr o) as [sr' a]. rewrite Or. destruct (fin r sr') as [sr'' b].
    rewrite send_items_app. reflexivity.
Qed.

Lemma comb_svcx : forall l r, all_plain (Comb l r) -> first_only (Comb l r) ->
  forall W (k : val -> W -> W) x s w,
  svc (Comb l r) k (Item x) s w =
    (let '(s', o, e) := feedx (Comb l r) s x in
     if e then (s', k Eos (send_items k o w), GoOut) else (s', send_items k o w, GoOn)).
Proof.
  induction l as [n|a IHa b IHb]; intros r P [Fl Er] W k x [sl sr] w;
    apply split_plain in P as [Pl Pr]; destruct (tree_ok r Pr Er) as [Sr Or].
  - cbn [svc is_comb feedx fst snd].
    inversion Pl as [|? ? [P1 P2] _]; subst.
    destruct (nsvc n sl (Item x)) as [[s' vs] ret] eqn:N. destruct (P1 _ _ _ _ _ N) as [V Rt].
    rewrite sends_items by auto. rewrite send_out_k, push_items by auto. rewrite items_app.
    destruct (feeds r sr (items vs)) as [s1 o1] eqn:F.
    destruct Rt as [[y ->]|[->| ->]]; cbn [quiet items].
    + rewrite push_item by auto. rewrite feeds_app, F. cbn [feeds]. destruct (feed r s1 y) as [s2 o2].
      rewrite app_nil_r, send_items_app. reflexivity.
    + rewrite app_nil_r, F. reflexivity.
    + rewrite app_nil_r, F. rewrite push_eos by auto. destruct (fin r s1) as [s2 o2].
      rewrite send_items_app. reflexivity.
  - change (svc (Comb (Comb a b) r) k (Item x) (sl, sr) w) with
      (let '(sl', (sr', w'), ret) := svc (Comb a b) (pushk (Comb a b) r k) (Item x) sl (sr, w) in
       ((sl', sr'), w', ret)).
    rewrite (IHa b Pl Fl). change (feedx (Comb (Comb a b) r) (sl, sr) x) with
      (let '(sl', o, e) := feedx (Comb a b) sl x in
       let (sr', c) := feeds r sr o in
       if e then let (sr'', d) := fin r sr' in ((sl', sr''), c ++ d, true)
       else ((sl', sr'), c, false)).
    destruct (feedx (Comb a b) sl x) as [[sl' o] e]. destruct e; rewrite push_items by auto.
    + destruct (feeds r sr o) as [s1 o1]. rewrite push_eos by auto. destruct (fin r s1) as [s2 o2].
      rewrite send_items_app. reflexivity.
    + destruct (feeds r sr o) as [s1 o1]. reflexivity.
Qed.

(** ** The thread *)
Lemma Push_items : forall o (c : @chan T), send_items Push o c = mkC (out c ++ map (@Item T) o) (broken c).
Proof.
  unfold send_items, sends. induction o as [|y o IH]; intros c; cbn [map fold_left].
  - rewrite app_nil_r. destruct c; auto.
  - rewrite IH. cbn [Push out broken]. rewrite <- app_assoc. reflexivity.
Qed.

Lemma thread_comb : forall l r ins s c, all_plain (Comb l r) -> first_only (Comb l r) ->
  thread (Comb l r) (map Item ins ++ [Eos]) s c =
    (let (s', o) := run (Comb l r) s ins in (s', mkC (out c ++ map Item o ++ [Eos]) (broken c), true)).
Proof.
  intros l r ins. induction ins as [|x rest IH]; intros s c P F.
  - cbn [map app thread run]. rewrite (eos_any _ P F). destruct (fin (Comb l r) s) as [s' o].
    rewrite send_out_k, Push_items. cbn [Push out broken]. rewrite <- app_assoc. reflexivity.
  - cbn [map app thread run]. rewrite (comb_svcx l r P F).
    destruct (feedx (Comb l r) s x) as [[s' o] e]. destruct e.
    + rewrite Push_items. cbn [Push out broken]. rewrite <- app_assoc. reflexivity.
    + rewrite IH by auto. rewrite Push_items. cbn [out broken]. destruct (run (Comb l r) s' rest) as [s2 o2].
      rewrite map_app, !app_assoc. reflexivity.
Qed.

Lemma thread_leaf : forall (n : @node T) ins s (c : @chan T), plain n ->
  thread (Leaf n) (map Item ins ++ [Eos]) s c =
    (let (s', o) := alone n s ins in (s', mkC (out c ++ map Item o ++ [Eos]) (broken c), true)).
Proof.
  intros n ins. induction ins as [|x rest IH]; intros s c P; destruct P as [P1 P2].
  - cbn [map app thread alone eosn send_out]. destruct (neos n s) as [s' vs] eqn:N.
    rewrite sends_items by eauto. rewrite Push_items. cbn [Push out broken]. rewrite <- app_assoc. reflexivity.
  - cbn [map app thread alone svc send_out].
    destruct (nsvc n s (Item x)) as [[s' vs] ret] eqn:N. destruct (P1 _ _ _ _ _ N) as [V Rt].
    rewrite sends_items by auto. rewrite Push_items, items_app.
    destruct Rt as [[y ->]|[->| ->]]; cbn [items].
    + rewrite IH by (split; auto). cbn [Push out broken]. destruct (alone n s' rest) as [s2 o2].
      rewrite !map_app. cbn [map]. rewrite <- !app_assoc. reflexivity.
    + rewrite IH by (split; auto). cbn [Push out broken]. destruct (alone n s' rest) as [s2 o2].
      rewrite app_nil_r, map_app, <- !app_assoc. reflexivity.
    + cbn [Push out broken]. rewrite <- app_assoc. reflexivity.
Qed.

(** ** The wiring *)
Lemma connect_spec : forall (t : tree) q p,
  In (q, p) (connect t) <->
  exists l r, at_path t p = Some (Comb l r) /\ q = p ++ L :: last_path l.
Proof.
  induction t as [n|l IHl r IHr]; intros q p; cbn [connect].
  - split; [intros []|]. intros (l & r & A & _). destruct p as [|[]]; discriminate.
  - rewrite !in_app_iff, !in_map_iff. split.
    + intros [((q', p') & E & H)|[((q', p') & E & H)|(x & E & H)]].
      * apply IHl in H as (a & b & A & B). injection E as <- <-. exists a, b. cbn. split; auto. cbn in B. rewrite B. auto.
      * apply IHr in H as (a & b & A & B). injection E as <- <-. exists a, b. cbn. split; auto. cbn in B. rewrite B. auto.
      * injection E as <- <-. destruct H as [<-|[]]. exists l, r. auto.
    + intros (a & b & A & ->). destruct p as [|d p].
      * cbn in A. injection A as -> ->. right; right. exists (last_path a). cbn. auto.
      * destruct d; cbn in A.
        -- left. exists (p ++ L :: last_path a, p). cbn. split; auto. apply IHl. eauto.
        -- right; left. exists (p ++ L :: last_path a, p). cbn. split; auto. apply IHr. eauto.
Qed.

Lemma path_last : forall (t : tree) p t', at_path t p = Some t' ->
  (exists n, at_path t (p ++ last_path t') = Some (Leaf n)).
Proof.
  induction t as [n|l IHl r IHr]; intros p t' A.
  - destruct p as [|d p]; [|destruct d; discriminate]. injection A as <-. cbn. eauto.
  - destruct p as [|d p].
    + injection A as <-. cbn. apply (IHr [] r). destruct r; reflexivity.
    + destruct d; cbn in *; eauto.
Qed.

(** A position is the last node of its combination, or the last node of the left part of
    exactly one enclosing combination. *)
Lemma last_or_left : forall (t : tree) q n, at_path t q = Some (Leaf n) ->
  q = last_path t \/ exists p l r, at_path t p = Some (Comb l r) /\ q = p ++ L :: last_path l.
Proof.
  induction t as [m|l IHl r IHr]; intros q n A.
  - destruct q as [|d q]; [left; auto|destruct d; discriminate].
  - destruct q as [|d q]; [discriminate|]. destruct d; cbn in A.
    + right. destruct (IHl _ _ A) as [->|(p & a & b & H & ->)].
      * exists [], l, r. auto.
      * exists (L :: p), a, b. auto.
    + destruct (IHr _ _ A) as [->|(p & a & b & H & ->)]; [left; auto|].
      right. exists (R :: p), a, b. auto.
Qed.

Lemma last_rs : forall t : tree, Forall (eq R) (last_path t).
Proof. induction t; cbn; auto. Qed.

Lemma left_unique : forall a b p p', Forall (eq R) a -> Forall (eq R) b ->
  p ++ L :: a = p' ++ L :: b -> p = p'.
Proof.
  intros a b p. induction p as [|d p IH]; intros p' Ha Hb E; destruct p' as [|d' p']; cbn in E; auto.
  - injection E as E1 E2. exfalso. subst a. apply Forall_app in Ha as [_ Ha]. inversion Ha; discriminate.
  - injection E as E1 E2. exfalso. subst b. apply Forall_app in Hb as [_ Hb]. inversion Hb; discriminate.
  - injection E as -> E. f_equal. eauto.
Qed.
End P.
