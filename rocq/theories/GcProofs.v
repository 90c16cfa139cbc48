From Coq Require Import List Arith Bool Lia.
From Verif Require Import CombModel CombSpec CombProofs GcModel GcSpec.
Import ListNotations.

Section P.
Context {T : Type}.
Notation val := (val T).
Notation tree := (@tree T).

(** The end of a channel that is not the last. *)
Fixpoint fend (t : tree) : st t -> st t * list T :=
  match t return st t -> st t * list T with
  | Leaf n => fun s => let (s', vs) := neos n s in (s', items vs)
  | Comb l r => fun s =>
    let (sl', o) := fend l (fst s) in
    let (sr', a) := feeds r (snd s) o in
    ((sl', sr'), a)
  end.

Definition gone (t : tree) (s : st t) (m : gmsg T) : st t * list T :=
  match m with GItem x => feed t s x | GEnd => fend t s end.
Fixpoint gsteps (t : tree) (s : st t) (ms : list (gmsg T)) : st t * list T :=
  match ms with
  | [] => (s, [])
  | m :: r => let (s1, a) := gone t s m in let (s2, b) := gsteps t s1 r in (s2, a ++ b)
  end.

Lemma gone_comb : forall l r s m, gone (Comb l r) s m =
  let (sl', o) := gone l (fst s) m in let (sr', a) := feeds r (snd s) o in ((sl', sr'), a).
Proof. intros l r s [x|]; [apply feed_comb|reflexivity]. Qed.

Lemma gsteps_comb : forall l r ms s, gsteps (Comb l r) s ms =
  let (sl', o) := gsteps l (fst s) ms in let (sr', a) := feeds r (snd s) o in ((sl', sr'), a).
Proof.
  intros l r. induction ms as [|m ms IH]; intros [sl sr]; [reflexivity|].
  cbn [gsteps]. rewrite gone_comb. cbn [fst snd]. destruct (gone l sl m) as [sl1 o1].
  destruct (feeds r sr o1) as [sr1 a1] eqn:F. rewrite IH. cbn [fst snd].
  destruct (gsteps l sl1 ms) as [sl2 o2]. rewrite feeds_app, F.
  destruct (feeds r sr1 o2) as [sr2 a2]. reflexivity.
Qed.

Lemma gchain_steps : forall t ms s, all_endless t ->
  gchain t s (ms ++ [GEnd]) = let (s1, o1) := gsteps t s ms in let (s2, o2) := fin t s1 in (s2, o1 ++ o2).
Proof.
  induction t as [n|l IHl r IHr]; intros ms s E.
  - cbn [gchain]. revert s. induction ms as [|m ms IH]; intro s.
    + cbn. destruct (neos n s) as [s' vs]. rewrite app_nil_r. reflexivity.
    + destruct m as [x|]; cbn [app head_run gsteps gone feed fend].
      * destruct (nsvc n s (Item x)) as [[s' vs] ret]. rewrite IH.
        destruct (gsteps (Leaf n) s' ms) as [s1 o1]. destruct (fin (Leaf n) s1) as [s2 o2]. rewrite <- app_assoc. reflexivity.
      * destruct (neos n s) as [s' vs]. rewrite IH.
        destruct (gsteps (Leaf n) s' ms) as [s1 o1]. destruct (fin (Leaf n) s1) as [s2 o2]. rewrite <- app_assoc. reflexivity.
  - apply split_end in E as [El Er]. cbn [gchain]. rewrite IHl by assumption. rewrite gsteps_comb.
    destruct (gsteps l (fst s) ms) as [sl1 o1]. destruct (fin l sl1) as [sl2 o2] eqn:Fl.
    rewrite chain_run by (apply end_first; assumption). rewrite run_endless by assumption. rewrite feeds_app.
    destruct (feeds r (snd s) o1) as [sr1 a1]. cbn [fin fst snd]. rewrite Fl.
    destruct (feeds r sr1 o2) as [sr2 a2]. destruct (fin r sr2) as [sr3 a3]. rewrite app_assoc. reflexivity.
Qed.

(** All combinations on the left-hand side count. *)
Fixpoint all_counted (mi : bool) (t : tree) : Prop :=
  match t with Leaf _ => True | Comb l r => counted mi l = true /\ all_counted mi l end.
Fixpoint ctr_is (m : nat) (t : tree) : ctr t -> Prop :=
  match t return ctr t -> Prop with Leaf _ => fun _ => True | Comb l r => fun c => ctr_is m l (fst c) /\ snd c = m end.

Lemma ctr0_is : forall t, ctr_is 0 t (ctr0 t).
Proof. induction t; cbn; auto. Qed.

Lemma geosn_ok : forall t W (k : val -> W -> W) mi n m s c w, all_plain t -> all_endless t -> all_counted mi t ->
  ctr_is m t c ->
  exists c', ctr_is (S m) t c' /\
    geosn mi n t k s c w = (let (s', o) := if S m <? n then fend t s else fin t s in (s', c', send_items k o w)).
Proof.
  induction t as [nd|l IHl r IHr]; intros W k mi n m s c w P E A C.
  - exists c. split; [exact Logic.I|]. cbn [geosn fend fin]. inversion P as [|? ? [P1 P2] _]; subst.
    destruct (neos nd s) as [s' vs] eqn:N. rewrite sends_items by eauto. destruct (S m <? n); reflexivity.
  - apply split_plain in P as [Pl Pr]. apply split_end in E as [El Er]. destruct A as [Ac Al].
    destruct (tree_ok r Pr Er) as [Sr Or]. destruct s as [sl sr]. destruct c as [cl m']. destruct C as [Cl Cm]. cbn in Cl, Cm. subst m'.
    destruct (IHl _ (push_comp l r k (fun v s w => svc r k v s w) (fun s w => eosn r k s w)) mi n m sl cl (sr, w) Pl El Al Cl) as (cl' & Cl' & G).
    exists (cl', S m). split; [split; auto|]. 
    change (geosn mi n (Comb l r) k (sl, sr) (cl, m) w) with
      (let '(sl', cl', (sr', w')) := geosn mi n l (push_comp l r k (fun v s w => svc r k v s w) (fun s w => eosn r k s w)) sl cl (sr, w) in
       if counted mi l && (S m <? n) then ((sl', sr'), (cl', S m), w')
       else let '(sr'', w'') := eosn r k sr' w' in ((sl', sr''), (cl', S m), w'')).
    rewrite G, Ac. clear G IHl IHr. cbn [andb fend fin fst snd].
    destruct (S m <? n).
    + destruct (fend l sl) as [sl' o]. rewrite push_items by assumption. destruct (feeds r sr o) as [sr' a]. reflexivity.
    + destruct (fin l sl) as [sl' o]. rewrite push_items by assumption. destruct (feeds r sr o) as [sr' a].
      rewrite Or. destruct (fin r sr') as [sr'' b]. rewrite send_items_app. reflexivity.
Qed.

Lemma gather_ok : forall mi n l r, all_plain (Comb l r) -> all_endless (Comb l r) -> all_counted mi (Comb l r) ->
  forall ms m s c o, ctr_is m (Comb l r) c -> m + S (ends ms) = n ->
  gather mi n (Comb l r) (ms ++ [GEnd]) m s c o =
    (let (s1, o1) := gsteps (Comb l r) s ms in let (s2, o2) := fin (Comb l r) s1 in
     (s2, mkC (out o ++ map Item (o1 ++ o2) ++ [Eos]) (broken o), true)).
Proof.
  intros mi n l r P E A. induction ms as [|[x|] ms IH]; intros m s c o C N.
  - cbn [app gather gsteps]. destruct (geosn_ok _ _ Push mi n m s c o P E A C) as (c' & C' & G). rewrite G.
    cbn in N. destruct (Nat.ltb_spec (S m) n) as [L|L]; [lia|].
    destruct (fin (Comb l r) s) as [s2 o2]. rewrite send_out_k, Push_items. cbn [Push out broken app].
    rewrite <- app_assoc. reflexivity.
  - cbn [app gather gsteps gone]. destruct (split_plain _ _ P) as [Pl Pr], (split_end _ _ E) as [El Er].
    destruct (tree_ok l Pl El) as [Sl _], (tree_ok r Pr Er) as [Sr _].
    rewrite comb_svc by assumption. destruct (feed (Comb l r) s x) as [s1 o1].
    rewrite (IH m) by assumption. rewrite Push_items. cbn [out broken].
    destruct (gsteps (Comb l r) s1 ms) as [s2 o2]. destruct (fin (Comb l r) s2) as [s3 o3].
    rewrite !map_app, <- !app_assoc. reflexivity.
  - cbn [app gather gsteps gone]. destruct (geosn_ok _ _ Push mi n m s c o P E A C) as (c' & C' & G). rewrite G.
    cbn in N. destruct (Nat.ltb_spec (S m) n) as [L|L]; [|lia].
    destruct (fend (Comb l r) s) as [s1 o1]. rewrite (IH (S m)) by (assumption || lia). rewrite Push_items. cbn [out broken].
    destruct (gsteps (Comb l r) s1 ms) as [s2 o2]. destruct (fin (Comb l r) s2) as [s3 o3].
    rewrite !map_app, <- !app_assoc. reflexivity.
Qed.

(** A single node behind several channels. *)
Lemma gather_leaf : forall mi n (nd : @node T), plain nd -> endless nd ->
  forall ms m s o, m + S (ends ms) = n ->
  gather mi n (Leaf nd) (ms ++ [GEnd]) m s tt o =
    (let (s1, o1) := head_run nd s (ms ++ [GEnd]) in
     (s1, mkC (out o ++ map Item o1 ++ [Eos]) (broken o), true)).
Proof.
  intros mi n nd [P1 P2] E. induction ms as [|[x|] ms IH]; intros m s o N; cbn [app gather head_run geosn].
  - destruct (neos nd s) as [s' vs] eqn:V. rewrite sends_items by eauto.
    cbn in N. destruct (Nat.ltb_spec (S m) n) as [L|L]; [lia|].
    rewrite send_out_k, Push_items. cbn [Push out broken]. rewrite app_nil_r, <- app_assoc. reflexivity.
  - cbn [svc]. destruct (nsvc nd s (Item x)) as [[s' vs] ret] eqn:V. destruct (P1 _ _ _ _ _ V) as [Vi Rt].
    rewrite sends_items by auto. rewrite Push_items, items_app.
    destruct Rt as [[y ->]|[->| ->]]; cbn [items send_out].
    + rewrite IH by assumption. cbn [Push out broken]. destruct (head_run nd s' (ms ++ [GEnd])) as [s2 o2].
      rewrite !map_app. cbn [map]. rewrite <- !app_assoc. reflexivity.
    + rewrite IH by assumption. cbn [out broken]. destruct (head_run nd s' (ms ++ [GEnd])) as [s2 o2].
      rewrite app_nil_r, map_app, <- !app_assoc. reflexivity.
    + exfalso. apply (E s x). rewrite V. reflexivity.
  - destruct (neos nd s) as [s' vs] eqn:V. rewrite sends_items by eauto.
    cbn in N. destruct (Nat.ltb_spec (S m) n) as [L|L]; [|lia].
    rewrite (IH (S m)) by lia. rewrite Push_items. cbn [out broken].
    destruct (head_run nd s' (ms ++ [GEnd])) as [s2 o2]. rewrite map_app, <- !app_assoc. reflexivity.
Qed.
End P.
