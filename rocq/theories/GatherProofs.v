(** Proofs about the gatherer. *)
From Coq Require Import List Arith Bool Lia ZArith.
From Verif Require Import SchedModel SchedSpec SchedProofs Base FarmSpec FarmProofs GatherModel GatherSpec.
Import ListNotations.

(** Number of channels that are offline and whose mark satisfies [f]. *)
Fixpoint cntb (f : mark -> bool) (off : list bool) (ks : list mark) : nat :=
  match off, ks with
  | o :: off, k :: ks => (if o && f k then 1 else 0) + cntb f off ks
  | _, _ => 0
  end.

Lemma cntb_upd : forall f off ks i k, nth_error off i = Some false -> nth_error ks i = Some k ->
  cntb f (lupd off i true) ks = cntb f off ks + (if f k then 1 else 0).
Proof.
  intros f off. induction off as [|o off IH]; intros [|k0 ks] [|i] k H K; cbn in *; try discriminate.
  - injection H as ->. injection K as ->. cbn. lia.
  - rewrite (IH _ _ _ H K). lia.
Qed.

Lemma cntb_le : forall f off ks, cntb f off ks <= length ks.
Proof. intros f off. induction off; intros [|k ks]; cbn; try lia. specialize (IHoff ks). destruct (a && f k); lia. Qed.

Lemma cntb_full : forall f off ks, length off = length ks -> cntb f off ks = length ks ->
  Forall (fun k => f k = true) ks /\ Forall (fun o => o = true) off.
Proof.
  intros f off. induction off as [|o off IH]; intros [|k ks] L H; cbn in *; try discriminate; auto.
  pose proof (cntb_le f off ks). destruct o, (f k) eqn:E; cbn in H; try lia.
  destruct (IH ks) as [P Q]; try lia. split; constructor; auto.
Qed.

Lemma cntb_all : forall f off ks, length off = length ks ->
  Forall (fun k => f k = true) ks -> Forall (fun o => o = true) off -> cntb f off ks = length ks.
Proof.
  intros f off. induction off as [|o off IH]; intros [|k ks] L F G; cbn in *; try discriminate; auto.
  inversion F; inversion G; subst. rewrite H1. cbn. rewrite IH; auto.
Qed.

Lemma cntb_zero : forall f m ks, cntb f (repeat false m) ks = 0.
Proof. intros f m. induction m; intros [|k ks]; cbn; auto. Qed.

Definition isE (k : mark) : bool := match k with EosNF => false | _ => true end.
Definition isNF (k : mark) : bool := match k with EosNF => true | _ => false end.

Lemma isE_forall : forall ks, Forall (fun k => isE k = true) ks <-> Forall (fun k => k <> EosNF) ks.
Proof. intros. split; apply Forall_impl; intros [| |]; cbn; congruence. Qed.
Lemma isNF_forall : forall ks, Forall (fun k => isNF k = true) ks <-> Forall (fun k => k = EosNF) ks.
Proof. intros. split; apply Forall_impl; intros [| |]; cbn; congruence. Qed.

Lemma nth_error_ext_len : forall X (l m : list X), length l = length m ->
  (forall i, i < length l -> nth_error l i = nth_error m i) -> l = m.
Proof.
  induction l as [|x l IH]; intros [|y m] L H; try discriminate; auto.
  pose proof (H 0 ltac:(cbn; lia)) as H0. cbn in H0. injection H0 as ->. f_equal. apply IH; [cbn in L; lia|].
  intros i Hi. apply (H (S i)). cbn. lia.
Qed.

Lemma Forall2_nth_len : forall X Y (R : X -> Y -> Prop) l m, length l = length m ->
  (forall i x y, nth_error l i = Some x -> nth_error m i = Some y -> R x y) -> Forall2 R l m.
Proof.
  induction l as [|x l IH]; intros [|y m] L H; try discriminate; constructor.
  - apply (H 0); reflexivity.
  - apply IH; [cbn in L; lia|]. intros i a b Ha Hb. apply (H (S i)); auto.
Qed.

Section P.
  Context {A B St : Type}.
  Variable n : nat.
  Variable svc : St -> A -> St * fres B.
  Hypothesis Hn : 0 < n.

  (** selectworker *)
  Lemma select_sound : forall fuel r off i, select n fuel r off = Some i -> i < n /\ nth i off true = false.
  Proof.
    induction fuel as [|fuel IH]; intros r off i H; [discriminate|]. cbn [select] in H.
    destruct (nth ((r + 1) mod n) off true) eqn:E; [eauto|]. injection H as <-.
    split; auto. apply Nat.mod_upper_bound. lia.
  Qed.

  Lemma select_none : forall fuel r off, select n fuel r off = None ->
    forall m, m < fuel -> nth ((r + 1 + m) mod n) off true = true.
  Proof.
    induction fuel as [|fuel IH]; intros r off H m Hm; [lia|]. cbn [select] in H.
    destruct (nth ((r + 1) mod n) off true) eqn:E; [|discriminate].
    destruct m as [|m]; [rewrite Nat.add_0_r; auto|].
    specialize (IH _ _ H m ltac:(lia)).
    replace ((r + 1 + S m) mod n) with (((r + 1) mod n + 1 + m) mod n); auto.
    rewrite <- Nat.add_assoc. rewrite Nat.add_mod_idemp_l by lia. f_equal; lia.
  Qed.

  Lemma select_complete : forall r off j, j < n -> nth j off true = false -> select n n r off <> None.
  Proof.
    intros r off j Hj Ho H. destruct (turn_covers n Hn (Z.of_nat r) j Hj) as (m & Lm & Em).
    pose proof (select_none _ _ _ H m Lm) as K.
    replace ((r + 1 + m) mod n) with j in K; [congruence|].
    rewrite <- Em. unfold SchedSpec.turn.
    replace (Z.of_nat r + 1 + Z.of_nat m)%Z with (Z.of_nat (r + 1 + m)) by lia.
    rewrite <- Nat2Z.inj_mod. apply Nat2Z.id.
  Qed.

  Definition frun (f : St) (l : list A) : St := fold_left (fun f x => fst (svc f x)) l f.

  Lemma filtered_snoc : forall l f x, filtered svc f (l ++ [x]) =
    filtered svc f l ++ match svc (frun f l) x with (_, FOut y) => [OTask y] | _ => [] end.
  Proof.
    induction l as [|a l IH]; intros f x; cbn [app filtered].
    - cbn. destruct (svc f x) as [f' []]; reflexivity.
    - unfold frun. cbn [fold_left]. destruct (svc f a) as [f' r] eqn:E. rewrite IH. cbn [fst].
      destruct r; reflexivity.
  Qed.

  Lemma frun_snoc : forall l f x, frun f (l ++ [x]) = fst (svc (frun f l) x).
  Proof. intros. unfold frun. rewrite fold_left_app. reflexivity. Qed.

  (** The invariant. *)
  Variables (ks : list mark) (cs : list (list (msg A))) (f0 : St).
  Hypothesis Lk : length ks = n.
  Hypothesis Lc : length cs = n.
  Hypothesis Hst : forall i k c, nth_error ks i = Some k -> nth_error cs i = Some c -> stream k c.
  Hypothesis Hstay : stays svc.

  Definition chan_ok (k : mark) (c0 : list (msg A)) (o : bool) (c : list (msg A)) (p : list A) : Prop :=
    p ++ tasks_of c = tasks_of c0 /\ (if o then c = [] else stream k c).

  Record core (off : list bool) (ch : list (list (msg A))) (f : St) (parts : list (list A)) (l : list A) : Prop := {
    co_off : length off = n; co_ch : length ch = n; co_pt : length parts = n;
    co_int : interleaving parts l;
    co_f : f = frun f0 l;
    co_chan : forall i k c0 o c p, nth_error ks i = Some k -> nth_error cs i = Some c0 ->
       nth_error off i = Some o -> nth_error ch i = Some c -> nth_error parts i = Some p -> chan_ok k c0 o c p }.

  Definition tail (k : mark) : list (omsg B) := match k with Eos => [OEos] | _ => [] end.
  Definition final (k : mark) : result := match k with EosW => RMark Eos | _ => RMark k end.

  Definition inv (s : gst A B St) : Prop :=
    exists parts l, core (offline s) (chans s) (fst_ s) parts l /\
    match stop s with
    | None => out s = filtered svc f0 l /\
        neos s = cntb isE (offline s) ks /\ neosnf s = cntb isNF (offline s) ks /\ neos s < n /\ neosnf s < n
    | Some r => Forall (fun o => o = true) (offline s) /\ one_family ks /\ neos s = 0 /\ neosnf s = 0 /\
        exists k, In k ks /\ r = final k /\ out s = filtered svc f0 l ++ tail k
    end.

  Lemma init_inv : forall r, inv (start n r 0 0 f0 cs).
  Proof.
    intros r. exists (repeat [] n), []. split.
    - constructor; cbn; try rewrite repeat_length; auto.
      + constructor.
      + intros i k c0 o c p K C O Ch Pt.
        assert (o = false) by (eapply repeat_spec; eapply nth_error_In; exact O).
        assert (p = []) by (eapply repeat_spec; eapply nth_error_In; exact Pt). subst.
        rewrite C in Ch. injection Ch as <-. split; cbn; eauto.
    - cbn. rewrite !cntb_zero. auto.
  Qed.

  Lemma get_all : forall (X : Type) (l : list X) i, length l = n -> i < n -> exists x, nth_error l i = Some x.
  Proof.
    intros X l i H Hi. destruct (nth_error l i) eqn:E; [eauto|]. apply nth_error_None in E. lia.
  Qed.

  (** Consuming a message that is not a mark. *)
  Lemma core_goon : forall off ch f parts l i q, core off ch f parts l -> i < n ->
    nth_error off i = Some false -> nth_error ch i = Some (GoOn :: q) ->
    core off (lupd ch i q) f parts l.
  Proof.
    intros off ch f parts l i q C Hi Ho Hc. destruct C as [c1 c2 c3 c4 c5 c6].
    constructor; auto; [rewrite lupd_length; auto|].
    intros j k c0 o c p K C0 O Ch Pt. destruct (Nat.eq_dec i j) as [<-|N].
    - rewrite nth_error_lupd_eq in Ch by lia. injection Ch as <-.
      destruct (c6 i k c0 o _ p K C0 O Hc Pt) as [Q R]. rewrite Ho in O. injection O as <-.
      inversion R; subst. split; auto.
    - rewrite nth_error_lupd_neq in Ch by auto. eauto.
  Qed.

  Lemma core_task : forall off ch f parts l i x q, core off ch f parts l -> i < n ->
    nth_error off i = Some false -> nth_error ch i = Some (Task x :: q) ->
    exists parts', core off (lupd ch i q) (fst (svc f x)) parts' (l ++ [x]).
  Proof.
    intros off ch f parts l i x q C Hi Ho Hc. destruct C as [c1 c2 c3 c4 c5 c6].
    destruct (get_all _ parts i c3 Hi) as (p0 & Ep). exists (lupd parts i (p0 ++ [x])).
    constructor; auto; try (rewrite lupd_length; auto).
    - apply il_snoc; auto.
    - rewrite frun_snoc, c5. reflexivity.
    - intros j k c0 o c p K C0 O Ch Pt. destruct (Nat.eq_dec i j) as [<-|N].
      + rewrite nth_error_lupd_eq in Ch, Pt by lia. injection Ch as <-. injection Pt as <-.
        destruct (c6 i k c0 o _ p0 K C0 O Hc Ep) as [Q R]. rewrite Ho in O. injection O as <-.
        inversion R; subst. split; auto. rewrite <- Q. cbn. rewrite <- app_assoc. reflexivity.
      + rewrite nth_error_lupd_neq in Ch, Pt by auto. eauto.
  Qed.

  Lemma core_mark : forall off ch f parts l i k0 q, core off ch f parts l -> i < n ->
    nth_error off i = Some false -> nth_error ch i = Some (Mark k0 :: q) ->
    nth_error ks i = Some k0 /\ core (lupd off i true) (lupd ch i q) f parts l.
  Proof.
    intros off ch f parts l i k0 q C Hi Ho Hc. destruct C as [c1 c2 c3 c4 c5 c6].
    destruct (get_all _ parts i c3 Hi) as (p0 & Ep). destruct (get_all _ ks i Lk Hi) as (k1 & Ek).
    destruct (get_all _ cs i Lc Hi) as (cc & Ec).
    destruct (c6 i k1 cc false _ p0 Ek Ec Ho Hc Ep) as [Q R].
    inversion R; subst. split; auto.
    constructor; auto; try (rewrite lupd_length; auto).
    intros j k c0 o c p K C0 O Ch Pt. destruct (Nat.eq_dec i j) as [<-|N].
    - rewrite nth_error_lupd_eq in Ch, O by lia. injection Ch as <-. injection O as <-.
      assert (p = p0) by congruence. assert (c0 = cc) by congruence. subst. split; auto.
    - rewrite nth_error_lupd_neq in Ch, O by auto. eauto.
  Qed.

  (** The loop condition after a mark. *)
  Lemma loop_mark : forall i off ne nf k f ch o parts l, In k ks ->
    core off ch f parts l -> o = filtered svc f0 l ->
    ne = cntb isE off ks -> nf = cntb isNF off ks ->
    (isE k = false -> ne < n) -> (isNF k = false -> nf < n) ->
    inv (loop n (mkG i off ne nf k f ch o None)).
  Proof.
    intros i off ne nf k f ch o parts l Hk C Ho Hne Hnf Ge Gf. unfold loop; cbn [neos neosnf ret].
    pose proof (cntb_le isE off ks) as B1. pose proof (cntb_le isNF off ks) as B2.
    assert (Lo := co_off _ _ _ _ _ C).
    assert (Z2 : ne = n -> Forall (fun o => o = true) off /\ Forall (fun k => k <> EosNF) ks).
    { intros E. destruct (cntb_full isE off ks) as [F1 F2]; [congruence|congruence|].
      split; auto. apply isE_forall; auto. }
    assert (Z3 : nf = n -> Forall (fun o => o = true) off /\ Forall (fun k => k = EosNF) ks).
    { intros E. destruct (cntb_full isNF off ks) as [F1 F2]; [congruence|congruence|].
      split; auto. apply isNF_forall; auto. }
    destruct (Nat.ltb_spec ne n) as [L1|L1], (Nat.ltb_spec nf n) as [L2|L2]; cbn [andb].
    - exists parts, l. cbn. split; [exact C|]. repeat split; auto.
    - assert (E2 : nf = n) by lia. destruct (Z3 E2) as [F1 F2].
      exists parts, l. split; [exact C|]. cbn [finish stop offline neos neosnf out].
      assert (ne = 0).
      { rewrite Hne. clear - F2. revert off. induction ks as [|k0 t IH]; intros [|o0 off']; cbn; auto.
        inversion F2; subst. cbn. rewrite andb_false_r. apply IH; auto. }
      split; [exact F1|]. split; [right; auto|].
      split; [destruct (n <=? ne); lia|]. split; [destruct (Nat.leb_spec n nf); lia|].
      exists k. split; auto. rewrite Forall_forall in F2. rewrite (F2 k Hk). split; [reflexivity|]. cbn [tail]. rewrite app_nil_r. auto.
    - assert (E1 : ne = n) by lia. destruct (Z2 E1) as [F1 F2].
      exists parts, l. split; [exact C|]. cbn [finish stop offline neos neosnf out].
      assert (nf = 0).
      { rewrite Hnf. clear - F2. revert off. induction ks as [|k0 t IH]; intros [|o0 off']; cbn; auto.
        inversion F2; subst. destruct k0; try congruence; cbn; rewrite andb_false_r; apply IH; auto. }
      split; [exact F1|]. split; [left; auto|].
      split; [destruct (Nat.leb_spec n ne); lia|]. split; [destruct (n <=? nf); lia|].
      exists k. split; auto. rewrite Forall_forall in F2. specialize (F2 k Hk).
      destruct k; try congruence; (split; [reflexivity|]); cbn [tail]; [subst o; auto|rewrite app_nil_r; auto].
    - exfalso. destruct k; cbn in *; try (specialize (Gf eq_refl); lia); specialize (Ge eq_refl); lia.
  Qed.

  Lemma loop_run : forall i off ne nf k (f : St) (ch : list (list (msg A))) (o : list (omsg B)), ne < n -> nf < n ->
    loop n (mkG i off ne nf k f ch o None) = mkG i off ne nf k f ch o None.
  Proof.
    intros. unfold loop; cbn [neos neosnf]. rewrite (proj2 (Nat.ltb_lt _ _) H), (proj2 (Nat.ltb_lt _ _) H0). reflexivity.
  Qed.

  Lemma nth_off : forall (off : list bool) i, length off = n -> i < n -> nth i off true = false -> nth_error off i = Some false.
  Proof. intros off i L Hi H. rewrite (nth_error_nth' off true) by lia. congruence. Qed.

  Lemma step_inv : forall s a s', inv s -> step n svc s a = Some s' -> inv s'.
  Proof.
    intros s [v] s' (parts & l & C & I) H. cbn [step] in H. destruct (stop s); [discriminate|].
    destruct I as (Io & Ie & If & Le & Lf).
    destruct (select n n (nextr s) (offline s)) as [i|] eqn:Es; [|discriminate].
    apply select_sound in Es. destruct Es as [Hi Ho]. apply nth_off in Ho; auto; [|apply C].
    assert (Idle : inv (mkG i (offline s) (neos s) (neosnf s) (ret s) (fst_ s) (chans s) (out s) None)).
    { exists parts, l. cbn. split; [exact C|]. repeat split; auto. }
    destruct v; [|injection H as <-; exact Idle].
    destruct (nth i (chans s) []) as [|m q] eqn:Ec; [injection H as <-; exact Idle|].
    assert (Hc : nth_error (chans s) i = Some (m :: q)).
    { rewrite (nth_error_nth' (chans s) []) by (rewrite (co_ch _ _ _ _ _ C); auto). congruence. }
    clear Idle Ec. injection H as <-. destruct m as [x| |k]; cbn [body].
    - destruct (core_task _ _ _ _ _ i x q C Hi Ho Hc) as (parts' & C').
      destruct (Hstay (fst_ s) x) as (f' & r & Er & Hr). rewrite Er in *. cbn [fst] in C'.
      assert (FS := filtered_snoc l f0 x). rewrite <- (co_f _ _ _ _ _ C), Er in FS.
      destruct r; try contradiction; cbn [offline neos neosnf ret fst_ chans out];
        rewrite loop_run by auto; exists parts', (l ++ [x]); cbn; (split; [exact C'|]); repeat split; auto;
        rewrite FS, Io; auto. rewrite app_nil_r; auto.
    - rewrite loop_run by auto. exists parts, l. cbn. split; auto. eapply core_goon; eauto.
    - destruct (core_mark _ _ _ _ _ i k q C Hi Ho Hc) as [Hk C'].
      assert (IK := nth_error_In _ _ Hk).
      assert (U1 := cntb_upd isE _ _ i k Ho Hk). assert (U2 := cntb_upd isNF _ _ i k Ho Hk).
      destruct k; cbn [isE isNF] in *; apply (loop_mark i) with (parts := parts) (l := l); auto; cbn; intros; try discriminate; lia.
  Qed.

  Lemma exec_ginv : forall r l s, exec (step n svc) (start n r 0 0 f0 cs) l = Some s -> inv s.
  Proof. intros r l s H. eapply exec_inv; [apply step_inv|apply init_inv|exact H]. Qed.

  (** Progress. *)
  Lemma running_online : forall s, inv s -> stop s = None -> one_family ks ->
    exists j, j < n /\ nth j (offline s) true = false.
  Proof.
    intros s (parts & l & C & I) E F. rewrite E in I. destruct I as (_ & Ie & If & Le & Lf).
    destruct (existsb (fun j => negb (nth j (offline s) true)) (seq 0 n)) eqn:X.
    - apply existsb_exists in X. destruct X as (j & Hj & Q). apply in_seq in Hj. exists j. split; [lia|].
      apply negb_true_iff; auto.
    - exfalso. assert (G : Forall (fun o => o = true) (offline s)).
      { apply Forall_forall. intros o Ho. apply (In_nth _ _ true) in Ho. destruct Ho as (j & Lj & Ej).
        rewrite (co_off _ _ _ _ _ C) in Lj. destruct o; auto. exfalso.
        assert (existsb (fun j => negb (nth j (offline s) true)) (seq 0 n) = true); [|congruence].
        apply existsb_exists. exists j. split; [apply in_seq; lia|]. rewrite Ej. reflexivity. }
      assert (Lo := co_off _ _ _ _ _ C).
      destruct F as [F|F].
      + rewrite (cntb_all isE) in Ie; auto; [lia|congruence|apply isE_forall; auto].
      + rewrite (cntb_all isNF) in If; auto; [lia|congruence|apply isNF_forall; auto].
  Qed.

  Definition pending (s : gst A B St) : nat := list_sum (map (@length _) (chans s)).

  Lemma sum_upd : forall (ch : list (list (msg A))) i m q, nth_error ch i = Some (m :: q) ->
    S (list_sum (map (@length _) (lupd ch i q))) = list_sum (map (@length _) ch).
  Proof.
    induction ch as [|c ch IH]; intros [|i] m q H; cbn in *; try discriminate.
    - injection H as ->. cbn. lia.
    - specialize (IH _ _ _ H). unfold list_sum in IH. cbn in IH. fold (list_sum (map (@length (msg A)) ch)) in *.
      change (fold_right Nat.add 0) with list_sum in *. lia.
  Qed.

  Lemma chans_finish : forall s r, chans (finish (A := A) (B := B) (St := St) n s r) = chans s.
  Proof. reflexivity. Qed.
  Lemma chans_loop : forall s, chans (loop (A := A) (B := B) (St := St) n s) = chans s.
  Proof. intros. unfold loop. destruct (_ && _); reflexivity. Qed.
  Lemma chans_body : forall s i m rest, chans (body n svc s i m rest) = rest.
  Proof.
    intros. destruct m as [x| |[]]; cbn [body]; try (rewrite chans_loop; reflexivity).
    destruct (svc (fst_ s) x) as [f [y| | |[]|]]; try (rewrite chans_loop); reflexivity.
  Qed.

  (** A poll that sees what is there consumes a message. *)
  Lemma poll_consumes : forall s s', inv s -> step n svc s (Poll true) = Some s' -> S (pending s') = pending s.
  Proof.
    intros s s' (parts & l & C & I) H. cbn [step] in H. destruct (stop s); [discriminate|].
    destruct (select n n (nextr s) (offline s)) as [i|] eqn:Es; [|discriminate].
    apply select_sound in Es. destruct Es as [Hi Ho]. apply nth_off in Ho; auto; [|apply C].
    destruct (nth i (chans s) []) as [|m q] eqn:Ec.
    - exfalso. destruct (get_all _ parts i (co_pt _ _ _ _ _ C) Hi) as (p & Ep).
      destruct (get_all _ ks i Lk Hi) as (k & Ek). destruct (get_all _ cs i Lc Hi) as (c0 & Ec0).
      destruct (get_all _ (chans s) i (co_ch _ _ _ _ _ C) Hi) as (c & Ecc).
      destruct (co_chan _ _ _ _ _ C i k c0 false c p Ek Ec0 Ho Ecc Ep) as [_ R].
      rewrite (nth_error_nth _ _ _ Ecc) in Ec. subst. inversion R.
    - injection H as <-. unfold pending. rewrite chans_body. eapply sum_upd.
      rewrite (nth_error_nth' (chans s) []) by (rewrite (co_ch _ _ _ _ _ C); auto). rewrite Ec. reflexivity.
  Qed.

  Lemma poll_blind : forall s s', step n svc s (Poll false) = Some s' -> chans s' = chans s.
  Proof.
    intros s s' H. cbn [step] in H. destruct (stop s); [discriminate|].
    destruct (select n n (nextr s) (offline s)); [|discriminate].
    destruct (nth n0 (chans s) []); injection H as <-; reflexivity.
  Qed.

  Definition seen (l : list act) : nat := length (filter (fun '(Poll v) => v) l).

  Lemma seen_bound : forall l s s', inv s -> exec (step n svc) s l = Some s' -> seen l + pending s' = pending s.
  Proof.
    induction l as [|[v] l IH]; intros s s' I H; cbn [exec] in H.
    - injection H as <-. reflexivity.
    - destruct (step n svc s (Poll v)) as [s1|] eqn:E; [|discriminate].
      pose proof (step_inv _ _ _ I E) as I1. apply IH in H; auto.
      destruct v.
      + apply poll_consumes in E; auto. unfold seen in *. cbn. lia.
      + apply poll_blind in E. unfold seen in *. cbn. unfold pending in *. rewrite E in H. lia.
  Qed.

  Lemma enabled : forall s v, inv s -> stop s = None -> one_family ks -> exists s', step n svc s (Poll v) = Some s'.
  Proof.
    intros s v I E F. destruct (running_online s I E F) as (j & Hj & Oj).
    cbn [step]. rewrite E. destruct (select n n (nextr s) (offline s)) as [i|] eqn:Es.
    - destruct v, (nth i (chans s) []); eauto.
    - exfalso. eapply select_complete; eauto.
  Qed.

  Lemma finishes : forall m s, inv s -> one_family ks -> pending s <= m ->
    exists l s', exec (step n svc) s l = Some s' /\ stop s' <> None.
  Proof.
    induction m as [|m IH]; intros s I F L; destruct (stop s) eqn:E.
    1,3: exists [], s; split; [reflexivity|congruence].
    - destruct (enabled s true I E F) as (s' & H). apply poll_consumes in H; auto. lia.
    - destruct (enabled s true I E F) as (s' & H). pose proof (poll_consumes _ _ I H).
      destruct (IH s') as (l & s2 & X & Y); auto; [eapply step_inv; eauto|lia|].
      exists (Poll true :: l), s2. cbn [exec]. rewrite H. auto.
  Qed.

  (** At the end every channel has been read up to its mark. *)
  Lemma stopped_all : forall s r, inv s -> stop s = Some r ->
    chans s = repeat [] n /\ exists l k, interleaving (map tasks_of cs) l /\ In k ks /\ r = final k /\
      out s = filtered svc f0 l ++ tail k /\ fst_ s = frun f0 l /\ one_family ks /\ neos s = 0 /\ neosnf s = 0.
  Proof.
    intros s r (parts & l & C & I) E. rewrite E in I. destruct I as (F & Fm & N1 & N2 & k & Hk & Hr & Ho).
    destruct C as [c1 c2 c3 c4 c5 c6].
    assert (Q : forall i c p c0, i < n -> nth_error (chans s) i = Some c -> nth_error parts i = Some p ->
              nth_error cs i = Some c0 -> c = [] /\ p = tasks_of c0).
    { intros i c p c0 Hi Ec Ep E0. destruct (get_all _ ks i Lk Hi) as (k1 & Ek).
      destruct (get_all _ (offline s) i c1 Hi) as (o & Eo).
      assert (o = true) by (rewrite Forall_forall in F; apply F; eapply nth_error_In; eauto). subst o.
      destruct (c6 i k1 c0 true c p Ek E0 Eo Ec Ep) as [X Y]. subst c. cbn in X. rewrite app_nil_r in X. auto. }
    split.
    - apply nth_error_ext_len. rewrite repeat_length; auto.
      intros i Hi. rewrite c2 in Hi. destruct (get_all _ (chans s) i c2 Hi) as (c & Ec).
      destruct (get_all _ parts i c3 Hi) as (p & Ep). destruct (get_all _ cs i Lc Hi) as (c0 & E0).
      destruct (Q i c p c0 Hi Ec Ep E0) as [-> _]. rewrite Ec. symmetry.
      rewrite (nth_error_nth' (repeat [] n) []) by (rewrite repeat_length; auto). rewrite nth_repeat. reflexivity.
    - exists l, k. assert (parts = map tasks_of cs).
      { apply nth_error_ext_len. rewrite map_length; lia.
        intros i Hi. rewrite c3 in Hi. destruct (get_all _ (chans s) i c2 Hi) as (c & Ec).
        destruct (get_all _ parts i c3 Hi) as (p & Ep). destruct (get_all _ cs i Lc Hi) as (c0 & E0).
        destruct (Q i c p c0 Hi Ec Ep E0) as [_ ->]. rewrite Ep. symmetry. apply map_nth_error; auto. }
      subst parts. repeat split; auto.
  Qed.

  (** At any time the output is that of an interleaving of initial parts of the channels. *)
  Lemma always_prefix : forall s, inv s ->
    exists parts l, interleaving parts l /\ Forall2 prefix parts (map tasks_of cs) /\
      exists t, out s = filtered svc f0 l ++ t /\ (stop s = None -> t = []).
  Proof.
    intros s (parts & l & C & I). exists parts, l. destruct C as [c1 c2 c3 c4 c5 c6]. split; auto. split.
    - apply Forall2_nth_len. rewrite map_length; lia.
      intros i p t Ep Et. assert (Hi : i < n) by (rewrite <- c3; apply nth_error_Some; congruence).
      destruct (get_all _ cs i Lc Hi) as (c0 & E0). destruct (get_all _ ks i Lk Hi) as (k & Ek).
      destruct (get_all _ (chans s) i c2 Hi) as (c & Ec). destruct (get_all _ (offline s) i c1 Hi) as (o & Eo).
      destruct (c6 i k c0 o c p Ek E0 Eo Ec Ep) as [X _].
      rewrite (map_nth_error _ _ _ E0) in Et. injection Et as <-. exists (tasks_of c). auto.
    - destruct (stop s).
      + destruct I as (_ & _ & _ & _ & k & _ & _ & Ho). exists (tail k). split; auto. discriminate.
      + destruct I as (Ho & _). exists []. rewrite app_nil_r. auto.
  Qed.
End P.

Lemma streams : forall A (n : nat) (ks : list mark) (cs : list (list (msg A))), length ks = n -> Forall2 stream ks cs ->
  length cs = n /\ (forall i k c, nth_error ks i = Some k -> nth_error cs i = Some c -> stream k c).
Proof.
  intros A n ks cs L F. split; [rewrite <- L; symmetry; eapply Forall2_len; eauto|].
  intros i k c K C. destruct (Forall2_nth _ _ _ _ _ _ _ F C) as (k' & K' & H). congruence.
Qed.

Lemma filtered_no_eos : forall A B St (svc : St -> A -> St * fres B) l f, ~ In OEos (filtered svc f l).
Proof.
  induction l as [|x l IH]; intros f; cbn; auto. destruct (svc f x) as [f' []]; auto.
  intros [H|H]; [discriminate|]. eapply IH; eauto.
Qed.

(** With marks of both families the node gets stuck. *)
Lemma gets_stuck : forall A B St n (svc : St -> A -> St * fres B) ks cs f0, 0 < n -> length ks = n ->
  length cs = n -> (forall i k c, nth_error ks i = Some k -> nth_error cs i = Some c -> stream k c) -> stays svc ->
  ~ one_family ks -> forall m (s : gst A B St), inv n svc ks cs f0 s -> pending s <= m ->
  exists l s', exec (step n svc) s l = Some s' /\ stop s' = None /\ forall v, step n svc s' (Poll v) = None.
Proof.
  intros A B St n svc ks cs f0 Hn Lk Lc Hst Hstay Hmix.
  assert (Run : forall s, inv n svc ks cs f0 s -> stop s = None).
  { intros s (parts & l & C & I). destruct (stop s); auto. destruct I as (_ & F & _). contradiction. }
  induction m as [|m IH]; intros s I L.
  all: destruct (step n svc s (Poll true)) as [s'|] eqn:E.
  - pose proof (poll_consumes n svc Hn ks cs f0 Lk Lc s s' I E). lia.
  - exists [], s. split; [reflexivity|]. split; auto. intros [|]; auto.
    cbn [step] in *. rewrite (Run s I) in *. destruct (select n n (nextr s) (offline s)) as [i|]; auto.
    destruct (nth i (chans s) []); discriminate.
  - pose proof (poll_consumes n svc Hn ks cs f0 Lk Lc s s' I E).
    destruct (IH s') as (l & s2 & X & Y & W); [eapply step_inv; eauto|lia|].
    exists (Poll true :: l), s2. cbn [exec]. rewrite E. auto.
  - exists [], s. split; [reflexivity|]. split; auto. intros [|]; auto.
    cbn [step] in *. rewrite (Run s I) in *. destruct (select n n (nextr s) (offline s)) as [i|]; auto.
    destruct (nth i (chans s) []); discriminate.
Qed.
