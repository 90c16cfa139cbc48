(** Proofs about the queue of FfqModel. *)
From Coq Require Import List Arith Bool Lia.
From Verif Require Import Base FfqModel FfqSpec.
Import ListNotations.

(** The logical content: what follows a position, up to the tail. *)
Inductive kind := KMsg (l : list (option nat)) | KHop (g : nat).
Definition nxt (p : pos) (k : kind) : pos :=
  match k with KMsg l => (fst p, snd p + 1 + length l) | KHop g => (g, 0) end.
Fixpoint adv (p : pos) (ks : list kind) : pos := match ks with [] => p | k :: r => adv (nxt p k) r end.
Fixpoint poss (p : pos) (ks : list kind) : list pos := match ks with [] => [] | k :: r => nxt p k :: poss (nxt p k) r end.
Definition hops (ks : list kind) : list nat := flat_map (fun k => match k with KHop g => [g] | _ => [] end) ks.
Definition msgs (ks : list kind) : list (list (option nat)) := flat_map (fun k => match k with KMsg l => [l] | _ => [] end) ks.

Lemma hops_app : forall a b, hops (a ++ b) = hops a ++ hops b. Proof. intros; apply flat_map_app. Qed.
Lemma msgs_app : forall a b, msgs (a ++ b) = msgs a ++ msgs b. Proof. intros; apply flat_map_app. Qed.
Lemma adv_app : forall a p b, adv p (a ++ b) = adv (adv p a) b.
Proof. induction a; intros; cbn [app adv]; auto. Qed.
Lemma poss_app : forall a p b, poss p (a ++ b) = poss p a ++ poss (adv p a) b.
Proof. induction a; intros; cbn [app poss adv]; [reflexivity|]. rewrite IHa. reflexivity. Qed.

Lemma get_set_eq : forall m p w, get (set m p w) p = w.
Proof. intros. unfold get, set. now rewrite !fupd_eq. Qed.
Lemma get_set_neq : forall m p q w, q <> p -> get (set m p w) q = get m q.
Proof.
  intros m [g o] [g' o'] w N. unfold get, set. cbn [fst snd].
  destruct (Nat.eq_dec g' g) as [->|]; [|now rewrite fupd_neq by assumption].
  rewrite fupd_eq. apply fupd_neq. congruence.
Qed.

(** The position after [ks] is in one of its buckets; in the first one it is not before the start. *)
Lemma adv_in : forall ks p, In (fst (adv p ks)) (fst p :: hops ks).
Proof.
  induction ks as [|k ks IH]; intros p; [left; reflexivity|]. cbn [adv]. specialize (IH (nxt p k)).
  destruct k as [l|g]; cbn [nxt fst] in IH; cbn [hops flat_map app]; [exact IH|right; exact IH].
Qed.
Lemma adv_ge : forall ks p, NoDup (fst p :: hops ks) -> fst (adv p ks) = fst p -> snd p <= snd (adv p ks).
Proof.
  induction ks as [|k ks IH]; intros p ND E; [cbn; lia|]. cbn [adv] in *. destruct k as [l|g].
  - specialize (IH (nxt p (KMsg l)) ND E). cbn [nxt snd] in IH. cbn [nxt]. lia.
  - exfalso. pose proof (adv_in ks (g, 0)) as X. cbn [nxt] in E. rewrite E in X. cbn [fst] in X.
    inversion ND; subst. contradiction.
Qed.

(** The memory shows the first [n] entries, and the end after them. *)
Definition payload (m : memory) (p : pos) (l : list (option nat)) : Prop :=
  forall i v, nth_error l i = Some (Some v) -> get m (fst p, snd p + 1 + i) = Data v.
Fixpoint agree (m : memory) (p : pos) (ks : list kind) (n : nat) {struct n} : Prop :=
  match n, ks with
  | 0, _ => get m p = One
  | S n', KMsg l :: ks' => get m p = Ptr (nxt p (KMsg l)) /\ payload m p l /\ agree m (nxt p (KMsg l)) ks' n'
  | S n', KHop g :: ks' => get m p = Link g /\ agree m (nxt p (KHop g)) ks' n'
  | S _, [] => False
  end.
Lemma agree_app : forall n m p ks x, agree m p ks n -> agree m p (ks ++ x) n.
Proof.
  induction n as [|n IH]; intros m p ks x H; [exact H|]. destruct ks as [|[l|g] ks]; cbn [agree app] in *.
  - contradiction.
  - destruct H as (A & Q & H). auto.
  - destruct H as (A & H). auto.
Qed.
Lemma agree_ext : forall n m m' p ks, (forall q, In (fst q) (fst p :: hops ks) -> get m' q = get m q) ->
  agree m p ks n -> agree m' p ks n.
Proof.
  induction n as [|n IH]; intros m m' p ks X H; cbn [agree] in *; [rewrite X by (left; reflexivity); exact H|].
  destruct ks as [|[l|g] ks]; [contradiction| |]; cbn [hops flat_map app] in X.
  - destruct H as (A & Q & H). split; [rewrite X by (left; reflexivity); exact A|]. split.
    + intros i v E. rewrite X by (left; reflexivity). exact (Q i v E).
    + apply (IH m); auto.
  - destruct H as (A & H). split; [rewrite X by (left; reflexivity); exact A|].
    apply (IH m); auto. intros q I. apply X. right. exact I.
Qed.

(** A store out of the way. *)
Definition free (q : pos) (p : pos) (ks : list kind) : Prop :=
  In (fst q) (fst p :: hops ks) -> fst q = fst (adv p ks) /\ snd (adv p ks) < snd q.
Lemma agree_set : forall n m p ks q w, NoDup (fst p :: hops ks) -> free q p ks ->
  agree m p ks n -> agree (set m q w) p ks n.
Proof.
  induction n as [|n IH]; intros m p ks q w ND F H; cbn [agree] in *.
  - rewrite get_set_neq; [exact H|]. intros ->. destruct F as [A D]; [left; reflexivity|].
    pose proof (adv_ge ks q ND (eq_sym A)). lia.
  - destruct ks as [|[l|g] ks]; [contradiction| |]; cbn [hops flat_map app] in ND.
    + destruct H as (A & Q & H).
      assert (G : forall o, snd p <= o < snd p + 1 + length l -> (fst p, o) <> q).
      { intros o O <-. destruct F as [X D]; [left; reflexivity|]. cbn [fst snd adv] in X, D.
        pose proof (adv_ge ks (nxt p (KMsg l)) ND (eq_sym X)) as Y. cbn [nxt snd] in Y, D. lia. }
      split; [|split].
      * rewrite get_set_neq; [exact A|]. destruct p as [a o]. apply G. cbn [snd]. lia.
      * intros i v E. rewrite get_set_neq; [exact (Q i v E)|]. apply G.
        assert (i < length l) by (apply nth_error_Some; congruence). lia.
      * apply IH; auto.
    + destruct H as (A & H). split.
      * rewrite get_set_neq; [exact A|]. intros ->. destruct F as [X D]; [left; reflexivity|]. cbn [adv nxt] in X.
        pose proof (adv_in ks (g, 0)) as Y. rewrite <- X in Y. inversion ND; subst. contradiction.
      * inversion ND; subst. apply IH; auto. intros I. apply F. right. exact I.
Qed.

(** The store that publishes one more entry. *)
Definition pubword (t : pos) (k : kind) : word := match k with KMsg l => Ptr (nxt t k) | KHop g => Link g end.
Definition ready (m : memory) (t : pos) (k : kind) : Prop :=
  get m (nxt t k) = One /\ nxt t k <> t /\ match k with KMsg l => payload m t l | KHop _ => True end.
Lemma agree_pub : forall ks m p k, NoDup (fst p :: hops ks) -> ready m (adv p ks) k ->
  agree m p ks (length ks) -> agree (set m (adv p ks) (pubword (adv p ks) k)) p (ks ++ [k]) (length (ks ++ [k])).
Proof.
  induction ks as [|x ks IH]; intros m p k ND (R1 & R2 & R3) H.
  - cbn [adv app length agree] in *. destruct k as [l|g]; cbn [pubword].
    + split; [apply get_set_eq|]. split.
      * intros i v E. rewrite get_set_neq; [exact (R3 i v E)|]. destruct p as [a o]. cbn [fst snd]. injection 1. lia.
      * rewrite get_set_neq; assumption.
    + split; [apply get_set_eq|]. rewrite get_set_neq; assumption.
  - cbn [app length adv]. cbn [length] in H. set (t := adv (nxt p x) ks) in *.
    destruct x as [l|g]; cbn [agree] in *; cbn [hops flat_map app] in ND.
    + destruct H as (A & Q & H).
      assert (G : forall o, snd p <= o < snd p + 1 + length l -> (fst p, o) <> t).
      { intros o O E. pose proof (adv_ge ks (nxt p (KMsg l)) ND) as Y. fold t in Y. rewrite <- E in Y.
        specialize (Y eq_refl). cbn [nxt snd] in Y. lia. }
      split; [|split].
      * rewrite get_set_neq; [exact A|]. destruct p as [a o]. apply G. cbn [snd]. lia.
      * intros i v E. rewrite get_set_neq; [exact (Q i v E)|]. apply G.
        assert (i < length l) by (apply nth_error_Some; congruence). lia.
      * apply IH; [exact ND|exact (conj R1 (conj R2 R3))|exact H].
    + destruct H as (A & H). inversion ND as [|? ? N1 N2]; subst. split.
      * rewrite get_set_neq; [exact A|]. intros E. pose proof (adv_in ks (nxt p (KHop g))) as Y. fold t in Y.
        rewrite <- E in Y. cbn [nxt fst] in Y. contradiction.
      * apply IH; [exact N2|exact (conj R1 (conj R2 R3))|exact H].
Qed.

(** Every version of the memory, from now until the store buffer is empty. *)
Fixpoint ok (m : memory) (b : list (pos * word)) (p : pos) (ks : list kind) (k : nat) : Prop :=
  agree m p ks k /\
  match b with
  | [] => k = length ks
  | (q, w) :: b' =>
      match w with
      | Ptr _ => exists l, nth_error ks k = Some (KMsg l) /\ ok (set m q w) b' p ks (S k)
      | Link _ => exists g, nth_error ks k = Some (KHop g) /\ ok (set m q w) b' p ks (S k)
      | _ => ok (set m q w) b' p ks k
      end
  end.
Definition fin (m : memory) (b : list (pos * word)) : memory := fold_left (fun m x => set m (fst x) (snd x)) b m.
Lemma fin_snoc : forall b m q w, fin m (b ++ [(q, w)]) = set (fin m b) q w.
Proof. intros. unfold fin. rewrite fold_left_app. reflexivity. Qed.

Lemma ok_agree : forall b m p ks k, ok m b p ks k -> agree m p ks k.
Proof. intros [|[q w] b] m p ks k H; exact (proj1 H). Qed.
Lemma ok_fin : forall b m p ks k, ok m b p ks k -> agree (fin m b) p ks (length ks).
Proof.
  induction b as [|[q w] b IH]; intros m p ks k [A H]; [subst k; exact A|].
  change (fin m ((q, w) :: b)) with (fin (set m q w) b).
  destruct w; [|  |destruct H as (? & _ & H)|destruct H as (? & _ & H)]; eauto.
Qed.
Lemma ok_drop : forall b m p x ks k, ok m b p (x :: ks) (S k) -> ok m b (nxt p x) ks k.
Proof.
  induction b as [|[q w] b IH]; intros m p x ks k [A H]; cbn [ok];
    (split; [destruct x; cbn [agree] in A; tauto|]).
  - cbn [length] in H. lia.
  - cbn [nth_error] in H. destruct w; [| |destruct H as (l & E & H); exists l|destruct H as (l & E & H); exists l]; auto.
Qed.
Lemma ok_le : forall b m p ks k, ok m b p ks k -> k <= length ks.
Proof.
  induction b as [|[q w] b IH]; intros m p ks k [A H]; [lia|].
  destruct w; [eauto|eauto|destruct H as (l & E & H)|destruct H as (l & E & H)];
    apply IH in H; lia.
Qed.
Lemma ok_ext : forall b m m' p ks k, (forall q, In (fst q) (fst p :: hops ks) -> get m' q = get m q) ->
  ok m b p ks k -> ok m' b p ks k.
Proof.
  induction b as [|[q w] b IH]; intros m m' p ks k X [A H]; cbn [ok];
    (split; [exact (agree_ext k m m' p ks X A)|]); [exact H|].
  assert (Y : forall r, In (fst r) (fst p :: hops ks) -> get (set m' q w) r = get (set m q w) r).
  { intros r I. unfold get, set, fupd. specialize (X r I). unfold get in X.
    destruct (Nat.eqb_spec (fst r) (fst q)) as [E|E]; [|exact X].
    destruct (snd r =? snd q); [reflexivity|]. rewrite <- E. exact X. }
  destruct w; [| |destruct H as (l & E & H); exists l|destruct H as (l & E & H); exists l];
    try split; try exact E; eauto.
Qed.
Definition silent (w : word) : Prop := match w with Data _ | One => True | _ => False end.
Lemma ok_silent : forall b m p ks k q w, silent w -> NoDup (fst p :: hops ks) -> free q p ks ->
  ok m b p ks k -> ok m (b ++ [(q, w)]) p ks k.
Proof.
  induction b as [|[q' w'] b IH]; intros m p ks k q w S ND F [A H]; cbn [ok app]; (split; [exact A|]).
  - assert (G : agree (set m q w) p ks k) by (apply agree_set; assumption).
    destruct w; try contradiction S; (split; [exact G|exact H]).
  - destruct w'; [| |destruct H as (l & E & H); exists l|destruct H as (l & E & H); exists l]; auto.
Qed.
Lemma ok_pub : forall b m p ks k x, NoDup (fst p :: hops ks) -> ready (fin m b) (adv p ks) x ->
  ok m b p ks k -> ok m (b ++ [(adv p ks, pubword (adv p ks) x)]) p (ks ++ [x]) k.
Proof.
  induction b as [|[q' w'] b IH]; intros m p ks k x ND R [A H]; cbn [ok app];
    (split; [apply agree_app; exact A|]).
  - subst k. cbn [fin fold_left] in R.
    assert (G := agree_pub ks m p x ND R A). rewrite app_length in G. cbn [length] in G.
    replace (length ks + 1) with (S (length ks)) in G by lia.
    assert (N : nth_error (ks ++ [x]) (length ks) = Some x)
      by (rewrite nth_error_app2 by lia; rewrite Nat.sub_diag; reflexivity).
    destruct x as [l|g]; cbn [pubword] in *.
    + exists l. split; [exact N|]. split; [exact G|]. rewrite app_length. cbn. lia.
    + exists g. split; [exact N|]. split; [exact G|]. rewrite app_length. cbn. lia.
  - change (fin m ((q', w') :: b)) with (fin (set m q' w') b) in R.
    assert (W : forall y n, nth_error ks n = Some y -> nth_error (ks ++ [x]) n = Some y).
    { intros y n E. rewrite nth_error_app1; [exact E|]. apply nth_error_Some. congruence. }
    destruct w'; [| |destruct H as (l & E & H); exists l|destruct H as (l & E & H); exists l]; auto.
Qed.

(** All positions are inside their buckets. *)
Fixpoint fits (bz : nat -> nat) (p : pos) (ks : list kind) : Prop :=
  8 * (snd p + 1) <= bz (fst p) /\ match ks with [] => True | k :: r => fits bz (nxt p k) r end.
Lemma fits_ext : forall ks bz bz' p, (forall g, In g (fst p :: hops ks) -> bz' g = bz g) -> fits bz p ks -> fits bz' p ks.
Proof.
  induction ks as [|k ks IH]; intros bz bz' p X [A H]; cbn [fits]; (split; [rewrite X by (left; reflexivity); exact A|]); [exact Logic.I|].
  apply (IH bz); [|exact H]. intros g I. apply X. destruct k as [l|h]; cbn [nxt fst hops flat_map app] in *; [exact I|right; exact I].
Qed.
Lemma fits_snoc : forall ks bz p k, fits bz p ks -> 8 * (snd (nxt (adv p ks) k) + 1) <= bz (fst (nxt (adv p ks) k)) -> fits bz p (ks ++ [k]).
Proof.
  induction ks as [|x ks IH]; intros bz p k [A H] L; cbn [app fits adv] in *.
  - auto.
  - split; [exact A|]. apply IH; assumption.
Qed.
Lemma fits_adv : forall a bz p b, fits bz p (a ++ b) -> fits bz (adv p a) b.
Proof. induction a as [|x a IH]; intros bz p b H; [exact H|]. cbn [adv]. apply IH. exact (proj2 H). Qed.
Lemma fits_here : forall ks bz p, fits bz p ks -> 8 * (snd p + 1) <= bz (fst p).
Proof. destruct ks; intros ? ? H; exact (proj1 H). Qed.

(** The loop over the old buckets. *)
Lemma scan_ok : forall maxb h nd cnt hm ch fr pre post,
  map fst ch = pre ++ hm :: post -> NoDup (map fst ch) -> In (fst h) (pre ++ [hm]) ->
  (forall z, In (fst h, z) ch -> 8 * snd h < z) ->
  exists r ch' fr' popped pre', scan maxb h nd cnt ch fr = Some (r, ch', fr') /\
    ch = popped ++ ch' /\ map fst ch' = pre' ++ hm :: post /\
    (forall x, In x fr' -> In x fr \/ In x (map fst popped)) /\
    match r with Some g => (exists z, In (g, z) popped /\ nd <= z) /\ (~ In g fr -> ~ In g fr') | None => True end.
Proof.
  intros maxb h nd cnt hm ch. induction ch as [|b ch IH]; intros fr pre post E ND I Z.
  - destruct pre; discriminate.
  - cbn [scan]. destruct (outside h b) eqn:O.
    + assert (NB : fst b <> fst h).
      { intros X. unfold outside in O. rewrite X, Nat.eqb_refl in O. cbn [andb] in O.
        destruct (Nat.ltb_spec (8 * snd h) (snd b)) as [|L]; [discriminate|].
        specialize (Z (snd b)). rewrite <- X in Z. destruct b. specialize (Z (or_introl eq_refl)). cbn [fst snd] in *. lia. }
      destruct pre as [|b0 pre].
      { cbn [app] in I, E. injection E as E _. destruct I as [I|[]]. congruence. }
      cbn [map app] in E, ND. injection E as E0 E. subst b0. inversion ND as [|? ? N1 N2]; subst.
      assert (I' : In (fst h) (pre ++ [hm])) by (destruct I as [I|I]; [congruence|exact I]).
      destruct ch as [|b' ch]; [destruct pre; discriminate|].
      assert (Z' : forall z, In (fst h, z) (b' :: ch) -> 8 * snd h < z) by (intros z X; apply Z; right; exact X).
      destruct ((snd b <? nd) || ((maxb <? cnt) && outside h b')) eqn:T.
      * destruct (IH (fst b :: fr) pre post E N2 I' Z') as (r & ch' & fr' & popped & pre' & S & E1 & E2 & F & R).
        exists r, ch', fr', (b :: popped), pre'. split; [exact S|]. split; [cbn [app]; rewrite E1; reflexivity|].
        split; [exact E2|]. split.
        -- intros x X. destruct (F x X) as [[Y|Y]|Y]; [right; left; exact Y|left; exact Y|right; right; exact Y].
        -- destruct r as [g|]; [|exact Logic.I]. destruct R as [(z & Rz & Rl) R2]. split; [exists z; split; [right; exact Rz|exact Rl]|].
           intros NI X. apply R2 in X; [exact X|]. intros [Y|Y]; [|contradiction].
           apply N1. rewrite Y, E1, map_app. apply in_or_app. left.
           apply in_map_iff. exists (g, z). auto.
      * exists (Some (fst b)), (b' :: ch), fr, [b], pre. split; [reflexivity|]. split; [reflexivity|].
        split; [exact E|]. split; [intros x X; left; exact X|].
        apply orb_false_iff in T. destruct T as [T _]. apply Nat.ltb_ge in T.
        split; [|auto]. exists (snd b). split; [left; destruct b; reflexivity|exact T].
    + exists None, (b :: ch), fr, [], pre. split; [reflexivity|]. split; [reflexivity|]. split; [exact E|].
      split; [intros x X; left; exact X|exact Logic.I].
Qed.

(** Histories. *)
Lemma sent_snoc : forall tr e, sent (tr ++ [e]) = sent tr ++ match e with ECommit l => [l] | _ => [] end.
Proof. intros. unfold sent. rewrite flat_map_app. cbn [flat_map]. rewrite app_nil_r. reflexivity. Qed.
Lemma visible_snoc : forall tr e, visible (tr ++ [e]) = visible tr + match e with EVis => 1 | _ => 0 end.
Proof. intros. unfold visible. rewrite flat_map_app, app_length. cbn [flat_map]. rewrite app_nil_r. destruct e; reflexivity. Qed.
Lemma taken_snoc : forall tr e, taken (tr ++ [e]) = taken tr + match e with ETake => 1 | _ => 0 end.
Proof. intros. unfold taken. rewrite flat_map_app, app_length. cbn [flat_map]. rewrite app_nil_r. destruct e; reflexivity. Qed.
Lemma fifo_snoc : forall tr e, fifo tr -> allowed tr e -> fifo (tr ++ [e]).
Proof.
  intros tr e F A tr1 x tr2 E. destruct (exists_last (l := x :: tr2) ltac:(discriminate)) as (u & y & U).
  rewrite U, app_assoc in E. apply app_inj_tail in E. destruct E as [E ->].
  destruct u as [|z u]; cbn [app] in U; injection U as -> U.
  - subst. rewrite app_nil_r in *. exact A.
  - subst. apply (F tr1 z u). reflexivity.
Qed.
