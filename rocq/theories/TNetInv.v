(** The network on TSO: the relation with the network of NetModel, and its preservation. *)
From Coq Require Import List Arith Lia Bool Permutation.
From Verif Require Import Base NetModel NetSpec NetProofs TNetModel TNetChan TNetProofs.
Import ListNotations.

Section Inv.
  Context {X St : Type}.
  Variable N : net X St.
  Variable o0 : nat -> X.
  Hypothesis HC : forall c k b, chan_of N c = Some k -> cap k = Some b -> 1 <= b.
  Hypothesis HS : forall c k, chan_of N c = Some k -> src k <> dst k.
  Notation tst := (tst X St).
  Notation st := (st X St).

  (** Pointers pushed on each channel, pops, clears and pushes that reached memory; contents. *)
  Record gh := mkG { ha : nat -> list (msg nat); ta : nat -> nat; ka : nat -> nat; kb : nat -> nat; cur : nat -> X }.

  Definition tail (g : gh) (c : nat) : list (msg nat) := skipn (ta g c) (ha g c).
  Definition holder (o : owner) : option nat :=
    match o with Free => None | Own v => Some v | InCh c => option_map src (chan_of N c) end.
  Definition nmap (f : nat -> X) (n : node nat St) : node X St :=
    mkNode (ust n) (map (map (rmap f)) (pend n)) (ended n) (ph n).
  Definition keys (l : list (store X)) : list nat := map fst (objs l).

  Definition reading (g : gh) (v c : nat) (n : node nat St) : Prop :=
    v < nodes N /\ ph n = Running /\ pend n = [] /\ memb c (ins N v) = true /\ memb c (ended n) = false /\
    ta g c < kb g c.

  Definition nrel (g : gh) (o : nat -> owner) (v : nat) (p : pc) (n : node nat St) (n' : node X St) : Prop :=
    (forall a, In a (sent (pend n)) -> o a = Own v) /\ NoDup (sent (pend n)) /\
    match p with
    | Boot => n' = init_node N v /\ n = mkNode (start N v) [] [] Running
    | Idle => v < nodes N /\ n' = nmap (cur g) n
    | Seen c => n' = nmap (cur g) n /\ reading g v c n
    | Got c p => n' = nmap (cur g) n /\ reading g v c n /\ nth_error (ha g c) (ta g c) = Some p
    | Use c p => v < nodes N /\ n' = react N v (nmap (cur g) n) c (mmap (cur g) p) /\ ph n = Running /\ pend n = [] /\
        (forall a, p = Item a -> o a = Own v)
    | Avail k j => v < nodes N /\ n' = nmap (cur g) n /\
        exists gr P r c p kk, pend n = gr :: P /\ nth_error gr k = Some r /\ tresolve N v r j = Some (c, p) /\
          chan_of N c = Some kk /\ src kk = v /\ bounded (cap kk) (S (length (ha g c)) - ka g c)
    end.

  Record rel (s : tst) (t : st) (g : gh) : Prop := {
    r_bad : bad s = false;
    r_ck : forall c k, chan_of N c = Some k ->
      ck (cap k) (ha g c) (ta g c) (ka g c) (kb g c) (mem s c) (slots c (sb s (src k))) (slots c (sb s (dst k))) (pw s c) (pr s c);
    r_q : forall c k, chan_of N c = Some k -> q t c = map (mmap (cur g)) (tail g c);
    r_sb : forall c w, slots c (sb s w) <> [] -> exists k, chan_of N c = Some k /\ (w = src k \/ w = dst k);
    r_in : forall c k a, chan_of N c = Some k -> In (Item a) (tail g c) -> own s a = InCh c;
    r_nd : forall c k, chan_of N c = Some k -> NoDup (items (tail g c));
    r_obj : forall a w, In a (keys (sb s w)) -> holder (own s a) = Some w;
    r_view : forall a w, holder (own s a) = Some w -> view s w a = cur g a;
    r_ord : forall w, ord (sb s w);
    r_com : forall c k j a w, chan_of N c = Some k -> ta g c <= j < kb g c -> nth_error (ha g c) j = Some (Item a) ->
      ~ In a (keys (sb s w));
    r_node : forall v, nrel g (own s) v (pcs s v) (cn s v) (nd t v);
    r_fin : exists m, forall a, m <= a -> own s a = Free;
    r_hl : forall v, hl t v = got s v ++ match pcs s v with Use c p => [(c, mmap (cur g) p)] | _ => [] end;
    r_hp : forall v, hp t v = put s v }.

  Definition g0 : gh := mkG (fun _ => []) (fun _ => 0) (fun _ => 0) (fun _ => 0) o0.

  Lemma rel_init : rel (tinit N o0) (init_st N) g0.
  Proof using HC.
    constructor; simpl; auto; try discriminate; try contradiction.
    - intros c k K. apply ck_init. intros b B. eapply HC; eauto.
    - intros. constructor.
    - intros v. split; [intros ? [] |]. split; [constructor |]. auto.
    - exists 0. auto.
  Qed.

  (** The part of the relation about one thread depends only on what belongs to it. *)
  Lemma nrel_frame : forall g g' o o' v p n n', nrel g o v p n n' ->
    (forall a, o a = Own v -> o' a = Own v /\ cur g' a = cur g a) ->
    (forall c, In c (outs N v) -> ha g' c = ha g c) ->
    (forall c, In c (ins N v) -> ta g' c = ta g c) ->
    (forall c, exists x, ha g' c = ha g c ++ x) ->
    (forall c, ka g c <= ka g' c) -> (forall c, kb g c <= kb g' c) -> nrel g' o' v p n n'.
  Proof.
    intros g g' o o' v p n n' (A & B & C) F1 F2 F3 F4 F5 F6. unfold nrel.
    split; [intros a Ha; apply F1; auto |]. split; [auto |].
    assert (E : nmap (cur g') n = nmap (cur g) n).
    { unfold nmap. f_equal. clear - A F1. assert (H : forall a, In a (sent (pend n)) -> cur g' a = cur g a) by (intros; apply F1; auto).
      clear A F1. unfold sent in H. induction (pend n) as [| gr P IH]; simpl; auto. f_equal.
      - assert (H1 : forall a, In a (flat_map item_of gr) -> cur g' a = cur g a) by (intros; apply H; simpl; apply in_or_app; auto).
        clear H IH. induction gr as [| r gr IH]; simpl; auto. f_equal.
        + assert (H2 : forall a, In a (item_of r) -> cur g' a = cur g a) by (intros; apply H1; simpl; apply in_or_app; auto).
          destruct r as [j [x |] | x]; simpl in *; auto; rewrite H2; auto.
        + apply IH. intros. apply H1. simpl. apply in_or_app. auto.
      - apply IH. intros. apply H. simpl. apply in_or_app. auto. }
    assert (R : forall c, reading g v c n -> reading g' v c n /\ ta g' c = ta g c).
    { intros c (R1 & R2 & R3 & R4 & R5 & R6). assert (TA : ta g' c = ta g c) by (apply F3, memb_In; auto).
      split; auto. unfold reading. rewrite TA. specialize (F6 c). repeat (split; [assumption |]). lia. }
    destruct p as [| | c | c p | c p | k j]; rewrite ?E; auto.
    - destruct C as [C1 C2]. split; auto. apply R; auto.
    - destruct C as (C1 & C2 & C3). destruct (R c C2) as [R1 R2]. split; [auto |]. split; [auto |].
      rewrite R2. destruct (F4 c) as [x ->]. rewrite nth_error_app1; auto. eapply nth_error_lt; eauto.
    - destruct C as (C1 & C2 & C3 & C4 & C5). split; [auto |]. split.
      + subst n'. f_equal. destruct p as [a |]; simpl; auto. f_equal. symmetry. apply F1. auto.
      + split; [auto |]. split; [auto |]. intros a Ha. apply F1. auto.
    - destruct C as (C1 & C2 & gr & P & r & c & p & kk & D1 & D2 & D3 & D4 & D5 & D6). split; [auto |]. split; [auto |].
      exists gr, P, r, c, p, kk. repeat (split; [assumption |]). rewrite F2 by (apply in_outs; eauto). specialize (F5 c).
      unfold bounded in *. destruct (cap kk); auto. lia.
  Qed.

  (** A buffered pointer is in the channel. *)
  Lemma buffered_in : forall s t g c i p w, rel s t g -> In (SSlot c i (Some p)) (sb s w) ->
    exists k, chan_of N c = Some k /\ w = src k /\ In p (tail g c).
  Proof using HS.
    intros s t g c i p w R H. apply in_slots in H.
    destruct (r_sb _ _ _ R c w) as (k & K & W); [intros E; rewrite E in H; destruct H |].
    exists k. split; auto. pose proof (r_ck _ _ _ R c k K) as C. destruct W as [-> | ->].
    - split; auto. rewrite (ck_sp _ _ _ _ _ _ _ _ _ _ C) in H. apply in_map_iff in H as (j & E & Hj). apply in_seq in Hj.
      injection E as _ E. pose proof (ck_le2 _ _ _ _ _ _ _ _ _ _ C). unfold tail.
      rewrite <- (firstn_skipn (ta g c) (ha g c)) in E. rewrite nth_error_app2 in E by (rewrite firstn_length; lia).
      eapply nth_error_In; eauto.
    - rewrite (ck_sc _ _ _ _ _ _ _ _ _ _ C) in H. apply in_map_iff in H as (j & E & Hj). discriminate.
  Qed.

  (** A step that changes only the position of a thread in its code. *)
  Lemma rel_pc : forall s t g v p, rel s t g ->
    (forall c m, pcs s v <> Use c m) -> (forall c m, p <> Use c m) ->
    nrel g (own s) v p (cn s v) (nd t v) -> rel (setpc s v p) t g.
  Proof.
    intros s t g v p R U1 U2 H. destruct R. constructor; auto; cbn [setpc pcs own cn got put].
    - intros w. destruct (Nat.eq_dec w v) as [-> | Nw]; [rewrite fupd_eq; auto | rewrite fupd_neq by auto; auto].
    - intros w. destruct (Nat.eq_dec w v) as [-> | Nw]; [rewrite fupd_eq | rewrite fupd_neq by auto; auto].
      rewrite r_hl0. destruct (pcs s v); try (exfalso; eapply U1; eauto; fail); destruct p; auto; exfalso; eapply U2; eauto.
  Qed.

  Lemma skipn_nth : forall T (l : list T) n x, nth_error l n = Some x -> skipn n l = x :: skipn (S n) l.
  Proof. induction l; intros [| n] x H; simpl in *; try discriminate; [injection H as <-; auto | auto]. Qed.

  Lemma see_c : forall s t g c k v, rel s t g -> chan_of N c = Some k -> dst k = v ->
    see s v c (pr s c) = if ta g c <? kb g c then nth_error (ha g c) (ta g c) else None.
  Proof using HC.
    intros s t g c k v R K <-. unfold see. eapply ck_read_c; [intros b B; eapply HC; eauto | apply (r_ck _ _ _ R c k K)].
  Qed.

  Lemma sim_test : forall s t g v c s', rel s t g -> tstep N s (TTest v c) = Some s' -> rel s' t g.
  Proof using HC.
    intros s t g v c s' R E. cbn [tstep] in E. destruct (pcs s v) eqn:P; try discriminate.
    destruct (ph (cn s v)) eqn:PH; try discriminate. destruct (pend (cn s v)) eqn:PE; try discriminate.
    destruct (v <? nodes N) eqn:V; [| discriminate]. destruct (memb c (ins N v)) eqn:MI; [| discriminate].
    destruct (memb c (ended (cn s v))) eqn:ME; [discriminate |]. cbn [andb negb] in E.
    pose proof MI as MI'. apply memb_In, in_ins in MI' as (k & K & D).
    rewrite (see_c s t g c k v R K D) in E. destruct (Nat.ltb_spec (ta g c) (kb g c)) as [L | L]; [| discriminate].
    destruct (nth_error (ha g c) (ta g c)) eqn:NE; [| discriminate]. injection E as <-.
    apply rel_pc; auto; [congruence | discriminate |]. destruct (r_node _ _ _ R v) as (A & B & C). rewrite P in C.
    split; [auto |]. split; [auto |]. destruct C as [C1 C2]. split; auto. unfold reading. auto 10.
  Qed.

  Lemma sim_read : forall s t g v s', rel s t g -> tstep N s (TRead v) = Some s' -> rel s' t g.
  Proof using HC.
    intros s t g v s' R E. cbn [tstep] in E. destruct (pcs s v) eqn:P; try discriminate.
    destruct (r_node _ _ _ R v) as (A & B & C). rewrite P in C. destruct C as (C1 & C2).
    pose proof C2 as (D1 & D2 & D3 & D4 & D5 & D6).
    apply memb_In, in_ins in D4 as (k & K & D). rewrite (see_c s t g c k v R K D) in E.
    destruct (Nat.ltb_spec (ta g c) (kb g c)) as [L | L]; [| lia].
    pose proof (r_ck _ _ _ R c k K) as CK. pose proof (ck_le3 _ _ _ _ _ _ _ _ _ _ CK).
    destruct (nth_error (ha g c) (ta g c)) eqn:NE; [| apply nth_error_None in NE; lia]. injection E as <-.
    apply rel_pc; auto; [congruence | discriminate |]. split; [auto |]. split; [auto |]. auto.
  Qed.

  Lemma tresolve_out : forall v r j c p, tresolve N v r j = Some (c, p) ->
    exists k, chan_of N c = Some k /\ src k = v.
  Proof.
    intros v [i m | a] j c p H; simpl in H.
    - destruct (nth_error (outs N v) i) eqn:E; [| discriminate]. injection H as -> _. apply in_outs. eapply nth_error_In; eauto.
    - destruct (nth_error (outs N v) j) eqn:E; [| discriminate]. injection H as -> _. apply in_outs. eapply nth_error_In; eauto.
  Qed.

  Lemma sim_chk : forall s t g v k j s', rel s t g -> tstep N s (TChk v k j) = Some s' -> rel s' t g.
  Proof using HC.
    intros s t g v k j s' R E. cbn [tstep] in E. destruct (pcs s v) eqn:P; try discriminate.
    destruct (pend (cn s v)) as [| gr Q] eqn:PE; try discriminate. destruct (nth_error gr k) as [r |] eqn:NE; try discriminate.
    destruct (tresolve N v r j) as [[c p] |] eqn:TR; try discriminate. destruct (Nat.ltb_spec v (nodes N)) as [V | V]; [| discriminate].
    destruct (see s v c (pw s c)) eqn:SE; [discriminate |]. injection E as <-.
    destruct (tresolve_out _ _ _ _ _ TR) as (kk & K & S).
    apply rel_pc; auto; [congruence | discriminate |]. destruct (r_node _ _ _ R v) as (A & B & C). rewrite P in C.
    split; [auto |]. split; [auto |]. split; [auto |]. split; [apply C |]. exists gr, Q, r, c, p, kk.
    repeat (split; [assumption |]). unfold see in SE. subst v.
    eapply ck_read_p; [intros b Hb; eapply HC; eauto | apply (r_ck _ _ _ R c kk K) | exact SE].
  Qed.
End Inv.
