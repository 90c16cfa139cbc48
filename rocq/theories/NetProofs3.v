(** Networks: what is pushed is what the user's code asks for; executions of acyclic networks are
    finite. *)
From Coq Require Import List Arith Bool Lia Permutation.
From Verif Require Import Base NetModel NetSpec NetProofs NetProofs2.
Import ListNotations.

(** ** Lexicographic order on finite sequences of pairs. *)
Definition plt (a b : nat * nat) : Prop := fst a < fst b \/ (fst a = fst b /\ snd a < snd b).
Lemma plt_wf : well_founded plt.
Proof.
  assert (H : forall x y, Acc plt (x, y)).
  { induction x as [x IHx] using lt_wf_ind. induction y as [y IHy] using lt_wf_ind.
    constructor. intros [a b] [L|[E L]]; simpl in *; [auto|subst; auto]. }
  intros [x y]. auto.
Qed.

Definition lexlt (M : nat) (f g : nat -> nat * nat) : Prop :=
  exists i, i < M /\ plt (f i) (g i) /\ forall j, j < i -> f j = g j.
Lemma lexlt_wf : forall M, well_founded (lexlt M).
Proof.
  induction M as [|M IH].
  - intros f. constructor. intros g (i & H & _). lia.
  - assert (H : forall f, forall f', (forall j, j < M -> f' j = f j) -> Acc (lexlt (S M)) f').
    { intros f. induction (IH f) as [f _ IHf]. 
      assert (G : forall x, forall f', (forall j, j < M -> f' j = f j) -> f' M = x -> Acc (lexlt (S M)) f').
      { intros x. induction (plt_wf x) as [x _ IHx]. intros f' EF EX. constructor. intros g (i & Hi & L & E).
        destruct (Nat.eq_dec i M) as [->|NI].
        - apply (IHx (g M)); [rewrite <- EX; auto| |auto]. intros j Hj. rewrite E by auto. auto.
        - apply (IHf g); [|auto]. exists i. split; [lia|]. split; [rewrite <- EF by lia; auto|].
          intros j Hj. rewrite E by auto. apply EF. lia. }
      intros f' EF. eapply G; eauto. }
    intros f. apply (H f). auto.
Qed.

Section Proofs.
  Context {X St : Type}.
  Variable N : net X St.
  Notation st := (st X St).
  Notation inv := (inv N).

  (** ** The pushes carry out the requests. *)
  Lemma asked_resolvable : forall (W : wf N) s v g r, v < nodes N -> In g (asked N s v) -> In r g -> exists cm, resolves N v r cm.
  Proof.
    intros W s v g r Hv Ha Hb.
    destruct (asked_split N W s v Hv) as (U & E & EU & OU & CE). rewrite EU in Ha. apply in_app_or in Ha as [Ha|Ha].
    - unfold ok_groups in OU. rewrite Forall_forall in OU. specialize (OU _ Ha). rewrite Forall_forall in OU.
      specialize (OU _ Hb). destruct r as [j [x|]|x]; simpl in OU |- *.
      + apply nth_error_Some in OU. destruct (nth_error (outs N v) j) as [c|] eqn:EN; [|congruence].
        exists (c, Item x). auto.
      + tauto.
      + destruct (outs N v) as [|c l] eqn:EO; [congruence|]. exists (c, Item x). simpl. auto.
    - destruct CE as [->| ->]; [destruct Ha|]. destruct Ha as [<-|[]]. unfold eos_group in Hb.
      apply in_map_iff in Hb as (j & <- & Hj). apply in_seq in Hj as [_ Hj]. simpl in Hj.
      apply nth_error_Some in Hj. destruct (nth_error (outs N v) j) as [c|] eqn:EN; [|congruence].
      exists (c, Eos). simpl. auto.
  Qed.

  Lemma forall2_exists : forall v (l : list (req X)), (forall r, In r l -> exists cm, resolves N v r cm) ->
    exists p, Forall2 (resolves N v) l p.
  Proof.
    induction l as [|r l IH]; intros H.
    - exists []. constructor.
    - destruct (H r (or_introl eq_refl)) as (cm & Hc). destruct IH as (p & F); [intros; apply H; right; auto|].
      exists (cm :: p). constructor; auto.
  Qed.
  Lemma realizes_exists : forall v G, (forall g r, In g G -> In r g -> exists cm, resolves N v r cm) ->
    exists P, realizes N v G P.
  Proof.
    induction G as [|g G IH]; intros H.
    - exists []. constructor.
    - destruct IH as (P & R); [intros; eapply H; eauto; right; auto|].
      destruct (forall2_exists v g) as (p & F); [intros; eapply H; eauto; left; auto|].
      exists (p ++ P). econstructor; eauto.
  Qed.

  Lemma pushes_asked : forall (W : wf N) s v, inv s -> v < nodes N -> exists rest,
    realizes N v (asked N s v) (hp s v ++ rest) /\ (pend (nd s v) = [] -> rest = []).
  Proof.
    intros W s v I Hv. pose proof (i_prog _ _ I v) as PR. destruct (pend (nd s v)) as [|g B] eqn:EP; simpl in PR.
    - exists []. rewrite app_nil_r. auto.
    - destruct PR as (D & b0 & ps & P1 & p2 & EA & PB & EH & RD & F).
      pose proof (fun g r => asked_resolvable W s v g r Hv) as AR. rewrite EA in AR.
      destruct (forall2_exists v g) as (pg & FG).
      { intros r Hr. apply (AR b0); [apply in_or_app; right; left; auto|]. rewrite PB. apply in_or_app. auto. }
      destruct (realizes_exists v B) as (PB' & RB).
      { intros g0 r H1 H2. apply (AR g0); auto. apply in_or_app. right. right. auto. }
      exists (pg ++ PB'). split; [|discriminate]. rewrite EA, EH, <- app_assoc, (app_assoc p2).
      apply realizes_app; auto. econstructor; eauto. apply Forall2_app; auto.
  Qed.

  (** ** Executions of acyclic networks are finite. *)
  Definition inq (s : st) (v : nat) : nat := list_sum (map (fun c => length (q s c)) (ins N v)).
  Definition work (s : st) (v : nat) : nat :=
    list_sum (map (fun g => S (length g)) (pend (nd s v))) + match ph (nd s v) with Done => 0 | _ => 1 end.
  Definition meas (s : st) (v : nat) : nat * nat := (inq s v, work s v).

  Lemma inq_other : forall s s' v, (forall c, In c (ins N v) -> q s' c = q s c) -> inq s' v = inq s v.
  Proof. intros s s' v H. unfold inq. f_equal. apply map_ext_in. intros c Hc. rewrite H; auto. Qed.

  Lemma sum_dec : forall (l : list nat) (f g : nat -> nat) c, NoDup l -> In c l -> f c < g c ->
    (forall x, x <> c -> f x = g x) -> list_sum (map f l) < list_sum (map g l).
  Proof.
    induction l as [|a l IH]; intros f g c ND I L E; [destruct I|]. inversion ND as [|? ? NI ND']; subst.
    cbn [map list_sum fold_right]. change (fold_right Nat.add 0) with list_sum. destruct I as [->|I].
    - replace (map f l) with (map g l); [lia|]. apply map_ext_in. intros x Hx. symmetry. apply E. congruence.
    - assert (a <> c) by congruence. rewrite (E a) by auto. specialize (IH f g c ND' I L E). lia.
  Qed.

  Lemma remove_nth_length : forall {T} k (l : list T) x, nth_error l k = Some x -> S (length (remove_nth k l)) = length l.
  Proof. intros T k l x H. apply remove_nth_perm in H. apply Permutation_length in H. simpl in H. auto. Qed.

  Lemma step_meas : forall (AC : acyclic N) s a s', step N s a = Some s' -> lexlt (nodes N) (meas s') (meas s).
  Proof.
    intros AC s a s' E. destruct a as [v c|v k j|v|v]; cbn [step] in E.
    - destruct (ph (nd s v)), (pend (nd s v)); try discriminate. destruct (q s c) as [|m r] eqn:EQ; try discriminate.
      destruct ((v <? nodes N) && memb c (ins N v) && negb (memb c (ended (nd s v)))) eqn:B; [|discriminate].
      injection E as <-. apply andb_prop in B as [B _]. apply andb_prop in B as [B1 B2].
      apply Nat.ltb_lt in B1. apply memb_In in B2. apply in_ins in B2 as B2'. destruct B2' as (kc & KC & DC).
      exists v. split; [auto|]. split.
      + left. simpl. unfold inq. apply sum_dec with (c := c); auto; [apply NoDup_filter, seq_NoDup| |]; cbn [q].
        * rewrite fupd_eq, EQ. simpl. lia.
        * intros x Hx. rewrite fupd_neq by auto. auto.
      + intros u Hu. unfold meas. f_equal.
        * apply inq_other. intros c' Hc'. cbn [q]. rewrite fupd_neq; auto. intros ->.
          apply in_ins in Hc' as (k' & K' & D'). assert (k' = kc) by congruence. subst k'. lia.
        * unfold work. cbn [nd]. rewrite fupd_neq by lia. auto.
    - destruct (pend (nd s v)) as [|g p] eqn:EP; try discriminate. destruct (nth_error g k) as [r|] eqn:EG; try discriminate.
      destruct (resolve N v r j) as [[c m]|] eqn:ER; try discriminate.
      destruct ((v <? nodes N) && room N s c) eqn:B; [|discriminate].
      injection E as <-. apply andb_prop in B as [B1 _]. apply Nat.ltb_lt in B1.
      apply resolve_ok in ER. apply resolves_out in ER. apply in_outs in ER as (kc & KC & SC).
      assert (IQ : forall u, u <= v -> forall x, In x (ins N u) -> x <> c).
      { intros u Hu x Hx ->. apply in_ins in Hx as (k' & K' & D'). assert (k' = kc) by congruence. subst k'.
        pose proof (AC c kc KC). lia. }
      exists v. split; [auto|]. split.
      + right. split.
        * simpl. apply inq_other. intros c' Hc'. cbn [q]. apply fupd_neq. eapply IQ; eauto.
        * simpl. unfold work. cbn [nd]. rewrite fupd_eq. cbn [pend ph]. rewrite EP. cbn [map list_sum fold_right].
          rewrite <- (remove_nth_length _ _ _ EG). lia.
      + intros u Hu. unfold meas. f_equal.
        * apply inq_other. intros c' Hc'. cbn [q]. apply fupd_neq. apply (IQ u); [lia|auto].
        * unfold work. cbn [nd]. rewrite fupd_neq by lia. auto.
    - destruct (pend (nd s v)) as [|[|? ?] p] eqn:EP; try discriminate. destruct (v <? nodes N) eqn:B; [|discriminate].
      injection E as <-. apply Nat.ltb_lt in B. exists v. split; [auto|]. split.
      + right. split; [reflexivity|]. simpl. unfold work. cbn [nd]. rewrite fupd_eq, EP. cbn [pend ph map list_sum fold_right length]. lia.
      + intros u Hu. unfold meas. f_equal. unfold work. cbn [nd]. rewrite fupd_neq by lia. auto.
    - destruct (ph (nd s v)) eqn:PV, (pend (nd s v)) eqn:EP; try discriminate. destruct (v <? nodes N) eqn:B; [|discriminate].
      injection E as <-. apply Nat.ltb_lt in B. exists v. split; [auto|]. split.
      + right. split; [reflexivity|]. simpl. unfold work. cbn [nd]. rewrite fupd_eq, EP, PV. simpl. lia.
      + intros u Hu. unfold meas. f_equal. unfold work. cbn [nd]. rewrite fupd_neq by lia. auto.
  Qed.

  Lemma no_infinite : forall (AC : acyclic N) m s, meas s = m -> forall f : nat -> act,
    exists k, exec (step N) s (map f (seq 0 k)) = None.
  Proof.
    intros AC m. induction (lexlt_wf (nodes N) m) as [m _ IH]. intros s EM f.
    destruct (step N s (f 0)) as [s'|] eqn:E.
    - destruct (IH (meas s')) with (s := s') (f := fun i => f (S i)) as (k & K); [rewrite <- EM; eapply step_meas; eauto|auto|].
      exists (S k). cbn [seq map]. rewrite <- seq_shift, map_map. cbn [exec]. rewrite E. exact K.
    - exists 1. simpl. rewrite E. auto.
  Qed.
End Proofs.
