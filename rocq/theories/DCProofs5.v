(** Divide and conquer: the invariant is preserved by the insertion of a task. *)
From Coq Require Import List Arith Bool Lia Permutation.
From Verif Require Import Base DCModel DCSpec DCProofs DCProofs2 DCProofs3.
Import ListNotations.

Definition inr (k : kind) (d : nat) : Prop :=
  match k with KDac _ _ => False | KComb b n _ => b <= d < b + n end.
Definition live (tk : nat -> option task) (ad : nat -> nat) (d : nat) : bool :=
  match tk (ad d) with Some _ => true | None => false end.
Definition waits (tk : nat -> option task) (ad : nat -> nat) (r : nat) : list nat :=
  match tk (ad r) with Some u => if unum u =? 0 then [r] else [] | None => [] end.

Lemma in_ins : forall k d, In d (ins k) <-> inr k d.
Proof. intros [b i|b n r] d; simpl; [tauto | apply in_seq]. Qed.

Section Inv.
Context {Op Res : Type}.
Variable cond : Op -> bool.
Variable divide : Op -> list Op.
Variable seqf : Op -> Res.
Variable combine : list Res -> Res.
Variable op0 : Op.
Notation solve := (solve cond divide seqf combine).
Notation solves := (solves cond divide seqf combine).
Notation Inv := (Inv cond divide seqf combine op0).
Notation slot_op := (slot_op op0).
Notation kok := (kok cond divide op0).

Lemma inv_insert : forall SS SS' tk tk' ad ad' rql rql' fr mem nid nb cp j k w,
  Inv SS tk ad rql fr mem nid nb cp ->
  SS j = Snd k :: SS' j -> (forall j', j' <> j -> SS' j' = SS j') ->
  tk' nid = Some w -> kd w = k ->
  (forall t, t <> nid -> tk t = None -> tk' t = None) ->
  (forall t u, t <> nid -> tk t = Some u -> exists u', tk' t = Some u' /\ kd u' = kd u /\ stat u' = stat u /\ rem u' = rem u /\
     ((exists d, inr k d /\ ad d = t) -> points u' nid) /\
     (ad (kout k) = t -> if unum u =? 0 then points u' nid else unum u' = 0) /\
     ((forall d, inr k d -> ad d <> t) -> ad (kout k) <> t -> u' = u)) ->
  (match tk (ad (kout k)) with
   | Some u => if unum u =? 0 then unum w = 0 else points w (ids u 0)
   | None => unum w = 0 end) ->
  rem w = length (filter (live tk ad) (ins k) ++ waits tk ad (kout k)) ->
  (stat w = Ready <-> rem w = 0) ->
  (forall a, ad' a = if a =? kout k then nid else ad a) ->
  NoDup rql' -> (forall x, In x rql' <-> In x rql \/ (x = nid /\ rem w = 0)) ->
  Inv SS' tk' ad' rql' fr mem (S nid) (S nb) cp.
Proof.
  intros SS SS' tk tk' ad ad' rql rql' fr mem nid nb cp j k w I Ej Eo Hw Kw Hn Hs Uw Rw Sw Ead Nq Eq.
  remember (kout k) as r eqn:Er.
  assert (Ea : tk nid = None).
  { destruct (tk nid) as [u|] eqn:E; auto. apply (i_nid _ _ _ _ _ _ _ _ _ _ _ _ _ _ I) in E. lia. }
  assert (Adn : forall a, ad a <> nid).
  { intros a E. pose proof (i_adn _ _ _ _ _ _ _ _ _ _ _ _ _ _ I a). lia. }
  assert (Hk : In (Snd k) (SS j)) by (rewrite Ej; left; auto).
  assert (Tkk : tok SS tk k) by (left; exists j, (Snd k); auto).
  assert (Kk : kok fr k) by (eapply i_tok; eauto).
  assert (Hr : held SS tk r) by (rewrite Er; apply tok_held; auto).
  assert (Hin : forall j' e, In e (SS' j') -> In e (SS j')).
  { intros j' e H. destruct (Nat.eq_dec j' j) as [->|N]; [rewrite Ej; right; auto | rewrite Eo in H; auto]. }
  assert (Hin' : forall j' e, In e (SS j') -> In e (SS' j') \/ e = Snd k).
  { intros j' e H. destruct (Nat.eq_dec j' j) as [->|N]; [rewrite Ej in H; destruct H; auto | rewrite Eo; auto]. }
  assert (Dn : forall j', dons (SS' j') = dons (SS j')).
  { intros j'. destruct (Nat.eq_dec j' j) as [->|N]; [rewrite Ej; reflexivity | rewrite Eo; auto]. }
  assert (Fr : forall t, fresh SS' t <-> fresh SS t).
  { intros t. split; intros H j' X; apply (H j'); rewrite Dn in *; auto. }
  assert (Fa : fresh SS nid).
  { intros j' X. apply (i_dt _ _ _ _ _ _ _ _ _ _ _ _ _ _ I) in X as (v & A & _). congruence. }
  assert (Hback : forall t u', t <> nid -> tk' t = Some u' -> exists u, tk t = Some u /\ kd u' = kd u /\ stat u' = stat u /\ rem u' = rem u /\
     ((exists d, inr k d /\ ad d = t) -> points u' nid) /\
     (ad r = t -> if unum u =? 0 then points u' nid else unum u' = 0) /\
     ((forall d, inr k d -> ad d <> t) -> ad r <> t -> u' = u)).
  { intros t u' N H. destruct (tk t) as [u|] eqn:E; [|rewrite (Hn t N E) in H; discriminate].
    exists u. destruct (Hs t u N E) as (u1 & A & B). rewrite H in A. injection A as <-. auto. }
  assert (Ub : uniq lab_base SS' tk').
  { eapply uniq_insert; [eapply i_ub; eauto | exact Ej | exact Eo | exact Hw | exact Kw |].
    intros t v' N H. destruct (Hback t v' N H) as (u & A & B & _). eauto. }
  assert (Uo : uniq lab_out SS' tk').
  { eapply uniq_insert; [eapply i_uo; eauto | exact Ej | exact Eo | exact Hw | exact Kw |].
    intros t v' N H. destruct (Hback t v' N H) as (u & A & B & _). eauto. }
  assert (Tk : forall k', tok SS' tk' k' <-> tok SS tk k').
  { intros k'. split.
    - intros [(j' & e & A & B)|(x & w' & A & B & C)]; [left; eauto|].
      destruct (Nat.eq_dec x nid) as [->|N].
      + rewrite Hw in A. injection A as <-. congruence.
      + right. destruct (Hback _ _ N A) as (u & D & E & _). exists x, u. rewrite <- Fr. split; [auto|split; [auto|congruence]].
    - intros [(j' & e & A & B)|(x & u & A & B & C)].
      + destruct (Hin' _ _ A) as [K| ->]; [left; eauto|]. injection B as <-. right. exists nid, w. rewrite Fr. auto.
      + right. assert (x <> nid) as N by congruence.
        destruct (Hs x u N A) as (u' & D & E & _). exists x, u'. rewrite Fr. split; [auto|split; [auto|congruence]]. }
  assert (Hh : forall a, held SS' tk' a <-> held SS tk a).
  { intros a. unfold held. rewrite !present_tok. split; intros (k' & A & B); exists k'; rewrite Tk in *; auto. }
  assert (Nout : forall j', ~ In r (labs lab_out (SS' j'))).
  { intros j'. apply (u_tk _ _ _ Uo nid w); auto; [rewrite Fr; auto | rewrite Kw, Er; left; auto]. }
  assert (Cr : covers SS' tk' nid r).
  { left. rewrite Fr. split; auto. exists w. split; [auto | congruence]. }
  assert (Cv : forall x a, x <> nid -> a <> r -> covers SS tk x a -> covers SS' tk' x a).
  { intros x a Nx Na [[H (u & A & B)]|(j' & H)].
    - left. rewrite Fr. split; auto. destruct (Hs x u Nx A) as (u' & C & D & _). exists u'. split; [auto|congruence].
    - right. exists j'. destruct (Nat.eq_dec j' j) as [->|Nj]; [|rewrite Eo; auto].
      rewrite Ej in H. cbn [pre] in H. destruct H as [[H _]|H]; [|auto].
      change (lab1 lab_out (Snd k)) with [kout k] in H. destruct H as [H|[]]. congruence. }
  assert (Adr : ad' r = nid) by (rewrite Ead, Nat.eqb_refl; auto).
  assert (Ado : forall a, a <> r -> ad' a = ad a).
  { intros a N. rewrite Ead. destruct (Nat.eqb_spec a r); congruence. }
  assert (F0r : free0 SS' tk' ad' r).
  { intros _. rewrite Adr. eauto. }
  assert (F0 : forall a, free0 SS tk ad a -> free0 SS' tk' ad' a).
  { intros a H. destruct (Nat.eq_dec a r) as [->|N]; [exact F0r|]. intros Ha. apply Hh in Ha.
    destruct (H Ha) as (u & A & B). rewrite Ado by auto.
    destruct (Hs _ _ (Adn a) A) as (u' & C & _). exists u'. split; auto. }
  assert (Rin : ~ inr k r).
  { destruct k as [b i|b n r']; simpl; [auto|]. simpl in Kk, Er. subst r'. destruct Kk as (o & _ & _ & _ & _ & H). auto. }
  assert (Z0 : ~ inr k 0).
  { destruct k as [b i|b n r']; simpl; [auto|]. destruct Kk as (o & H & _).
    apply (i_fr _ _ _ _ _ _ _ _ _ _ _ _ _ _ I) in H as (H & _). lia. }
  assert (Kad : forall a u, tk (ad a) = Some u -> kout (kd u) = a).
  { intros a u H. eapply (i_ad _ _ _ _ _ _ _ _ _ _ _ _ _ _ I); eauto. }
  (* an address that is neither an input nor the output keeps its task *)
  assert (Keep : forall a u, tk (ad a) = Some u -> ~ inr k a -> a <> r -> tk' (ad a) = Some u).
  { intros a u H Ni Nr. destruct (Hs _ _ (Adn a) H) as (u' & A & _ & _ & _ & _ & _ & B).
    rewrite A. f_equal. apply B.
    - intros d Hd E. apply Ni. replace a with d; auto. rewrite <- (Kad a u H). rewrite <- E in H. symmetry; auto.
    - intros E. apply Nr. rewrite <- (Kad a u H). rewrite <- E in H. auto. }
  assert (Keep' : forall a u', a <> r -> ~ inr k a -> tk' (ad a) = Some u' -> tk (ad a) = Some u').
  { intros a u' Nr Ni H. destruct (tk (ad a)) as [u|] eqn:E.
    - rewrite <- H. symmetry. apply Keep; auto.
    - rewrite (Hn _ (Adn a) E) in H. discriminate. }
  (* the slots of other combines are not inputs of this one *)
  assert (Dis : forall b n r' b2 n2 r2 a, k = KComb b n r' -> tok SS tk (KComb b2 n2 r2) -> b2 <> b ->
            b2 <= a < b2 + n2 -> ~ inr k a).
  { intros b n r' b2 n2 r2 a E T Nb Ha Hi. rewrite E in *. destruct Kk as (o & A & B & _).
    destruct (i_tok _ _ _ _ _ _ _ _ _ _ _ _ _ _ I _ T) as (o2 & A2 & B2 & _).
    destruct (i_fr _ _ _ _ _ _ _ _ _ _ _ _ _ _ I _ _ A) as (_ & _ & D). specialize (D _ _ A2 (not_eq_sym Nb)).
    simpl in Hi. lia. }
  assert (DisE : forall j' e b2 n2 r2 a, In e (SS' j') -> evk e = Some (KComb b2 n2 r2) -> b2 <= a < b2 + n2 -> ~ inr k a).
  { intros j' e b2 n2 r2 a A B Ha. destruct k as [|b n r'] eqn:Ek; [simpl; auto|]. rewrite <- Ek in *.
    assert (T : tok SS tk (KComb b2 n2 r2)) by (left; exists j', e; auto).
    apply (Dis b n r' b2 n2 r2 a Ek T); auto. intros ->.
    apply (u_tk _ _ _ Ub nid w b j'); auto; [rewrite Fr; auto | rewrite Kw, Ek; left; auto|].
    apply in_labs. exists e, (KComb b n2 r2). split; [auto|split; [auto | left; auto]]. }
  assert (DisT : forall c u b2 n2 r2 a, tk c = Some u -> fresh SS c -> kd u = KComb b2 n2 r2 -> b2 <= a < b2 + n2 -> ~ inr k a).
  { intros c u b2 n2 r2 a A F B Ha. destruct k as [|b n r'] eqn:Ek; [simpl; auto|]. rewrite <- Ek in *.
    assert (T : tok SS tk (KComb b2 n2 r2)) by (right; exists c, u; auto).
    apply (Dis b n r' b2 n2 r2 a Ek T); auto. intros ->.
    apply (u_tk _ _ _ (i_ub _ _ _ _ _ _ _ _ _ _ _ _ _ _ I) c u b j A F); [rewrite B; left; auto|].
    apply in_labs. exists (Snd k), k. rewrite Ek. split; [rewrite <- Ek; auto|split; [auto|left; auto]]. }
  assert (Adslot : forall d u, inr k d -> tk (ad d) = Some u -> unum u = 0).
  { intros d u Hd. destruct k as [|b n r'] eqn:Ek; [destruct Hd|]. eapply (i_ads _ _ _ _ _ _ _ _ _ _ _ _ _ _ I); eauto. }
  (* who waits for the task that is about to be superseded *)
  assert (Own : forall u, tk (ad r) = Some u -> unum u <> 0 -> exists c v b n r2,
     tk c = Some v /\ fresh SS c /\ kd v = KComb b n r2 /\ b <= r < b + n /\ points u c).
  { intros u Hu Nz. destruct (i_ad _ _ _ _ _ _ _ _ _ _ _ _ _ _ I _ _ Hu) as (_ & (o & [[Z _]|(b & ops & i & A & B & C)]) & D); [tauto|].
    destruct (i_own _ _ _ _ _ _ _ _ _ _ _ _ _ _ I _ _ A) as (n & r2 & T).
    assert (b <= r < b + n) as Hb.
    { destruct (i_tok _ _ _ _ _ _ _ _ _ _ _ _ _ _ I _ T) as (o2 & A2 & B2 & _). rewrite A in A2. injection A2 as ->.
      apply nth_error_lt in B. lia. }
    destruct T as [(j' & e & E1 & E2)|(c & v & E1 & E2 & E3)].
    - exfalso. destruct e; simpl in E2; try discriminate.
      + injection E2 as ->. apply Nz. eapply (i_ads _ _ _ _ _ _ _ _ _ _ _ _ _ _ I); eauto.
      + injection E2 as -> -> ->. destruct (i_cmb _ _ _ _ _ _ _ _ _ _ _ _ _ _ I _ _ _ _ _ E1 Hb). congruence.
    - exists c, v, b, n, r2. split; [auto|split; [auto|split; [auto|split; [auto|]]]].
      eapply (i_adf _ _ _ _ _ _ _ _ _ _ _ _ _ _ I); eauto. }
  assert (Rsl : exists o, slot_op fr r o) by (rewrite Er; eapply kok_slot; eauto).
  split.
  - apply (i_fr _ _ _ _ _ _ _ _ _ _ _ _ _ _ I).
  - apply (i_solv _ _ _ _ _ _ _ _ _ _ _ _ _ _ I).
  - intros k' H. apply Tk in H. eapply i_tok; eauto.
  - intros b ops H. destruct (i_own _ _ _ _ _ _ _ _ _ _ _ _ _ _ I _ _ H) as (n & r2 & T).
    exists n, r2. rewrite Tk. auto.
  - intros a o H. rewrite Hh. eapply i_val; eauto.
  - exact Ub.
  - exact Uo.
  - intros j'. pose proof (i_wfs _ _ _ _ _ _ _ _ _ _ _ _ _ _ I j') as W.
    destruct (Nat.eq_dec j' j) as [->|N].
    + rewrite Ej in W. destruct W as [_ W]. eapply wfs_mono; [| |exact W]; auto.
      intros b n r2 d _ _ H. simpl in H. destruct H as [<-|[]]. right. rewrite <- Er. exact F0r.
    + rewrite Eo by auto. eapply wfs_mono; [| |exact W]; auto.
  - intros j' b n r2 d H Hd. apply Hin in H. rewrite Hh. destruct (i_cmb _ _ _ _ _ _ _ _ _ _ _ _ _ _ I _ _ _ _ _ H Hd) as [A B].
    split; auto. rewrite Ado by (intros ->; auto). auto.
  - intros c w' b n r2 d H F K Hd. rewrite Fr in F. destruct (Nat.eq_dec c nid) as [->|N].
    + rewrite Hw in H. injection H as <-. apply F0.
      pose proof (i_wfs _ _ _ _ _ _ _ _ _ _ _ _ _ _ I j) as W. rewrite Ej in W. rewrite Kw in K. rewrite K in W.
      destruct W as [W _]. destruct (W d Hd) as [[]|]; auto.
    + destruct (Hback _ _ N H) as (u & A & B & _). apply F0.
      apply (i_cf _ _ _ _ _ _ _ _ _ _ _ _ _ _ I c u b n r2 d A F); [congruence | auto].
  - intros a w' H. destruct (Nat.eq_dec a r) as [->|N].
    + rewrite Adr, Hw in H. injection H as <-. split; [congruence|split; [auto|]]. intros Z.
      destruct (tk (ad r)) as [u|] eqn:E; auto.
      assert (unum u = 0) as U by (eapply (i_ad _ _ _ _ _ _ _ _ _ _ _ _ _ _ I); eauto). rewrite U in Uw. auto.
    + rewrite Ado in H by auto. destruct (Hback _ _ (Adn a) H) as (u & A & B & _).
      destruct (i_ad _ _ _ _ _ _ _ _ _ _ _ _ _ _ I _ _ A) as (C & D & E).
      split; [congruence|split; [auto|]]. intros ->. rewrite (Keep' 0 w' N Z0 H) in A. injection A as ->. auto.
  - intros j' b n r2 a w' H Ha E. assert (Ni := DisE _ _ _ _ _ a H eq_refl Ha).
    destruct (Nat.eq_dec a r) as [->|N].
    + rewrite Adr, Hw in E. injection E as <-. destruct (tk (ad r)) as [u|] eqn:X; auto.
      rewrite (i_ads _ _ _ _ _ _ _ _ _ _ _ _ _ _ I j' b n r2 r u (Hin _ _ H) Ha X) in Uw. auto.
    + rewrite Ado in E by auto. apply Keep' in E; auto. eapply (i_ads _ _ _ _ _ _ _ _ _ _ _ _ _ _ I); eauto.
  - intros c w' b n r2 a v H F K Ha E. rewrite Fr in F. destruct (Nat.eq_dec c nid) as [->|N].
    + rewrite Hw in H. injection H as <-. rewrite Kw in K.
      assert (inr k a) as Hi by (rewrite K; auto).
      assert (a <> r) as Na by (intros ->; auto). rewrite Ado in E by auto.
      destruct (Hback _ _ (Adn a) E) as (u & A & _ & _ & _ & P & _). apply P. eauto.
    + destruct (Hback _ _ N H) as (u & A & B & _). rewrite K in B. symmetry in B.
      assert (Ni := DisT _ _ _ _ _ a A F B Ha).
      destruct (Nat.eq_dec a r) as [->|Na].
      * rewrite Adr, Hw in E. injection E as <-.
        destruct (i_cf _ _ _ _ _ _ _ _ _ _ _ _ _ _ I c u b n r2 r A F B Ha Hr) as (u2 & A2 & _).
        pose proof (i_adf _ _ _ _ _ _ _ _ _ _ _ _ _ _ I c u b n r2 r u2 A F B Ha A2) as [P1 P2].
        rewrite A2, P1 in Uw. simpl in Uw. rewrite P2 in Uw. auto.
      * rewrite Ado in E by auto. apply Keep' in E; auto. eapply (i_adf _ _ _ _ _ _ _ _ _ _ _ _ _ _ I); eauto.
  - intros j' b i H. assert (b + i <> r) as N.
    { intros X. apply (Nout j'). apply in_labs. exists (Snd (KDac b i)), (KDac b i). split; [auto|split; [auto|left; auto]]. }
    rewrite Ado by auto. apply Hn; [apply Adn|]. apply Hin in H. eapply i_first; eauto.
  - intros b i v T H. destruct (Nat.eq_dec (b + i) r) as [E|N].
    + rewrite E, Adr, Hw in H. injection H as <-. rewrite Kw.
      destruct T as [(j' & e & A & B)|(t & v & A & B & C)].
      * exfalso. apply (Nout j'). apply in_labs. exists e, (KDac b i). split; [auto|split; [auto|left; auto]].
      * assert (t = nid) as ->.
        { apply (u_tt _ _ _ Uo t v nid w r); auto; [rewrite Fr; auto | rewrite C; left; auto | rewrite Kw, Er; left; auto]. }
        rewrite Hw in A. injection A as <-. rewrite <- Kw, C. exact Logic.I.
    + rewrite Ado in H by auto. apply Tk in T. destruct (Hback _ _ (Adn _) H) as (u & A & B & _). rewrite B.
      eapply i_dac; eauto.
  - intros j' b n r2 v H E. assert (r2 <> r) as N.
    { intros X. apply (Nout j'). apply in_labs. exists (Snd (KComb b n r2)), (KComb b n r2). split; [auto|split; [auto|left; auto]]. }
    rewrite Ado in E by auto. destruct (Hback _ _ (Adn _) E) as (u & A & B & _). rewrite B. apply Hin in H.
    eapply i_dacs; eauto.
  - intros c v Hc. destruct (Nat.eq_dec c nid) as [->|N].
    + rewrite Hw in Hc. injection Hc as <-.
      exists (map ad (filter (live tk ad) (ins k) ++ waits tk ad r)). split; [|split; [rewrite map_length; auto|]].
      * assert (Inj : forall d d', live tk ad d = true -> ad d = ad d' -> d = d').
        { intros d d' L E. unfold live in L. destruct (tk (ad d)) as [u|] eqn:X; [|discriminate].
          rewrite <- (Kad d u X). rewrite E in X. rewrite (Kad d' u X). auto. }
        assert (Lv : forall d, In d (filter (live tk ad) (ins k) ++ waits tk ad r) -> live tk ad d = true).
        { intros d H. apply in_app_iff in H as [H|H]; [apply filter_In in H; tauto|].
          unfold waits in H. unfold live. destruct (tk (ad r)) as [u|] eqn:X; [|destruct H].
          destruct (unum u =? 0); [destruct H as [<-|[]] | destruct H]. rewrite X. auto. }
        assert (Nd : NoDup (filter (live tk ad) (ins k) ++ waits tk ad r)).
        { apply NoDup_join.
          - apply NoDup_filter. destruct k; simpl; [constructor | apply seq_NoDup].
          - unfold waits. destruct (tk (ad r)) as [u|]; [destruct (unum u =? 0)|]; repeat constructor; auto.
          - intros d H H'. apply filter_In in H as [H _]. apply in_ins in H. apply Rin.
            unfold waits in H'. destruct (tk (ad r)) as [u|]; [|destruct H'].
            destruct (unum u =? 0); [destruct H' as [<-|[]]; auto | destruct H']. }
        revert Lv Nd. generalize (filter (live tk ad) (ins k) ++ waits tk ad r). clear - Inj.
        induction l as [|x l IH]; simpl; intros Lv Nd; constructor.
        -- intros H. apply in_map_iff in H as (y & E & H). inversion Nd; subst.
           apply H2. replace x with y; auto.
        -- inversion Nd; subst. apply IH; auto.
      * intros t. rewrite in_map_iff. split.
        -- intros (d & <- & H). apply in_app_iff in H as [H|H].
           ++ apply filter_In in H as [H L]. apply in_ins in H. unfold live in L.
              destruct (tk (ad d)) as [u|] eqn:X; [|discriminate].
              destruct (Hs _ _ (Adn d) X) as (u' & A & _ & _ & _ & P & _). exists u'. split; auto. apply P. eauto.
           ++ unfold waits in H. destruct (tk (ad r)) as [u|] eqn:X; [|destruct H].
              destruct (unum u =? 0) eqn:Z; [destruct H as [<-|[]] | destruct H].
              destruct (Hs _ _ (Adn r) X) as (u' & A & _ & _ & _ & _ & P & _). specialize (P eq_refl). rewrite Z in P.
              exists u'. auto.
        -- intros (u' & A & P). assert (t <> nid) as Nt.
           { intros ->. rewrite Hw in A. injection A as <-.
             destruct (tk (ad r)) as [u|] eqn:X.
             - destruct (unum u =? 0) eqn:Z; [destruct P; lia|]. destruct Uw as [U1 U2], P as [P1 P2].
               apply Nat.eqb_neq in Z. destruct (Own u eq_refl Z) as (c & v & b & n & r2 & O1 & _ & _ & _ & O2 & O3).
               congruence.
             - destruct P; lia. }
           destruct (Hback _ _ Nt A) as (u & B & _ & _ & _ & P1 & P2 & P3).
           assert (Pu : u' = u -> False).
           { intros ->. destruct P as [U1 U2]. destruct (i_pt _ _ _ _ _ _ _ _ _ _ _ _ _ _ I _ _ B U1) as (x & _ & _ & _ & X & _).
             rewrite U2 in X. congruence. }
           destruct (Nat.eq_dec (ad r) t) as [Et|Net].
           ++ specialize (P2 Et). destruct (unum u =? 0) eqn:Z; [|destruct P; lia].
              exists r. split; auto. apply in_app_iff. right. unfold waits. rewrite Et, B, Z. left; auto.
           ++ destruct (in_dec Nat.eq_dec t (map ad (ins k))) as [Hi|Hi].
              ** apply in_map_iff in Hi as (d & E & Hd). exists d. split; auto. apply in_app_iff. left.
                 apply filter_In. split; auto. unfold live. rewrite E, B. auto.
              ** exfalso. apply Pu. apply P3; auto. intros d Hd E. apply Hi. apply in_map_iff. exists d.
                 split; auto. apply in_ins; auto.
    + destruct (Hback _ _ N Hc) as (vo & Hco & _ & _ & Ro & _). rewrite Ro.
      destruct (i_rem _ _ _ _ _ _ _ _ _ _ _ _ _ _ I c vo Hco) as (L & NL & EL & HL).
      assert (Eqv : forall t u u', t <> nid -> t <> ad r -> tk t = Some u -> tk' t = Some u' -> (points u c <-> points u' c)).
      { intros t u u' Nt Nr A A'. destruct (Hback _ _ Nt A') as (u1 & B & _ & _ & _ & P1 & _ & P3).
        rewrite A in B. injection B as <-.
        destruct (in_dec Nat.eq_dec t (map ad (ins k))) as [Hi|Hi].
        - apply in_map_iff in Hi as (d & E & Hd). apply in_ins in Hd.
          assert (unum u = 0) as Z by (apply (Adslot d); [auto | congruence]).
          destruct P1 as [P1 P2]; [eauto|]. unfold points. split; intros [X Y]; [lia | congruence].
        - rewrite P3; [tauto | | auto]. intros d Hd E. apply Hi. apply in_map_iff. exists d. split; auto. apply in_ins; auto. }
      destruct (tk (ad r)) as [u|] eqn:X.
      * assert (Hs' := Hs _ _ (Adn r) X). destruct Hs' as (u' & A & _ & _ & _ & _ & P & _). specialize (P eq_refl).
        destruct (unum u =? 0) eqn:Z.
        -- apply Nat.eqb_eq in Z. exists L. split; [auto|split; [auto|]]. intros t. rewrite HL.
           destruct (Nat.eq_dec t nid) as [->|Nt].
           { split; intros (y & Y1 & Y2); [congruence|]. rewrite Hw in Y1. injection Y1 as <-. destruct Y2; lia. }
           destruct (Nat.eq_dec t (ad r)) as [->|Nr].
           { rewrite X, A. destruct P as [P1 P2]. split; intros (y & Y1 & Y2 & Y3); injection Y1 as <-; [lia | congruence]. }
           split; intros (y & Y1 & Y2).
           ++ destruct (Hs _ _ Nt Y1) as (y' & Y3 & _). exists y'. split; auto. exact (proj1 (Eqv t y y' Nt Nr Y1 Y3) Y2).
           ++ destruct (Hback _ _ Nt Y1) as (y' & Y3 & _). exists y'. split; auto. exact (proj2 (Eqv t y' y Nt Nr Y3 Y1) Y2).
        -- destruct (Nat.eq_dec (ids u 0) c) as [Ec|Nc].
           ++ assert (Z1 : unum u = 1).
              { apply Nat.eqb_neq in Z. pose proof (i_unum _ _ _ _ _ _ _ _ _ _ _ _ _ _ I _ _ X). lia. }
              assert (In (ad r) L) as Y by (apply HL; exists u; split; [auto | split; auto]).
              apply in_split in Y as (l1 & l2 & ->). exists (l1 ++ nid :: l2).
              assert (Nn : ~ In nid (l1 ++ ad r :: l2)).
              { intros Y. apply HL in Y as (y & Y1 & _). congruence. }
              split; [|split].
              ** apply NoDup_Add with (a := nid) (l := l1 ++ l2); [apply Add_app|]. split; [eapply NoDup_remove_1; eauto|].
                 intros Y. apply Nn. rewrite in_app_iff in *. simpl. tauto.
              ** rewrite app_length in *. simpl in *. auto.
              ** intros t. assert (In t (l1 ++ nid :: l2) <-> t = nid \/ (t <> ad r /\ In t (l1 ++ ad r :: l2))) as Y.
                 { apply NoDup_remove_2 in NL. rewrite !in_app_iff in *. simpl. split.
                   - intros [K|[K|K]]; auto; right; (split; [intros ->; tauto | tauto]).
                   - intros [->|[K1 [K|[K|K]]]]; auto. congruence. }
                 rewrite Y, HL. destruct (Nat.eq_dec t nid) as [->|Nt].
                 { split; auto. intros _. exists w. split; auto. destruct Uw as [U1 U2]. split; congruence. }
                 destruct (Nat.eq_dec t (ad r)) as [->|Nr].
                 { split; [intros [K|[K _]]; [destruct (Adn _ K) | congruence]|].
                   intros (y & Y1 & Y2 & _). rewrite A in Y1. injection Y1 as <-. lia. }
                 split.
                 --- intros [K|[_ (y & Y1 & Y2)]]; [congruence|].
                     destruct (Hs _ _ Nt Y1) as (y' & Y3 & _). exists y'. split; auto. exact (proj1 (Eqv t y y' Nt Nr Y1 Y3) Y2).
                 --- intros (y & Y1 & Y2). right. split; auto.
                     destruct (Hback _ _ Nt Y1) as (y' & Y3 & _). exists y'. split; auto. exact (proj2 (Eqv t y' y Nt Nr Y3 Y1) Y2).
           ++ exists L. split; [auto|split; [auto|]]. intros t. rewrite HL.
              destruct (Nat.eq_dec t nid) as [->|Nt].
              { split; intros (y & Y1 & Y2); [congruence|]. rewrite Hw in Y1. injection Y1 as <-.
                destruct Uw as [_ U2], Y2 as [_ Y2]. congruence. }
              destruct (Nat.eq_dec t (ad r)) as [->|Nr].
              { rewrite X, A. split; intros (y & Y1 & Y2 & Y3); injection Y1 as <-; [congruence | lia]. }
              split; intros (y & Y1 & Y2).
              ** destruct (Hs _ _ Nt Y1) as (y' & Y3 & _). exists y'. split; auto. exact (proj1 (Eqv t y y' Nt Nr Y1 Y3) Y2).
              ** destruct (Hback _ _ Nt Y1) as (y' & Y3 & _). exists y'. split; auto. exact (proj2 (Eqv t y' y Nt Nr Y3 Y1) Y2).
      * exists L. split; [auto|split; [auto|]]. intros t. rewrite HL.
        destruct (Nat.eq_dec t nid) as [->|Nt].
        { split; intros (y & Y1 & Y2); [congruence|]. rewrite Hw in Y1. injection Y1 as <-. destruct Y2; lia. }
        destruct (Nat.eq_dec t (ad r)) as [->|Nr].
        { rewrite X, Hn by auto. split; intros (y & Y1 & _); discriminate. }
        split; intros (y & Y1 & Y2).
        -- destruct (Hs _ _ Nt Y1) as (y' & Y3 & _). exists y'. split; auto. exact (proj1 (Eqv t y y' Nt Nr Y1 Y3) Y2).
        -- destruct (Hback _ _ Nt Y1) as (y' & Y3 & _). exists y'. split; auto. exact (proj2 (Eqv t y' y Nt Nr Y3 Y1) Y2).
  - intros c v H. destruct (Nat.eq_dec c nid) as [->|N]; [rewrite Hw in H; injection H as <-; auto|].
    destruct (Hback _ _ N H) as (u & A & _ & B & C & _). rewrite B, C. eapply i_stat; eauto.
  - intros c v H K. destruct (Nat.eq_dec c nid) as [->|N].
    + rewrite Hw in H; injection H as <-. rewrite Kw in K. rewrite Rw. destruct k as [b i|]; [|destruct K].
      unfold waits. simpl. simpl in Er. rewrite Er, (i_first _ _ _ _ _ _ _ _ _ _ _ _ _ _ I _ _ _ Hk). auto.
    + destruct (Hback _ _ N H) as (u & A & B & _ & C & _). rewrite C. rewrite B in K. eapply i_dac0; eauto.
  - intros t u' H. destruct (Nat.eq_dec t nid) as [->|N].
    + rewrite Hw in H; injection H as <-. destruct (tk (ad r)) as [u|]; [|lia].
      destruct (unum u =? 0); [lia | destruct Uw; lia].
    + destruct (Hback _ _ N H) as (u & A & _ & _ & _ & P1 & P2 & P3).
      destruct (in_dec Nat.eq_dec t (map ad (ins k))) as [Hi|Hi].
      * apply in_map_iff in Hi as (d & E & Hd). apply in_ins in Hd. destruct P1; [eauto | lia].
      * destruct (Nat.eq_dec (ad r) t) as [Et|Net].
        -- specialize (P2 Et). destruct (unum u =? 0); [destruct P2; lia | lia].
        -- rewrite P3; [eapply i_unum; eauto | | auto]. intros d Hd E. apply Hi. apply in_map_iff. exists d.
           split; auto. apply in_ins; auto.
  - assert (Tgt : forall c v b n r2, tk c = Some v -> kd v = KComb b n r2 -> exists v', tk' c = Some v' /\ kd v' = KComb b n r2).
    { intros c v b n r2 A B. destruct (Hs c v) as (v' & C & D & _); [congruence | auto |]. exists v'. split; congruence. }
    intros t u' H E. destruct (Nat.eq_dec t nid) as [->|N].
    + rewrite Hw in H; injection H as <-. destruct (tk (ad r)) as [u|] eqn:X; [|lia].
      destruct (unum u =? 0) eqn:Z; [lia|]. apply Nat.eqb_neq in Z.
      destruct (Own u eq_refl Z) as (c & v & b & n & r2 & O1 & _ & O3 & O4 & _ & O6).
      destruct (Tgt _ _ _ _ _ O1 O3) as (v' & T1 & T2). destruct Uw as [_ U2].
      exists v', b, n, r2. rewrite U2, O6. split; [auto|split; [auto|]]. left. rewrite Kw, <- Er. auto.
    + destruct (Hback _ _ N H) as (u & A & B & _ & _ & P1 & P2 & P3). rewrite B.
      destruct (in_dec Nat.eq_dec t (map ad (ins k))) as [Hi|Hi].
      * apply in_map_iff in Hi as (d & Ed & Hd). apply in_ins in Hd. destruct P1 as [_ P1]; [eauto|].
        rewrite P1. destruct k as [|b n r'] eqn:Ek; [destruct Hd|].
        exists w, b, n, r'. split; [auto|split; [auto|]]. left. rewrite <- Ed in A. rewrite (Kad _ _ A). auto.
      * destruct (Nat.eq_dec (ad r) t) as [Et|Net].
        -- specialize (P2 Et). destruct (unum u =? 0); [|lia]. destruct P2 as [_ P2]. rewrite P2.
           destruct k as [b i|b n r'] eqn:Ek.
           ++ exfalso. simpl in Er. rewrite Er in Et. pose proof (i_first _ _ _ _ _ _ _ _ _ _ _ _ _ _ I _ _ _ Hk).
              rewrite Et in H0. congruence.
           ++ exists w, b, n, r'. split; [auto|split; [auto|]]. right. simpl in Er. subst r'.
              eapply (i_dacs _ _ _ _ _ _ _ _ _ _ _ _ _ _ I _ _ _ _ u Hk). congruence.
        -- assert (u' = u) as ->.
           { apply P3; auto. intros d Hd Ed. apply Hi. apply in_map_iff. exists d. split; auto. apply in_ins; auto. }
           destruct (i_pt _ _ _ _ _ _ _ _ _ _ _ _ _ _ I _ _ A E) as (v & b & n & r2 & C1 & C2 & C3).
           destruct (Tgt _ _ _ _ _ C1 C2) as (v' & T1 & T2). exists v', b, n, r2. auto.
  - intros j'. rewrite Dn. eapply i_nd; eauto.
  - intros j1 j2 t. rewrite !Dn. eapply i_ds; eauto.
  - intros j' t H. rewrite Dn in H. destruct (i_dt _ _ _ _ _ _ _ _ _ _ _ _ _ _ I _ _ H) as (v & A & B).
    destruct (Hs t v) as (v' & C & _ & D & _); [congruence | auto |]. exists v'. split; congruence.
  - auto.
  - intros x. rewrite Eq, (i_rqt _ _ _ _ _ _ _ _ _ _ _ _ _ _ I). split.
    + intros [(v & A & B & C)|[-> R]].
      * destruct (Hs x v) as (v' & D & _ & E & _); [congruence | auto |]. exists v'. rewrite Fr. split; [auto|split; [congruence|auto]].
      * exists w. rewrite Fr. split; [auto|split; [apply Sw; auto | auto]].
    + intros (v & A & B & C). rewrite Fr in C. destruct (Nat.eq_dec x nid) as [->|N].
      * right. split; auto. rewrite Hw in A. injection A as <-. apply Sw; auto.
      * left. destruct (Hback _ _ N A) as (u & D & _ & E & _). exists u. split; [auto|split; [congruence|auto]].
  - intros t v H. destruct (Nat.eq_dec t nid) as [->|N].
    + split; [|lia]. pose proof (i_adn _ _ _ _ _ _ _ _ _ _ _ _ _ _ I 0). lia.
    + destruct (Hback _ _ N H) as (u & D & _). apply (i_nid _ _ _ _ _ _ _ _ _ _ _ _ _ _ I) in D. lia.
  - intros a. rewrite Ead. pose proof (i_adn _ _ _ _ _ _ _ _ _ _ _ _ _ _ I a). destruct (a =? r); lia.
  - intros j' Hj. destruct (i_last _ _ _ _ _ _ _ _ _ _ _ _ _ _ I j' Hj) as [E|(l & x & E)].
    + left. destruct (Nat.eq_dec j' j) as [->|N]; [rewrite Ej in E; discriminate | rewrite Eo; auto].
    + destruct (Nat.eq_dec j' j) as [->|N]; [|right; rewrite Eo by auto; eauto].
      rewrite Ej in E. destruct l as [|y l]; simpl in E; injection E as E1 E2; [discriminate|].
      right. exists l, x. auto.
  - intros e H. apply Hin in H. eapply i_zero; eauto.
  - destruct (i_cnt _ _ _ _ _ _ _ _ _ _ _ _ _ _ I) as (L & NL & EL & HL).
    exists (nid :: L). split; [constructor; auto; intros X; apply HL in X; congruence|]. split; [simpl; lia|].
    intros x. simpl. rewrite HL. destruct (Nat.eq_dec x nid) as [->|N].
    + split; auto. congruence.
    + split.
      * intros [E|E]; [congruence|]. intros E'. destruct (tk x) as [u|] eqn:X; [|auto].
        destruct (Hs x u N X) as (u' & A & _). congruence.
      * intros H. right. intros X. apply H. auto.
Qed.
End Inv.
