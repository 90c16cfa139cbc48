(** Divide and conquer: what insertTask and handleTask do. *)
From Coq Require Import List Arith Bool Lia Permutation.
From Verif Require Import Base DCModel DCSpec DCProofs DCProofs2 DCProofs3 DCProofs4 DCProofs5.
Import ListNotations.

Lemma find_tk : forall tk i, tk 0 = None -> find_task tk i = tk i.
Proof. intros tk i H. unfold find_task. destruct (Nat.eqb_spec i 0) as [->|]; auto. Qed.

Lemma tupd_eq : forall tk i f v, tk i = Some v -> tupd tk i f i = Some (f v).
Proof. intros. unfold tupd. rewrite fupd_eq, H. auto. Qed.
Lemma tupd_neq : forall tk i f j, j <> i -> tupd tk i f j = tk j.
Proof. intros. unfold tupd. apply fupd_neq. auto. Qed.

Lemma fold_in_spec : forall tk ad act k jf l,
  tk act = None -> act <> 0 -> tk 0 = None -> (forall a, ad a <> act) -> NoDup l ->
  (forall a u, tk (ad a) = Some u -> kout (kd u) = a) ->
  let tk1 := fold_left (fun tk d => p_in act d tk ad) l (fupd tk act (Some (mkT k NotReady 0 jf 0))) in
  tk1 act = Some (mkT k NotReady (length (filter (live tk ad) l)) jf 0) /\
  forall t, t <> act -> tk1 t = match tk t with
    | Some u => Some (if existsb (fun d => ad d =? t) l then add_id u act else u)
    | None => None end.
Proof.
  intros tk ad act k jf l Ha Nz Hz Nad Nd Ko. cbv zeta.
  induction l as [|d l IH] using rev_ind.
  - simpl. rewrite fupd_eq. split; auto. intros t Nt. rewrite fupd_neq by auto. destruct (tk t); auto.
  - rewrite fold_left_app. cbn [fold_left].
    apply NoDup_remove in Nd as [Nd Nin]. rewrite app_nil_r in *. specialize (IH Nd) as [IH1 IH2].
    revert IH1 IH2. generalize (fold_left (fun tk d => p_in act d tk ad) l (fupd tk act (Some (mkT k NotReady 0 jf 0)))).
    intros X IH1 IH2. unfold p_in. rewrite find_tk by (rewrite IH2, Hz; auto).
    rewrite filter_app, app_length. simpl filter. unfold live at 2.
    rewrite (IH2 (ad d)) by auto.
    destruct (tk (ad d)) as [u|] eqn:E.
    + assert (Ex : existsb (fun d0 => ad d0 =? ad d) l = false).
      { apply not_true_is_false. intros H. apply existsb_exists in H as (d0 & A & B). apply Nat.eqb_eq in B.
        apply Nin. replace d with d0; auto. rewrite <- (Ko d u E). rewrite <- B in E. symmetry; auto. }
      split.
      * rewrite tupd_eq with (v := mkT k NotReady (length (filter (live tk ad) l)) jf 0)
          by (rewrite tupd_neq; [exact IH1 | intros F; apply (Nad d); auto]).
        unfold add_dep. simpl. do 2 f_equal. lia.
      * intros t Nt. rewrite tupd_neq by auto. destruct (Nat.eq_dec t (ad d)) as [->|Nt'].
        -- rewrite tupd_eq with (v := u) by (rewrite IH2, E, Ex; auto). rewrite E.
           rewrite existsb_app. simpl. rewrite Nat.eqb_refl, orb_true_r. auto.
        -- rewrite tupd_neq by auto. rewrite IH2 by auto. rewrite existsb_app. simpl.
           destruct (Nat.eqb_spec (ad d) t); [congruence|]. rewrite !orb_false_r. auto.
    + simpl. rewrite Nat.add_0_r. split; auto. intros t Nt. rewrite IH2 by auto.
      destruct (tk t) as [v|] eqn:F; auto. rewrite existsb_app. simpl.
      destruct (Nat.eqb_spec (ad d) t); [congruence|]. rewrite !orb_false_r. auto.
Qed.

Section Inv.
Context {Op Res : Type}.
Variable cond : Op -> bool.
Variable divide : Op -> list Op.
Variable seqf : Op -> Res.
Variable combine : list Res -> Res.
Variable junk : nat -> nat -> nat.
Variable op0 : Op.
Notation Inv := (Inv cond divide seqf combine op0).
Notation st := (@st Op Res).

Lemma ins_NoDup : forall k, NoDup (ins k).
Proof. destruct k; simpl; [constructor | apply seq_NoDup]. Qed.

Lemma inv_step_insert : forall (s : st) SS SS' rql j k,
  Inv SS (tk s) (addr s) rql (frames s) (mem s) (nid s) (numb s) (comp s) ->
  SS j = Snd k :: SS' j -> (forall j', j' <> j -> SS' j' = SS j') ->
  let s' := insert junk k s in
  (rq s' = rq s /\ Inv SS' (tk s') (addr s') rql (frames s) (mem s) (nid s') (numb s') (comp s')) \/
  (rq s' = rq s ++ [nid s] /\ forall rql', NoDup rql' -> (forall x, In x rql' <-> In x rql \/ x = nid s) ->
     Inv SS' (tk s') (addr s') rql' (frames s) (mem s) (nid s') (numb s') (comp s')).
Proof.
  intros s SS SS' rql j k I Ej Eo s'.
  assert (Ea : tk s (nid s) = None).
  { destruct (tk s (nid s)) as [u|] eqn:E; auto. apply (i_nid _ _ _ _ _ _ _ _ _ _ _ _ _ _ I) in E. lia. }
  assert (Ez : tk s 0 = None).
  { destruct (tk s 0) as [u|] eqn:E; auto. apply (i_nid _ _ _ _ _ _ _ _ _ _ _ _ _ _ I) in E. lia. }
  assert (Adn : forall a, addr s a <> nid s).
  { intros a E. pose proof (i_adn _ _ _ _ _ _ _ _ _ _ _ _ _ _ I a). lia. }
  assert (Nz : nid s <> 0) by (pose proof (i_adn _ _ _ _ _ _ _ _ _ _ _ _ _ _ I 0); lia).
  assert (Kad : forall a u, tk s (addr s a) = Some u -> kout (kd u) = a).
  { intros a u H. eapply (i_ad _ _ _ _ _ _ _ _ _ _ _ _ _ _ I); eauto. }
  destruct (fold_in_spec (tk s) (addr s) (nid s) k (junk (nid s)) (ins k) Ea Nz Ez Adn (ins_NoDup k) Kad) as [F1 F2].
  assert (Hk : In (Snd k) (SS j)) by (rewrite Ej; left; auto).
  assert (Kk : kok cond divide op0 (frames s) k).
  { eapply i_tok; eauto. left. exists j, (Snd k). auto. }
  assert (Rin : ~ inr k (kout k)).
  { destruct k as [b i|b n r']; simpl; [auto|]. destruct Kk as (o & _ & _ & _ & _ & H). auto. }
  assert (Adslot : forall d u, inr k d -> tk s (addr s d) = Some u -> unum u = 0).
  { intros d u Hd. destruct k as [|b n r'] eqn:Ek; [destruct Hd|]. eapply (i_ads _ _ _ _ _ _ _ _ _ _ _ _ _ _ I); eauto. }
  revert F1 F2. subst s'. unfold insert.
  generalize (fold_left (fun tk0 d => p_in (nid s) d tk0 (addr s)) (ins k)
     (fupd (tk s) (nid s) (Some (mkT k NotReady 0 (junk (nid s)) 0)))) as tk1.
  intros tk1 F1 F2.
  (* the tasks that wait for nobody but the new one *)
  assert (Pin : forall t u, t <> nid s -> tk s t = Some u -> exists u1, tk1 t = Some u1 /\ kd u1 = kd u /\ stat u1 = stat u /\ rem u1 = rem u /\
     ((exists d, inr k d /\ addr s d = t) -> points u1 (nid s)) /\ ((forall d, inr k d -> addr s d <> t) -> u1 = u)).
  { intros t u Nt H. rewrite F2, H by auto. destruct (existsb (fun d => addr s d =? t) (ins k)) eqn:E.
    - apply existsb_exists in E as (d & A & B). apply in_ins in A. apply Nat.eqb_eq in B.
      assert (unum u = 0) as Z by (apply (Adslot d); [auto | congruence]).
      exists (add_id u (nid s)). unfold add_id. simpl. split; [auto|split; [auto|split; [auto|split; [auto|split]]]].
      + intros _. split; simpl; [lia|]. rewrite Z. apply fupd_eq.
      + intros X. destruct (X d A B).
    - exists u. split; [auto|split; [auto|split; [auto|split; [auto|split; [|auto]]]]].
      intros (d & A & B). exfalso. apply not_true_iff_false in E. apply E. apply existsb_exists. exists d.
      split; [apply in_ins; auto | apply Nat.eqb_eq; auto]. }
  assert (Pn : forall t, t <> nid s -> tk s t = None -> tk1 t = None).
  { intros t Nt H. rewrite F2, H; auto. }
  assert (Ez1 : tk1 0 = None) by (apply Pn; auto).
  (* the state after the OUTPUT parameter *)
  set (r := kout k) in *. unfold p_out.
  assert (Q : exists tk2 w0,
     (match find_task tk1 (addr s r) with
      | Some t => if unum t =? 0 then tupd (tupd tk1 (addr s r) (fun t0 => add_id t0 (nid s))) (nid s) add_dep
                  else let (tk', del) := scan (nid s) (addr s r) (seq 0 (unum t)) tk1 [] in compact (addr s r) del tk'
      | None => tk1 end) = tk2 /\
     tk2 (nid s) = Some w0 /\ kd w0 = k /\ stat w0 = NotReady /\
     rem w0 = length (filter (live (tk s) (addr s)) (ins k) ++ waits (tk s) (addr s) r) /\
     (match tk s (addr s r) with
      | Some u => if unum u =? 0 then unum w0 = 0 else points w0 (ids u 0)
      | None => unum w0 = 0 end) /\
     (forall t, t <> nid s -> tk s t = None -> tk2 t = None) /\
     (forall t u, t <> nid s -> tk s t = Some u -> exists u', tk2 t = Some u' /\ kd u' = kd u /\ stat u' = stat u /\ rem u' = rem u /\
       ((exists d, inr k d /\ addr s d = t) -> points u' (nid s)) /\
       (addr s r = t -> if unum u =? 0 then points u' (nid s) else unum u' = 0) /\
       ((forall d, inr k d -> addr s d <> t) -> addr s r <> t -> u' = u))).
  { rewrite find_tk by auto. rewrite F2 by auto. rewrite app_length. unfold waits.
    destruct (tk s (addr s r)) as [u|] eqn:E.
    - assert (Ex : existsb (fun d => addr s d =? addr s r) (ins k) = false).
      { apply not_true_is_false. intros H. apply existsb_exists in H as (d0 & A & B). apply Nat.eqb_eq in B.
        apply in_ins in A. apply Rin. fold r. replace r with d0; auto. rewrite <- (Kad r u E). rewrite <- B in E. symmetry; auto. }
      assert (Er1 : tk1 (addr s r) = Some u) by (rewrite F2, E, Ex; auto).
      assert (Nir : forall d, inr k d -> addr s d <> addr s r).
      { intros d Hd X. apply not_true_iff_false in Ex. apply Ex. apply existsb_exists. exists d.
        split; [apply in_ins; auto | apply Nat.eqb_eq; auto]. }
      rewrite Ex. destruct (unum u =? 0) eqn:Z.
      + apply Nat.eqb_eq in Z. eexists. eexists. split; [reflexivity|]. split.
        { rewrite tupd_eq with (v := mkT k NotReady (length (filter (live (tk s) (addr s)) (ins k))) (junk (nid s)) 0);
            [reflexivity|]. rewrite tupd_neq by auto. exact F1. }
        unfold add_dep. simpl. split; [auto|split; [auto|split; [lia|split; [auto|split]]]].
        * intros t Nt H. rewrite tupd_neq by auto. rewrite tupd_neq by congruence. auto.
        * intros t v Nt H. destruct (Pin t v Nt H) as (v1 & A & B & C & D & P1 & P2).
          rewrite tupd_neq by auto. destruct (Nat.eq_dec t (addr s r)) as [->|Nr].
          -- rewrite tupd_eq with (v := u) by auto. rewrite E in H. injection H as <-.
             exists (add_id u (nid s)). unfold add_id at 2 3 4. simpl. split; [auto|split; [auto|split; [auto|split; [auto|split; [|split]]]]].
             ++ intros (d & X & Y). destruct (Nir d X Y).
             ++ intros _. rewrite Z. simpl. split; simpl; [lia|]. rewrite Z. apply fupd_eq.
             ++ congruence.
          -- rewrite tupd_neq by auto. exists v1. split; [auto|split; [auto|split; [auto|split; [auto|split; [auto|split]]]]].
             ++ congruence.
             ++ auto.
      + apply Nat.eqb_neq in Z.
        assert (Z1 : unum u = 1) by (pose proof (i_unum _ _ _ _ _ _ _ _ _ _ _ _ _ _ I _ _ E); lia).
        destruct (i_pt _ _ _ _ _ _ _ _ _ _ _ _ _ _ I _ _ E Z1) as (c & b2 & n2 & r2 & Hc & _).
        assert (Nc : ids u 0 <> nid s) by congruence.
        assert (Sc : stat c = NotReady).
        { destruct (stat c) eqn:S; auto. exfalso.
          apply (i_stat _ _ _ _ _ _ _ _ _ _ _ _ _ _ I _ _ Hc) in S.
          eapply (rem0_unpointed _ _ _ _ _ _ _ _ _ _ _ _ _ _ _ _ _ u I Hc S E). split; auto. }
        destruct (Pin _ _ Nc Hc) as (c1 & Hc1 & _ & Sc1 & _).
        rewrite Z1. cbn [seq scan]. rewrite Er1, find_tk, Hc1, Sc1, Sc by auto.
        destruct (Nat.eqb_spec (ids u 0) (nid s)); [congruence|]. cbn [orb scan app].
        eexists. eexists. split; [reflexivity|]. unfold compact. cbn [fold_left].
        split.
        { rewrite tupd_neq by auto. rewrite tupd_neq by auto.
          rewrite tupd_eq with (v := mkT k NotReady (length (filter (live (tk s) (addr s)) (ins k))) (junk (nid s)) 0);
            [reflexivity | exact F1]. }
        unfold add_id. simpl. split; [auto|split; [auto|split; [lia|split; [split; auto; apply fupd_eq|split]]]].
        * intros t Nt H. rewrite tupd_neq by congruence. rewrite tupd_neq by congruence. rewrite tupd_neq by auto. auto.
        * intros t v Nt H. destruct (Pin t v Nt H) as (v1 & A & B & C & D & P1 & P2).
          destruct (Nat.eq_dec t (addr s r)) as [->|Nr].
          -- rewrite tupd_eq with (v := set_id u 0 0)
               by (rewrite tupd_eq with (v := u); [auto | rewrite tupd_neq; auto]).
             rewrite E in H. injection H as <-. eexists. split; [reflexivity|]. simpl.
             split; [auto|split; [auto|split; [auto|split; [|split]]]].
             ++ intros (d & X & Y). destruct (Nir d X Y).
             ++ intros _. rewrite Z1. simpl. auto.
             ++ congruence.
          -- rewrite !tupd_neq by auto. exists v1. split; [auto|split; [auto|split; [auto|split; [auto|split; [auto|split]]]]].
             ++ congruence.
             ++ auto.
    - eexists. eexists. split; [reflexivity|]. split; [exact F1|]. simpl. split; [auto|split; [auto|split; [lia|split; [auto|split]]]].
      + auto.
      + intros t v Nt H. destruct (Pin t v Nt H) as (v1 & A & B & C & D & P1 & P2). exists v1.
        split; [auto|split; [auto|split; [auto|split; [auto|split; [auto|split]]]]].
        * congruence.
        * auto. }
  destruct Q as (tk2 & w0 & E2 & Hw & Kw & Sw & Rw & Uw & Qn & Qs). rewrite E2. cbv zeta. rewrite Hw.
  destruct (rem w0 =? 0) eqn:R; cbn [rq tk addr nid numb comp].
  - apply Nat.eqb_eq in R. right. split; auto. intros rql' N' H'.
    eapply inv_insert with (w := mkT (kd w0) Ready (rem w0) (ids w0) (unum w0)); eauto.
    + rewrite tupd_eq with (v := w0); auto.
    + intros t Nt H. rewrite tupd_neq by auto. auto.
    + intros t u Nt H. rewrite tupd_neq by auto. apply Qs; auto.
    + simpl. tauto.
    + intros x. rewrite H'. simpl. tauto.
  - apply Nat.eqb_neq in R. left. split; auto.
    eapply inv_insert with (w := w0); eauto.
    + split; [congruence | tauto].
    + eapply i_rq; eauto.
    + intros x. tauto.
Qed.

Lemma inv_step_done : forall (s : st) SS SS' rql j t,
  Inv SS (tk s) (addr s) rql (frames s) (mem s) (nid s) (numb s) (comp s) ->
  SS j = Don t :: SS' j -> (forall j', j' <> j -> SS' j' = SS j') ->
  let s' := handle s t in
  addr s' = addr s /\ nid s' = nid s /\ numb s' = numb s /\ comp s' = S (comp s) /\ todo s' = todo s /\
  ws s' = ws s /\ mem s' = mem s /\ frames s' = frames s /\ fin s' = (numb s =? S (comp s)) /\ bad s' = bad s /\
  ((rq s' = rq s /\ Inv SS' (tk s') (addr s) rql (frames s) (mem s) (nid s) (numb s) (S (comp s))) \/
   exists c, rq s' = rq s ++ [c] /\ ~ In c rql /\ forall rql', NoDup rql' -> (forall x, In x rql' <-> In x rql \/ x = c) ->
     Inv SS' (tk s') (addr s) rql' (frames s) (mem s) (nid s) (numb s) (S (comp s))).
Proof.
  intros s SS SS' rql j t I Ej Eo s'.
  assert (Ez : tk s 0 = None).
  { destruct (tk s 0) as [u|] eqn:E; auto. apply (i_nid _ _ _ _ _ _ _ _ _ _ _ _ _ _ I) in E. lia. }
  destruct (i_dt _ _ _ _ _ _ _ _ _ _ _ _ _ _ I j t) as (v & Ht & St); [rewrite Ej; left; auto|].
  assert (R0 : rem v = 0) by (eapply (i_stat _ _ _ _ _ _ _ _ _ _ _ _ _ _ I); eauto).
  assert (Pdec : unum v = 0 \/ unum v = 1) by (pose proof (i_unum _ _ _ _ _ _ _ _ _ _ _ _ _ _ I _ _ Ht); lia).
  subst s'. unfold handle. rewrite find_tk, Ht by auto.
  destruct Pdec as [Z|Z]; rewrite Z.
  - cbn [seq fold_left rq tk addr nid numb comp todo ws mem frames fin bad].
    do 10 (split; [reflexivity|]). left. split; auto.
    eapply inv_done; eauto.
    + apply fupd_eq.
    + intros x Nx H. rewrite fupd_neq; auto.
    + intros x w Nx H. rewrite fupd_neq by auto. exists w. split; [auto|split; [auto|split; [auto|split; [auto|split; [|split]]]]].
      * intros [P _]. lia.
      * auto.
      * eapply i_stat; eauto.
    + eapply i_rq; eauto.
    + intros x. split; [auto|]. intros [X|[[P _] _]]; [auto | lia].
  - cbn [seq fold_left]. rewrite Ht.
    destruct (i_pt _ _ _ _ _ _ _ _ _ _ _ _ _ _ I _ _ Ht Z) as (c & b2 & n2 & r2 & Hc & _).
    assert (Pc : points v (ids v 0)) by (split; auto).
    assert (Nt : ids v 0 <> t).
    { intros E. rewrite E in *. eapply (rem0_unpointed _ _ _ _ _ _ _ _ _ _ _ _ _ _ _ v _ v I Ht R0 Ht). auto. }
    destruct (rem c) as [|q] eqn:Rc.
    { exfalso. eapply (rem0_unpointed _ _ _ _ _ _ _ _ _ _ _ _ _ _ _ c _ v I Hc Rc Ht). auto. }
    assert (Sc : stat c = NotReady).
    { destruct (stat c) eqn:S; auto. apply (i_stat _ _ _ _ _ _ _ _ _ _ _ _ _ _ I _ _ Hc) in S. lia. }
    unfold unblock. rewrite find_tk, Hc, Rc, Sc by auto. rewrite andb_true_r.
    cbn [rq tk addr nid numb comp todo ws mem frames fin bad].
    do 10 (split; [reflexivity|]).
    assert (G : forall rql', NoDup rql' -> (forall x, In x rql' <-> In x rql \/ (x = ids v 0 /\ q = 0)) ->
      Inv SS' (fupd (fupd (tk s) (ids v 0) (Some (mkT (kd c) (if q =? 0 then Ready else NotReady) q (ids c) (unum c)))) t None)
          (addr s) rql' (frames s) (mem s) (nid s) (numb s) (S (comp s))).
    { intros rql' N' H'. eapply inv_done; eauto.
      - apply fupd_eq.
      - intros x Nx H. rewrite fupd_neq by auto. rewrite fupd_neq by congruence. auto.
      - intros x w Nx H. rewrite fupd_neq by auto. destruct (Nat.eq_dec x (ids v 0)) as [->|Nc].
        + rewrite fupd_eq. rewrite Hc in H. injection H as <-. eexists. split; [reflexivity|]. simpl.
          split; [auto|split; [auto|split; [auto|split; [|split]]]].
          * intros _. lia.
          * intros P. destruct (P Pc).
          * destruct q; simpl; split; intros; auto; discriminate.
        + rewrite fupd_neq by auto. exists w. split; [auto|split; [auto|split; [auto|split; [auto|split; [|split]]]]].
          * intros [_ P]. congruence.
          * auto.
          * eapply i_stat; eauto.
      - intros x. rewrite H'. split; (intros [X|X]; [auto|right]).
        + destruct X as [-> ->]. split; auto. eexists. rewrite fupd_neq by auto. rewrite fupd_eq. split; [reflexivity|auto].
        + destruct X as [[_ P] (w' & X1 & X2)]. split; [auto|]. subst x. rewrite fupd_neq, fupd_eq in X1 by auto.
          injection X1 as <-. auto. }
    destruct (q =? 0) eqn:Q.
    + apply Nat.eqb_eq in Q. right. exists (ids v 0). split; [auto|split].
      * intros X. apply (i_rqt _ _ _ _ _ _ _ _ _ _ _ _ _ _ I) in X as (w & A & B & _). congruence.
      * intros rql' N' H'. apply G; auto. intros x. rewrite H'. intuition.
    + apply Nat.eqb_neq in Q. left. split; auto. apply G; [eapply i_rq; eauto|]. intros x. intuition.
Qed.
End Inv.
