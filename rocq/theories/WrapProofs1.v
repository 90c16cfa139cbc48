(** The loop over the stages does the same with and without feedback channels: the channels created
    by prepare_wraparound only shift the numbers of the others. *)
From Coq Require Import List Arith Bool Lia.
From Verif Require Import WireModel WireSpec WireProofs WireProofs2 WireProofs5 WrapModel WrapSpec.
Import ListNotations.

Section Sim.
  Variables (l : list stage) (w : heap) (last : nat) (pl : stage).
  Hypothesis LN : nth_error l last = Some pl.
  Hypothesis LL : length l = S last.
  Hypothesis L1 : 0 < last.

  Definition k : nat := nb w.
  Definition inS (x : id) : bool :=
    (fst x =? 0) && match snd x with Self | Em | Lw _ => true | _ => false end.
  Definition outS (x : id) : bool :=
    (fst x =? last) && match snd x with
                       | Self | Co | Obj | Rw _ => true
                       | Wk _ => match pl with SFarm _ _ NoColl _ => true | _ => false end
                       | _ => false end.
  Definition sh (o : option nat) : option nat := option_map (fun b => k + b) o.
  Definition shr (r : ref) : ref := match r with Nref x => Nref x | Bref b => Bref (k + b) end.

  Record R (h h' : heap) : Prop := {
    Rnb : nb h' = k + nb h;
    Rin : forall x, inN h' x = map shr (inN h x);
    Rout : forall x, outN h' x = map shr (outN h x);
    Rnin : forall x, nin h' x = if inS x then nin w x else sh (nin h x);
    Rnout : forall x, nout h' x = if outS x then nout w x else sh (nout h x);
    Rri : forall x z, In (Nref z) (inN h x) -> outS z = false;
    Rro : forall x z, In (Nref z) (outN h x) -> inS z = false;
    Robj : outN h (last, Obj) = [] }.

  Definition orel (o o' : option heap) : Prop :=
    match o, o' with Some h, Some h' => R h h' | None, None => True | _, _ => False end.

  Lemma R_alloc : forall h h', R h h' -> R (alloc h) (alloc h').
  Proof. intros h h' []. constructor; simpl; auto. lia. Qed.
  Lemma R_nin : forall x b b' h h', inS x = false -> b' = sh b -> R h h' -> R (set_nin x b h) (set_nin x b' h').
  Proof.
    intros x b b' h h' I -> []. constructor; simpl; auto. intros y. unfold upd. destruct (id_eqb x y) eqn:E; auto.
    apply id_eqb_iff in E. subst y. rewrite I. auto.
  Qed.
  Lemma R_nout : forall x b b' h h', outS x = false -> b' = sh b -> R h h' -> R (set_nout x b h) (set_nout x b' h').
  Proof.
    intros x b b' h h' I -> []. constructor; simpl; auto. intros y. unfold upd. destruct (id_eqb x y) eqn:E; auto.
    apply id_eqb_iff in E. subst y. rewrite I. auto.
  Qed.
  Lemma R_addin : forall x r r' h h', (forall z, In (Nref z) r -> outS z = false) -> r' = map shr r -> R h h' -> R (add_in x r h) (add_in x r' h').
  Proof.
    intros x r r' h h' I -> []. constructor; simpl; auto.
    - intros y. unfold upd. destruct (id_eqb x y) eqn:E; auto. rewrite map_app, Rin0. auto.
    - intros y z. unfold upd. destruct (id_eqb x y) eqn:E; [|eauto]. intros H. apply in_app_or in H. destruct H; eauto.
  Qed.
  Lemma R_addout : forall x r r' h h', x <> (last, Obj) -> (forall z, In (Nref z) r -> inS z = false) -> r' = map shr r -> R h h' ->
    R (add_out x r h) (add_out x r' h').
  Proof.
    intros x r r' h h' NX I -> []. constructor; simpl; auto.
    - intros y. unfold upd. destruct (id_eqb x y) eqn:E; auto. rewrite map_app, Rout0. auto.
    - intros y z. unfold upd. destruct (id_eqb x y) eqn:E; [|eauto]. intros H. apply in_app_or in H. destruct H; eauto.
    - rewrite upd_neq; auto.
  Qed.
  Lemma orel_bind : forall o o' f f', orel o o' -> (forall h h', R h h' -> orel (f h) (f' h')) -> orel (bind o f) (bind o' f').
  Proof. intros [h|] [h'|] f f' H F; simpl in *; auto; contradiction. Qed.
  Lemma orel_iter : forall A (f f' : A -> heap -> option heap) m, (forall a h h', In a m -> R h h' -> orel (f a h) (f' a h')) ->
    forall h h', R h h' -> orel (iter f m h) (iter f' m h').
  Proof.
    induction m as [|a m IH]; intros F h h' RR; simpl; auto. pose proof (F a h h' (or_introl eq_refl) RR) as E.
    destruct (f a h), (f' a h'); simpl in E; try contradiction; auto. apply IH; auto. intros; apply F; auto. right; auto.
  Qed.
  Lemma orel_ignore : forall o o' h h', orel o o' -> R h h' -> orel (ignore o h) (ignore o' h').
  Proof. intros [a|] [b|] h h' H RR; simpl in *; auto; contradiction. Qed.

  Lemma sh_none : forall o, sh o = None <-> o = None.
  Proof. intros [b|]; simpl; split; congruence. Qed.
  Lemma R_refin : forall h h' r, R h h' -> (forall z, r = Nref z -> inS z = false) -> refin h' (shr r) = sh (refin h r).
  Proof. intros h h' [z|b] RR H; simpl; auto. rewrite (Rnin _ _ RR), (H z eq_refl). auto. Qed.
  Lemma R_refout : forall h h' r, R h h' -> (forall z, r = Nref z -> outS z = false) -> refout h' (shr r) = sh (refout h r).
  Proof. intros h h' [z|b] RR H; simpl; auto. rewrite (Rnout _ _ RR), (H z eq_refl). auto. Qed.

  (** The operations. *)
  Lemma r_create_in : forall m x h h', inS x = false -> R h h' -> orel (create_in m x h) (create_in m x h').
  Proof.
    intros m x h h' I RR. unfold create_in. rewrite (Rnin _ _ RR), I. destruct (nin h x) as [b|]; simpl; auto.
    assert (R1 : R (set_nin x (Some (nb h)) (alloc h)) (set_nin x (Some (nb h')) (alloc h'))).
    { apply R_nin; auto; [|apply R_alloc; auto]. simpl. rewrite (Rnb _ _ RR). auto. }
    destruct m; simpl; auto. apply R_addin; auto.
    - intros z [H|[]]. discriminate.
    - simpl. rewrite (Rnb _ _ RR). auto.
  Qed.
  Lemma r_create_out : forall x h h', outS x = false -> R h h' -> orel (create_out x h) (create_out x h').
  Proof.
    intros x h h' I RR. unfold create_out. rewrite (Rnout _ _ RR), I. destruct (nout h x) as [b|]; simpl; auto.
    apply R_nout; auto; [|apply R_alloc; auto]. simpl. rewrite (Rnb _ _ RR). auto.
  Qed.
  Lemma r_new_edge : forall y x h h', x <> (last, Obj) -> R h h' -> orel (new_edge y x h) (new_edge y x h').
  Proof.
    intros y x h h' NX RR. unfold new_edge. simpl. apply R_addin.
    - intros z [H|[]]. discriminate.
    - simpl. rewrite (Rnb _ _ RR). auto.
    - apply R_addout; auto; [intros z [H|[]]; discriminate|simpl; rewrite (Rnb _ _ RR); auto|apply R_alloc; auto].
  Qed.
  Lemma r_cross : forall xs ys h h', ~ In (last, Obj) xs -> R h h' -> orel (cross xs ys h) (cross xs ys h').
  Proof.
    intros xs ys h h' NX RR. unfold cross. apply orel_iter; auto. intros y h1 h1' _ R1. apply orel_iter; auto.
    intros x h2 h2' Hx R2. apply r_new_edge; auto. intros ->; auto.
  Qed.

  (** Stages before the last one. *)
  Lemma out_low : forall i r, i < last -> outS (i, r) = false.
  Proof. intros i r H. unfold outS. simpl. destruct (Nat.eqb_spec i last); auto. lia. Qed.
  Lemma in_high : forall i r, inS (S i, r) = false.
  Proof. intros. unfold inS. simpl. auto. Qed.
  Lemma obj_low : forall i r, i < last -> (i, r) <> (last, Obj).
  Proof. intros i r H E. injection E as E1 E2. lia. Qed.

  Lemma r_set_output_buffer : forall i s b b' h h', i < last -> b' = sh b -> R h h' ->
    orel (stage_set_output_buffer i s b h) (stage_set_output_buffer i s b' h').
  Proof.
    intros i s b b' h h' H -> RR. destruct s as [k0|n kw [| |kc] o|n1 k1 n2 k2]; simpl; auto; apply R_nout; auto; apply out_low; auto.
  Qed.
  Lemma r_create_output : forall i s h h', i < last -> R h h' -> orel (stage_create_output i s h) (stage_create_output i s h').
  Proof.
    intros i s h h' H RR. destruct s as [k0|n kw c o|n1 k1 n2 k2]; cbn [stage_create_output].
    - apply r_create_out; auto. apply out_low; auto.
    - destruct (has_coll (SFarm n kw c o)).
      + pose proof (r_create_out (i, Obj) h h' (out_low _ _ H) RR) as E. destruct (create_out (i, Obj) h), (create_out (i, Obj) h'); simpl in E; try contradiction; simpl; auto.
        apply R_nout; auto; [apply out_low; auto|]. rewrite (Rnout _ _ E), out_low by auto. auto.
      + apply orel_iter; auto. intros x h1 h1' Hx R1. apply in_map_iff in Hx. destruct Hx as (j & <- & _). apply r_create_out; auto. apply out_low; auto.
    - apply orel_iter; auto. intros x h1 h1' Hx R1. apply in_map_iff in Hx. destruct Hx as (j & <- & _). apply r_create_out; auto. apply out_low; auto.
  Qed.
  Lemma r_set_output : forall i s r r' h h', i < last -> (forall z, In (Nref z) r -> inS z = false) -> r' = map shr r -> R h h' ->
    orel (stage_set_output i s r h) (stage_set_output i s r' h').
  Proof.
    intros i s r r' h h' H Z -> RR. destruct s as [k0|n kw [| |kc] o|n1 k1 n2 k2]; simpl; auto; try (apply R_addout; auto; apply obj_low; auto).
    - rewrite (Rout _ _ RR), !map_length. destruct (n <? length (outN h (i, Obj)) + length r); simpl; auto. apply R_addout; auto; apply obj_low; auto.
    - destruct (mo kc); simpl; auto. apply R_addout; auto; apply obj_low; auto.
  Qed.
  Lemma out_nodes_fst : forall i s x, In x (out_nodes i s) -> fst x = i.
  Proof.
    intros i s x. destruct s as [k0|n kw [| |kc] o|n1 k1 n2 k2]; simpl; try (intros [<-|[]]; auto; fail);
      intros H; apply in_map_iff in H; destruct H as (j & <- & _); auto.
  Qed.
  Lemma shr_nref : forall xs, map shr (map Nref xs) = map Nref xs.
  Proof. intros. rewrite map_map. apply map_ext. auto. Qed.
  Lemma lw_high : forall i n y, In y (lw (S i) n) -> inS y = false.
  Proof. intros i n y H. apply in_map_iff in H. destruct H as (j & <- & _). apply in_high. Qed.

  Lemma out_low' : forall i x, fst x = i -> i < last -> outS x = false.
  Proof. intros i [i' r] E H. simpl in E. subst i'. apply out_low; auto. Qed.

  Lemma r_connect : forall i p c h h', i < last -> R h h' -> orel (connect i p c h) (connect i p c h').
  Proof.
    intros i p c h h' H RR.
    assert (NO : ~ In (last, Obj) (out_nodes i p)) by (intros A; apply out_nodes_fst in A; simpl in A; lia).
    assert (BR : forall h h', R h h' -> [Bref (nb h')] = map shr [Bref (nb h)]) by (intros a b RA; simpl; rewrite (Rnb _ _ RA); auto).
    assert (BZ : forall b z, In (Nref z) [Bref b] -> forall T : Prop, T) by (intros b z [A|[]]; discriminate).
    assert (LC : forall m n1, orel (iter (create_in m) (lw (S i) n1) h) (iter (create_in m) (lw (S i) n1) h')).
    { intros m n1. apply orel_iter; auto. intros y h1 h1' Hy R1. apply r_create_in; auto. eapply lw_high; eauto. }
    assert (CI : forall x y n1, In (x, y) (combine (out_nodes i p) (lw (S i) n1)) -> fst x = i /\ inS y = false).
    { intros x y n1 A. split; [eapply out_nodes_fst, in_combine_l; eauto|eapply lw_high, in_combine_r; eauto]. }
    assert (NODE : forall y, inS y = false -> is_a2a c = false -> in_node (S i) c = y -> orel (connect i p c h) (connect i p c h')).
    { intros y IY AC <-. assert (AX : forall hh, connect i p c hh = let y := in_node (S i) c in
      if multi_in c then
        if p_ss p then
          bind (stage_create_output i p hh) (fun h => Some (add_in y [stage_ref i p] h))
        else if p_sm p then
          let b := nb hh in
          bind (ignore (stage_set_output i p [Bref b] (alloc hh)) (alloc hh)) (fun h => Some (add_in y [Bref b] h))
        else if p_ms p then
          bind (stage_create_output i p hh) (fun h => Some (add_in y (map Nref (out_nodes i p)) h))
        else cross (out_nodes i p) [y] hh
      else
        bind (create_in false y hh) (fun h =>
        if p_ss p then stage_set_output_buffer i p (nin h y) h
        else if p_sm p then ignore (stage_set_output i p [Nref y] h) h
        else if 1 <? length (out_nodes i p) then None
             else ignore (stage_set_output i p [Nref y] h) h)) by (intros hh; destruct c; [reflexivity|reflexivity|discriminate]).
      rewrite !AX. cbv zeta. destruct (multi_in c).
      - destruct (p_ss p); [|destruct (p_sm p); [|destruct (p_ms p)]].
        + apply orel_bind; [apply r_create_output; auto|]. intros h1 h1' R1. simpl. apply R_addin; auto.
          * intros z [A|[]]. destruct p; simpl in A; injection A as <-; apply out_low; auto.
          * destruct p; auto.
        + apply orel_bind.
          * apply orel_ignore; [|apply R_alloc; auto]. apply r_set_output; auto; [intros z Z; eapply BZ; eauto|apply R_alloc; auto].
          * intros h1 h1' R1. simpl. apply R_addin; auto; try (intros z Z; eapply (BZ (nb h)); eauto).
        + apply orel_bind; [apply r_create_output; auto|]. intros h1 h1' R1. simpl. apply R_addin; auto.
          * intros z A. apply in_map_iff in A. destruct A as (x & A & Hx). injection A as <-. eapply out_low'; [|exact H]. eapply out_nodes_fst; eauto.
          * rewrite shr_nref. auto.
        + apply r_cross; auto.
      - apply orel_bind; [apply r_create_in; auto|]. intros h1 h1' R1.
        assert (SO : orel (ignore (stage_set_output i p [Nref (in_node (S i) c)] h1) h1) (ignore (stage_set_output i p [Nref (in_node (S i) c)] h1') h1')).
        { apply orel_ignore; auto. apply r_set_output; auto. intros z [A|[]]. injection A as <-. auto. }
        destruct (p_ss p); [|destruct (p_sm p); [auto|destruct (1 <? length (out_nodes i p)); simpl; auto]].
        apply r_set_output_buffer; auto. rewrite (Rnin _ _ R1), IY. auto. }
    destruct c as [k0|n kw cc o|n1 k1 n2 k2]; [apply (NODE (S i, Self)); auto|apply (NODE (S i, Em)); auto|]. clear NODE.
    cbn [connect]. destruct (mi k1).
    - destruct (p_ss p); [|destruct (p_sm p); [|destruct (p_ms p)]].
      + destruct (1 <? n1); [simpl; auto|]. apply orel_bind; auto. intros h1 h1' R1. apply r_set_output_buffer; auto.
        rewrite (Rnin _ _ R1), in_high. auto.
      + apply orel_iter; auto. intros y h1 h1' Hy R1. cbv zeta.
        assert (R2 : R (add_in y [Bref (nb h1)] (alloc h1)) (add_in y [Bref (nb h1')] (alloc h1'))).
        { apply R_addin; auto; [intros z Z; eapply BZ; eauto|apply R_alloc; auto]. }
        apply orel_ignore; auto. apply r_set_output; auto. intros z Z; eapply BZ; eauto.
      + destruct (length (out_nodes i p) =? n1); [|simpl; auto]. apply orel_bind; [apply r_create_output; auto|].
        intros h1 h1' R1. apply orel_iter; auto. intros [x y] h2 h2' Hxy R2. simpl. destruct (CI _ _ _ Hxy) as [C1 C2].
        apply R_addin; auto. intros z [A|[]]. injection A as <-. eapply out_low'; eauto.
      + apply r_cross; auto.
    - destruct (p_ss p); [|destruct (p_sm p)].
      + destruct (1 <? n1); [simpl; auto|]. apply orel_bind; auto. intros h1 h1' R1. apply r_set_output_buffer; auto.
        rewrite (Rnin _ _ R1), in_high. auto.
      + apply orel_bind; auto. intros h1 h1' R1. apply r_set_output; auto; [|rewrite shr_nref; auto].
        intros z A. apply in_map_iff in A. destruct A as (x & A & Hx). injection A as <-. eapply lw_high; eauto.
      + destruct (length (out_nodes i p) =? n1); [|simpl; auto]. apply orel_bind; auto.
        intros h1 h1' R1. apply orel_iter; auto. intros [x y] h2 h2' Hxy R2. destruct (CI _ _ _ Hxy) as [C1 C2]. unfold join. cbn [fst snd].
        destruct (out_mo p); simpl.
        * apply R_addout; auto; [intros ->; simpl in C1; lia|]. intros z [A|[]]. injection A as <-. auto.
        * apply R_nout; auto; [eapply out_low'; eauto|]. rewrite (Rnin _ _ R2), C2. auto.
  Qed.
  Lemma r_connect_all : forall m i p h h', i + length m <= last -> R h h' -> orel (connect_all i p m h) (connect_all i p m h').
  Proof.
    induction m as [|c m IH]; intros i p h h' H RR; cbn [connect_all]; [simpl; auto|]. simpl in H.
    apply orel_bind; [apply r_connect; auto; lia|]. intros h1 h1' R1. apply IH; auto. lia.
  Qed.

  Lemma wk_in : forall i j, inS (i, Wk j) = false.
  Proof. intros. unfold inS. simpl. apply andb_false_r. Qed.
  Lemma r_prep : forall i s h h', nth_error l i = Some s -> R h h' -> orel (prep i s h) (prep i s h').
  Proof.
    intros i s h h' N RR. assert (IL : i <= last) by (assert (i < length l) by (apply nth_error_Some; congruence); lia).
    destruct s as [k0|n kw c o|n1 k1 n2 k2]; cbn [prep]; [simpl; auto| |].
    - destruct ((n =? 0) || (o && (mi kw || mo kw))); [simpl; auto|]. apply orel_iter; auto. intros j h1 h1' _ R1. unfold prep_worker.
      apply orel_bind; [apply r_create_in; auto; apply wk_in|]. intros h2 h2' R2. cbv zeta.
      assert (EN : (i, Em) <> (last, Obj)) by congruence.
      assert (WN : (i, Wk j) <> (last, Obj)) by congruence.
      assert (R3 : R (add_out (i, Em) [Nref (i, Wk j)] h2) (add_out (i, Em) [Nref (i, Wk j)] h2')).
      { apply R_addout; auto. intros z [A|[]]. injection A as <-. apply wk_in. }
      set (h3 := add_out (i, Em) [Nref (i, Wk j)] h2) in *. set (h3' := add_out (i, Em) [Nref (i, Wk j)] h2') in *. clearbody h3 h3'. clear R2 R1 RR.
      assert (WO : outS (i, Wk j) = true -> i = last /\ c = NoColl).
      { unfold outS. simpl. intros A. apply andb_prop in A. destruct A as [A B]. apply Nat.eqb_eq in A. subst i. rewrite LN in N. injection N as ->.
        destruct c; try discriminate. auto. }
      assert (CC : c <> NoColl -> outS (i, Wk j) = false).
      { intros Q. destruct (outS (i, Wk j)); auto. destruct (WO eq_refl). contradiction. }
      assert (COLL : c <> NoColl -> orel (match nout h3 (i, Wk j) with
             | Some _ => Some h3
             | None => if mo kw then new_edge (i, Co) (i, Wk j) h3 else bind (create_out (i, Wk j) h3) (fun h => Some (add_in (i, Co) [Nref (i, Wk j)] h)) end)
             (match nout h3' (i, Wk j) with
             | Some _ => Some h3'
             | None => if mo kw then new_edge (i, Co) (i, Wk j) h3' else bind (create_out (i, Wk j) h3') (fun h => Some (add_in (i, Co) [Nref (i, Wk j)] h)) end)).
      { intros Q. rewrite (Rnout _ _ R3), (CC Q). destruct (nout h3 (i, Wk j)); simpl; auto. destruct (mo kw); [apply r_new_edge; auto|].
        apply orel_bind; [apply r_create_out; auto|]. intros h4 h4' R4. simpl. apply R_addin; auto. intros z [A|[]]. injection A as <-. auto. }
      destruct c as [| |kc]; [|apply COLL; discriminate|apply COLL; discriminate]. clear COLL CC.
      rewrite (Rout _ _ R3). rewrite (Rnout _ _ R3). destruct (outS (i, Wk j)) eqn:OS.
      + destruct (WO eq_refl) as [-> _]. rewrite (Robj _ _ R3). simpl. destruct (nout h3 (last, Wk j)), (nout w (last, Wk j)); simpl; auto.
      + destruct (nout h3 (i, Wk j)); [simpl; auto|]. destruct (outN h3 (i, Obj)) as [|r os] eqn:EO; [simpl; auto|].
        assert (Z : forall z, In (Nref z) (r :: os) -> inS z = false) by (intros z; rewrite <- EO; apply (Rro _ _ R3)).
        cbn [sh option_map map]. cbv iota. change (shr r :: map shr os) with (map shr (r :: os)).
        destruct (mo kw); [apply R_addout; auto|]. rewrite map_length. destruct (length (r :: os) =? n); [|simpl; auto].
        apply R_nout; auto. rewrite nth_error_map.
        destruct (nth_error (r :: os) j) as [q|] eqn:Q; simpl; auto. apply R_refin; auto. intros z ->. apply Z. eapply nth_error_In; eauto.
    - destruct ((n1 =? 0) || (n2 =? 0) || (mi k1 && negb (mo k1)) || (mo k2 && negb (mi k2))); [simpl; auto|].
      apply orel_bind; [apply r_cross; auto; intros A; apply in_map_iff in A; destruct A as (j & A & _); congruence|].
      intros h1 h1' R1. rewrite (Rout _ _ R1). destruct (outN h1 (i, Obj)) as [|r os] eqn:EO; [simpl; auto|].
      assert (i < last).
      { destruct (Nat.eq_dec i last) as [E|]; [|lia]. rewrite E, (Robj _ _ R1) in EO. discriminate. }
      change (map shr (r :: os)) with (shr r :: map shr os). cbv iota.
      change (shr r :: map shr os) with (map shr (r :: os)).
      assert (Z : forall z, In (Nref z) (r :: os) -> inS z = false) by (intros z; rewrite <- EO; apply (Rro _ _ R1)).
      rewrite map_length. destruct ((length (r :: os) =? n2) && negb (mo k2)); [|simpl; auto].
      assert (G : forall xs ps h2 h2', R h2 h2' -> (forall x, In x xs -> fst x = i) -> (forall z, In (Nref z) ps -> inS z = false) ->
        orel (iter (fun xr h => Some (set_nout (fst xr) (refin h (snd xr)) h)) (combine xs ps) h2)
             (iter (fun xr h => Some (set_nout (fst xr) (refin h (snd xr)) h)) (combine xs (map shr ps)) h2')).
      { induction xs as [|x xs IH]; intros [|q ps] h2 h2' R2 HX HZ; simpl; auto. apply IH.
        - apply R_nout; auto; [eapply out_low'; [|eassumption]; apply HX; left; auto|]. apply R_refin; auto. intros z ->. apply HZ. left; auto.
        - intros; apply HX; right; auto.
        - intros; apply HZ; right; auto. }
      apply G; auto. intros x A. apply in_map_iff in A. destruct A as (j & <- & _). auto.
  Qed.
  Lemma r_prep_all : forall m i h h', (forall j s, nth_error m j = Some s -> nth_error l (i + j) = Some s) -> R h h' -> orel (prep_all i m h) (prep_all i m h').
  Proof.
    induction m as [|s m IH]; intros i h h' H RR; cbn [prep_all]; [simpl; auto|].
    apply orel_bind.
    - apply r_prep; auto. specialize (H 0 s eq_refl). rewrite Nat.add_0_r in H. auto.
    - intros h1 h1' R1. apply IH; auto. intros j q J. specialize (H (S j) q J). rewrite <- plus_n_Sm in H. auto.
  Qed.

  (** Entries of the first stage and exits of the last are untouched before. *)
  Lemma R0 : (forall x, inS x = false -> nin w x = None) -> (forall x, outS x = false -> nout w x = None) -> R heap0 (forward0 w).
  Proof.
    intros HI HO. constructor; simpl; auto; unfold k; try lia; try contradiction.
    - intros x. destruct (inS x) eqn:E; auto.
    - intros x. destruct (outS x) eqn:E; auto.
  Qed.
End Sim.
