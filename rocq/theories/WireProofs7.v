(** Every channel has one producer and one consumer. *)
From Coq Require Import List Arith Bool Lia.
From Verif Require Import WireModel WireSpec WireProofs WireProofs2 WireProofs3 WireProofs4 WireProofs5 WireProofs6.
Import ListNotations.

Section Final.
  Variables (l : list stage) (h : heap) (B C : nat -> nat).
  Hypothesis FIN : final l h B C.

  (** The channel from x to y. *)
  Definition ch (x y : id) : nat :=
    match nth_error l (fst x) with
    | None => 0
    | Some s =>
        if fst x =? fst y then
          match s, snd x with
          | SFarm _ _ c _, Em => C (fst x) + width c * pos y
          | SFarm _ _ _ _, _ => C (fst x) + 2 * pos x + 1
          | SA2A n1 _ _ _, _ => C (fst x) + pos y * n1 + pos x
          | SNode _, _ => 0
          end
        else match nth_error l (S (fst x)) with Some c => blab s c (B (fst x)) x y | None => 0 end
    end.

  Lemma aft_entry : forall i p c x y, In y (aft i p c x) -> In y (entry (S i) c).
  Proof using Type. intros i p c x y H. unfold aft in H. destruct (full p c); auto.
    assert (forall (m : list id) n, In y (firstn n m) -> In y m) as G.
    { intros m n Hy. rewrite <- (firstn_skipn n m). apply in_or_app; auto. }
    apply G in H. rewrite <- (firstn_skipn (pos x) (entry (S i) c)). apply in_or_app; auto.
  Qed.
  Lemma bef_exit : forall i p c x y, In x (bef i p c y) -> In x (exit i p).
  Proof using Type. intros i p c x y H. unfold bef in H. destruct (full p c); auto.
    assert (forall (m : list id) n, In x (firstn n m) -> In x m) as G.
    { intros m n Hy. rewrite <- (firstn_skipn n m). apply in_or_app; auto. }
    apply G in H. rewrite <- (firstn_skipn (pos y) (exit i p)). apply in_or_app; auto.
  Qed.

  Lemma ch_bound : forall i p c x y, nth_error l i = Some p -> nth_error l (S i) = Some c -> fst x = i -> fst y = S i ->
    ch x y = blab p c (B i) x y.
  Proof using Type.
    intros i p c x y EP EC FX FY. unfold ch. rewrite FX, FY, EP, EC. replace (i =? S i) with false by (symmetry; apply Nat.eqb_neq; lia). auto.
  Qed.

  Lemma exit_writes : forall i s x, nth_error l i = Some s -> In x (exit i s) ->
    writes (exit_mo s) h x = map (fun y => Some (ch x y)) (after l i s x).
  Proof using FIN.
    intros i s x ES Hx. destruct FIN as (FB & FI & _ & _ & _ & FL & FF). unfold after. destruct (nth_error l (S i)) as [c|] eqn:EC.
    - destruct (FB i s c ES EC) as [BX _]. destruct (BX x Hx) as [W _]. rewrite W. fold (aft i s c x). apply map_ext_in. intros y Hy.
      f_equal. symmetry. apply ch_bound; auto; [apply (exit_fst _ _ _ Hx)|]. apply aft_entry in Hy. apply (entry_fst _ _ _ Hy).
    - destruct (FL i s x ES EC Hx) as [Q1 Q2]. unfold writes. rewrite Q1, Q2. destruct (exit_mo s); auto.
  Qed.
  Lemma entry_reads : forall i s y, nth_error l i = Some s -> In y (entry i s) ->
    reads (entry_mi s) h y = map (fun x => Some (ch x y)) (before l i s y).
  Proof using FIN.
    intros i s y ES Hy. destruct FIN as (FB & FI & _ & _ & _ & FL & FF). unfold before. destruct i as [|i].
    - destruct (FF s y ES Hy) as [Q1 Q2]. unfold reads. rewrite Q1, Q2. destruct (entry_mi s); auto.
    - destruct (nth_error l i) as [p|] eqn:EP.
      + destruct (FB i p s EP ES) as [_ BY]. destruct (BY y Hy) as [W _]. rewrite W. fold (bef i p s y). apply map_ext_in. intros x Hx.
        f_equal. symmetry. apply ch_bound; auto; [|apply (entry_fst _ _ _ Hy)]. apply bef_exit in Hx. apply (exit_fst _ _ _ Hx).
      + apply nth_error_None in EP. assert (S i < length l) by (apply nth_error_Some; congruence). lia.
  Qed.

  Lemma in_threads : forall i s x, In x (threads_of i s) -> (In x (exit i s) \/ In x (innerO i s)) /\ (In x (entry i s) \/ In x (innerI i s)).
  Proof using Type.
    intros i [k|n kw c o|n1 k1 n2 k2] x H; simpl in *.
    - destruct H as [<-|[]]. auto.
    - destruct c; simpl in *; destruct H as [<-|H]; auto; rewrite ?in_app_iff in *; simpl in *; intuition.
    - apply in_app_or in H. destruct H; auto.
  Qed.

  Lemma outputs_ok : forall x s, nth_error l (fst x) = Some s -> In x (threads_of (fst x) s) ->
    outputs s h x = map (fun y => Some (ch x y)) (succs l x).
  Proof using FIN.
    intros x s ES Hx. pose proof (exit_writes (fst x) s x ES) as EW. pose proof FIN as (_ & FI & _). specialize (FI _ _ ES).
    unfold outputs, succs. rewrite ES. destruct x as [i r]. cbn [fst snd] in *. destruct s as [k|n kw c o|n1 k1 n2 k2]; simpl in Hx.
    - destruct Hx as [E|[]]. injection E as <-. apply EW. left; auto.
    - destruct FI as [EO CO]. destruct Hx as [E|Hx]; [injection E as <-|apply in_app_or in Hx; destruct Hx as [Hx|Hx]].
      + destruct EO as [BX _]. destruct (BX (i, Em)) as [W _]; [left; auto|]. simpl out_kind. rewrite W.
        replace (match c with NoColl | _ => wk i n end) with (wk i n) by (destruct c; auto). apply map_ext_in. intros y Hy.
        f_equal. unfold ch. cbn [fst snd]. rewrite ES. apply in_wk_inv in Hy. destruct Hy as (j & -> & _). simpl fst. rewrite Nat.eqb_refl. auto.
      + pose proof Hx as Hx'. apply in_wk_inv in Hx. destruct Hx as (j & E & Hj). injection E as ->. simpl out_kind.
        destruct c as [| |kc].
        * apply EW. simpl. auto.
        * destruct CO as [BX _]. destruct (BX _ Hx') as [W _]. rewrite W. simpl. unfold ch. cbn [fst snd]. rewrite ES, Nat.eqb_refl. auto.
        * destruct CO as [BX _]. destruct (BX _ Hx') as [W _]. rewrite W. simpl. unfold ch. cbn [fst snd]. rewrite ES, Nat.eqb_refl. auto.
      + destruct c; simpl in Hx; try contradiction; destruct Hx as [E|[]]; injection E as <-; apply EW; left; auto.
    - apply in_app_or in Hx. destruct Hx as [Hx|Hx].
      + pose proof Hx as Hx'. apply in_lw_inv in Hx. destruct Hx as (j & E & Hj). injection E as ->. simpl out_kind.
        destruct FI as [BX _]. destruct (BX _ Hx') as [W _]. rewrite W. apply map_ext_in. intros y Hy.
        f_equal. unfold ch. cbn [fst snd]. rewrite ES. apply in_rw_inv in Hy. destruct Hy as (j' & -> & _). simpl fst. rewrite Nat.eqb_refl. auto.
      + pose proof Hx as Hx'. apply in_rw_inv in Hx. destruct Hx as (j & E & Hj). injection E as ->. simpl out_kind. apply EW. auto.
  Qed.

  Lemma inputs_ok : forall x s, nth_error l (fst x) = Some s -> In x (threads_of (fst x) s) ->
    inputs s h x = map (fun y => Some (ch y x)) (preds l x).
  Proof using FIN.
    intros x s ES Hx. pose proof (entry_reads (fst x) s x ES) as EW. pose proof FIN as (_ & FI & _). specialize (FI _ _ ES).
    unfold inputs, preds. rewrite ES. destruct x as [i r]. cbn [fst snd] in *. destruct s as [k|n kw c o|n1 k1 n2 k2]; simpl in Hx.
    - destruct Hx as [E|[]]. injection E as <-. apply EW. left; auto.
    - destruct FI as [EO CO]. destruct Hx as [E|Hx]; [injection E as <-|apply in_app_or in Hx; destruct Hx as [Hx|Hx]].
      + apply EW. left; auto.
      + pose proof Hx as Hx'. apply in_wk_inv in Hx. destruct Hx as (j & E & Hj). injection E as ->. simpl in_kind.
        destruct EO as [_ BY]. destruct (BY _ Hx') as [W _]. rewrite W. simpl. unfold ch. cbn [fst snd]. rewrite ES, Nat.eqb_refl. auto.
      + destruct c as [| |kc]; simpl in Hx; try contradiction; destruct Hx as [E|[]]; injection E as <-; simpl in_kind;
          destruct CO as [_ BY]; destruct (BY (i, Co)) as [W _]; try (left; auto; fail); rewrite W; apply map_ext_in; intros y Hy;
          apply in_wk_inv in Hy; destruct Hy as (j & -> & _); unfold ch; cbn [fst snd]; rewrite ES, Nat.eqb_refl; auto.
    - apply in_app_or in Hx. destruct Hx as [Hx|Hx].
      + pose proof Hx as Hx'. apply in_lw_inv in Hx. destruct Hx as (j & E & Hj). injection E as ->. simpl in_kind. apply EW. auto.
      + pose proof Hx as Hx'. apply in_rw_inv in Hx. destruct Hx as (j & E & Hj). injection E as ->. simpl in_kind.
        destruct FI as [_ BY]. destruct (BY _ Hx') as [W _]. rewrite W. apply map_ext_in. intros y Hy.
        f_equal. unfold ch. apply in_lw_inv in Hy. destruct Hy as (j' & -> & _). cbn [fst snd]. rewrite ES, Nat.eqb_refl. auto.
  Qed.

  (** ** Injectivity *)
  Inductive edge_of (x y : id) : Prop :=
  | Ebound i p c : nth_error l i = Some p -> nth_error l (S i) = Some c -> In x (exit i p) -> In y (aft i p c x) -> edge_of x y
  | Eemit i n kw c o j : nth_error l i = Some (SFarm n kw c o) -> x = (i, Em) -> y = (i, Wk j) -> j < n -> edge_of x y
  | Ecoll i n kw c o j : nth_error l i = Some (SFarm n kw c o) -> c <> NoColl -> x = (i, Wk j) -> y = (i, Co) -> j < n -> edge_of x y
  | Ea2a i n1 k1 n2 k2 j k : nth_error l i = Some (SA2A n1 k1 n2 k2) -> x = (i, Lw j) -> y = (i, Rw k) -> j < n1 -> k < n2 -> edge_of x y.

  Lemma edges : forall x y, thread l x -> In y (succs l x) -> edge_of x y.
  Proof using Type.
    intros x y (s & ES & Hx) Hy. unfold succs in Hy. rewrite ES in Hy. destruct x as [i r]. cbn [fst snd] in *.
    assert (BND : In (i, r) (exit i s) -> In y (after l i s (i, r)) -> edge_of (i, r) y).
    { intros Hx' A. unfold after in A. destruct (nth_error l (S i)) as [c|] eqn:EC; [|contradiction]. exact (Ebound _ _ i s c ES EC Hx' A). }
    destruct s as [k|n kw c o|n1 k1 n2 k2]; simpl in Hx.
    - destruct Hx as [E|[]]. injection E as <-. apply BND; auto. left; auto.
    - destruct Hx as [E|Hx]; [injection E as <-|apply in_app_or in Hx; destruct Hx as [Hx|Hx]].
      + assert (Hy' : In y (wk i n)) by (destruct c; auto). apply in_wk_inv in Hy'. destruct Hy' as (j & -> & Hj). eapply Eemit; eauto.
      + pose proof Hx as Hx'. apply in_wk_inv in Hx. destruct Hx as (j & E & Hj). injection E as ->. destruct c as [| |kc].
        * apply BND; auto.
        * destruct Hy as [<-|[]]. eapply Ecoll; eauto. discriminate.
        * destruct Hy as [<-|[]]. eapply Ecoll; eauto. discriminate.
      + destruct c; simpl in Hx; try contradiction; destruct Hx as [E|[]]; injection E as <-; apply BND; auto; left; auto.
    - apply in_app_or in Hx. destruct Hx as [Hx|Hx].
      + apply in_lw_inv in Hx. destruct Hx as (j & E & Hj). injection E as ->. apply in_rw_inv in Hy. destruct Hy as (j' & -> & Hj'). eapply Ea2a; eauto.
      + pose proof Hx as Hx'. apply in_rw_inv in Hx. destruct Hx as (j & E & Hj). injection E as ->. apply BND; auto.
  Qed.

  Lemma monoB : forall k k', k <= k' -> k' <= length l - 1 -> B k <= B k'.
  Proof using FIN.
    intros k k' H. induction H as [|k' H IH]; [auto|]. intros L. destruct FIN as (_ & _ & RB & _).
    destruct (nth_error l k') as [p|] eqn:EP; [|apply nth_error_None in EP; lia].
    destruct (nth_error l (S k')) as [c|] eqn:EC; [|apply nth_error_None in EC; lia].
    specialize (RB k' p c EP EC). lia.
  Qed.
  Lemma monoC : forall k k', k <= k' -> k' <= length l -> C k <= C k'.
  Proof using FIN.
    intros k k' H. induction H as [|k' H IH]; [auto|]. intros L. destruct FIN as (_ & _ & _ & RC & _).
    destruct (nth_error l k') as [p|] eqn:EP; [|apply nth_error_None in EP; lia]. specialize (RC k' p EP). lia.
  Qed.

  Lemma aft_pos : forall i p c x y, In x (exit i p) -> In y (aft i p c x) -> pos x < np p /\ pos y < nc c /\
    nth_error (exit i p) (pos x) = Some x /\ nth_error (entry (S i) c) (pos y) = Some y.
  Proof using Type.
    intros i p c x y Hx Hy. apply aft_entry in Hy. destruct (posd_in _ _ (posd_exit i p) Hx) as [A1 A2].
    destruct (posd_in _ _ (posd_entry (S i) c) Hy) as [A3 A4]. rewrite length_exit in A2. rewrite length_entry in A4. auto.
  Qed.
  Lemma blab_range : forall i p c x y b, In x (exit i p) -> In y (aft i p c x) -> b <= blab p c b x y < b + bcnt p c.
  Proof using Type.
    intros i p c x y b Hx Hy. destruct (aft_pos i p c x y Hx Hy) as (A1 & A2 & _). unfold blab, bcnt. destruct (full p c); nia.
  Qed.
  Lemma mulpos : forall n a b c d, a < n -> c < n -> b * n + a = d * n + c -> a = c /\ b = d.
  Proof using Type. intros n a b c d H1 H2 E. assert (b = d) by nia. subst d. lia. Qed.
  Lemma blab_inj : forall i p c x y x' y' b, In x (exit i p) -> In y (aft i p c x) -> In x' (exit i p) -> In y' (aft i p c x') ->
    blab p c b x y = blab p c b x' y' -> x = x' /\ y = y'.
  Proof using Type.
    intros i p c x y x' y' b Hx Hy Hx' Hy' E. destruct (aft_pos i p c x y Hx Hy) as (A1 & A2 & A3 & A4).
    destruct (aft_pos i p c x' y' Hx' Hy') as (A1' & A2' & A3' & A4'). unfold blab in E. destruct (full p c) eqn:F.
    - destruct (mulpos (np p) (pos x) (pos y) (pos x') (pos y')) as [Q1 Q2]; auto; [lia|]. rewrite Q1 in A3. rewrite Q2 in A4. split; congruence.
    - assert (Q : pos x = pos x') by lia. rewrite Q in A3. assert (x = x') by congruence. subst x'. split; auto.
      unfold aft in Hy, Hy'. rewrite F in Hy, Hy'. destruct (skipn (pos x) (entry (S i) c)) as [|a r]; simpl in *; [contradiction|].
      destruct Hy as [<-|[]]. destruct Hy' as [<-|[]]. auto.
  Qed.

  (** Where the number of an edge lies. *)
  Lemma edge_bound : forall x y i p c, nth_error l i = Some p -> nth_error l (S i) = Some c -> In x (exit i p) -> In y (aft i p c x) ->
    ch x y = blab p c (B i) x y /\ B i <= ch x y < B (S i) /\ S i <= length l - 1.
  Proof using FIN.
    intros x y i p c EP EC Hx Hy. assert (E : ch x y = blab p c (B i) x y).
    { apply ch_bound; auto; [apply (exit_fst _ _ _ Hx)|]. apply aft_entry in Hy. apply (entry_fst _ _ _ Hy). }
    split; [auto|]. rewrite E. pose proof (blab_range i p c x y (B i) Hx Hy) as R. destruct FIN as (_ & _ & RB & _). specialize (RB _ _ _ EP EC).
    assert (S i < length l) by (apply nth_error_Some; congruence). lia.
  Qed.

  Definition inner_edge (i : nat) (x y : id) : Prop :=
    (exists n kw c o j, nth_error l i = Some (SFarm n kw c o) /\ x = (i, Em) /\ y = (i, Wk j) /\ j < n) \/
    (exists n kw c o j, nth_error l i = Some (SFarm n kw c o) /\ c <> NoColl /\ x = (i, Wk j) /\ y = (i, Co) /\ j < n) \/
    (exists n1 k1 n2 k2 j k, nth_error l i = Some (SA2A n1 k1 n2 k2) /\ x = (i, Lw j) /\ y = (i, Rw k) /\ j < n1 /\ k < n2).
  Lemma edge_inner : forall i x y, inner_edge i x y -> C i <= ch x y < C (S i) /\ S i <= length l.
  Proof using FIN.
    intros i x y H. destruct FIN as (_ & _ & _ & RC & _).
    destruct H as [(n & kw & c & o & j & ES & -> & -> & J)|[(n & kw & c & o & j & ES & NC & -> & -> & J)|(n1 & k1 & n2 & k2 & j & k & ES & -> & -> & J & K)]];
      specialize (RC _ _ ES); (split; [|apply nth_error_Some; congruence]); unfold ch; cbn [fst snd]; rewrite ES, Nat.eqb_refl; simpl in *.
    - assert (0 < width c) by (destruct c; simpl; lia). unfold pos. simpl. nia.
    - assert (width c = 2) as W by (destruct c; [congruence|auto|auto]). rewrite W in RC. unfold pos. simpl. lia.
    - unfold pos. simpl. nia.
  Qed.
  Lemma inner_inj : forall i x y x' y', inner_edge i x y -> inner_edge i x' y' -> ch x y = ch x' y' -> x = x' /\ y = y'.
  Proof using Type.
    intros i x y x' y' H H' E.
    destruct H as [(n & kw & c & o & j & ES & -> & -> & J)|[(n & kw & c & o & j & ES & NC & -> & -> & J)|(n1 & k1 & n2 & k2 & j & k & ES & -> & -> & J & K)]];
    destruct H' as [(n' & kw' & c' & o' & j' & ES' & -> & -> & J')|[(n' & kw' & c' & o' & j' & ES' & NC' & -> & -> & J')|(n1' & k1' & n2' & k2' & j' & k' & ES' & -> & -> & J' & K')]];
    rewrite ES in ES'; try discriminate; injection ES' as -> -> -> ->;
    unfold ch in E; cbn [fst snd] in E; rewrite ES, Nat.eqb_refl in E; unfold pos in E; cbn [snd] in E.
    - assert (0 < width c') by (destruct c'; simpl; lia). assert (j = j') by nia. subst j'. auto.
    - assert (width c' = 2) as W by (destruct c'; [congruence|auto|auto]). rewrite W in E. lia.
    - assert (width c' = 2) as W by (destruct c'; [congruence|auto|auto]). rewrite W in E. lia.
    - assert (j = j') by lia. subst j'. auto.
    - destruct (mulpos n1' j k j' k') as [-> ->]; auto. lia.
  Qed.

  Lemma edge_cases : forall x y, edge_of x y ->
    (exists i p c, nth_error l i = Some p /\ nth_error l (S i) = Some c /\ In x (exit i p) /\ In y (aft i p c x)) \/ exists i, inner_edge i x y.
  Proof using Type.
    intros x y [i p c EP EC Hx Hy|i n kw c o j ES -> -> J|i n kw c o j ES NC -> -> J|i n1 k1 n2 k2 j k ES -> -> J K].
    - left. eauto 8.
    - right. exists i. left. eauto 10.
    - right. exists i. right. left. exists n, kw, c, o, j. auto.
    - right. exists i. right. right. exists n1, k1, n2, k2, j, k. auto.
  Qed.

  Lemma ch_inj : forall x y x' y', thread l x -> thread l x' -> In y (succs l x) -> In y' (succs l x') -> ch x y = ch x' y' -> x = x' /\ y = y'.
  Proof using FIN.
    intros x y x' y' T T' Hy Hy' E. apply edges in Hy; auto. apply edges in Hy'; auto. apply edge_cases in Hy, Hy'.
    assert (MID : B (length l - 1) = C 0) by (destruct FIN as (_ & _ & _ & _ & Q & _); auto).
    destruct Hy as [(i & p & c & EP & EC & Hx & Hy)|(i & Hi)]; destruct Hy' as [(i' & p' & c' & EP' & EC' & Hx' & Hy')|(i' & Hi')].
    - destruct (edge_bound _ _ _ _ _ EP EC Hx Hy) as (Q1 & Q2 & Q3). destruct (edge_bound _ _ _ _ _ EP' EC' Hx' Hy') as (Q1' & Q2' & Q3').
      destruct (lt_eq_lt_dec i i') as [[L|L]|L].
      + pose proof (monoB (S i) i' L ltac:(lia)). lia.
      + subst i'. assert (p' = p) by congruence. assert (c' = c) by congruence. subst p' c'. apply (blab_inj i p c x y x' y' (B i)); auto. rewrite <- Q1, <- Q1'. exact E.
      + pose proof (monoB (S i') i L ltac:(lia)). lia.
    - destruct (edge_bound _ _ _ _ _ EP EC Hx Hy) as (Q1 & Q2 & Q3). destruct (edge_inner _ _ _ Hi') as [R1 R2].
      pose proof (monoB (S i) (length l - 1) Q3 (le_n _)). pose proof (monoC 0 i' (Nat.le_0_l _) ltac:(lia)). lia.
    - destruct (edge_bound _ _ _ _ _ EP' EC' Hx' Hy') as (Q1 & Q2 & Q3). destruct (edge_inner _ _ _ Hi) as [R1 R2].
      pose proof (monoB (S i') (length l - 1) Q3 (le_n _)). pose proof (monoC 0 i (Nat.le_0_l _) ltac:(lia)). lia.
    - destruct (edge_inner _ _ _ Hi) as [R1 R2]. destruct (edge_inner _ _ _ Hi') as [R1' R2']. destruct (lt_eq_lt_dec i i') as [[L|L]|L].
      + pose proof (monoC (S i) i' L ltac:(lia)). lia.
      + subst i'. eapply inner_inj; eauto.
      + pose proof (monoC (S i') i L ltac:(lia)). lia.
  Qed.
End Final.
