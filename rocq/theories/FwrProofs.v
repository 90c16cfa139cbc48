(** Proofs about the feedback of a farm. *)
From Coq Require Import List Arith Bool Lia.
From Verif Require Import FwrModel FwrSpec.
Import ListNotations.

Definition present (f : farm) : option coll := if removed f then None else col f.
Definition sets_lb (l : list call) : bool := existsb (fun a => match a with SetLb => true | _ => false end) l.

Lemma configure_app : forall mo a b f,
  configure mo (a ++ b) f = match configure mo a f with Some f' => configure mo b f' | None => None end.
Proof. intros mo a; induction a as [|x a IH]; intros b f; simpl; [reflexivity|]. destruct (apply mo x f); auto. Qed.

Lemma in_ordered : forall l, is_ordered l = true <-> In SetOrdered l.
Proof.
  intros l; unfold is_ordered; rewrite existsb_exists; split.
  - intros (x & I & E); destruct x; try discriminate; exact I.
  - intros I; exists SetOrdered; auto.
Qed.
Lemma in_lb : forall l, sets_lb l = true <-> In SetLb l.
Proof.
  intros l; unfold sets_lb; rewrite existsb_exists; split.
  - intros (x & I & E); destruct x; try discriminate; exact I.
  - intros I; exists SetLb; auto.
Qed.

Lemma tidy_tl : forall a l, tidy (a :: l) -> tidy l.
Proof. intros a l T x b E I. apply (T (a :: x) b). - simpl; now rewrite E. - now right. Qed.
Lemma tidy_remove : forall l, tidy (RemoveCollector :: l) -> ~ In SetOrdered l.
Proof.
  intros l T I. apply in_split in I; destruct I as (x & b & E).
  apply (T (RemoveCollector :: x) b). - simpl; now rewrite E. - now left.
Qed.
Lemma tidy_app_l : forall a b, tidy (a ++ b) -> tidy a.
Proof. intros a b T x y E. apply (T x (y ++ b)). rewrite E, <- app_assoc; reflexivity. Qed.

Lemma wrap_same : forall mo f f', wrap_around mo f = Some f' ->
  wks f' = wks f /\ col f' = col f /\ removed f' = removed f /\ ordered f' = ordered f.
Proof.
  intros mo f f' E. unfold wrap_around in E. destruct (negb (has_collector f)).
  - destruct (mw f); inversion E; subst; simpl; auto.
  - unfold set_output_buffer in E.
    destruct (col f) eqn:C, (removed f) eqn:R; try discriminate; destruct (gtout f); try discriminate;
      inversion E; subst; simpl; auto.
Qed.

Lemma conf_present : forall mo l f f', configure mo l f = Some f' -> tidy l ->
  (ordered f = true \/ In SetOrdered l -> removed f = false) ->
  present f' = collector_of l (ordered f) (present f)
  /\ (ordered f' = true -> removed f' = false)
  /\ ordered f' = ordered f || is_ordered l
  /\ length (wks f') = length (wks f) + count l.
Proof.
  intros mo l; induction l as [|a l IH]; intros f f' E T H.
  - simpl in E; inversion E; subst. simpl; rewrite orb_false_r, Nat.add_0_r; tauto.
  - simpl in E. destruct (apply mo a f) as [g|] eqn:A; [|discriminate].
    specialize (IH g f' E (tidy_tl _ _ T)).
    destruct a as [w | c | | | | ]; simpl in A.
    + destruct w; [discriminate|]. inversion A; subst g; clear A. simpl in IH. destruct IH as (P & O & D & L).
      { intros [X|X]; apply H; [now left | right; now right]. }
      unfold present in P; simpl in P. simpl. unfold present at 2. repeat split; auto.
      rewrite L, app_length; simpl; lia.
    + assert (X : g = mkFarm (wks f) (Some (match c with Some c => Usr c | None => Gt end)) false (ordered f) (mw f) (lbfb f) (gtout f) (cout f) (cfb f) (nb f)).
      { destruct (col f) as [[|]|], (removed f); now inversion A. }
      subst g; simpl in IH. destruct IH as (P & O & D & L); [auto|].
      unfold present in P; simpl in P. destruct c; simpl; repeat split; auto.
    + inversion A; subst g; clear A. destruct (ordered f) eqn:Of.
      * simpl in IH. rewrite (H (or_introl eq_refl)) in IH. destruct IH as (P & O & D & L); [auto|].
        unfold present in P; simpl in P. simpl; repeat split; auto.
      * simpl in IH. destruct IH as (P & O & D & L).
        { intros [X|X]; [discriminate|]. now apply (tidy_remove _ T) in X. }
        unfold present in P; simpl in P. simpl; repeat split; auto.
    + inversion A; subst g; clear A. simpl in IH.
      assert (Rf : removed f = false) by (apply H; right; now left).
      rewrite Rf in IH. destruct IH as (P & O & D & L); [auto|].
      unfold present in P; simpl in P. simpl. unfold present at 2; rewrite Rf. repeat split; auto.
      rewrite D; now rewrite orb_true_r.
    + inversion A; subst g; clear A. simpl in IH. destruct IH as (P & O & D & L).
      { intros [X|X]; apply H; [now left | right; now right]. }
      unfold present in P; simpl in P. simpl. unfold present at 2. repeat split; auto.
    + apply wrap_same in A. destruct A as (A1 & A2 & A3 & A4).
      unfold present at 2 in IH. rewrite A1, A2, A3, A4 in IH. destruct IH as (P & O & D & L).
      { intros [X|X]; apply H; [now left | right; now right]. }
      simpl. unfold present at 2. repeat split; auto.
Qed.

Lemma conf_nowrap : forall mo l f f', configure mo l f = Some f' -> no_wrap l ->
  lbfb f' = lbfb f /\ gtout f' = gtout f /\ cout f' = cout f /\ cfb f' = cfb f /\ nb f' = nb f
  /\ mw f' = mw f && negb (sets_lb l).
Proof.
  intros mo l; induction l as [|a l IH]; intros f f' E N.
  - simpl in E; inversion E; subst; simpl; rewrite andb_true_r; auto 10.
  - simpl in E. destruct (apply mo a f) as [g|] eqn:A; [|discriminate].
    assert (N' : no_wrap l) by (intros I; apply N; now right).
    specialize (IH g f' E N').
    assert (B : lbfb g = lbfb f /\ gtout g = gtout f /\ cout g = cout f /\ cfb g = cfb f /\ nb g = nb f
                /\ mw g = mw f && negb (match a with SetLb => true | _ => false end)).
    { destruct a as [w | c | | | | ]; simpl in A.
      - destruct w; [discriminate|]. inversion A; subst; simpl; rewrite andb_true_r; auto 10.
      - destruct (col f) as [[|]|], (removed f); inversion A; subst; simpl; rewrite andb_true_r; auto 10.
      - inversion A; subst; destruct (ordered f); simpl; rewrite andb_true_r; auto 10.
      - inversion A; subst; simpl; rewrite andb_true_r; auto 10.
      - inversion A; subst; simpl; rewrite andb_false_r; auto 10.
      - exfalso; apply N; now left. }
    destruct B as (B1 & B2 & B3 & B4 & B5 & B6), IH as (I1 & I2 & I3 & I4 & I5 & I6).
    rewrite I1, I2, I3, I4, I5, I6, B1, B2, B3, B4, B5, B6. repeat split.
    unfold sets_lb; simpl. rewrite negb_orb, andb_assoc; reflexivity.
Qed.

(** ** The channels of the workers *)

Lemma prep_worker_bounds : forall m c n w x g n', prep_worker m c n w = Some (x, g, n') ->
  n < n' /\ (forall b, In b (worker_out x) -> n < b < n') /\ (forall b, g = Some b -> n < b < n')
  /\ w_in x = n
  /\ (if m then exists b, w_out x = Some b /\ (exists r, worker_out x = b :: r) /\ n < b < n' /\ g <> Some b else True).
Proof.
  intros m c n w x g n' E. unfold prep_worker in E.
  destruct w, m, c; inversion E; subst; clear E; unfold worker_out; simpl;
    repeat split; intros; try discriminate; try tauto; try lia;
    try (match goal with H : Some _ = Some _ |- _ => inversion H; lia end).
  all: eexists; repeat split; eauto; try lia; intros X; inversion X; lia.
Qed.

Lemma prep_workers_bounds : forall m c l n ws g, prep_workers m c n l = Some (ws, g) ->
  length ws = length l
  /\ (forall i w b, nth_error ws i = Some w -> In b (worker_out w) -> n < b)
  /\ (forall b, In b g -> n < b)
  /\ (forall w, In w ws -> n <= w_in w)
  /\ (if m then
        let e := flat_map (fun w => olist (w_out w)) ws in
        length e = length ws /\ NoDup e /\ (forall b, In b e -> n < b) /\
        (forall i b, nth_error e i = Some b ->
           (~ In b g /\ forall w, In w ws -> w_in w <> b)
           /\ forall j w, nth_error ws j = Some w -> (In b (worker_out w) <-> j = i) /\ (j = i -> exists r, worker_out w = b :: r))
      else True).
Proof.
  intros m c l; induction l as [|w l IH]; intros n ws g E.
  - simpl in E; inversion E; subst; simpl; repeat split; intros; try tauto; try (destruct i; discriminate).
    destruct m; [|exact Logic.I]. simpl; repeat split; try tauto; try constructor; try (destruct i; discriminate).
  - simpl in E. destruct (prep_worker m c n w) as [[[x g1] n']|] eqn:P; [|discriminate].
    destruct (prep_workers m c n' l) as [[xs gs]|] eqn:Q; [|discriminate].
    inversion E; subst ws g; clear E.
    apply prep_worker_bounds in P. destruct P as (P1 & P2 & P3 & Pi & P4).
    specialize (IH _ _ _ Q). destruct IH as (I1 & I2 & I3 & Ii & I4).
    assert (G : forall b, In b (match g1 with Some b => [b] | None => [] end ++ gs) -> g1 = Some b \/ In b gs).
    { intros b I. apply in_app_or in I. destruct g1; simpl in I; intuition (subst; auto). }
    split; [simpl; lia|]. split.
    { intros i y b N I. destruct i; simpl in N.
      - inversion N; subst. apply P2 in I; lia.
      - specialize (I2 _ _ _ N I); lia. }
    split.
    { intros b I. apply G in I. destruct I as [I|I]; [apply P3 in I; lia | apply I3 in I; lia]. }
    split.
    { intros y [<-|I]; [lia | apply Ii in I; lia]. }
    destruct m; [|exact Logic.I].
    destruct P4 as (b0 & O & (ro & Ob) & B & Gb). destruct I4 as (L & ND & LB & W).
    simpl. rewrite O; simpl. set (e := flat_map (fun w => olist (w_out w)) xs) in *.
    split; [lia|]. split.
    { constructor; [|exact ND]. intros I; apply LB in I; lia. }
    split.
    { intros b [I|I]; [subst; lia | apply LB in I; lia]. }
    intros i b N. destruct i; simpl in N.
    + inversion N; subst b; clear N. split; [split|].
      * intros I; apply G in I; destruct I as [I|I]; [contradiction | apply I3 in I; lia].
      * intros y [<-|I]; [lia | apply Ii in I; lia].
      * intros j y M. destruct j; simpl in M.
        -- inversion M; subst y. rewrite Ob. split; [split; [reflexivity | intros _; now left] | eauto].
        -- split; [split; [|discriminate]|discriminate]. intros I; specialize (I2 _ _ _ M I); lia.
    + destruct (W _ _ N) as ((Wg & Wi) & Ww). pose proof (LB b (nth_error_In _ _ N)) as Lb. split; [split|].
      * intros I; apply G in I; destruct I as [I|I]; [apply P3 in I; lia | contradiction].
      * intros y [<-|I]; [lia | now apply Wi].
      * intros j y M. destruct j; simpl in M.
        -- inversion M; subst y. split; [split; [|discriminate]|discriminate]. intros I; apply P2 in I; lia.
        -- destruct (Ww _ _ M) as (Wa & Wb). split; [rewrite Wa; lia | intros X; apply Wb; lia].
Qed.

Lemma writes_worker : forall s i b, In b (writes s (Worker i)) <-> exists w, nth_error (workers s) i = Some w /\ In b (worker_out w).
Proof.
  intros s i b; simpl. destruct (nth_error (workers s) i) as [w|]; simpl.
  - split; [intros I; exists w; auto | intros (y & E & I); inversion E; subst; exact I].
  - split; [tauto | intros (y & E & _); discriminate].
Qed.

Lemma forall2_nth : forall {A B} (P : A -> B -> Prop) l k, length l = length k ->
  (forall i a b, nth_error l i = Some a -> nth_error k i = Some b -> P a b) -> Forall2 P l k.
Proof.
  intros A B P l; induction l as [|a l IH]; intros k L H; destruct k as [|b k]; simpl in L; try discriminate; constructor.
  - exact (H 0 a b eq_refl eq_refl).
  - apply IH; [lia|]. intros i x y X Y. exact (H (S i) x y X Y).
Qed.

Lemma nth_error_seq_worker : forall n i t, nth_error (map Worker (seq 0 n)) i = Some t -> t = Worker i.
Proof.
  intros n i t E. rewrite nth_error_map in E. destruct (nth_error (seq 0 n) i) eqn:N; [|discriminate].
  simpl in E; inversion E; subst. assert (i < n).
  { assert (i < length (seq 0 n)) by (apply nth_error_Some; congruence). now rewrite seq_length in H. }
  apply nth_error_nth with (d := 0) in N. rewrite seq_nth in N by assumption. now subst.
Qed.

Lemma count_app : forall a b, count (a ++ b) = count a + count b.
Proof. intros a b; unfold count; induction a; simpl; lia. Qed.

(** The state before, just after and long after the call of wrap_around. *)
Lemma phases : forall mo pre post s, no_wrap pre -> no_wrap post -> tidy (pre ++ WrapAround :: post) ->
  run mo (pre ++ WrapAround :: post) = Some s ->
  exists f g h,
    configure mo pre farm0 = Some f /\ wrap_around mo f = Some g /\ configure mo post g = Some h /\ prepare mo h = Some s
    /\ present f = collector_after pre /\ present h = collector_after (pre ++ WrapAround :: post)
    /\ ordered f = is_ordered pre /\ ordered h = is_ordered pre || is_ordered post
    /\ (ordered f = true -> removed f = false)
    /\ length (wks h) = count (pre ++ post).
Proof.
  intros mo pre post s N1 N2 T R. unfold run in R.
  destruct (configure mo (pre ++ WrapAround :: post) farm0) as [h|] eqn:C; [|discriminate].
  assert (C' := C). rewrite configure_app in C.
  destruct (configure mo pre farm0) as [f|] eqn:Cf; [|discriminate].
  simpl in C. destruct (wrap_around mo f) as [g|] eqn:W; [|discriminate].
  exists f, g, h. 
  destruct (conf_present _ _ _ _ Cf (tidy_app_l _ _ T)) as (A1 & A2 & A3 & A4); [reflexivity|].
  destruct (conf_present _ _ _ _ C' T) as (B1 & B2 & B3 & B4); [reflexivity|].
  repeat split; auto.
  - rewrite B3; simpl. unfold is_ordered. rewrite existsb_app; simpl; reflexivity.
  - rewrite B4; simpl. rewrite !count_app. simpl; unfold count; simpl; lia.
Qed.

Lemma forall2_len : forall {A B} (P : A -> B -> Prop) l k, Forall2 P l k -> length l = length k.
Proof. intros A B P l k F; induction F; simpl; congruence. Qed.

Lemma only_one : forall b (t : thread) (P : nat -> thread -> Prop), Forall2 P [b] [t] <-> P b t.
Proof. intros b t P; split; [intros F; inversion F; auto | intros; constructor; auto]. Qed.

Lemma promise_workers : forall mo pre post s, no_wrap pre -> no_wrap post -> tidy (pre ++ WrapAround :: post) ->
  run mo (pre ++ WrapAround :: post) = Some s -> collector_after pre = None ->
  (feeds_back s (map Worker (seq 0 (count (pre ++ post)))) <-> ~ In SetLb post /\ ~ In SetOrdered post).
Proof.
  intros mo pre post s N1 N2 T R CP.
  destruct (phases _ _ _ _ N1 N2 T R) as (f & g & h & Cf & W & Ch & Pr & Pf & Ph & Of & Oh & OR & L).
  destruct (conf_nowrap _ _ _ _ Cf N1) as (A1 & A2 & A3 & A4 & A5 & A6).
  destruct (conf_nowrap _ _ _ _ Ch N2) as (B1 & B2 & B3 & B4 & B5 & B6).
  simpl in A1, A2, A3, A4, A5, A6.
  assert (HC : has_collector f = false).
  { unfold has_collector. destruct (ordered f) eqn:O.
    - exfalso. unfold wrap_around, has_collector in W. rewrite O in W. simpl in W.
      unfold set_output_buffer in W. rewrite CP in Pf. unfold present in Pf. rewrite (OR eq_refl) in Pf, W.
      rewrite Pf in W. discriminate.
    - rewrite CP in Pf. unfold present in Pf. destruct (removed f), (col f); simpl; try reflexivity; discriminate. }
  assert (OF : ordered f = false).
  { unfold has_collector in HC. destruct (ordered f); [discriminate | reflexivity]. }
  unfold wrap_around in W. rewrite HC in W; simpl in W. rewrite A6 in W. inversion W; subst g; clear W. simpl in *.
  rewrite A1 in B1. rewrite A2 in B2. rewrite A3 in B3. rewrite A4 in B4. rewrite A5 in B5.
  assert (OH : ordered h = is_ordered post) by (rewrite Oh, <- Of, OF; reflexivity).
  assert (CO : coll_out mo h = Some []).
  { unfold coll_out. destruct (removed h); [reflexivity|]. destruct (col h) as [[|c]|]; rewrite ?B2, ?B3, ?B4; auto. destruct (mo c); reflexivity. }
  unfold prepare in Pr. destruct (wks h) as [|w0 wr] eqn:WK; [discriminate|].
  destruct (ordered h && existsb (fun w => w) (w0 :: wr)); [discriminate|].
  set (m := if ordered h then false else mw h) in *.
  assert (M : m = true <-> ~ In SetLb post /\ ~ In SetOrdered post).
  { unfold m. rewrite OH, B6. rewrite <- in_lb, <- in_ordered.
    destruct (is_ordered post), (sets_lb post); simpl; split; intros X; try discriminate; try (destruct X; congruence); split; congruence. }
  set (c := match col h with Some _ => negb (removed h) | None => false end) in *.
  destruct (prep_workers m c (nb h) (w0 :: wr)) as [[ws gg]|] eqn:PW; [|discriminate].
  inversion Pr; subst s; clear Pr.
  destruct (prep_workers_bounds _ _ _ _ _ _ PW) as (Q1 & Q2 & Q3 & Qi & Q4).
  rewrite <- M. unfold feeds_back; simpl. rewrite B1, app_nil_r. split.
  - intros (_ & F). destruct m; [reflexivity|]. apply forall2_len in F. rewrite map_length, seq_length, <- L in F. discriminate.
  - intros ME. rewrite ME in *. simpl in Q4. destruct Q4 as (Q4 & Q5 & Q6 & Q7).
    split; [exact Q5|]. apply forall2_nth.
    + rewrite map_length, seq_length, <- L. rewrite Q4, Q1. reflexivity.
    + intros i b t X Y. apply nth_error_seq_worker in Y; subst t. destruct (Q7 _ _ X) as (Y1 & Y2).
      assert (Hi : i < length ws) by (rewrite <- Q4; apply nth_error_Some; congruence).
      destruct (nth_error ws i) as [w1|] eqn:Z1; [|apply nth_error_None in Z1; lia].
      split; [|split; [|exact Y1]].
      * intros t'. destruct t' as [j|].
        -- rewrite writes_worker; simpl. split.
           ++ intros (w & Z2 & Z3). f_equal. now apply (Y2 _ _ Z2).
           ++ intros Z; inversion Z; subst j. exists w1; split; [exact Z1|]. now apply (Y2 _ _ Z1).
        -- simpl. rewrite CO. split; [intros []|discriminate].
      * simpl. rewrite Z1. now apply (Y2 _ _ Z1).
Qed.

Lemma upd_same : forall {T} (f : nat -> T) x v, upd f x v x = v.
Proof. intros T f x v; unfold upd; now rewrite Nat.eqb_refl. Qed.
Lemma upd_other : forall {T} (f : nat -> T) x v y, y <> x -> upd f x v y = f y.
Proof. intros T f x v y H; unfold upd. destruct (y =? x) eqn:E; [apply Nat.eqb_eq in E; contradiction | reflexivity]. Qed.

(** What the collector's thread writes to at the end, when there was a collector [k] at the call. *)
Lemma coll_out_cases : forall mo pre post s k, no_wrap pre -> no_wrap post -> tidy (pre ++ WrapAround :: post) ->
  run mo (pre ++ WrapAround :: post) = Some s -> collector_after pre = Some k ->
  emitter_in s = [0] /\ (forall i b, In b (writes s (Worker i)) -> 0 < b) /\ (forall b, In b (collector_in s) -> 0 < b)
  /\ (forall w, In w (workers s) -> 0 < w_in w)
  /\ collector_out s = match collector_after (pre ++ WrapAround :: post) with
                       | None => Some []
                       | Some Gt => Some [0]
                       | Some (Usr c) => match k with
                                         | Usr c' => if c =? c' then Some [0] else if mo c then Some [] else None
                                         | Gt => if mo c then Some [] else None
                                         end
                       end.
Proof.
  intros mo pre post s k N1 N2 T R CP.
  destruct (phases _ _ _ _ N1 N2 T R) as (f & g & h & Cf & W & Ch & Pr & Pf & Ph & Of & Oh & OR & L).
  destruct (conf_nowrap _ _ _ _ Cf N1) as (A1 & A2 & A3 & A4 & A5 & A6).
  destruct (conf_nowrap _ _ _ _ Ch N2) as (B1 & B2 & B3 & B4 & B5 & B6).
  simpl in A1, A2, A3, A4, A5, A6.
  rewrite CP in Pf. unfold present in Pf. destruct (removed f) eqn:RF; [discriminate|].
  assert (HC : has_collector f = true).
  { unfold has_collector. rewrite Pf, RF. destruct (ordered f); reflexivity. }
  unfold wrap_around in W. rewrite HC in W; simpl in W. unfold set_output_buffer in W. rewrite Pf, A2 in W. simpl in W.
  unfold get_collector in W; simpl in W. rewrite Pf, RF in W. inversion W; subst g; clear W. simpl in *.
  rewrite A1, A5 in B1; simpl in B1. rewrite A5 in B2, B5. rewrite A6 in B6. simpl in B6.
  unfold prepare in Pr. destruct (wks h) as [|w0 wr] eqn:WK; [discriminate|].
  destruct (ordered h && existsb (fun w => w) (w0 :: wr)); [discriminate|].
  rewrite B6 in Pr. replace (if ordered h then false else false) with false in Pr by (destruct (ordered h); reflexivity).
  set (c := match col h with Some _ => negb (removed h) | None => false end) in *.
  destruct (prep_workers false c (nb h) (w0 :: wr)) as [[ws gg]|] eqn:PW; [|discriminate].
  inversion Pr; subst s; clear Pr.
  destruct (prep_workers_bounds _ _ _ _ _ _ PW) as (Q1 & Q2 & Q3 & Qi & _). rewrite B5 in Q2, Q3, Qi.
  split; [simpl; now rewrite B1|]. split.
  { intros i b I. apply writes_worker in I. destruct I as (w & X & Y). simpl in X. specialize (Q2 _ _ _ X Y). lia. }
  split; [intros b I; simpl in I; apply Q3 in I; lia|].
  split; [intros w I; simpl in I; apply Qi in I; lia|].
  simpl. rewrite <- Ph. unfold coll_out, present. destruct (removed h); [reflexivity|].
  destruct (col h) as [[|x]|]; [rewrite B2; reflexivity| |reflexivity].
  rewrite B2, B3, B4, A3, A4, A5. destruct k as [|y].
  - destruct (mo x); reflexivity.
  - destruct (x =? y) eqn:E.
    + apply Nat.eqb_eq in E; subst y. rewrite upd_same. destruct (mo x); [rewrite upd_same|]; reflexivity.
    + apply Nat.eqb_neq in E. rewrite (upd_other _ _ _ _ E).
      destruct (mo x) eqn:MX; [|reflexivity]. destruct (mo y); [rewrite (upd_other _ _ _ _ E)|]; reflexivity.
Qed.

Lemma promise_collector : forall mo pre post s k, no_wrap pre -> no_wrap post -> tidy (pre ++ WrapAround :: post) ->
  run mo (pre ++ WrapAround :: post) = Some s -> collector_after pre = Some k ->
  (feeds_back s [Collector] <->
   collector_after (pre ++ WrapAround :: post) = Some Gt \/ collector_after (pre ++ WrapAround :: post) = Some k).
Proof.
  intros mo pre post s k N1 N2 T R CP.
  destruct (coll_out_cases _ _ _ _ _ N1 N2 T R CP) as (E & W & G & Wi & O).
  unfold feeds_back. rewrite E, only_one.
  set (e := collector_after (pre ++ WrapAround :: post)) in *.
  assert (K : In 0 (writes s Collector) <-> e = Some Gt \/ e = Some k).
  { simpl; rewrite O. destruct e as [[|c]|].
    - simpl; tauto.
    - destruct k as [|y].
      + destruct (mo c); simpl; split; try tauto; intros [X|X]; discriminate.
      + destruct (c =? y) eqn:X.
        * apply Nat.eqb_eq in X; subst; simpl; tauto.
        * apply Nat.eqb_neq in X. destruct (mo c); simpl; split; try tauto; intros [Y|Y]; try discriminate; inversion Y; contradiction.
    - simpl; split; [tauto | intros [X|X]; discriminate]. }
  rewrite <- K. split.
  - intros (_ & H & _). now apply H.
  - intros H. split; [repeat constructor; simpl; tauto|]. split; [|split; [|split]].
    + intros t'; destruct t' as [i|].
      * split; [intros I; apply W in I; lia | discriminate].
      * tauto.
    + exists []. simpl in H |- *. rewrite O in *. destruct e as [[|c]|]; simpl in *; try tauto.
      destruct k as [|y]; [destruct (mo c); simpl in H; tauto|]. destruct (c =? y); [reflexivity|]. destruct (mo c); simpl in H; tauto.
    + intros I; apply G in I; lia.
    + intros w I; apply Wi in I; lia.
Qed.

(** ** Which sequences of calls are accepted *)
Lemma conf_accepts : forall mo l f, no_wrap l -> tidy l -> (ordered f = true \/ In SetOrdered l -> removed f = false) ->
  ((exists f', configure mo l f = Some f') <->
   ~ In (AddWorkers []) l /\ forall a c b x, l = a ++ AddCollector c :: b -> collector_of a (ordered f) (present f) <> Some (Usr x)).
Proof.
  intros mo l; induction l as [|y l IH]; intros f N T H.
  - simpl. split; [|eauto]. intros _; split; [tauto|]. intros a c b x E; destruct a; discriminate.
  - assert (N' : no_wrap l) by (intros I; apply N; now right).
    assert (G : forall g, apply mo y f = Some g -> (ordered g = true \/ In SetOrdered l -> removed g = false) ->
              (forall a, collector_of (y :: a) (ordered f) (present f) = collector_of a (ordered g) (present g)) ->
              y <> AddWorkers [] -> (forall c x, y = AddCollector c -> present f <> Some (Usr x)) ->
              ((exists f', configure mo (y :: l) f = Some f') <->
               ~ In (AddWorkers []) (y :: l) /\ forall a c b x, y :: l = a ++ AddCollector c :: b -> collector_of a (ordered f) (present f) <> Some (Usr x))).
    { intros g A Hg Eg D1 D2. simpl configure. rewrite A. rewrite (IH g N' (tidy_tl _ _ T) Hg). split; intros (X & Y); split.
      - intros [E|E]; [now apply D1 | now apply X].
      - intros a c b x E. destruct a as [|z a].
        + simpl in E. inversion E. simpl. eapply D2; eauto.
        + simpl in E. inversion E; subst z. rewrite Eg. eapply Y; eauto.
      - intros E; apply X; now right.
      - intros a c b x E. rewrite <- Eg. eapply (Y (y :: a)). simpl. now rewrite E. }
    destruct y as [w | c | | | | ].
    + destruct w as [|w0 w].
      * simpl. split; [intros (f' & E); discriminate | intros (X & _); exfalso; apply X; now left].
      * eapply G; [reflexivity| | | discriminate | discriminate]; simpl.
        -- intros [X|X]; apply H; [now left | right; now right].
        -- reflexivity.
    + destruct (present f) as [[|u]|] eqn:P.
      * assert (A : apply mo (AddCollector c) f = Some (mkFarm (wks f) (Some (match c with Some c => Usr c | None => Gt end)) false (ordered f) (mw f) (lbfb f) (gtout f) (cout f) (cfb f) (nb f))).
        { unfold present in P. simpl. destruct (removed f); [discriminate|]. rewrite P. reflexivity. }
        eapply G; [exact A| | | discriminate |]; simpl; auto.
        -- intros a. destruct c; reflexivity.
        -- intros; discriminate.
      * assert (A : apply mo (AddCollector c) f = None).
        { unfold present in P. simpl. destruct (removed f); [discriminate|]. rewrite P. reflexivity. }
        change (configure mo (AddCollector c :: l) f) with (match apply mo (AddCollector c) f with Some f' => configure mo l f' | None => None end).
        rewrite A. split; [intros (f' & E); discriminate|].
        intros (_ & Y). exfalso. apply (Y [] c l u); reflexivity.
      * assert (A : apply mo (AddCollector c) f = Some (mkFarm (wks f) (Some (match c with Some c => Usr c | None => Gt end)) false (ordered f) (mw f) (lbfb f) (gtout f) (cout f) (cfb f) (nb f))).
        { unfold present in P. simpl. destruct (removed f).
          - destruct (col f) as [[|]|]; reflexivity.
          - rewrite P. reflexivity. }
        eapply G; [exact A| | | discriminate |]; simpl; auto.
        -- intros a. destruct c; reflexivity.
        -- intros; discriminate.
    + eapply G; [reflexivity| | | discriminate | discriminate]; destruct (ordered f) eqn:Of; simpl.
      * intros _. apply H. now left.
      * intros [X|X]; [congruence|]. now apply (tidy_remove _ T) in X.
      * intros a. unfold present; simpl. rewrite (H (or_introl eq_refl)). reflexivity.
      * intros a. unfold present; simpl. reflexivity.
    + eapply G; [reflexivity| | | discriminate | discriminate]; simpl.
      * intros _. apply H. right; now left.
      * reflexivity.
    + eapply G; [reflexivity| | | discriminate | discriminate]; simpl.
      * intros [X|X]; apply H; [now left | right; now right].
      * reflexivity.
    + exfalso. apply N. now left.
Qed.

Lemma conf_wks : forall mo l f f', configure mo l f = Some f' -> wks f' = wks f ++ workers_of l.
Proof.
  intros mo l; induction l as [|a l IH]; intros f f' E.
  - simpl in E; inversion E. simpl. now rewrite app_nil_r.
  - simpl in E. destruct (apply mo a f) as [g|] eqn:A; [|discriminate]. apply IH in E. rewrite E.
    destruct a as [w | c | | | | ]; simpl in A.
    + destruct w; [discriminate|]. inversion A; subst g; simpl. now rewrite <- app_assoc.
    + destruct (col f) as [[|]|], (removed f); inversion A; reflexivity.
    + inversion A; destruct (ordered f); reflexivity.
    + inversion A; reflexivity.
    + inversion A; reflexivity.
    + apply wrap_same in A. destruct A as (-> & _). reflexivity.
Qed.

Lemma prep_workers_no_mw : forall c l n, exists ws g, prep_workers false c n l = Some (ws, g).
Proof.
  intros c l; induction l as [|w l IH]; intros n; simpl; [eauto|].
  destruct w, c; simpl; match goal with |- context [prep_workers false ?c ?m l] => destruct (IH m) as (ws & g & E); rewrite E; eauto end.
Qed.

Lemma accepts : forall mo l, no_wrap l -> tidy l ->
  ((exists s, run mo l = Some s) <->
   correct_calls l /\ workers_of l <> [] /\ (In SetOrdered l -> forall w, In w (workers_of l) -> w = false)).
Proof.
  intros mo l N T. unfold run.
  assert (H : ordered farm0 = true \/ In SetOrdered l -> removed farm0 = false) by reflexivity.
  pose proof (conf_accepts mo l farm0 N T H) as A. unfold correct_calls, collector_after.
  change (ordered farm0) with false in A. change (present farm0) with (@None coll) in A. rewrite <- A.
  destruct (configure mo l farm0) as [f|] eqn:C.
  - destruct (conf_present _ _ _ _ C T H) as (_ & _ & O & _). simpl in O.
    destruct (conf_nowrap _ _ _ _ C N) as (_ & _ & _ & _ & _ & M). simpl in M.
    pose proof (conf_wks _ _ _ _ C) as W. simpl in W. rewrite <- W.
    unfold prepare. rewrite O, M. replace (if is_ordered l then false else false) with false by (destruct (is_ordered l); reflexivity).
    set (c := match col f with Some _ => negb (removed f) | None => false end).
    destruct (wks f) as [|w0 wr] eqn:WK.
    { split; [intros (s & E); discriminate | intros (_ & X & _); now elim X]. }
    destruct (prep_workers_no_mw c (w0 :: wr) (nb f)) as (ws & g & PW). rewrite PW.
    rewrite <- in_ordered. destruct (is_ordered l && existsb (fun w => w) (w0 :: wr)) eqn:B.
    + split; [intros (s & E); discriminate|]. intros (_ & _ & X). apply andb_true_iff in B. destruct B as (B1 & B2).
      apply existsb_exists in B2. destruct B2 as (w & I & Q). specialize (X B1 w I). congruence.
    + split; [|eauto]. intros _. split; [eauto|]. split; [discriminate|]. intros X w I. rewrite X in B.
      destruct w; auto. assert (Y : existsb (fun w => w) (w0 :: wr) = true) by (apply existsb_exists; exists true; auto).
      rewrite Y in B. discriminate.
  - split; [intros (s & E); discriminate | intros ((f' & E) & _); discriminate].
Qed.

Lemma twice : forall mo pre mid post, no_wrap pre -> no_wrap mid -> tidy (pre ++ WrapAround :: mid) ->
  match collector_after pre, collector_after (pre ++ WrapAround :: mid) with
  | Some _, Some _ => True
  | None, None => ~ In SetLb mid
  | _, _ => False
  end -> run mo (pre ++ WrapAround :: mid ++ WrapAround :: post) = None.
Proof.
  intros mo pre mid post N1 N2 T H. unfold run.
  replace (pre ++ WrapAround :: mid ++ WrapAround :: post) with ((pre ++ WrapAround :: mid) ++ WrapAround :: post)
    by (rewrite <- app_assoc; reflexivity).
  rewrite configure_app. destruct (configure mo (pre ++ WrapAround :: mid) farm0) as [h|] eqn:C; [|reflexivity].
  assert (C' := C). rewrite configure_app in C'.
  destruct (configure mo pre farm0) as [f|] eqn:Cf; [|discriminate].
  simpl in C'. destruct (wrap_around mo f) as [g|] eqn:W; [|discriminate].
  destruct (conf_present _ _ _ _ Cf (tidy_app_l _ _ T)) as (A1 & A2 & _ & _); [reflexivity|].
  destruct (conf_present _ _ _ _ C T) as (B1 & B2 & _ & _); [reflexivity|].
  fold (collector_after pre) in A1. change (collector_of (pre ++ WrapAround :: mid) (ordered farm0) (present farm0)) with (collector_after (pre ++ WrapAround :: mid)) in B1.
  change (collector_of pre (ordered farm0) (present farm0)) with (collector_after pre) in A1.
  rewrite <- A1, <- B1 in H.
  destruct (conf_nowrap _ _ _ _ C' N2) as (_ & G & _ & _ & _ & M).
  assert (X : wrap_around mo h = None); [|simpl; rewrite X; reflexivity].
  unfold present in H. unfold wrap_around, set_output_buffer in *.
  destruct (removed f) eqn:Rf.
  - destruct (ordered f) eqn:Of; [specialize (A2 eq_refl); discriminate|].
    unfold has_collector in W. rewrite Of, Rf in W. replace (match col f with Some _ => negb true | None => false end) with false in W by (destruct (col f); reflexivity).
    simpl in W. destruct (mw f); [discriminate|]. inversion W; subst g; clear W. simpl in M.
    destruct (sets_lb mid) eqn:Sl.
    { exfalso. apply in_lb in Sl. destruct (removed h); [now apply H|]. destruct (col h); [contradiction|now apply H]. }
    simpl in M. unfold has_collector.
    destruct (removed h) eqn:Rh.
    + destruct (ordered h) eqn:Oh; [specialize (B2 eq_refl); discriminate|]. destruct (col h); simpl; now rewrite M.
    + destruct (col h) eqn:Ch; [contradiction|]. destruct (ordered h); simpl; [reflexivity|now rewrite M].
  - destruct (col f) as [kf|] eqn:Cl.
    + unfold has_collector in W. rewrite Cl, Rf in W. replace (if ordered f then true else negb false) with true in W by (destruct (ordered f); reflexivity).
      simpl in W. destruct (gtout f); [discriminate|]. inversion W; subst g; clear W. simpl in G.
      destruct (removed h) eqn:Rh; [contradiction|]. destruct (col h) eqn:Ch; [|contradiction].
      unfold has_collector. rewrite Ch, Rh. replace (if ordered h then true else negb false) with true by (destruct (ordered h); reflexivity).
      simpl. rewrite G. reflexivity.
    + unfold has_collector in W. rewrite Cl in W. destruct (ordered f); [simpl in W; rewrite ?Cl, ?Rf in W; discriminate|].
      simpl in W. destruct (mw f); [discriminate|]. inversion W; subst g; clear W. simpl in M.
      destruct (sets_lb mid) eqn:Sl.
      { exfalso. apply in_lb in Sl. destruct (removed h); [now apply H|]. destruct (col h); [contradiction|now apply H]. }
      simpl in M. unfold has_collector.
      destruct (removed h) eqn:Rh.
      * destruct (ordered h) eqn:Oh; [specialize (B2 eq_refl); discriminate|]. destruct (col h); simpl; now rewrite M.
      * destruct (col h) eqn:Ch; [contradiction|]. destruct (ordered h); simpl; [reflexivity|now rewrite M].
Qed.
