(** Proofs about the channels of an all-to-all. *)
From Coq Require Import List Arith Bool Lia.
From Verif Require Import AwModel AwSpec.
Import ListNotations.

Lemma upd_L : forall {T} (f : node -> T) i v j, upd f (L i) v (L j) = if j =? i then v else f (L j).
Proof. intros; unfold upd; simpl. rewrite Nat.eqb_sym. reflexivity. Qed.
Lemma upd_R : forall {T} (f : node -> T) i v j, upd f (R i) v (R j) = if j =? i then v else f (R j).
Proof. intros; unfold upd; simpl. rewrite Nat.eqb_sym. reflexivity. Qed.
Lemma upd_LR : forall {T} (f : node -> T) i v j, upd f (L i) v (R j) = f (R j).
Proof. reflexivity. Qed.
Lemma upd_RL : forall {T} (f : node -> T) i v j, upd f (R i) v (L j) = f (L j).
Proof. reflexivity. Qed.
#[export] Hint Rewrite @upd_L @upd_R @upd_LR @upd_RL : up.

Ltac nat_cases :=
  repeat match goal with
  | |- context [?a =? ?b] => destruct (Nat.eqb_spec a b); subst
  | |- context [?a <? ?b] => destruct (Nat.ltb_spec a b)
  end.
Ltac nat_cases' :=
  repeat match goal with
  | |- context [?a =? ?b] => destruct (Nat.eqb_spec a b)
  | |- context [?a <? ?b] => destruct (Nat.ltb_spec a b)
  end; try lia; try reflexivity; try (f_equal; lia).
Ltac fin := simpl; rewrite ?app_nil_r; try reflexivity; try lia; try (f_equal; lia).

(** ** The inner loop of [forward] *)
Definition fstep (eL : nat -> bool) (er : bool) (i j : nat) (h : heap) : heap :=
  let b := nb h in set_input er (R i) b (set_output (eL j) (L j) b (alloc h)).

Lemma inner : forall eL er i m h, let h' := loop m (fstep eL er i) h in
  nb h' = nb h + m
  /\ (forall j, outN h' (L j) = outN h (L j) ++ (if (j <? m) && eL j then [Some (nb h + j)] else []))
  /\ (forall j, out1 h' (L j) = if (j <? m) && negb (eL j) then Some (nb h + j) else out1 h (L j))
  /\ (forall k, inN h' (R k) = inN h (R k) ++ (if (k =? i) && er then map (fun j => Some (nb h + j)) (seq 0 m) else []))
  /\ (forall k, in1 h' (R k) = if (k =? i) && negb er && (0 <? m) then Some (nb h + (m - 1)) else in1 h (R k))
  /\ (forall k, outN h' (R k) = outN h (R k) /\ out1 h' (R k) = out1 h (R k) /\ inN h' (L k) = inN h (L k) /\ in1 h' (L k) = in1 h (L k))
  /\ inF h' = inF h /\ outF h' = outF h.
Proof.
  intros eL er i m h; induction m as [|m IH].
  - simpl. repeat split; intros; fin. all: nat_cases; destruct er; fin.
  - simpl in IH. simpl loop. set (g := loop m (fstep eL er i) h) in *.
    destruct IH as (A1 & A2 & A3 & A4 & A5 & A6 & A7 & A8). simpl.
    unfold fstep, set_input, set_output, add_inN, add_outN, put_in1, put_out1, alloc.
    destruct er eqn:EE, (eL m) eqn:EM; simpl; rewrite ?A7, ?A8, ?A1;
      (repeat split; intros; autorewrite with up; try (destruct (A6 k) as (Z1 & Z2 & Z3 & Z4); auto; fail); try lia;
       rewrite ?A2, ?A3, ?A4, ?A5; rewrite ?A2, ?A3, ?A4, ?A5).
    all: try (destruct (Nat.eqb_spec j m); [subst; rewrite EM|]; nat_cases; try lia; destruct (eL j); fin).
    all: try (destruct (Nat.eqb_spec k i); [subst|]; simpl; rewrite ?app_nil_r; try reflexivity;
              try (change (0 :: seq 1 m) with (seq 0 (S m)); rewrite seq_S, map_app, app_assoc; reflexivity)).
    all: nat_cases; fin.
    all: try (rewrite EM; fin; fail).
    all: try (rewrite <- app_assoc; f_equal; change (Some (nb h + 0) :: map (fun j : nat => Some (nb h + j)) (seq 1 m)) with (map (fun j : nat => Some (nb h + j)) (seq 0 (S m))); rewrite seq_S, map_app; reflexivity).
    all: try (replace j with m in * by lia; rewrite EM; fin; fail).
Qed.

Lemma map_seq_S : forall {T} (f : nat -> T) m, map f (seq 0 (S m)) = map f (seq 0 m) ++ [f m].
Proof. intros; rewrite seq_S, map_app; reflexivity. Qed.

Lemma outer : forall eL eR nl n h, let h' := loop n (fun i => loop nl (fstep eL (eR i) i)) h in
  nb h' = nb h + n * nl
  /\ (forall j, outN h' (L j) = outN h (L j) ++ (if (j <? nl) && eL j then map (fun i => Some (nb h + i * nl + j)) (seq 0 n) else []))
  /\ (forall j, out1 h' (L j) = if (j <? nl) && negb (eL j) && (0 <? n) then Some (nb h + (n - 1) * nl + j) else out1 h (L j))
  /\ (forall k, inN h' (R k) = inN h (R k) ++ (if (k <? n) && eR k then map (fun j => Some (nb h + k * nl + j)) (seq 0 nl) else []))
  /\ (forall k, in1 h' (R k) = if (k <? n) && negb (eR k) && (0 <? nl) then Some (nb h + k * nl + (nl - 1)) else in1 h (R k))
  /\ (forall k, outN h' (R k) = outN h (R k) /\ out1 h' (R k) = out1 h (R k) /\ inN h' (L k) = inN h (L k) /\ in1 h' (L k) = in1 h (L k))
  /\ inF h' = inF h /\ outF h' = outF h.
Proof.
  intros eL eR nl n h; induction n as [|n IH].
  - cbn [loop]. repeat split; intros; try (simpl; lia); nat_cases; try lia; simpl; rewrite ?andb_false_r, ?app_nil_r; auto.
    destruct (eL j); now rewrite app_nil_r.
  - cbn [loop]. set (g := loop n (fun i => loop nl (fstep eL (eR i) i)) h) in *. cbv zeta in IH.
    pose proof (inner eL (eR n) n nl g) as I. cbv zeta in I. set (g' := loop nl (fstep eL (eR n) n) g) in *.
    destruct IH as (A1 & A2 & A3 & A4 & A5 & A6 & A7 & A8), I as (B1 & B2 & B3 & B4 & B5 & B6 & B7 & B8). cbv zeta.
    split; [lia|]. split.
    { intros j. rewrite B2, A2, A1. destruct ((j <? nl) && eL j); [|now rewrite !app_nil_r].
      rewrite map_seq_S, app_assoc. reflexivity. }
    split.
    { intros j. rewrite B3, A3, A1. destruct ((j <? nl) && negb (eL j)); [|reflexivity].
      change (0 <? S n) with true. cbn [andb]. do 2 f_equal. replace (S n - 1) with n by lia. reflexivity. }
    split.
    { intros k. rewrite B4, A4, A1. destruct (Nat.eqb_spec k n) as [->|NE]; cbn [andb].
      - rewrite (proj2 (Nat.ltb_ge n n)) by lia. rewrite (proj2 (Nat.ltb_lt n (S n))) by lia. cbn [andb]. now rewrite app_nil_r.
      - rewrite app_nil_r. replace (k <? S n) with (k <? n); [reflexivity|]. nat_cases; lia. }
    split.
    { intros k. rewrite B5, A5, A1. destruct (Nat.eqb_spec k n) as [->|NE]; cbn [andb].
      - rewrite (proj2 (Nat.ltb_ge n n)) by lia. rewrite (proj2 (Nat.ltb_lt n (S n))) by lia. cbn [andb]. reflexivity.
      - replace (k <? S n) with (k <? n); [reflexivity|]. nat_cases; lia. }
    split.
    { intros k. destruct (A6 k) as (a & b & c & d), (B6 k) as (a' & b' & c' & d'). rewrite a', b', c', d'. auto. }
    split; congruence.
Qed.

(** ** The feedback from everyone to everyone *)
Definition bstep (er : bool) (eL : nat -> bool) (i j : nat) (h : heap) : heap :=
  let b := nb h in set_input_feedback (eL j) (L j) (Some b) (set_output_feedback er (R i) (Some b) (alloc h)).

Definition same_main (h' h : heap) : Prop := in1 h' = in1 h /\ out1 h' = out1 h /\ inN h' = inN h /\ outN h' = outN h.

Lemma binner : forall er eL i m h, let h' := loop m (bstep er eL i) h in
  nb h' = nb h + m /\ same_main h' h
  /\ (forall j, inF h' (L j) = inF h (L j) ++ (if (j <? m) && eL j then [Some (nb h + j)] else []))
  /\ (forall k, outF h' (R k) = outF h (R k) ++ (if (k =? i) && er then map (fun j => Some (nb h + j)) (seq 0 m) else []))
  /\ (forall k, inF h' (R k) = inF h (R k) /\ outF h' (L k) = outF h (L k)).
Proof.
  intros er eL i m h; induction m as [|m IH].
  - simpl. unfold same_main. repeat split; intros; try lia; nat_cases; try lia; simpl; rewrite ?app_nil_r; auto.
    destruct er; simpl; now rewrite app_nil_r.
  - cbn [loop]. set (g := loop m (bstep er eL i) h) in *. cbv zeta in *.
    destruct IH as (A1 & (M1 & M2 & M3 & M4) & A2 & A3 & A4).
    assert (E : nb (bstep er eL i m g) = S (nb g) /\ same_main (bstep er eL i m g) g
      /\ inF (bstep er eL i m g) = (if eL m then upd (inF g) (L m) (inF g (L m) ++ [Some (nb g)]) else inF g)
      /\ outF (bstep er eL i m g) = (if er then upd (outF g) (R i) (outF g (R i) ++ [Some (nb g)]) else outF g)).
    { unfold bstep, set_input_feedback, set_output_feedback, same_main. destruct er, (eL m); simpl; auto 10. }
    destruct E as (E1 & (E2 & E3 & E4 & E5) & E6 & E7).
    split; [lia|]. split; [unfold same_main; repeat split; congruence|]. split; [|split].
    + intros j. rewrite E6. destruct (Nat.eqb_spec j m) as [->|NE].
      * rewrite (proj2 (Nat.ltb_lt m (S m))) by lia. destruct (eL m) eqn:EM; cbn [andb].
        -- rewrite upd_L, Nat.eqb_refl, A2. rewrite (proj2 (Nat.ltb_ge m m)) by lia. cbn [andb]. now rewrite app_nil_r, A1.
        -- rewrite A2, (proj2 (Nat.ltb_ge m m)) by lia. reflexivity.
      * replace (j <? S m) with (j <? m) by (nat_cases; lia). rewrite <- A2.
        destruct (eL m); [rewrite upd_L; destruct (Nat.eqb_spec j m); [contradiction|]|]; reflexivity.
    + intros k. rewrite E7. destruct er; cbn [andb].
      * rewrite upd_R. destruct (Nat.eqb_spec k i) as [->|NE]; cbn [andb].
        -- rewrite A3, Nat.eqb_refl, A1, map_seq_S, app_assoc. reflexivity.
        -- rewrite A3. destruct (Nat.eqb_spec k i); [contradiction|]. reflexivity.
      * rewrite A3, !andb_false_r. reflexivity.
    + intros k. rewrite E6, E7. destruct (A4 k) as (a & b). split.
      * destruct (eL m); [rewrite upd_LR|]; exact a.
      * destruct er; [rewrite upd_RL|]; exact b.
Qed.

Lemma bouter : forall eR eL nl n h, let h' := loop n (fun i => loop nl (bstep (eR i) eL i)) h in
  nb h' = nb h + n * nl /\ same_main h' h
  /\ (forall j, inF h' (L j) = inF h (L j) ++ (if (j <? nl) && eL j then map (fun i => Some (nb h + i * nl + j)) (seq 0 n) else []))
  /\ (forall k, outF h' (R k) = outF h (R k) ++ (if (k <? n) && eR k then map (fun j => Some (nb h + k * nl + j)) (seq 0 nl) else []))
  /\ (forall k, inF h' (R k) = inF h (R k) /\ outF h' (L k) = outF h (L k)).
Proof.
  intros eR eL nl n h; induction n as [|n IH].
  - cbn [loop]. unfold same_main. repeat split; intros; try (simpl; lia); simpl; rewrite ?app_nil_r; auto.
    destruct ((j <? nl) && eL j); now rewrite app_nil_r.
  - cbn [loop]. set (g := loop n (fun i => loop nl (bstep (eR i) eL i)) h) in *. cbv zeta in IH.
    pose proof (binner (eR n) eL n nl g) as I. cbv zeta in I. set (g' := loop nl (bstep (eR n) eL n) g) in *.
    destruct IH as (A1 & (M1 & M2 & M3 & M4) & A2 & A3 & A4), I as (B1 & (K1 & K2 & K3 & K4) & B2 & B3 & B4). cbv zeta.
    split; [lia|]. split; [unfold same_main; repeat split; congruence|]. split; [|split].
    + intros j. rewrite B2, A2, A1. destruct ((j <? nl) && eL j); [|now rewrite !app_nil_r].
      rewrite map_seq_S, app_assoc. reflexivity.
    + intros k. rewrite B3, A3, A1. destruct (Nat.eqb_spec k n) as [->|NE]; cbn [andb].
      * rewrite (proj2 (Nat.ltb_ge n n)) by lia. rewrite (proj2 (Nat.ltb_lt n (S n))) by lia. cbn [andb]. now rewrite app_nil_r.
      * rewrite app_nil_r. replace (k <? S n) with (k <? n); [reflexivity|]. nat_cases; lia.
    + intros k. destruct (A4 k) as (a & b), (B4 k) as (a' & b'). rewrite a', b'. auto.
Qed.

(** ** The loops over one set *)
Lemma loop_ext : forall n f g h, (forall i h, i < n -> f i h = g i h) -> loop n f h = loop n g h.
Proof. intros n; induction n; intros f g h H; simpl; [reflexivity|]. rewrite (IHn f g) by auto. apply H; lia. Qed.

Lemma create_in_loop : forall n, let h := loop n (fun j => create_in false (L j)) heap0 in
  nb h = n /\ (forall j, in1 h (L j) = if j <? n then Some j else None)
  /\ (forall x, inN h x = [] /\ outN h x = [] /\ inF h x = [] /\ outF h x = [] /\ out1 h x = None) /\ (forall k, in1 h (R k) = None).
Proof.
  intros n; induction n as [|n IH]; [simpl; repeat split; auto|].
  cbn [loop]. set (g := loop n (fun j => create_in false (L j)) heap0) in *. cbv zeta in *.
  destruct IH as (A1 & A2 & A3 & A4). unfold create_in; simpl. split; [lia|]. split; [|split; [exact A3|]].
  - intros j. rewrite upd_L, A2, A1. nat_cases'.
  - intros k. rewrite upd_LR. apply A4.
Qed.

Lemma create_out_loop : forall n, let h := loop n (fun j => create_out false (R j)) heap0 in
  nb h = n /\ (forall j, out1 h (R j) = if j <? n then Some j else None)
  /\ (forall x, inN h x = [] /\ outN h x = [] /\ inF h x = [] /\ outF h x = [] /\ in1 h x = None) /\ (forall k, out1 h (L k) = None).
Proof.
  intros n; induction n as [|n IH]; [simpl; repeat split; auto|].
  cbn [loop]. set (g := loop n (fun j => create_out false (R j)) heap0) in *. cbv zeta in *.
  destruct IH as (A1 & A2 & A3 & A4). unfold create_out; simpl. split; [lia|]. split; [|split; [exact A3|]].
  - intros j. rewrite upd_R, A2, A1. nat_cases'.
  - intros k. rewrite upd_RL. apply A4.
Qed.

Lemma outF_loop : forall n h, let h' := loop n (fun i h => add_outF (R i) (in1 h (L i)) h) h in
  nb h' = nb h /\ same_main h' h /\ inF h' = inF h
  /\ (forall k, outF h' (R k) = outF h (R k) ++ (if k <? n then [in1 h (L k)] else [])) /\ (forall k, outF h' (L k) = outF h (L k)).
Proof.
  intros n h; induction n as [|n IH]; [simpl; unfold same_main; repeat split; intros; rewrite ?app_nil_r; auto|].
  cbn [loop]. set (g := loop n _ h) in *. cbv zeta in *. destruct IH as (A1 & (M1 & M2 & M3 & M4) & A2 & A3 & A4). simpl.
  split; [exact A1|]. split; [unfold same_main; simpl; auto|]. split; [exact A2|]. split.
  - intros k. rewrite upd_R. destruct (Nat.eqb_spec k n) as [->|NE].
    + rewrite A3, (proj2 (Nat.ltb_ge n n)), (proj2 (Nat.ltb_lt n (S n))), app_nil_r, M1 by lia. reflexivity.
    + rewrite A3. replace (k <? S n) with (k <? n) by (nat_cases; lia). reflexivity.
  - intros k. rewrite upd_RL. apply A4.
Qed.

Lemma inF_loop : forall n h, let h' := loop n (fun j h => add_inF (L j) (out1 h (R j)) h) h in
  nb h' = nb h /\ same_main h' h /\ outF h' = outF h
  /\ (forall k, inF h' (L k) = inF h (L k) ++ (if k <? n then [out1 h (R k)] else [])) /\ (forall k, inF h' (R k) = inF h (R k)).
Proof.
  intros n h; induction n as [|n IH]; [simpl; unfold same_main; repeat split; intros; rewrite ?app_nil_r; auto|].
  cbn [loop]. set (g := loop n _ h) in *. cbv zeta in *. destruct IH as (A1 & (M1 & M2 & M3 & M4) & A2 & A3 & A4). simpl.
  split; [exact A1|]. split; [unfold same_main; simpl; auto|]. split; [exact A2|]. split.
  - intros k. rewrite upd_L. destruct (Nat.eqb_spec k n) as [->|NE].
    + rewrite A3, (proj2 (Nat.ltb_ge n n)), (proj2 (Nat.ltb_lt n (S n))), app_nil_r, M2 by lia. reflexivity.
    + rewrite A3. replace (k <? S n) with (k <? n) by (nat_cases; lia). reflexivity.
  - intros k. rewrite upd_LR. apply A4.
Qed.

Lemma out1_loop : forall n h, let h' := loop n (fun i h => put_out1 (R i) (in1 h (L i)) h) h in
  nb h' = nb h /\ in1 h' = in1 h /\ inN h' = inN h /\ outN h' = outN h /\ inF h' = inF h /\ outF h' = outF h
  /\ (forall k, out1 h' (R k) = if k <? n then in1 h (L k) else out1 h (R k)) /\ (forall k, out1 h' (L k) = out1 h (L k)).
Proof.
  intros n h; induction n as [|n IH]; [simpl; repeat split; auto|].
  cbn [loop]. set (g := loop n _ h) in *. cbv zeta in *. destruct IH as (A1 & A2 & A3 & A4 & A5 & A6 & A7 & A8). simpl.
  repeat (split; [assumption|]). split.
  - intros k. rewrite upd_R, A7, A2. nat_cases'. all: subst; reflexivity.
  - intros k. rewrite upd_RL. apply A8.
Qed.

(** ** Putting them together, for sets of one kind *)
Lemma alike_kd : forall k ks i, alike k ks -> i < length ks -> kd ks i = k.
Proof.
  intros k ks i (_ & F) H. unfold kd. rewrite Forall_forall in F. symmetry. apply F. apply nth_In, H.
Qed.
Lemma alike_0 : forall k ks, alike k ks -> kd ks 0 = k /\ 0 < length ks.
Proof.
  intros k ks A. assert (0 < length ks) by (destruct A as (N & _); destruct ks; [contradiction|simpl; lia]).
  split; [now apply alike_kd|assumption].
Qed.

(** What the feedback phase leaves: [fb j i] is the channel back from R i to L j. *)
Definition fb (f : feedback) (nl j i : nat) : nat := match f with AllToAll => i * nl + j | _ => i end.
Definition count (f : feedback) (nl nr : nat) : nat := match f with NoFeedback => 0 | AllToAll => nr * nl | OneToOne => nl end.

Definition after_wrap (f : feedback) (kl kr : kind) (nl nr : nat) (h : heap) : Prop :=
  nb h = count f nl nr
  /\ (forall j, j < nl -> outN h (L j) = [] /\ outF h (L j) = []
       /\ (if mi kl then inF h (L j) ++ inN h (L j) else olist (in1 h (L j))) = map (fun i => Some (fb f nl j i)) (peers f nr j))
  /\ (forall i, i < nr -> inN h (R i) = [] /\ inF h (R i) = []
       /\ (if mo kr then outF h (R i) ++ outN h (R i) else olist (out1 h (R i))) = map (fun j => Some (fb f nl j i)) (peers f nl i)).

Lemma wrap_alike : forall kl kr ls rs, alike kl ls -> alike kr rs ->
  match (if (match wanted true kl kr with OneToOne => length ls =? length rs | _ => true end) then Some tt else None) with
  | None => wrap ls rs heap0 = None
  | Some _ => exists h, wrap ls rs heap0 = Some h /\ after_wrap (wanted true kl kr) kl kr (length ls) (length rs) h
  end.
Proof.
  intros kl kr ls rs A B. destruct (alike_0 _ _ A) as (A0 & AN), (alike_0 _ _ B) as (B0 & BN).
  unfold wanted. unfold wrap. rewrite A0, B0. set (nl := length ls) in *. set (nr := length rs) in *.
  assert (KL : forall j, j < nl -> kd ls j = kl) by (intros; now apply alike_kd).
  assert (KR : forall j, j < nr -> kd rs j = kr) by (intros; now apply alike_kd).
  destruct (mo kr) eqn:MO, (mi kl) eqn:MI; cbn [andb].
  - eexists; split; [reflexivity|].
    pose proof (bouter (fun i => mo (kd rs i)) (fun j => mi (kd ls j)) nl nr heap0) as P. cbv zeta in P.
    unfold bstep in P. set (h := loop nr _ heap0) in *. destruct P as (P1 & (M1 & M2 & M3 & M4) & P2 & P3 & P4).
    split; [rewrite P1; simpl; lia|]. split; intros j J.
    + rewrite M4, (proj2 (P4 j)), MI, P2, M3. rewrite (proj2 (Nat.ltb_lt j nl)), KL, MI by lia. simpl. rewrite app_nil_r. auto.
    + rewrite M3, (proj1 (P4 j)), MO, P3, M4. rewrite (proj2 (Nat.ltb_lt j nr)), KR, MO by lia. simpl. rewrite app_nil_r. auto.
  - destruct (Nat.eqb_spec nl nr) as [NE|NE]; cbn [negb]; [|reflexivity].
    eexists; split; [reflexivity|].
    rewrite (loop_ext nl _ (fun j => create_in false (L j))) by (intros i h I; now rewrite KL, MI).
    rewrite (loop_ext nr _ (fun i h => add_outF (R i) (in1 h (L i)) h)) by (intros i h I; now rewrite KR, MO).
    pose proof (create_in_loop nl) as P. cbv zeta in P. set (g := loop nl _ heap0) in *. destruct P as (P1 & P2 & P3 & P4).
    pose proof (outF_loop nr g) as Q. cbv zeta in Q. set (h := loop nr _ g) in *. destruct Q as (Q1 & (M1 & M2 & M3 & M4) & Q2 & Q3 & Q4).
    split; [rewrite Q1, P1; reflexivity|]. split; intros j J.
    + destruct (P3 (L j)) as (a & b & c & d & e). rewrite M4, Q4, MI, M1, P2, (proj2 (Nat.ltb_lt j nl)) by lia. auto.
    + destruct (P3 (R j)) as (a & b & c & d & e). rewrite M3, Q2, MO, Q3, M4, a, b, c, d, (proj2 (Nat.ltb_lt j nr)), P2, (proj2 (Nat.ltb_lt j nl)) by lia. auto.
  - destruct (Nat.eqb_spec nl nr) as [NE|NE]; cbn [negb]; [|reflexivity].
    assert (FA : forallb mi ls = true).
    { rewrite forallb_forall. intros k I. destruct A as (_ & F). rewrite Forall_forall in F. now rewrite <- (F _ I). }
    rewrite FA. eexists; split; [reflexivity|].
    rewrite (loop_ext nr _ (fun j => create_out false (R j))) by (intros i h I; now rewrite KR, MO).
    unfold set_input_feedback.
    pose proof (create_out_loop nr) as P. cbv zeta in P. set (g := loop nr _ heap0) in *. destruct P as (P1 & P2 & P3 & P4).
    pose proof (inF_loop nl g) as Q. cbv zeta in Q. set (h := loop nl _ g) in *. destruct Q as (Q1 & (M1 & M2 & M3 & M4) & Q2 & Q3 & Q4).
    split; [rewrite Q1, P1; simpl; lia|]. split; intros j J.
    + destruct (P3 (L j)) as (a & b & c & d & e). rewrite M4, Q2, MI, M3, Q3, a, b, c, d, (proj2 (Nat.ltb_lt j nl)), P2, (proj2 (Nat.ltb_lt j nr)) by lia. auto.
    + destruct (P3 (R j)) as (a & b & c & d & e). rewrite M3, Q4, MO, M2, a, c, P2, (proj2 (Nat.ltb_lt j nr)) by lia. auto.
  - destruct (Nat.eqb_spec nl nr) as [NE|NE]; cbn [negb]; [|reflexivity].
    eexists; split; [reflexivity|].
    rewrite (loop_ext nl _ (fun j => create_in false (L j))) by (intros i h I; now rewrite KL, MI).
    pose proof (create_in_loop nl) as P. cbv zeta in P. set (g := loop nl _ heap0) in *. destruct P as (P1 & P2 & P3 & P4).
    pose proof (out1_loop nr g) as Q. cbv zeta in Q. set (h := loop nr _ g) in *. destruct Q as (Q1 & Q2 & Q3 & Q4 & Q5 & Q6 & Q7 & Q8).
    split; [rewrite Q1, P1; reflexivity|]. split; intros j J.
    + destruct (P3 (L j)) as (a & b & c & d & e). rewrite Q4, Q6, MI, Q2, P2, (proj2 (Nat.ltb_lt j nl)) by lia. auto.
    + destruct (P3 (R j)) as (a & b & c & d & e). rewrite Q3, Q5, MO, Q7, (proj2 (Nat.ltb_lt j nr)), P2, (proj2 (Nat.ltb_lt j nl)) by lia. auto.
Qed.

Lemma pair_inj : forall nl i j i' j', j < nl -> j' < nl -> i * nl + j = i' * nl + j' -> i = i' /\ j = j'.
Proof.
  intros nl i j i' j' J J' E. assert (i = i').
  { apply (f_equal (fun x => x / nl)) in E. rewrite !(Nat.add_comm (_ * _)), !Nat.div_add, !Nat.div_small in E by lia. lia. }
  subst; lia.
Qed.

Lemma pair_lt : forall nl nr i j, j < nl -> i < nr -> i * nl + j < nr * nl.
Proof. intros. nia. Qed.

Lemma prep_alike : forall w kl kr ls rs, alike kl ls -> alike kr rs ->
  if fits w kl kr (length ls) (length rs)
  then exists h, prepare w ls rs = Some h /\ wired (wanted w kl kr) ls rs h
  else prepare w ls rs = None.
Proof.
  intros w kl kr ls rs A B.
  destruct (alike_0 _ _ A) as (A0 & AN), (alike_0 _ _ B) as (B0 & BN).
  assert (KL : forall j, j < length ls -> kd ls j = kl) by (intros; now apply alike_kd).
  assert (KR : forall j, j < length rs -> kd rs j = kr) by (intros; now apply alike_kd).
  set (f := wanted w kl kr). set (nl := length ls) in *. set (nr := length rs) in *.
  assert (W : if (match f with OneToOne => nl =? nr | _ => true end)
              then exists h, (if w then wrap ls rs heap0 else Some heap0) = Some h /\ after_wrap f kl kr nl nr h
              else (if w then wrap ls rs heap0 else Some heap0) = None).
  { destruct w.
    - pose proof (wrap_alike _ _ _ _ A B) as P. fold f in P. fold nl nr in P.
      destruct (match f with OneToOne => nl =? nr | _ => true end); exact P.
    - subst f; simpl. exists heap0; split; [reflexivity|]. unfold after_wrap; simpl.
      split; [reflexivity|]. split; intros; destruct (mi kl), (mo kr); auto. }
  assert (PR : prepare w ls rs = match (if w then wrap ls rs heap0 else Some heap0) with
      | None => None
      | Some h => if negb (mo kl) && mi kl then None else if negb (mi kr) && mo kr then None
                  else Some (forward (negb (mo kl)) (negb (mi kr)) ls rs h) end).
  { unfold prepare. destruct ls as [|l0 ls']; [simpl in nl; lia|]. destruct rs as [|r0 rs']; [simpl in nr; lia|].
    cbn [kd nth] in A0, B0. subst l0 r0. reflexivity. }
  rewrite PR. unfold fits. fold f.
  destruct (match f with OneToOne => nl =? nr | _ => true end) eqn:SZ; [|rewrite W, andb_false_r; reflexivity].
  destruct W as (h & -> & N & HL & HR). rewrite andb_true_r.
  replace (negb (mi kl) || mo kl) with (negb (negb (mo kl) && mi kl)) by (destruct (mi kl), (mo kl); reflexivity).
  replace (negb (mo kr) || mi kr) with (negb (negb (mi kr) && mo kr)) by (destruct (mi kr), (mo kr); reflexivity).
  destruct (negb (mo kl) && mi kl); [reflexivity|]. destruct (negb (mi kr) && mo kr); [reflexivity|]. cbn [negb andb].
  eexists; split; [reflexivity|].
  set (tl := negb (mo kl)). set (tr := negb (mi kr)).
  pose proof (outer (fun j => tl || mo (kd ls j)) (fun i => tr || mi (kd rs i)) nl nr h) as P. cbv beta zeta in P.
  change (loop nr (fun i => loop nl (fstep (fun j => tl || mo (kd ls j)) (tr || mi (kd rs i)) i)) h) with (forward tl tr ls rs h) in P.
  set (g := forward tl tr ls rs h) in *. destruct P as (P1 & P2 & P3 & P4 & P5 & P6 & P7 & P8).
  exists (fun b j i => if b : bool then fb f nl j i else count f nl nr + i * nl + j). fold nl nr.
  split; [|split].
  - assert (LT : forall j i, j < nl -> i < nr -> In j (peers f nl i) -> fb f nl j i < count f nl nr).
    { intros j i J I X. destruct f; simpl in *; [contradiction | now apply pair_lt |]. apply Nat.eqb_eq in SZ. lia. }
    intros b j i b' j' i' J J' I I' X X' E. destruct b, b'; simpl in E.
    + specialize (X eq_refl). specialize (X' eq_refl). split; [reflexivity|]. destruct f; simpl in *; [contradiction| |].
      * destruct (pair_inj nl i j i' j' J J' E); auto.
      * destruct X as [<-|[]], X' as [<-|[]]. auto.
    + specialize (LT j i J I (X eq_refl)). lia.
    + specialize (LT j' i' J' I' (X' eq_refl)). lia.
    + split; [reflexivity|]. destruct (pair_inj nl i j i' j' J J'); [lia|auto].
  - intros j J. destruct (HL j J) as (H1 & H2 & H3). unfold outputs, inputs. rewrite A0, KL by exact J. fold tl.
    replace (tl || mo kl) with true by (subst tl; destruct (mo kl); reflexivity).
    split.
    + rewrite P8, H2, P2, H1, KL, (proj2 (Nat.ltb_lt j nl)), N by exact J.
      replace (tl || mo kl) with true by (subst tl; destruct (mo kl); reflexivity). reflexivity.
    + destruct (P6 j) as (_ & _ & Q1 & Q2). rewrite P7, Q1, Q2. exact H3.
  - intros i I. destruct (HR i I) as (H1 & H2 & H3). unfold outputs, inputs. rewrite B0, KR by exact I. fold tr.
    replace (tr || mi kr) with true by (subst tr; destruct (mi kr); reflexivity).
    split.
    + rewrite P7, H2, P4, H1, KR, (proj2 (Nat.ltb_lt i nr)), N by exact I.
      replace (tr || mi kr) with true by (subst tr; destruct (mi kr); reflexivity). reflexivity.
    + destruct (P6 i) as (Q1 & Q2 & _). rewrite P8, Q1, Q2. exact H3.
Qed.

(** ** Sets of different kinds, without feedback *)
Lemma prep_mixed : forall ls rs h, prepare false ls rs = Some h ->
  0 < length ls /\ 0 < length rs /\ h = forward (negb (mo (kd ls 0))) (negb (mi (kd rs 0))) ls rs heap0.
Proof.
  intros ls rs h E. unfold prepare in E. destruct ls as [|l0 ls]; [discriminate|]. destruct rs as [|r0 rs]; [discriminate|].
  destruct (negb (mo l0) && mi l0); [discriminate|]. destruct (negb (mi r0) && mo r0); [discriminate|].
  inversion E. simpl; repeat split; lia.
Qed.

Lemma forall_kd : forall (p : kind -> bool) ks, (forall j, j < length ks -> p (kd ks j) = true) <-> forallb p ks = true.
Proof.
  intros p ks. rewrite forallb_forall. split.
  - intros H k I. apply In_nth with (d := std) in I. destruct I as (j & J & <-). now apply H.
  - intros H j J. apply H. unfold kd. apply nth_In, J.
Qed.

Lemma one_elt : forall {T} (f : nat -> T) n b, 0 < n -> [b] = map f (seq 0 n) -> n = 1.
Proof. intros T f n b H E. apply (f_equal (@length T)) in E. rewrite map_length, seq_length in E. simpl in E. lia. Qed.

Lemma forward_iff : forall ls rs h, prepare false ls rs = Some h ->
  (wired NoFeedback ls rs h <->
   (mo (kd ls 0) = true -> length rs = 1 \/ forallb mo ls = true)
   /\ (mi (kd rs 0) = true -> length ls = 1 \/ forallb mi rs = true)).
Proof.
  intros ls rs h E. apply prep_mixed in E. destruct E as (AN & BN & ->).
  set (nl := length ls) in *. set (nr := length rs) in *.
  set (tl := negb (mo (kd ls 0))). set (tr := negb (mi (kd rs 0))).
  pose proof (outer (fun j => tl || mo (kd ls j)) (fun i => tr || mi (kd rs i)) nl nr heap0) as P. cbv beta zeta in P.
  change (loop nr (fun i => loop nl (fstep (fun j => tl || mo (kd ls j)) (tr || mi (kd rs i)) i)) heap0) with (forward tl tr ls rs heap0) in P.
  set (g := forward tl tr ls rs heap0) in *. destruct P as (P1 & P2 & P3 & P4 & P5 & P6 & P7 & P8).
  assert (OL : forall j, j < nl -> outputs ls rs g (L j) = if tl || mo (kd ls j) then map (fun i => Some (i * nl + j)) (seq 0 nr) else [Some ((nr - 1) * nl + j)]).
  { intros j J. unfold outputs. fold tl. rewrite P8, P2, P3, (proj2 (Nat.ltb_lt j nl)), (proj2 (Nat.ltb_lt 0 nr)) by assumption.
    destruct (tl || mo (kd ls j)); reflexivity. }
  assert (IR : forall i, i < nr -> inputs ls rs g (R i) = if tr || mi (kd rs i) then map (fun j => Some (i * nl + j)) (seq 0 nl) else [Some (i * nl + (nl - 1))]).
  { intros i I. unfold inputs. fold tr. rewrite P7, P4, P5, (proj2 (Nat.ltb_lt i nr)), (proj2 (Nat.ltb_lt 0 nl)) by assumption.
    destruct (tr || mi (kd rs i)); reflexivity. }
  assert (IL : forall j, inputs ls rs g (L j) = []).
  { intros j. unfold inputs. destruct (P6 j) as (_ & _ & Q1 & Q2). rewrite P7, Q1, Q2. destruct (mi (kd ls j)); reflexivity. }
  assert (OR : forall i, outputs ls rs g (R i) = []).
  { intros i. unfold outputs. destruct (P6 i) as (Q1 & Q2 & _). rewrite P8, Q1, Q2. destruct (mo (kd rs i)); reflexivity. }
  split.
  - intros (ch & _ & HL & HR). fold nl nr in HL, HR. split.
    + intros M. destruct (Nat.eq_dec nr 1) as [|NE]; [now left|right]. apply forall_kd. intros j J.
      destruct (HL j J) as (H & _). rewrite OL in H by exact J. unfold tl in H. rewrite M in H. cbn [negb orb] in H.
      destruct (mo (kd ls j)); [reflexivity|]. apply one_elt in H; [contradiction|exact BN].
    + intros M. destruct (Nat.eq_dec nl 1) as [|NE]; [now left|right]. apply forall_kd. intros i I.
      destruct (HR i I) as (H & _). rewrite IR in H by exact I. unfold tr in H. rewrite M in H. cbn [negb orb] in H.
      destruct (mi (kd rs i)); [reflexivity|]. apply one_elt in H; [contradiction|exact AN].
  - intros (C1 & C2). exists (fun b j i => i * nl + j). fold nl nr. split; [|split].
    + intros b j i b' j' i' J J' I I' X X' E. simpl in X, X'. destruct b; [destruct (X eq_refl)|]. destruct b'; [destruct (X' eq_refl)|].
      destruct (pair_inj nl i j i' j' J J' E); auto.
    + intros j J. split; [|apply IL]. rewrite OL by exact J. destruct (tl || mo (kd ls j)) eqn:T; [reflexivity|].
      apply orb_false_iff in T. destruct T as (T1 & T2). unfold tl in T1. apply negb_false_iff in T1. destruct (C1 T1) as [->|F]; [reflexivity|].
      rewrite (proj2 (forall_kd mo ls) F j J) in T2. discriminate.
    + intros i I. split; [|apply OR]. rewrite IR by exact I. destruct (tr || mi (kd rs i)) eqn:T; [reflexivity|].
      apply orb_false_iff in T. destruct T as (T1 & T2). unfold tr in T1. apply negb_false_iff in T1. destruct (C2 T1) as [Z|F].
      * rewrite Z. reflexivity.
      * rewrite (proj2 (forall_kd mi rs) F i I) in T2. discriminate.
Qed.
