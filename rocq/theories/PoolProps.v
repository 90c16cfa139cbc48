(** C65: the pool evolution pattern; and C23: who runs which iteration of a static loop. *)
From Coq Require Import List ZArith Lia Bool.
From Verif Require Import Base ParForSpec ParForModel PoolModel PoolSpec.
From Verif Require ParForLoop ParForBlocks ParForMain ParForStatic PoolProofs.
Import ListNotations.

(** ** C23 *)

(** Default static scheduling: worker [w] runs the [w]-th block, of n/nw iterations, one more if
    [w] is below n mod nw.  Hence the assignment of iterations to workers depends on nothing but
    the range and the number of workers. *)
Theorem parfor_static_blocks : forall first last step nw data used lg data',
  (1 <= step -> 1 <= Z.of_nat nw -> last - first < 2 ^ 64 ->
  parfor_run first last step 0 (fun _ => body_plain step) nw data used lg data' ->
  forall w, (w < nw)%nat ->
    length (ran_by w lg) = block_size (length (loop first last step)) nw w)%Z.
Proof.
  intros first last step nw data used lg d' H1 H2 H3 H4 w L. assert (W : 1 <= nw) by lia.
  pose proof (ParForBlocks.static_sizes _ _ _ _ _ _ _ _ H1 W H3 H4 w L) as S.
  unfold ParForLoop.len in S. rewrite <- Nat2Z.inj_div, <- Nat2Z.inj_mod in S. unfold block_size.
  change (ParForStatic.wlog w lg) with (ran_by w lg) in S.
  set (q := length (loop first last step)) in *.
  destruct (Nat.ltb_spec w (q mod nw)), (Z.ltb_spec (Z.of_nat w) (Z.of_nat (q mod nw))); lia.
Qed.

Theorem parfor_static_assignment_fixed : forall first last step nw data1 data2 u1 u2 lg1 lg2 d1 d2,
  (1 <= step -> 1 <= Z.of_nat nw -> last - first < 2 ^ 64 ->
  parfor_run first last step 0 (fun _ => body_plain step) nw data1 u1 lg1 d1 ->
  parfor_run first last step 0 (fun _ => body_plain step) nw data2 u2 lg2 d2 ->
  forall w, ran_by w lg1 = ran_by w lg2)%Z.
Proof.
  intros first last step nw data1 data2 u1 u2 lg1 lg2 d1 d2 H1 H2 H3 R1 R2 w. assert (W : 1 <= nw) by lia.
  destruct (ParForMain.static_main _ _ _ _ _ _ _ _ H1 W H3 R1) as (_ & B1 & F1).
  destruct (ParForMain.static_main _ _ _ _ _ _ _ _ H1 W H3 R2) as (_ & B2 & F2).
  destruct (Nat.lt_ge_cases w nw) as [C|C].
  - refine (ParForBlocks.cut_unique Z nw (fun w => ran_by w lg1) (fun w => ran_by w lg2) 0 _ _ w _); [|exact (eq_trans F1 (eq_sym F2))|lia].
    intros v V. rewrite (parfor_static_blocks _ _ _ _ _ _ _ _ H1 H2 H3 R1) by lia.
    rewrite (parfor_static_blocks _ _ _ _ _ _ _ _ H1 H2 H3 R2) by lia. reflexivity.
  - rewrite !(PoolProofs.ran_by_nil nw) by assumption. reflexivity.
Qed.

(** A complete run of the loop exists, whatever the range, the degree and the table. *)
Theorem parfor_static_completes : forall first last step nw data,
  (1 <= step -> 1 <= Z.of_nat nw -> last - first < 2 ^ 64 ->
  exists lg data', parfor_run first last step 0 (fun _ => body_plain step) nw data nw lg data')%Z.
Proof. intros. apply ParForBlocks.static_run_exists; auto; lia. Qed.

(** ** C65 *)

(** What the selection leaves in the buffer has fewer than 2^64 elements. *)
Definition fits {T env} (u : user T env) : Prop := forall P e P1 N e2,
  u_sel u P [] e = (P1, N, e2) -> (Z.of_nat (length N) < 2 ^ 64)%Z.

(** The sequential algorithm with the user's functions. *)
Definition algorithm {T env} (u : user T env) (nw : nat) :=
  pool_seq (u_sel u) (fun e => evolved (fun x w => u_evol u x e w) nw) (u_fil u) (u_term u).

(** The evolution phase, whatever the interleaving of the workers' accesses: every element is
    replaced by its evolution, once, by the worker its position belongs to. *)
Theorem pool_evolution_phase : forall T env (u : user T env) nw e b b',
  1 <= nw -> (Z.of_nat (length b) < 2 ^ 64)%Z ->
  evolve u nw e b b' -> b' = evolved (fun x w => u_evol u x e w) nw b.
Proof. exact PoolProofs.evolve_spec. Qed.

(** svc: for every schedule, the vector given (or the one of the constructor) ends up holding what
    the sequential algorithm computes from it, the pointer given is passed on, no other vector
    of the program changes, and the environment left is the algorithm's. *)
Theorem pool_svc : forall T env (u : user T env) nw n task n' r,
  fits u -> 1 <= nw -> svc u nw n task n' r ->
  exists p k, (task = Some p \/ task = None /\ input n = Some p) /\
    algorithm u nw k (vecs n p) (nenv n) = Some (vecs n' p, nenv n') /\
    (forall q, q <> p -> vecs n' q = vecs n q) /\ r = task /\ input n' = Some p.
Proof.
  intros T env u nw n task n' r F W H. destruct H as [p P' B' e' EP L].
  apply PoolProofs.loop_spec in L as (k & L); [|exact W|exact F]. cbn [fst snd] in L.
  exists p, k. cbn [vecs nenv input]. split; [destruct task; [left; exact EP|right; auto]|].
  split; [rewrite fupd_eq; exact L|]. split; [intros q NE; apply fupd_neq; exact NE|].
  split; [|reflexivity]. destruct task; [congruence|reflexivity].
Qed.

(** Two runs on the same population and environment end with the same population and environment,
    even if the evolution function looks at the number of the worker. *)
Theorem pool_result_unique : forall T env (u : user T env) nw n1 n2 task1 task2 n1' n2' r1 r2 p,
  fits u -> 1 <= nw ->
  svc u nw n1 task1 n1' r1 -> svc u nw n2 task2 n2' r2 ->
  input n1' = Some p -> input n2' = Some p ->
  vecs n1 p = vecs n2 p -> nenv n1 = nenv n2 ->
  vecs n1' p = vecs n2' p /\ nenv n1' = nenv n2'.
Proof.
  intros T env u nw n1 n2 t1 t2 n1' n2' r1 r2 p F W S1 S2 I1 I2 EV EE.
  apply pool_svc in S1 as (q1 & k1 & _ & A1 & _ & _ & J1); [|exact F|exact W].
  apply pool_svc in S2 as (q2 & k2 & _ & A2 & _ & _ & J2); [|exact F|exact W].
  assert (q1 = p) as -> by congruence. assert (q2 = p) as -> by congruence.
  rewrite EV, EE in A1.
  pose proof (PoolProofs.seq_unique u nw W F k1 k2 _ _ _ _ A1 A2) as E. injection E as -> ->. auto.
Qed.

(** When the evolution function does not look at the number of the worker, the degree of
    parallelism does not matter: the result is that of the algorithm that maps the function over
    the selected elements one after the other. *)
Theorem pool_degree_irrelevant : forall T env (u : user T env) nw n task n' r,
  fits u -> 1 <= nw -> (forall x e w v, u_evol u x e w = u_evol u x e v) ->
  svc u nw n task n' r ->
  exists p k, input n' = Some p /\
    pool_seq (u_sel u) (fun e => map (fun x => u_evol u x e 0)) (u_fil u) (u_term u)
             k (vecs n p) (nenv n) = Some (vecs n' p, nenv n').
Proof.
  intros T env u nw n task n' r F W NT S.
  apply pool_svc in S as (p & k & _ & A & _ & _ & J); [|exact F|exact W].
  exists p, k. split; [exact J|]. rewrite <- A. unfold algorithm. apply PoolProofs.seq_ext.
  intros e l. symmetry. apply PoolProofs.evolved_plain; auto.
Qed.

(** Conversely, if the algorithm stops then svc has a run (which then is as above). *)
Theorem pool_svc_completes : forall T env (u : user T env) nw n p k P' e',
  fits u -> 1 <= nw -> algorithm u nw k (vecs n p) (nenv n) = Some (P', e') ->
  exists n', svc u nw n (Some p) n' (Some p) /\ vecs n' p = P' /\ nenv n' = e'.
Proof.
  intros T env u nw n p k P' e' F W A.
  destruct (PoolProofs.loop_exists u nw W F k (vecs n p) (buffer n) (nenv n) P' e' A) as (B' & L).
  eexists. split; [exact (svc_run _ _ u nw n (Some p) p P' B' e' eq_refl L)|].
  cbn [vecs nenv]. rewrite fupd_eq. auto.
Qed.

(** ** A stream of populations *)

(** The populations are independent if the functions leave the environment alone. *)
Theorem pool_stream_partial : forall T env (u : user T env) nw n l n',
  fits u -> 1 <= nw ->
  (forall P e, snd (u_term u P e) = e) -> (forall P B e, snd (u_sel u P B e) = e) ->
  (forall P B e, snd (u_fil u P B e) = e) ->
  NoDup l -> stream u nw n l n' ->
  forall p, In p l -> exists k e, algorithm u nw k (vecs n p) (nenv n) = Some (vecs n' p, e).
Proof.
  intros T env u nw n l n' F W KT KS KF ND ST.
  assert (KA : forall k P e P' e', algorithm u nw k P e = Some (P', e') -> e' = e).
  { unfold algorithm. induction k as [|k IH]; intros P e P' e' E; cbn [pool_seq] in E;
      pose proof (KT P e) as K1; destruct (u_term u P e) as [[] e1]; try discriminate; cbn [snd] in K1; subst e1.
    - congruence.
    - congruence.
    - pose proof (KS P [] e) as K2. destruct (u_sel u P [] e) as [[P1 N] e2]. cbn [snd] in K2. subst e2.
      match type of E with context [u_fil u P1 ?x e] => pose proof (KF P1 x e) as K3;
        destruct (u_fil u P1 x e) as [[P2 N'] e3] end. cbn [snd] in K3. subst e3. eapply IH; eauto. }
  assert (G : (forall q, ~ In q l -> vecs n' q = vecs n q) /\
    forall p, In p l -> exists k e, algorithm u nw k (vecs n p) (nenv n) = Some (vecs n' p, e)); [|apply G].
  induction ST as [n|n n1 n2 p l r S ST IH]; [split; [auto|intros p []]|].
  inversion ND as [|? ? NI ND']; subst. destruct (IH ND') as (OT & IN).
  apply pool_svc in S as (q & k & [Q|[Q _]] & A & OV & _ & _); [|discriminate|exact F|exact W].
  injection Q as <-. pose proof (KA _ _ _ _ _ A) as EN. split.
  - intros q Nq. rewrite OT, OV; [reflexivity| |]; intros X; apply Nq; [left; auto|right; auto].
  - intros q [<-|I].
    + exists k, (nenv n1). rewrite OT by exact NI. exact A.
    + destruct (IN q I) as (k' & e & A'). exists k', e. rewrite <- A', EN.
      rewrite OV; [reflexivity|]. intros ->. contradiction.
Qed.

(** Without that condition they are not: the environment the first population leaves is the one the
    second starts from. *)
Definition pool_stream_claim : Prop := forall T env (u : user T env) nw n l n',
  fits u -> 1 <= nw -> NoDup l -> stream u nw n l n' ->
  forall p, In p l -> exists k e, algorithm u nw k (vecs n p) (nenv n) = Some (vecs n' p, e).

Lemma fits_ident : forall T env (u : user T env),
  (forall P e, u_sel u P [] e = (P, firstn 2 P, e)) -> fits u.
Proof.
  intros T env u H P e P1 N e2 E. rewrite H in E.
  assert (N = firstn 2 P) as -> by congruence. pose proof (firstn_le_length 2 P) as L.
  revert L. generalize (length (firstn 2 P)). intros m L. lia.
Qed.

(** Rounds are counted in the environment, which stops the loop after two. *)
Definition u_count2 : user nat nat := {|
  u_sel := fun P _ e => (P, firstn 2 P, e);
  u_evol := fun x _ _ => S x;
  u_fil := fun P N e => (P, N, S e);
  u_term := fun P e => (2 <=? e, e) |}.

Theorem pool_stream_refuted : ~ pool_stream_claim.
Proof.
  intros C.
  assert (F : fits u_count2) by (apply fits_ident; reflexivity).
  set (n0 := mkNode (fun p => match p with 0 => [5; 6] | _ => [7] end) None [] 0 : node nat nat).
  destruct (pool_svc_completes _ _ u_count2 2 n0 0 2 [7; 8] 2 F ltac:(lia) ltac:(vm_compute; reflexivity))
    as (n1 & S1 & V1 & E1).
  assert (V11 : vecs n1 1 = [7]).
  { destruct (pool_svc _ _ u_count2 2 n0 (Some 0) n1 _ F ltac:(lia) S1) as (p & k & [P|[P _]] & _ & O & _); [|discriminate].
    injection P as <-. rewrite O by lia. reflexivity. }
  destruct (pool_svc_completes _ _ u_count2 2 n1 1 0 [7] 2 F ltac:(lia)) as (n2 & S2 & V2 & E2).
  { rewrite V11, E1. vm_compute. reflexivity. }
  destruct (C _ _ u_count2 2 n0 [0; 1] n2 F ltac:(lia)) with (p := 1) as (k & e & A).
  - repeat constructor; simpl; intuition lia.
  - eapply st_cons; [exact S1|]. eapply st_cons; [exact S2|]. constructor.
  - simpl; auto.
  - rewrite V2 in A.
    assert (A2 : algorithm u_count2 2 2 (vecs n0 1) (nenv n0) = Some ([9], 2)) by (vm_compute; reflexivity).
    pose proof (PoolProofs.seq_unique u_count2 2 ltac:(lia) F _ _ _ _ _ _ A A2) as X. discriminate X.
Qed.

(** ** "P += f(N, P)" *)

(** The documentation (lines 72-76) adds what the filter returns to the population.  In the code
    the population is replaced by what the filter leaves in its third argument: an object of the
    population that the selection does not pick and the filter does not put back is lost, even if
    neither function touches the population. *)
Definition pool_keeps_claim : Prop := forall T env (u : user T env) nw n task n' r p x,
  fits u -> 1 <= nw ->
  (forall P B e, fst (fst (u_sel u P B e)) = P) -> (forall P B e, fst (fst (u_fil u P B e)) = P) ->
  svc u nw n task n' r -> input n' = Some p ->
  In x (vecs n p) -> In x (vecs n' p).

Theorem pool_keeps_refuted : ~ pool_keeps_claim.
Proof.
  intros C.
  assert (F : fits u_count2) by (apply fits_ident; reflexivity).
  set (n0 := mkNode (fun _ => [5; 6; 7]) None [] 1 : node nat nat).
  destruct (pool_svc_completes _ _ u_count2 2 n0 0 1 [6; 7] 2 F ltac:(lia) ltac:(vm_compute; reflexivity))
    as (n1 & S1 & V1 & E1).
  assert (I : input n1 = Some 0).
  { destruct (pool_svc _ _ u_count2 2 n0 (Some 0) n1 _ F ltac:(lia) S1) as (p & k & [P|[P _]] & _ & _ & _ & J); [|discriminate].
    congruence. }
  pose proof (C _ _ u_count2 2 n0 (Some 0) n1 (Some 0) 0 5 F ltac:(lia) ltac:(reflexivity) ltac:(reflexivity) S1 I
              ltac:(simpl; auto)) as X.
  rewrite V1 in X. simpl in X. intuition lia.
Qed.

(** What is true: after one round the population is exactly what the filter left. *)
Theorem pool_keeps_partial : forall T env (u : user T env) nw n p n' r e1 P1 N e2 P2 N' e3 e4,
  fits u -> 1 <= nw -> svc u nw n (Some p) n' r ->
  u_term u (vecs n p) (nenv n) = (false, e1) -> u_sel u (vecs n p) [] e1 = (P1, N, e2) ->
  u_fil u P1 (evolved (fun x w => u_evol u x e2 w) nw N) e2 = (P2, N', e3) ->
  u_term u N' e3 = (true, e4) -> vecs n' p = N' /\ nenv n' = e4.
Proof.
  intros T env u nw n p n' r e1 P1 N e2 P2 N' e3 e4 F W S ET ES EF ET'.
  apply pool_svc in S as (q & k & [Q|[Q _]] & A & _ & _ & _); [|discriminate|exact F|exact W].
  injection Q as <-.
  assert (A2 : algorithm u nw 1 (vecs n p) (nenv n) = Some (N', e4)).
  { unfold algorithm. cbn [pool_seq]. rewrite ET, ES, EF, ET'. reflexivity. }
  pose proof (PoolProofs.seq_unique u nw W F _ _ _ _ _ _ A A2) as X. injection X as -> ->. auto.
Qed.

(** ** Non-vacuity *)

(** Three workers, five selected elements, the evolution looks at the worker: a real interleaving
    of the accesses of two workers, and a whole run of two rounds. *)
Definition u_thid : user nat nat := {|
  u_sel := fun P _ e => (P, firstn 2 P, e);
  u_evol := fun x e w => 10 * x + w;
  u_fil := fun P N e => (P, P ++ N, S e);
  u_term := fun P e => (2 <=? e, e) |}.

Example owners_5_3 : owners 5 3 = [0; 0; 1; 1; 2]. Proof. reflexivity. Qed.

Example pool_phase_run :
  accesses_of [(1, 2%Z); (0, 0%Z); (0, 1%Z)] [Rd 1 2; Rd 0 0; Wr 0 0; Wr 1 2; Rd 0 1; Wr 0 1] /\
  exists reg, exec (estep (fun x w => 10 * x + w)) ([4; 5; 6], fun _ => None)
    [Rd 1 2; Rd 0 0; Wr 0 0; Wr 1 2; Rd 0 1; Wr 0 1] = Some ([40; 50; 61], reg).
Proof.
  split.
  - intros [|[|w]]; reflexivity.
  - eexists. reflexivity.
Qed.

Example pool_run : fits u_thid /\
  exists n', svc u_thid 2 (mkNode (fun _ => [3; 4; 5]) None [] 0) (Some 7) n' (Some 7) /\
    vecs n' 7 = [3; 4; 5; 30; 41; 30; 41].
Proof.
  assert (F : fits u_thid) by (apply fits_ident; reflexivity). split; [exact F|].
  destruct (pool_svc_completes _ _ u_thid 2 (mkNode (fun _ => [3; 4; 5]) None [] 0) 7 2
              [3; 4; 5; 30; 41; 30; 41] 2 F ltac:(lia) ltac:(vm_compute; reflexivity)) as (n' & S & V & _).
  exists n'. auto.
Qed.

Example pool_stream_run : exists n',
  stream u_count2 2 (mkNode (fun _ => [3]) None [] 2) [0; 1] n'.
Proof.
  assert (F : fits u_count2) by (apply fits_ident; reflexivity).
  eexists. eapply st_cons; [apply (svc_run _ _ _ _ _ _ 0); [reflexivity|apply pl_stop; reflexivity]|].
  eapply st_cons; [apply (svc_run _ _ _ _ _ _ 1); [reflexivity|apply pl_stop; reflexivity]|]. constructor.
Qed.

Print Assumptions parfor_static_blocks.
Print Assumptions parfor_static_assignment_fixed.
Print Assumptions parfor_static_completes.
Print Assumptions pool_evolution_phase.
Print Assumptions pool_svc.
Print Assumptions pool_result_unique.
Print Assumptions pool_degree_irrelevant.
Print Assumptions pool_svc_completes.
Print Assumptions pool_stream_partial.
Print Assumptions pool_stream_refuted.
Print Assumptions pool_keeps_refuted.
Print Assumptions pool_keeps_partial.
