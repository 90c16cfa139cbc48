(** Property C36: stencil2D. *)
From Coq Require Import List ZArith Lia Permutation.
From Verif Require Import Outcome ParForSpec StencilModel StencilSpec.
From Verif Require StencilProofs ParForLoop.
Import ListNotations.
Local Open Scope Z_scope.

(** C36 as stated: for every matrix size, one iteration writes each cell of the iteration space
    exactly once, inside the X*Y array, whatever order the rows are run in. *)
Definition stencil_claim : Prop := forall X Y x0 x1 xs y0 y1 ys lg,
  0 < X -> 0 < Y -> 0 <= x0 /\ x1 <= X /\ 1 <= xs -> 0 <= y0 /\ y1 <= Y /\ 1 <= ys ->
  ran_exactly_once lg x0 x1 xs ->
  NoDup (positions X y0 y1 ys lg) /\
  (forall p, In p (positions X y0 y1 ys lg) <-> exists i j, In i (loop x0 x1 xs) /\ In j (loop y0 y1 ys) /\ p = at_ Y i j) /\
  (forall p, In p (positions X y0 y1 ys lg) -> 0 <= p < X * Y).

(** It holds for square matrices. *)
Theorem stencil_square_partial : forall N x0 x1 xs y0 y1 ys lg,
  0 < N -> 0 <= x0 /\ x1 <= N /\ 1 <= xs -> 0 <= y0 /\ y1 <= N /\ 1 <= ys ->
  ran_exactly_once lg x0 x1 xs ->
  NoDup (positions N y0 y1 ys lg) /\
  (forall p, In p (positions N y0 y1 ys lg) <-> exists i j, In i (loop x0 x1 xs) /\ In j (loop y0 y1 ys) /\ p = at_ N i j) /\
  (forall p, In p (positions N y0 y1 ys lg) -> 0 <= p < N * N).
Proof.
  intros N x0 x1 xs y0 y1 ys lg HN Hx Hy H.
  exact (StencilProofs.positions_ok N x0 x1 xs y0 y1 ys HN Hx Hy lg H).
Qed.

(** Contents after one iteration: the user function applied to the input matrix on the iteration
    space, the old contents elsewhere. *)
Theorem stencil_sweep_partial : forall (T : Type) N x0 x1 xs y0 y1 ys (f : Z -> Z -> (Z -> T) -> T) lg min mout,
  0 < N -> 0 <= x0 /\ x1 <= N /\ 1 <= xs -> 0 <= y0 /\ y1 <= N /\ 1 <= ys ->
  ran_exactly_once lg x0 x1 xs ->
  (forall i j, In i (loop x0 x1 xs) -> In j (loop y0 y1 ys) -> sweep N y0 y1 ys f min mout lg (at_ N i j) = f i j min) /\
  (forall p, ~ In p (positions N y0 y1 ys lg) -> sweep N y0 y1 ys f min mout lg p = mout p).
Proof.
  intros T N x0 x1 xs y0 y1 ys f lg min mout HN Hx Hy H.
  exact (StencilProofs.sweep_ok N x0 x1 xs y0 y1 ys f Hx Hy lg min mout H).
Qed.

(** k iterations over the whole matrix compute the k-fold synchronous update. *)
Theorem stencil_iterations_partial : forall (T : Type) N (f : Z -> Z -> (Z -> T) -> T) lgs min mout p,
  0 < N -> reads_inside N N f -> lgs <> [] -> Forall (fun lg => ran_exactly_once lg 0 N 1) lgs -> 0 <= p < N * N ->
  snd (iterate N 0 N 1 f min mout lgs) p = Nat.iter (length lgs) (update N f) min p.
Proof.
  intros T N f lgs min mout p HN Hf NE F Hp. exact (StencilProofs.iterate_ok N f HN Hf lgs min mout NE F p Hp).
Qed.

(** More rows than columns: a write past the end of the array. *)
Theorem stencil_out_of_bounds_refuted : In (3 * 4 + 0) (positions 4 0 2 1 [(0%nat, 0); (0%nat, 1); (0%nat, 2); (0%nat, 3)])
  /\ ran_exactly_once [(0%nat, 0); (0%nat, 1); (0%nat, 2); (0%nat, 3)] 0 4 1 /\ ~ 3 * 4 + 0 < 4 * 2.
Proof.
  split; [vm_compute; tauto|]. split; [|lia]. intros i. reflexivity.
Qed.

(** More columns than rows: two cells share one position. *)
Theorem stencil_overlap_refuted : ~ NoDup (positions 2 0 4 1 [(0%nat, 0); (1%nat, 1)]) /\
  ran_exactly_once [(0%nat, 0); (1%nat, 1)] 0 2 1.
Proof.
  split; [|intros i; reflexivity]. intros H. vm_compute in H.
  inversion H as [|? ? _ H1]; subst. inversion H1 as [|? ? _ H2]; subst. inversion H2 as [|? ? N2 _]; subst. apply N2. simpl. tauto.
Qed.

Theorem stencil_claim_refuted : ~ stencil_claim.
Proof.
  intros C. destruct stencil_overlap_refuted as [A B]. apply A.
  apply (C 2 4 0 2 1 0 4 1 [(0%nat, 0); (1%nat, 1)]); auto; lia.
Qed.

(** The initialisation of the input matrix has the same defect (here a 4 by 2 matrix). *)
Theorem stencil_init_refuted : In 13 (init_positions 4 2) /\ ~ 13 < 4 * 2.
Proof. split; [vm_compute; tauto|lia]. Qed.

(** A 3 by 3 matrix, rows run out of order by two workers, two iterations of a sum of neighbours. *)
Definition st_f (i j : Z) (m : Z -> Z) : Z := m (i * 3 + j) + (if 0 <? j then m (i * 3 + j - 1) else 0) + (if 0 <? i then m ((i - 1) * 3 + j) else 0).
Example stencil_nonvacuous :
  ran_exactly_once [(1%nat, 2); (0%nat, 0); (0%nat, 1)] 0 3 1 /\
  map (snd (iterate 3 0 3 1 st_f (fun p => p) (fun _ => 0) [[(1%nat, 2); (0%nat, 0); (0%nat, 1)]; [(0%nat, 0); (1%nat, 1); (1%nat, 2)]])) [0; 1; 2; 3; 4; 5; 6; 7; 8]
  = map (Nat.iter 2 (update 3 st_f) (fun p => p)) [0; 1; 2; 3; 4; 5; 6; 7; 8].
Proof.
  split; [|vm_compute; reflexivity]. apply ParForLoop.once_of_perm. simpl.
  apply (Permutation_cons_app [0; 1] [] 2). apply Permutation_refl.
Qed.

Print Assumptions stencil_square_partial.
Print Assumptions stencil_sweep_partial.
Print Assumptions stencil_iterations_partial.
Print Assumptions stencil_claim_refuted.
