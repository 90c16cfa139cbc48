(** Property C29: the chained hash table is a finite map. *)
From Coq Require Import List Arith Bool ZArith Lia Permutation.
From Verif Require Import Outcome HashModel HashSpec.
From Verif Require HashProofs.
Import ListNotations.

(** C29 as stated, including the entry counter. *)
Definition hash_claim : Prop := forall (K V : Type) (h : K -> nat) (eqv : K -> K -> bool) (n : nat) (l : list (op K V)),
  1 <= n -> compatible h eqv ->
  snd (srun (step h eqv n) create l) = snd (srun (spec_step eqv) [] l).

(** All results of insert, update, delete and find are those of a finite map, for every
    history, hash function and number of buckets. *)
Theorem hash_is_map_partial : forall (K V : Type) (h : K -> nat) (eqv : K -> K -> bool) (n : nat) (l : list (op K V)),
  1 <= n -> compatible h eqv -> Forall no_count l ->
  snd (srun (step h eqv n) create l) = snd (srun (spec_step eqv) [] l).
Proof.
  intros K V h eqv n l Hn (C1 & C2 & C3 & C4) F.
  exact (proj1 (HashProofs.run_refines h eqv n Hn C2 C3 C4 l create [] (HashProofs.R_create h eqv n) F)).
Qed.

(** With the counter, as long as no entry is deleted or replaced. *)
Theorem hash_count_partial : forall (K V : Type) (h : K -> nat) (eqv : K -> K -> bool) (n : nat) (l : list (op K V)),
  1 <= n -> compatible h eqv -> allowed (spec_step eqv) (only_adds eqv) [] l ->
  snd (srun (step h eqv n) create l) = snd (srun (spec_step eqv) [] l).
Proof.
  intros K V h eqv n l Hn (C1 & C2 & C3 & C4) A.
  exact (HashProofs.count_refines h eqv n Hn C2 C3 C4 l create [] (HashProofs.R_create h eqv n) eq_refl A).
Qed.

(** Deleting an entry increments the counter instead of decrementing it. *)
Theorem hash_delete_count_refuted :
  snd (srun (step (K:=nat) (V:=nat) (fun k => k) Nat.eqb 4) create [Insert 1 (Some 10); Delete 1; Count])
    = [RBool true; RBool true; RCount 2%Z] /\
  snd (srun (spec_step (K:=nat) (V:=nat) Nat.eqb) [] [Insert 1 (Some 10); Delete 1; Count])
    = [RBool true; RBool true; RCount 0%Z].
Proof. split; vm_compute; reflexivity. Qed.

(** Replacing the data of a key also increments it. *)
Theorem hash_update_count_refuted :
  snd (srun (step (K:=nat) (V:=nat) (fun k => k) Nat.eqb 4) create [Insert 1 (Some 10); Update 1 (Some 11); Count])
    = [RBool true; RUnit; RCount 2%Z] /\
  snd (srun (spec_step (K:=nat) (V:=nat) Nat.eqb) [] [Insert 1 (Some 10); Update 1 (Some 11); Count])
    = [RBool true; RUnit; RCount 1%Z].
Proof. split; vm_compute; reflexivity. Qed.

Theorem hash_claim_refuted : ~ hash_claim.
Proof.
  intros C. destruct hash_delete_count_refuted as [A B].
  specialize (C nat nat (fun k => k) Nat.eqb 4 [Insert 1 (Some 10); Delete 1; Count]).
  rewrite A, B in C. discriminate C; [lia|].
  split; [apply Nat.eqb_refl|]. split; [|split]; intros *; rewrite ?Nat.eqb_eq; intros; subst; auto.
Qed.

(** Iterating with icl_hash_foreach visits every entry of the map exactly once, when no entry
    has NULL data. *)
Theorem hash_foreach_partial : forall (K V : Type) (h : K -> nat) (eqv : K -> K -> bool) (n : nat) (l : list (op K V)),
  1 <= n -> compatible h eqv -> Forall no_count l ->
  Forall (fun e => snd e <> None) (fst (srun (spec_step eqv) [] l)) ->
  Permutation (map (fun p => (fst p, Some (snd p))) (foreach n (fst (srun (step h eqv n) create l))))
              (fst (srun (spec_step eqv) [] l)).
Proof.
  intros K V h eqv n l Hn (C1 & C2 & C3 & C4) F N.
  exact (HashProofs.foreach_all h eqv n _ _
    (proj2 (HashProofs.run_refines h eqv n Hn C2 C3 C4 l create [] (HashProofs.R_create h eqv n) F)) N).
Qed.

(** An entry with NULL data hides the older entries of its bucket from icl_hash_foreach. *)
Theorem hash_foreach_null_refuted :
  let l := [Insert 1 (Some 10); Insert 5 None] in
  foreach 4 (fst (srun (step (K:=nat) (V:=nat) (fun k => k) Nat.eqb 4) create l)) = [] /\
  get Nat.eqb (fst (srun (spec_step (K:=nat) (V:=nat) Nat.eqb) [] l)) 1 = Some 10.
Proof. split; vm_compute; reflexivity. Qed.

Example hash_compatible : compatible (fun k => k * 7) Nat.eqb.
Proof. split; [apply Nat.eqb_refl|]. split; [|split]; intros *; rewrite ?Nat.eqb_eq; intros; subst; auto. Qed.

(** A history with collisions (all keys in bucket 1), a replacement, a failed and a successful delete. *)
Example hash_nonvacuous :
  snd (srun (step (K:=nat) (V:=nat) (fun k => k * 7) Nat.eqb 4) create
    [Insert 3 (Some 30); Insert 7 (Some 70); Insert 11 (Some 110); Insert 7 (Some 0); Update 7 (Some 71);
     Delete 4; Delete 3; Find 3; Find 7; Find 11])
  = [RBool true; RBool true; RBool true; RBool false; RUnit; RBool false; RBool true; RData None; RData (Some 71); RData (Some 110)].
Proof. vm_compute. reflexivity. Qed.

Example hash_count_nonvacuous :
  allowed (spec_step (K:=nat) (V:=nat) Nat.eqb) (only_adds Nat.eqb) [] [Insert 3 (Some 30); Update 7 (Some 1); Delete 4; Insert 3 None; Count].
Proof. vm_compute. tauto. Qed.

Print Assumptions hash_is_map_partial.
Print Assumptions hash_count_partial.
Print Assumptions hash_claim_refuted.
Print Assumptions hash_foreach_partial.
