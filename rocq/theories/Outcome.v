(** Sequential programs that may hit undefined behaviour, and histories of calls. *)
From Coq Require Import List ZArith Lia.
Import ListNotations.

(** [Undef]: out-of-bounds access, NULL dereference, read of a destroyed object, failed assert. *)
Inductive outc (X : Type) := Done (x : X) | Undef.
Arguments Done {X}. Arguments Undef {X}.

Definition obind {X Y} (r : outc X) (f : X -> outc Y) : outc Y :=
  match r with Done x => f x | Undef => Undef end.

(** A history of calls: the results, in order; undefined behaviour aborts the history. *)
Section Run.
  Context {S O R : Type}.
  Variable step : S -> O -> outc (S * R).
  Fixpoint orun (s : S) (l : list O) : outc (S * list R) :=
    match l with
    | [] => Done (s, [])
    | o :: l' => obind (step s o) (fun '(s1, r) =>
                 obind (orun s1 l') (fun '(s2, rs) => Done (s2, r :: rs)))
    end.
End Run.

(** The same for a total specification machine. *)
Section SRun.
  Context {Q O R : Type}.
  Variable sstep : Q -> O -> Q * R.
  Fixpoint srun (q : Q) (l : list O) : Q * list R :=
    match l with
    | [] => (q, [])
    | o :: l' => let (q1, r) := sstep q o in let (q2, rs) := srun q1 l' in (q2, r :: rs)
    end.
End SRun.

(** Refinement: related states stay related and give the same results, for histories all of
    whose calls satisfy the precondition [pre] (evaluated in the specification state). *)
Section Refine.
  Context {S Q O R : Type}.
  Variables (step : S -> O -> outc (S * R)) (sstep : Q -> O -> Q * R) (pre : Q -> O -> Prop).

  Fixpoint allowed (q : Q) (l : list O) : Prop :=
    match l with
    | [] => True
    | o :: l' => pre q o /\ allowed (fst (sstep q o)) l'
    end.

  Lemma orun_refines : forall (Rel : S -> Q -> Prop),
    (forall s q o, Rel s q -> pre q o -> exists s', step s o = Done (s', snd (sstep q o)) /\ Rel s' (fst (sstep q o))) ->
    forall l s q, Rel s q -> allowed q l ->
      exists s', orun step s l = Done (s', snd (srun sstep q l)) /\ Rel s' (fst (srun sstep q l)).
  Proof.
    intros Rel H l. induction l as [|o l IH]; intros s q HR HA; simpl.
    - exists s. auto.
    - destruct HA as [Hp HA]. destruct (H s q o HR Hp) as (s1 & E & R1).
      rewrite E. simpl. destruct (sstep q o) as [q1 r] eqn:Es. simpl in *.
      destruct (IH s1 q1 R1 HA) as (s2 & E2 & R2). rewrite E2. simpl.
      destruct (srun sstep q1 l) as [q2 rs]. simpl in *. eauto.
  Qed.
End Refine.

(** Functional update of maps on integers. *)
Definition zupd {B} (f : Z -> B) (i : Z) (v : B) : Z -> B := fun j => if Z.eqb j i then v else f j.
Lemma zupd_eq : forall B (f : Z -> B) i v, zupd f i v i = v.
Proof. intros. unfold zupd. rewrite Z.eqb_refl. auto. Qed.
Lemma zupd_neq : forall B (f : Z -> B) i j v, j <> i -> zupd f i v j = f j.
Proof. intros. unfold zupd. destruct (Z.eqb_spec j i); congruence. Qed.
