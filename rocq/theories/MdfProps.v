(** C33: the data-flow pattern executes every task once, conflicting tasks in program order, and computes the same
    memory contents as the sequential program. *)
From Coq Require Import List Arith Bool Lia Sorted ZArith.
From Verif Require Import Base MdfModel MdfSpec MdfProofs MdfProofs2 MdfProofs3 MdfProofs4.
Import ListNotations.

(** Executions: tasks inserted at any time, [n] workers, any choice of priorities and any interleaving. *)
Definition execution (n : nat) (l : list act) (s : ss) : Prop :=
  1 <= n /\ Forall supported (inserted l) /\ exec (step n) init l = Some s.

(** Nothing left to do for the workers and the scheduler. *)
Definition idle (n : nat) (s : ss) : Prop :=
  (forall w, step n s (Start w) = None) /\ (forall w, step n s (Finish w) = None) /\ forall w o1 o2, step n s (Handle w o1 o2) = None.

Lemma execution_inv : forall n l s, execution n l s -> winv n s.
Proof.
  intros n l s (Hn & SU & E). eapply reach_inv; [exact Hn|apply init_inv; auto| |exact E].
  clear E. induction l as [|a l IH]; [constructor|]. destruct a; cbn in SU; [inversion SU; subst|..]; constructor; cbn; auto.
Qed.

Lemma schedule_prog : forall n o th s, prog (schedule n o th s) = prog s.
Proof.
  assert (ST : forall n o f s a, prog (steal n o f s a) = prog s).
  { intros n o f. induction f as [|f IH]; intros s a; cbn [steal]; auto. destruct (qs s (mmax s)); [rewrite IH; reflexivity|reflexivity]. }
  intros n o th s. unfold schedule. revert s. induction (seq 0 n) as [|i is IH]; intros s; cbn [sched]; auto.
  destruct (nready s =? 0); auto. destruct (nsch s i <=? th); auto. destruct (qs s i); rewrite IH; [apply ST|reflexivity].
Qed.

Lemma insert_prog : forall n s ps, map snd (prog (insert n s ps)) = map snd (prog s) ++ [ps].
Proof.
  intros n s ps. unfold insert. destruct (tset _ _) as [k|]; [destruct (trem k =? 0)%Z|]; cbn; rewrite map_app; reflexivity.
Qed.

(** The recorded program is the sequence of tasks inserted; each task has its own identifier. *)
Theorem mdf_program : forall n l s, execution n l s -> map snd (prog s) = inserted l /\ NoDup (map fst (prog s)).
Proof.
  intros n l s X. pose proof (execution_inv n l s X) as W. destruct X as (_ & _ & E). split.
  - assert (G : forall l s s', exec (step n) s l = Some s' -> map snd (prog s') = map snd (prog s) ++ inserted l).
    { clear. induction l as [|a l IH]; intros s s' E; cbn [exec] in E; [injection E as <-; cbn; rewrite app_nil_r; auto|].
      destruct (step n s a) as [m|] eqn:Em; [|discriminate]. rewrite (IH m s' E). destruct a as [ps o|w|w|w o1 o2].
      - cbn [step] in Em. injection Em as <-. rewrite schedule_prog, insert_prog, <- app_assoc. reflexivity.
      - destruct (step_measure n s (Start w) m Logic.I Em) as [_ ->]. reflexivity.
      - destruct (step_measure n s (Finish w) m Logic.I Em) as [_ ->]. reflexivity.
      - destruct (step_measure n s (Handle w o1 o2) m Logic.I Em) as [_ ->]. reflexivity. }
    apply (G l init s E).
  - destruct (w_g _ _ W) as (SI & _). pose proof (s_sort _ _ _ _ _ SI) as S. unfold ids in S. clear - S.
    induction (map fst (prog s)) as [|x r IH]; [constructor|]. inversion S as [|? ? S1 S2]; subst. constructor; auto.
    intros H. rewrite Forall_forall in S2. specialize (S2 x H). lia.
Qed.

Lemma sorted_nth : forall l i j a b, StronglySorted lt l -> nth_error l i = Some a -> nth_error l j = Some b -> i < j -> a < b.
Proof.
  induction l as [|x l IH]; intros i j a b S Hi Hj L; [destruct i; discriminate|]. inversion S as [|? ? S1 S2]; subst.
  destruct j as [|j]; [lia|]. cbn in Hj. destruct i as [|i].
  - cbn in Hi. injection Hi as <-. rewrite Forall_forall in S2. apply S2. eapply nth_error_In; eauto.
  - cbn in Hi. eapply IH; eauto. lia.
Qed.

(** Of two conflicting tasks, the one inserted later begins only after the other one has ended. *)
Theorem mdf_conflicts_in_program_order : forall n l s a pa b pb, execution n l s ->
  program_order (prog s) (a, pa) (b, pb) -> conflict pa pb -> occurs_before (log s) (End a) (Begin b).
Proof.
  intros n l s a pa b pb X (l1 & l2 & l3 & E) C. pose proof (execution_inv n l s X) as W.
  assert (Ha : nth_error (prog s) (length l1) = Some (a, pa)) by (rewrite E, nth_error_app2, Nat.sub_diag by lia; reflexivity).
  assert (Hb : nth_error (prog s) (length (l1 ++ (a, pa) :: l2)) = Some (b, pb)).
  { rewrite E. replace (l1 ++ (a, pa) :: l2 ++ (b, pb) :: l3) with ((l1 ++ (a, pa) :: l2) ++ (b, pb) :: l3) by (rewrite <- app_assoc; reflexivity).
    rewrite nth_error_app2, Nat.sub_diag by lia. reflexivity. }
  assert (L : a < b).
  { destruct (w_g _ _ W) as (SI & _). eapply (sorted_nth (ids (prog s)) (length l1) (length (l1 ++ (a, pa) :: l2))); [eapply s_sort; eauto| | |].
    - unfold ids. rewrite nth_error_map, Ha. reflexivity.
    - unfold ids. rewrite nth_error_map, Hb. reflexivity.
    - rewrite app_length. cbn. lia. }
  eapply (w_ord _ _ W); eauto using nth_error_In.
Qed.

(** No task is executed twice, and only inserted tasks are. *)
Theorem mdf_at_most_once : forall n l s x, execution n l s ->
  count_occ ev_dec (log s) (Begin x) <= 1 /\ count_occ ev_dec (log s) (End x) <= count_occ ev_dec (log s) (Begin x) /\
  (In (Begin x) (log s) -> In x (map fst (prog s))).
Proof.
  intros n l s x X. pose proof (execution_inv n l s X) as W. destruct (begun_known n s x W) as (A & B & C).
  split; auto. split; auto. intros H. apply C. apply (count_occ_In ev_dec). auto.
Qed.

(** As long as some task has not been executed, a worker or the scheduler can proceed. *)
Theorem mdf_all_executed : forall n l s, execution n l s -> idle n s ->
  forall x, In x (map fst (prog s)) -> count_occ ev_dec (log s) (Begin x) = 1 /\ count_occ ev_dec (log s) (End x) = 1.
Proof.
  intros n l s X (I1 & I2 & I3) x Hx. pose proof (execution_inv n l s X) as W. destruct X as (Hn & _ & _).
  destruct (in_dec Nat.eq_dec x (fin s)) as [F|F].
  - destruct (begun_known n s x W) as (A & B & _). assert (C : 1 <= count_occ ev_dec (log s) (End x)); [|lia].
    rewrite (w_end _ _ W). apply cnt_pos in F. lia.
  - exfalso. destruct (progress n s Hn W) as (a & R & P); [exists x; auto|]. destruct a; [destruct R| | |]; auto.
Qed.

(** ... and this takes at most three steps per task. *)
Theorem mdf_terminates : forall n l s r s', execution n l s -> Forall run_act r -> exec (step n) s r = Some s' ->
  length r <= 3 * length (inserted l).
Proof.
  intros n l s r s' X R E. destruct (run_measure n r s s' R E) as [M MP].
  assert (W' : winv n s').
  { eapply reach_inv; [apply X|exact (execution_inv n l s X)| |exact E]. clear - R. induction R as [|a r Ra R IH]; constructor; auto. destruct a; cbn in *; auto. destruct Ra. }
  destruct (log_bound n s' W') as [B1 B2]. rewrite MP in B1, B2. destruct (mdf_program n l s X) as [PP _].
  assert (LP : length (prog s) = length (inserted l)) by (rewrite <- PP, map_length; auto). lia.
Qed.

(** The scheduler ends the stream when the number of completions it handled equals the number of tasks inserted
    (task_numb == task_completed, /repo/ff/mdf.hpp L155 and L172): by then every task has been executed. *)
Theorem mdf_eos_after_all : forall n l s, execution n l s -> length (fin s) = length (prog s) ->
  forall x, In x (map fst (prog s)) -> count_occ ev_dec (log s) (Begin x) = 1 /\ count_occ ev_dec (log s) (End x) = 1.
Proof.
  intros n l s X E x Hx. pose proof (execution_inv n l s X) as W. destruct (w_g _ _ W) as (SI & _).
  assert (F : In x (fin s)).
  { assert (IC : incl (ids (prog s)) (fin s)); [|apply IC; exact Hx].
    apply (NoDup_length_incl (s_nd _ _ _ _ _ SI)); [unfold ids; rewrite map_length, E; auto|eapply s_sub; eauto]. }
  destruct (begun_known n s x W) as (A & B & _). assert (C : 1 <= count_occ ev_dec (log s) (End x)); [|lia].
  rewrite (w_end _ _ W). apply cnt_pos in F. lia.
Qed.

(** ... and when nothing is left to do the two numbers are equal. *)
Theorem mdf_eos_reached : forall n l s, execution n l s -> idle n s -> length (fin s) = length (prog s).
Proof.
  intros n l s X (I1 & I2 & I3). pose proof (execution_inv n l s X) as W. destruct (w_g _ _ W) as (SI & _). destruct (log_bound n s W) as [_ B].
  assert (IC : incl (ids (prog s)) (fin s)).
  { intros x Hx. destruct (in_dec Nat.eq_dec x (fin s)) as [F|F]; auto. exfalso. destruct X as (Hn & _).
    destruct (progress n s Hn W) as (a & R & P); [exists x; auto|]. destruct a; [destruct R| | |]; auto. }
  assert (ND : NoDup (ids (prog s))) by (apply (mdf_program n l s X)).
  pose proof (NoDup_incl_length ND IC) as L. unfold ids in L. rewrite map_length in L. lia.
Qed.

(** When all the tasks have been executed, memory is as after executing the program sequentially. *)
Theorem mdf_sequential_result : forall (V : Type) (F : nat -> (nat -> V) -> nat -> V) n l s (m : nat -> V),
  execution n l s -> idle n s -> local V F (prog s) ->
  forall d, replay V F (prog s) (log s) m d = sequential V F (prog s) m d.
Proof.
  intros V F n l s m X ID LOC. pose proof (execution_inv n l s X) as W. apply replay_sequential; auto.
  - apply (mdf_program n l s X).
  - intros i j a pa b pb Hi Hj L C.
    assert (LT : a < b).
    { destruct (w_g _ _ W) as (SI & _). eapply (sorted_nth (ids (prog s)) i j); [eapply s_sort; eauto| | |auto].
      - unfold ids. rewrite nth_error_map, Hi. reflexivity.
      - unfold ids. rewrite nth_error_map, Hj. reflexivity. }
    eapply (w_ord _ _ W); eauto using nth_error_In.
  - apply (w_seq _ _ W).
  - intros x. apply (mdf_at_most_once n l s x X).
  - intros x. destruct (mdf_at_most_once n l s x X) as (A & B & _). lia.
  - intros x. apply (mdf_at_most_once n l s x X).
  - intros x H. destruct (mdf_all_executed n l s X ID x H) as [_ Q]. apply (count_occ_In ev_dec). lia.
Qed.

(** ** What the hypothesis on parameter lists excludes *)
Definition mdf_all_executed_claim : Prop :=
  forall n l s, 1 <= n -> exec (step n) init l = Some s -> idle n s ->
  forall x, In x (map fst (prog s)) -> In (End x) (log s).

(** A task that declares a datum OUTPUT and then again INPUT waits for itself. *)
Theorem mdf_all_executed_refuted : ~ mdf_all_executed_claim.
Proof.
  intros H. set (o := fun (_ : nat) (_ : list nat) => 0).
  destruct (exec (step 1) init [Insert [(7, OUTPUT); (7, INPUT)] o]) as [s|] eqn:E; [|vm_compute in E; discriminate].
  assert (X : exec (step 1) init [Insert [(7, OUTPUT); (7, INPUT)] o] = Some s) by exact E.
  assert (P : prog s = [(1, [(7, OUTPUT); (7, INPUT)])] /\ log s = [] /\ (forall w, inb s w = []) /\ (forall w, exe s w = None) /\ forall w, fbk s w = []).
  { vm_compute in E. injection E as <-. repeat split. }
  destruct P as (P1 & P2 & P3 & P4 & P5). specialize (H 1 _ s (le_n 1) X). rewrite P1, P2 in H.
  assert (ID : idle 1 s).
  { split; [|split].
    - intros w. unfold step. rewrite P4, P3. destruct (w <? 1); reflexivity.
    - intros w. unfold step. rewrite P4. destruct (w <? 1); reflexivity.
    - intros w o1 o2. unfold step. rewrite P5. destruct (w <? 1); reflexivity. }
  apply (H ID 1). cbn. auto.
Qed.

Definition mdf_conflicts_claim : Prop :=
  forall n l s a pa b pb, 1 <= n -> exec (step n) init l = Some s ->
  program_order (prog s) (a, pa) (b, pb) -> conflict pa pb -> occurs_before (log s) (End a) (Begin b).

(** Dependencies on a datum whose tag is null are lost. *)
Theorem mdf_conflicts_refuted : ~ mdf_conflicts_claim.
Proof.
  intros H. set (o := fun (_ : nat) (_ : list nat) => 0).
  destruct (exec (step 2) init [Insert [(0, OUTPUT)] o; Insert [(0, INPUT)] o; Start 1]) as [s|] eqn:E; [|vm_compute in E; discriminate].
  assert (P : prog s = [(1, [(0, OUTPUT)]); (2, [(0, INPUT)])] /\ log s = [Begin 2]) by (vm_compute in E; injection E as <-; split; reflexivity).
  destruct P as [P1 P2]. assert (O : occurs_before (log s) (End 1) (Begin 2)).
  { eapply (H 2 _ s 1 [(0, OUTPUT)] 2 [(0, INPUT)]); [lia|exact E| |].
    - exists [], [], []. rewrite P1. reflexivity.
    - exists 0. left. split; [cbn; auto|left; cbn; auto]. }
  rewrite P2 in O. apply (O [] []). reflexivity.
Qed.

(** ** The hypotheses can be met *)
Definition o0 : nat -> list nat -> nat := fun _ _ => 0.
(** x := f(); y := g(x); x := h(); with two workers *)
Definition demo : list act :=
  [Insert [(5, OUTPUT)] o0; Insert [(5, INPUT); (6, OUTPUT)] o0; Insert [(5, OUTPUT)] o0; Insert [(8, INPUT); (9, OUTPUT)] o0;
   Start 0; Start 1; Finish 1; Finish 0; Handle 1 o0 o0; Handle 0 o0 o0; Start 0; Finish 0; Handle 0 o0 o0; Start 0; Finish 0; Handle 0 o0 o0].
Example demo_supported : Forall supported (inserted demo).
Proof.
  assert (S1 : forall d r, d <> 0 -> supported [(d, r)]).
  { intros d r H. change [(d, r)] with ([] ++ [(d, r)]). constructor; [constructor|]. intros _. split; auto. }
  assert (S2 : forall d e, d <> 0 -> e <> 0 -> supported [(d, INPUT); (e, OUTPUT)]).
  { intros d e H1 H2. change [(d, INPUT); (e, OUTPUT)] with ([(d, INPUT)] ++ [(e, OUTPUT)]). constructor; auto. intros _. split; auto.
    intros [X|[]]. discriminate. }
  cbn. repeat constructor; (apply S1 || apply S2); discriminate.
Qed.
Example demo_runs : option_map (fun s => (log s, map fst (prog s), fin s, map (fun w => (inb s w, exe s w, fbk s w)) [0; 1])) (exec (step 2) init demo)
  = Some ([Begin 1; Begin 4; End 4; End 1; Begin 2; End 2; Begin 3; End 3], [1; 2; 3; 4], [4; 1; 2; 3], [([], None, []); ([], None, [])]).
Proof. vm_compute. reflexivity. Qed.
Example demo_hyps : exists s, execution 2 demo s /\ idle 2 s /\ length (prog s) = 4 /\
  local nat (fun x m d => x + if x <=? 3 then m 5 else m 8) (prog s).
Proof.
  destruct (exec (step 2) init demo) as [s|] eqn:E; [|vm_compute in E; discriminate]. exists s. split; [|split; [|split]].
  - split; [lia|]. split; [apply demo_supported|exact E].
  - pose proof demo_runs as D. rewrite E in D. cbn [option_map map] in D. injection D as _ _ _ A1 A2 A3 B1 B2 B3.
    assert (W : forall w, w <? 2 = true -> inb s w = [] /\ exe s w = None /\ fbk s w = []).
    { intros [|[|w]] H; [auto|auto|]. apply Nat.ltb_lt in H. lia. }
    repeat split; intros w; intros; unfold step; destruct (w <? 2) eqn:L; auto; destruct (W w L) as (W1 & W2 & W3); rewrite ?W1, ?W2, ?W3; auto.
  - vm_compute in E. injection E as <-. reflexivity.
  - vm_compute in E. injection E as <-. intros x ps m m' H T d Wd. cbn in H. destruct H as [H|[H|[H|[H|[]]]]]; injection H as <- <-.
    + cbn. rewrite (T 5); auto. right. cbn. auto.
    + cbn. rewrite (T 5); auto. left. cbn. auto.
    + cbn. rewrite (T 5); auto. right. cbn. auto.
    + cbn. rewrite (T 8); auto. left. cbn. auto.
Qed.

Print Assumptions mdf_program.
Print Assumptions mdf_conflicts_in_program_order.
Print Assumptions mdf_at_most_once.
Print Assumptions mdf_all_executed.
Print Assumptions mdf_terminates.
Print Assumptions mdf_eos_after_all.
Print Assumptions mdf_eos_reached.
Print Assumptions mdf_sequential_result.
Print Assumptions mdf_all_executed_refuted.
Print Assumptions mdf_conflicts_refuted.
