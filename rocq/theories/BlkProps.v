(** C54: blocking mode. *)
From Coq Require Import List Arith Bool Lia.
From Verif Require Import Base BlkModel BlkSpec BlkProofs.
Import ListNotations.

Section Props.
  Context {X : Type}.
  Variables (W : nat) (cap : nat -> option nat) (again : bool).

  (** In every reachable state, what the consumer got from a producer, what is in its channel and
      what it still has to send make up, in order, what it had to send; no channel exceeds its
      capacity; nothing comes from elsewhere. *)
  Theorem blk_fifo : forall (xs : nat -> list X) l s, exec (step W cap again) (init xs) l = Some s ->
    (forall w, got_from w s ++ q s w ++ left s w = xs w) /\
    (forall w b, cap w = Some b -> length (q s w) <= b) /\
    (forall w x, In (w, x) (out s) -> w < W).
  Proof. intros xs l s E. destruct (safe_reach _ _ _ xs l s E) as (A & B & C & _). auto. Qed.

  (** Every schedule in which no thread is forgotten delivers everything, in finite time, for any
      capacities of at least one, although wake-ups can be lost: the waits are timed. *)
  Theorem blk_delivers : 1 <= W -> (forall w b, cap w = Some b -> 1 <= b) -> forall (xs : nat -> list X) sched, fair W sched ->
    exists n, forall w, w < W -> got_from w (run W cap again true sched n (init xs)) = xs w.
  Proof.
    intros W1 CAP xs sched F.
    destruct (delivered W cap again CAP (todo W (init xs)) (init xs) sched F) as (n & T); [intros w _; reflexivity|unfold in_range; simpl; lia|auto|].
    exists n. intros w LW. destruct (todo_zero W _ w T LW) as [A B].
    destruct (run_safe W cap again xs sched n (init xs) (safe_init W cap xs)) as (S1 & _). rewrite <- (S1 w), A, B, !app_nil_r. auto.
  Qed.

  (** A producer that sleeps because its channel is full is woken by nothing but the time-out. *)
  Theorem blk_producer_sleeps : forall (s : st X) a s' w, step W cap again s a = Some s' -> pp s w = PWait -> a <> PTime w -> pp s' w = PWait.
  Proof.
    intros s a s' w E P NA. destruct a as [v|v| |]; cbn [step] in E.
    - destruct (negb (v <? W)); [discriminate|]. destruct (Nat.eq_dec v w) as [->|NE].
      + rewrite P in E. discriminate.
      + destruct (pp s v) as [|e| | |]; try discriminate.
        * destruct (is_nil (left s v)); [discriminate|]. injection E as <-. cbn [pset pp]. rewrite fupd_neq by auto. auto.
        * destruct (left s v); [discriminate|]. destruct (room cap s v); injection E as <-; cbn [pset pp]; rewrite fupd_neq by auto; auto.
        * injection E as <-. cbn [cset pset pp]. rewrite fupd_neq by auto. auto.
        * injection E as <-. cbn [pset pp]. rewrite fupd_neq by auto. auto.
    - destruct (negb (v <? W)); [discriminate|]. assert (NE : v <> w) by congruence. destruct (pp s v); try discriminate. injection E as <-.
      cbn [pset pp]. rewrite fupd_neq by auto. auto.
    - destruct (cp s); try discriminate.
      + destruct (q s i); [destruct (S k =? W)|]; injection E as <-; auto.
      + injection E as <-. auto.
    - destruct (cp s); try discriminate. injection E as <-. auto.
  Qed.
End Props.

(** ** A fair schedule of two producers *)
Definition rr (n : nat) : thread := match n mod 3 with 0 => Consumer | 1 => Producer 0 | _ => Producer 1 end.
Example rr_fair : fair 2 rr.
Proof.
  intros i t T. assert (G : forall r, r < 3 -> (i * 3 + r) mod 3 = r) by (intros r R; rewrite Nat.add_comm, Nat.mod_add by lia; apply Nat.mod_small; auto).
  destruct T as [->|(w & L & ->)].
  - exists (i * 3 + 0). split; [lia|]. unfold rr. rewrite G by lia. auto.
  - destruct w as [|[|w]]; [| |lia].
    + exists (i * 3 + 1). split; [lia|]. unfold rr. rewrite G by lia. auto.
    + exists (i * 3 + 2). split; [lia|]. unfold rr. rewrite G by lia. auto.
Qed.
Definition two_lists (w : nat) : list nat := match w with 0 => [1; 2; 3] | 1 => [4; 5] | _ => [] end.
Example rr_delivers : out (run 2 (fun _ => Some 1) true true rr 60 (init two_lists)) = [(0, 1); (1, 4); (0, 2); (1, 5); (0, 3)].
Proof. vm_compute. reflexivity. Qed.
Example sleeping_producer : option_map (fun s => pp s 0) (exec (step 1 (fun _ => Some 1) true) (init two_lists)
  [PStep 0; PStep 0; PStep 0; PStep 0; PStep 0; PStep 0; CStep]) = Some PWait.
Proof. reflexivity. Qed.

(** ** Findings *)
(** The signals alone do not suffice, even with unbounded channels: the producer samples empty()
    and signals without the mutex, so the signal can come between the consumer's failed pop and
    its wait; later pushes find the channel not empty and do not signal. *)
Definition blk_signals_suffice_claim : Prop :=
  forall (xs : nat -> list nat) sched, fair 1 sched ->
  exists n, forall w, w < 1 -> got_from w (run 1 (fun _ => None) true false sched n (init xs)) = xs w.

Definition lost (n : nat) : thread :=
  match n with 0 => Consumer | 1 | 2 | 3 => Producer 0 | 4 => Consumer | _ => if Nat.even n then Consumer else Producer 0 end.
Definition lost_xs (w : nat) : list nat := match w with 0 => [1; 2] | _ => [] end.
Lemma lost_fair : fair 1 lost.
Proof.
  intros i t T. destruct T as [->|(w & L & ->)].
  - exists (2 * (i + 3)). split; [lia|]. unfold lost. replace (2 * (i + 3)) with (6 + 2 * i) by lia. cbn [Nat.add]. 
    replace (Nat.even (S (S (S (S (S (S (2 * i)))))))) with true; auto. symmetry. apply Nat.even_spec. exists (i + 3). lia.
  - assert (w = 0) by lia. subst w. exists (2 * (i + 3) + 1). split; [lia|]. unfold lost. replace (2 * (i + 3) + 1) with (7 + 2 * i) by lia. cbn [Nat.add].
    replace (Nat.even (S (S (S (S (S (S (S (2 * i))))))))) with false; auto. symmetry. apply not_true_is_false. intros C. apply Nat.even_spec in C. destruct C as [c C]. lia.
Qed.
Lemma lost_sleeps : forall n, let s := run 1 (fun _ => None) true false lost (6 + n) (init lost_xs) in
  cp s = CWait 0 /\ out s = [] /\ (pp s 0 = PIdle \/ exists e, pp s 0 = PPush e /\ e = false) /\ q s 0 <> [].
Proof.
  induction n as [|n IH].
  - vm_compute. split; [auto|]. split; [auto|]. split; [|discriminate]. right. eexists. split; reflexivity.
  - cbv zeta in *. replace (6 + S n) with (S (6 + n)) by lia. cbn [run]. set (s := run 1 _ true false lost (6 + n) (init lost_xs)) in *.
    destruct IH as (C & O & P & Q). destruct (lost (6 + n)) as [w|] eqn:E.
    + assert (w = 0). { unfold lost in E. cbn [Nat.add] in E. destruct (Nat.even _); congruence. } subst w.
      unfold turn. cbn [step]. destruct P as [P|(e & P & ->)]; rewrite P; simpl.
      * destruct (left s 0) as [|x r]; simpl; [auto|]. rewrite fupd_eq. destruct (q s 0) eqn:EQ; [congruence|].
        repeat split; auto. right. eexists; split; reflexivity.
      * destruct (left s 0) as [|x r]; simpl; [rewrite ?P; repeat split; auto; right; eexists; eauto|]. rewrite !fupd_eq. repeat split; auto. destruct (q s 0); discriminate.
    + unfold turn. cbn [step]. rewrite C. auto.
Qed.
Theorem blk_signals_suffice_refuted : ~ blk_signals_suffice_claim.
Proof.
  intros H. destruct (H lost_xs lost lost_fair) as (n & E). specialize (E 0 (le_n 1)).
  destruct (lost_sleeps n) as (_ & O & _).
  assert (G : forall k m, out (run 1 (fun _ => None) true false lost (k + m) (init lost_xs)) = [] -> out (run 1 (fun _ => None) true false lost m (init lost_xs)) = []).
  { induction k as [|k IH]; intros m HO; auto. apply IH. cbn [Nat.add run] in HO. revert HO. set (s := run 1 _ true false lost (k + m) (init lost_xs)).
    unfold turn. destruct (lost (k + m)) as [w|]; cbn [step].
    - destruct (negb (w <? 1)); auto. destruct (pp s w); auto.
      + destruct (is_nil (left s w)); auto.
      + destruct (left s w); auto.
    - destruct (cp s); auto. destruct (q s i); [destruct (S k0 =? 1); auto|]. cbn [out]. intros C. destruct (out s); discriminate. }
  apply G in O. unfold got_from in E. rewrite O in E. discriminate.
Qed.

Print Assumptions blk_fifo.
Print Assumptions blk_delivers.
Print Assumptions blk_producer_sleeps.
Print Assumptions blk_signals_suffice_refuted.
