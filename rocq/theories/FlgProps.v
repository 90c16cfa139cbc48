(** C75: the flags and the device of a kernel in a command string. *)
From Coq Require Import Ascii String Arith Bool Lia List.
From Verif Require Import FlgModel FlgSpec FlgProofs.
Import ListNotations.
Open Scope list_scope.

(** What the call should give for entry e: its device, and for each argument, in order, the flags
    its letters mean. *)
Definition right_for (e : entry) (cmd : text) (k : nat) : Prop :=
  getDevice cmd k = Some (dev e)
  /\ exists V, extractFlags cmd k = Some V /\ Forall2 means (args e) V.

(** The full claim: every kernel of a command gets its own flags. *)
Definition flags_claim : Prop := forall pre es tail e, wf pre es tail -> NoDup (map num es) -> In e es ->
  right_for e (command pre es tail) (num e).

Lemma right_last : forall k pre a e c tail, wf pre (a ++ e :: c) tail -> begins k (num e) ->
  Forall (fun x => ~ begins k (num x)) c -> right_for e (command pre (a ++ e :: c) tail) k.
Proof.
  intros k pre a e c tail W B N. split; [apply device_last; auto|]. exists (map decode (args e)). split; [apply extract_last; auto|].
  induction (args e); simpl; constructor; auto. apply decode_means. reflexivity.
Qed.

(** It holds when no later kernel has a number that starts with the same digits. *)
Theorem flags_partial : forall pre a e c tail, wf pre (a ++ e :: c) tail ->
  Forall (fun x => ~ begins (num e) (num x)) c ->
  right_for e (command pre (a ++ e :: c) tail) (num e).
Proof. intros. apply right_last; auto. exists []. rewrite app_nil_r. reflexivity. Qed.

(** In particular when the numbers of the kernels are different and have one digit. *)
Theorem flags_one_digit : forall pre es tail e, wf pre es tail -> NoDup (map num es) ->
  Forall (fun x => num x < 10) es -> In e es -> right_for e (command pre es tail) (num e).
Proof.
  intros pre es tail e W D F I. apply in_split in I. destruct I as (a & c & ->). apply flags_partial; auto.
  apply Forall_forall. intros x Ix B. rewrite Forall_forall in F.
  assert (O : forall n, n < 10 -> List.length (dec n) = 1).
  { intros n H. do 10 (destruct n as [|n]; [reflexivity|]). lia. }
  apply dec_length_begins in B.
  - rewrite map_app in D. simpl in D. apply NoDup_remove_2 in D. apply D. apply in_or_app. right. rewrite B. apply in_map. exact Ix.
  - rewrite !O; auto; apply F; apply in_or_app; simpl; auto.
Qed.

(** In general the call reads the last kernel whose number starts with the digits of k: kernel_1
    is given the device and the flags of kernel_12 if that follows. *)
Theorem flags_other_kernel : forall k pre a e c tail, wf pre (a ++ e :: c) tail -> begins k (num e) ->
  Forall (fun x => ~ begins k (num x)) c -> right_for e (command pre (a ++ e :: c) tail) k.
Proof. exact right_last. Qed.

(** No such kernel: the assertion fails. *)
Theorem flags_missing : forall k pre es tail, wf pre es tail -> Forall (fun x => ~ begins k (num x)) es ->
  extractFlags (command pre es tail) k = None /\ getDevice (command pre es tail) k = None.
Proof. exact extract_none. Qed.

(** The empty command: one argument, copied, not reused, not released. *)
Example ex_empty : forall k, extractFlags [] k = Some [mkFlags true false false].
Proof. reflexivity. Qed.

Definition T (s : string) : text := list_ascii_of_string s.
Definition e1 : entry := mkEntry 1 (T "GPU:0") [T "SUF"; T "R"].
Definition e12 : entry := mkEntry 12 (T "CPU:0") [T " "].
Definition e2 : entry := mkEntry 2 (T "CPU:0") [T "U"; T "SF"; T ""].

Lemma plain_b : forall l, has "_"%char l || has semicolon l || has dollar l = false -> plain l.
Proof.
  intros l H. apply orb_false_iff in H. destruct H as (H & C). apply orb_false_iff in H. destruct H as (A & B).
  repeat split; intros I; apply has_spec in I; congruence.
Qed.
Lemma no_b : forall c l, has c l = false -> ~ In c l.
Proof. intros c l H I. apply has_spec in I. congruence. Qed.
Lemma wf_ex : forall es, Forall wf_entry es -> wf (T "3;") es (T "").
Proof. intros es F. split; [|split; auto]; apply no_b; reflexivity. Qed.
Lemma we1 : wf_entry e1.
Proof. split; [apply plain_b; reflexivity|]. split; [|discriminate]. repeat constructor; apply plain_b; reflexivity. Qed.
Lemma we12 : wf_entry e12.
Proof. split; [apply plain_b; reflexivity|]. split; [|discriminate]. repeat constructor; apply plain_b; reflexivity. Qed.
Lemma we2 : wf_entry e2.
Proof. split; [apply plain_b; reflexivity|]. split; [|discriminate]. repeat constructor; apply plain_b; reflexivity. Qed.

Local Ltac wfe := repeat (apply Forall_cons; [first [exact we1 | exact we12 | exact we2]|]); apply Forall_nil.

Theorem flags_refuted : ~ flags_claim.
Proof.
  intros H. destruct (H (T "3;") [e1; e12] (T "") e1) as (D & _).
  - apply wf_ex. wfe.
  - simpl. repeat constructor; simpl; lia.
  - simpl. auto.
  - vm_compute in D. discriminate.
Qed.

(** The text of a command, and what is read from it. *)
Example ex_text : command (T "3;") [e1; e2] (T "") = T "3;$kernel_1;GPU:0;SUF;R;$kernel_2;CPU:0;U;SF;;$".
Proof. reflexivity. Qed.
Example ex_wf : wf (T "3;") [e1; e2] (T "") /\ NoDup (map num [e1; e2]) /\ Forall (fun x => num x < 10) [e1; e2].
Proof.
  split; [apply wf_ex; wfe|]. split; repeat constructor; simpl; lia.
Qed.
Example ex_read : extractFlags (command (T "3;") [e1; e2] (T "")) 1 = Some [mkFlags true true true; mkFlags true false false].
Proof. reflexivity. Qed.
Example ex_wrong : begins 1 12 /\ wf (T "3;") ([e1] ++ e12 :: []) (T "")
  /\ extractFlags (command (T "3;") [e1; e12] (T "")) 1 = Some [mkFlags false false false].
Proof.
  split; [exists (T "2"); reflexivity|]. split; [apply wf_ex; wfe|reflexivity].
Qed.

Print Assumptions flags_partial.
Print Assumptions flags_one_digit.
Print Assumptions flags_other_kernel.
Print Assumptions flags_missing.
Print Assumptions flags_refuted.
