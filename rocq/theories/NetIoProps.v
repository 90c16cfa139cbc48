(** Property C39: full reads and writes despite partial transfers. *)
From Coq Require Import List Arith Bool ZArith Lia.
From Verif Require Import Base NetIoModel.
From Verif Require NetIoProofs.
Import ListNotations.

(** readn: whatever pieces the data arrives in, the result z says how many of the delivered
    bytes were stored, in order, from the start of the buffer; nothing else is written.  z = n
    unless an error or end of file came first; -1 only if nothing was read. *)
Theorem readn_exact : forall ptr n m os, rlegal n os ->
  match readn ptr n m os with
  | Ret z m' => exists d e, delivered os = d ++ e /\ m' = poke m (seq ptr n) d /\ length d <= n /\
      (z = Z.of_nat (length d) /\ (length d < n -> e = []) \/ z = (-1)%Z /\ d = [] /\ 1 <= n /\ e = [])
  | Blocked m' => m' = poke m (seq ptr n) (delivered os) /\ length (delivered os) < n
  end.
Proof.
  intros ptr n m os L. pose proof (NetIoProofs.readn_loop_ok os n n ptr m (le_n n) L) as H. unfold readn.
  destruct (readn_loop n n ptr m os) as [z m'|m']; [|exact H].
  destruct H as (d & e & A & B & C & D). exists d, e. split; [exact A|]. split; [exact B|]. split; [exact C|].
  rewrite Nat.sub_diag in D. destruct D as [D|(D1 & D2 & _ & D3)]; [left; exact D|right; exact (conj D1 (conj D2 D3))].
Qed.

(** It returns after at most n system calls. *)
Theorem readn_terminates : forall ptr n m os, rlegal n os -> n <= length os ->
  match readn ptr n m os with Ret _ _ => True | Blocked _ => False end.
Proof. intros ptr n m os L H. exact (NetIoProofs.readn_calls os n n ptr m (le_n n) L H). Qed.

(** writen: result z >= 0 means exactly the first z bytes of the buffer were handed over, in
    order; -1 means none. *)
Theorem writen_exact : forall ptr n m os, wlegal n os ->
  match writen ptr n m os with
  | Ret z o => exists k, k <= n /\ o = map m (seq ptr k) /\ (z = Z.of_nat k \/ z = (-1)%Z /\ k = 0)
  | Blocked o => exists k, k < n /\ o = map m (seq ptr k)
  end.
Proof.
  intros ptr n m os L. pose proof (NetIoProofs.writen_loop_ok os n n ptr m [] (le_n n) L) as H. unfold writen.
  destruct (writen_loop n n ptr m [] os) as [z o|o]; [|exact H].
  destruct H as (k & A & B & C). exists k. split; [exact A|]. split; [exact B|].
  rewrite Nat.sub_diag in C. destruct C as [C|(C1 & C2 & _)]; [left; exact C|right; exact (conj C1 C2)].
Qed.

(** readvn: success (1) means all segments were filled, in order, with the delivered bytes;
    otherwise (0 or -1) fewer bytes than requested had arrived.  The segments may be of any
    length, including 0, and may alias. *)
Theorem readvn_exact : forall v m os, rlegal (total v) os ->
  match readvn v m os with
  | Ret z m' =>
      (z = 1%Z /\ exists d e, delivered os = d ++ e /\ length d = total v /\ m' = poke m (addrs v) d) \/
      ((z = 0 \/ z = -1)%Z /\ m' = poke m (addrs v) (delivered os) /\ (length (delivered os) < total v \/ delivered os = []))
  | Blocked m' => m' = poke m (addrs v) (delivered os) /\ (length (delivered os) < total v \/ delivered os = [])
  end.
Proof. intros v m os. exact (NetIoProofs.readvn_ok os v m). Qed.

Theorem readvn_terminates : forall v m os, rlegal (total v) os -> total v <= length os -> os <> [] ->
  match readvn v m os with Ret _ _ => True | Blocked _ => False end.
Proof. intros v m os. exact (NetIoProofs.readvn_calls os v m). Qed.

(** writevn: success means the bytes of all segments were handed over, in order; failure means
    that a prefix was. *)
Theorem writevn_exact : forall v m os, wlegal (total v) os ->
  match writevn v m [] os with
  | Ret z o => (z = 1%Z /\ o = map m (addrs v)) \/ (z = (-1)%Z /\ exists k, k <= total v /\ o = map m (firstn k (addrs v)))
  | Blocked o => exists k, k <= total v /\ o = map m (firstn k (addrs v))
  end.
Proof. intros v m os. exact (NetIoProofs.writevn_ok os v m []). Qed.

(** Limit: with only empty segments the read transfers nothing, so readv answers 0 and readvn
    reports a closed connection although the request is complete. *)
Theorem readvn_empty_refuted : forall m, readvn [(100, 0); (200, 0)] m [REof] = Ret 0 m.
Proof. reflexivity. Qed.

(** Pieces of 2, 1 and 3 bytes fill three segments (one empty); a fourth piece is not consumed. *)
Example netio_readvn_nonvacuous :
  rlegal (total [(10, 1); (50, 0); (20, 5)]) [RGot [1; 2]; RGot [3]; RGot [4; 5; 6]; REof] /\
  match readvn [(10, 1); (50, 0); (20, 5)] (fun _ => 0) [RGot [1; 2]; RGot [3]; RGot [4; 5; 6]; REof] with
  | Ret z m => z = 1%Z /\ map m [9; 10; 11; 20; 21; 22; 23; 24; 25] = [0; 1; 0; 2; 3; 4; 5; 6; 0]
  | _ => False
  end.
Proof. vm_compute. repeat split; repeat constructor. Qed.
Example netio_readn_nonvacuous :
  rlegal 4 [RGot [1; 2]; RErr] /\
  match readn 10 4 (fun _ => 0) [RGot [1; 2]; RErr] with
  | Ret z m => z = 2%Z /\ map m [9; 10; 11; 12] = [0; 1; 2; 0]
  | _ => False
  end.
Proof. vm_compute. repeat split; repeat constructor. Qed.
Example netio_write_nonvacuous :
  wlegal (total [(10, 1); (20, 3)]) [WSent 0; WSent 2; WSent 2] /\
  writevn [(10, 1); (20, 3)] (fun a => a) [] [WSent 0; WSent 2; WSent 2] = Ret 1 [10; 20; 21; 22] /\
  writen 20 3 (fun a => a) [WSent 1; WErr] = Ret 1 [20].
Proof. vm_compute. repeat split; repeat constructor. Qed.

Print Assumptions readn_exact.
Print Assumptions readn_terminates.
Print Assumptions writen_exact.
Print Assumptions readvn_exact.
Print Assumptions readvn_terminates.
Print Assumptions writevn_exact.
Print Assumptions readvn_empty_refuted.
