(** Property C37: messages on a connection of the distributed runtime. *)
From Coq Require Import List ZArith Lia.
From Verif Require Import Outcome FrameModel FrameSpec.
From Verif Require FrameProofs.
Import ListNotations.
Local Open Scope Z_scope.

(** C37 as stated: for all batch limits, whatever is pushed (then flushed) arrives, in order, and
    no buffer is overrun.  [T] is the size above which a payload travels on its own. *)
Definition frame_claim : Prop := forall T bytes limit l,
  1 <= T -> (1 <= limit)%nat /\ Z.of_nat limit < 2 ^ 31 -> Forall valid (pushed l) ->
  exists s, send T bytes limit sender0 (l ++ [Flush]) = Done s /\ recv T (wire s) = Done (map deliver (pushed l)).

(** It holds when the byte limit of a batch does not exceed T + 1 (it does by default: 64 KB
    against 512 KB). *)
Theorem frame_roundtrip_partial : forall T bytes limit l,
  1 <= T -> bytes <= T + 1 -> (1 <= limit)%nat /\ Z.of_nat limit < 2 ^ 31 -> Forall valid (pushed l) ->
  exists s, send T bytes limit sender0 (l ++ [Flush]) = Done s /\ recv T (wire s) = Done (map deliver (pushed l)).
Proof. intros T bytes limit l H1 H2 H3 F. exact (FrameProofs.roundtrip T bytes limit H1 H2 H3 l F). Qed.

(** At any point, what arrived is a prefix of what was pushed, fewer than [limit] messages being
    still in the batch. *)
Theorem frame_prefix_partial : forall T bytes limit l,
  1 <= T -> bytes <= T + 1 -> (1 <= limit)%nat /\ Z.of_nat limit < 2 ^ 31 -> Forall valid (pushed l) ->
  exists s sent cur, send T bytes limit sender0 l = Done s /\ pushed l = sent ++ cur /\ (length cur < limit)%nat /\
    recv T (wire s) = Done (map deliver sent).
Proof. intros T bytes limit l H1 H2 H3 F. exact (FrameProofs.roundtrip_prefix T bytes limit H1 H2 H3 l F). Qed.

Definition m3 : msg := Msg 7 4 0 [65; 66; 67].
Definition m1 : msg := Msg 8 4 0 [68].

Lemma demo_valid : Forall valid [m3; m1].
Proof. repeat constructor; simpl; try lia; try discriminate. Qed.

(** A larger byte limit: a batch holding one message bigger than T is taken for the announcement
    of a separate payload.  Alone it is never delivered; followed by another message it makes the
    receiver misread that one. *)
Theorem frame_single_big_refuted :
  (exists s, send 2 10 3 sender0 [Push m3; Flush] = Done s /\ recv 2 (wire s) = Done []) /\
  (exists s, send 2 10 3 sender0 [Push m3; Flush; Push m1; Flush] = Done s /\ recv 2 (wire s) = Undef).
Proof. split; eexists; (split; [vm_compute; reflexivity|]); vm_compute; reflexivity. Qed.

Theorem frame_claim_refuted : ~ frame_claim.
Proof.
  intros C. destruct (C 2 10 3%nat [Push m3]) as (s & E & R); [lia|lia| |].
  - pose proof demo_valid as V. inversion V; subst. repeat constructor; auto; apply H1.
  - destruct frame_single_big_refuted as [(s' & E' & R') _]. simpl app in E. rewrite E in E'. injection E' as <-.
    rewrite R in R'. discriminate.
Qed.

(** A message with an empty payload arrives as the end-of-stream of its source. *)
Theorem frame_empty_payload_refuted :
  exists s, send 524288 65536 1 sender0 [Push (Msg 7 4 0 [])] = Done s /\ recv 524288 (wire s) = Done [Eos 4].
Proof. eexists. split; [vm_compute; reflexivity|]. vm_compute. reflexivity. Qed.

(** Node identifiers above 32767 do not survive the 16-bit address field. *)
Theorem frame_address_refuted :
  exists s, send 524288 65536 1 sender0 [Push (Msg 40000 4 0 [9])] = Done s /\
            recv 524288 (wire s) = Done [Item (Msg (-25536) 4 0 [9])].
Proof. eexists. split; [vm_compute; reflexivity|]. vm_compute. reflexivity. Qed.

(** Batches of three with one oversized message and an end-of-stream in between. *)
Definition frame_demo : list cmd :=
  [Push m1; Push m1; Push (Msg 9 5 0 [1; 2; 3; 4; 5; 6; 7; 8; 9]); Push m3; Push (Msg (-1) 4 0 []); Push (Msg 1 2 1 [5]); Push m1; Push m1; Push m1; Push m3].
Example frame_nonvacuous :
  Forall valid (pushed frame_demo) /\
  (exists s, send 6 7 3 sender0 (frame_demo ++ [Flush]) = Done s /\ length (wire s) = 7%nat /\
             recv 6 (wire s) = Done (map deliver (pushed frame_demo))).
Proof.
  split; [repeat constructor; simpl; try lia; try discriminate|].
  eexists. split; [vm_compute; reflexivity|]. split; vm_compute; reflexivity.
Qed.

Print Assumptions frame_roundtrip_partial.
Print Assumptions frame_prefix_partial.
Print Assumptions frame_claim_refuted.
Print Assumptions frame_empty_payload_refuted.
Print Assumptions frame_address_refuted.
