(** The channels of an all-to-all, with and without wrap_around() (C71). *)
From Coq Require Import List Arith Bool Lia.
From Verif Require Import AwModel AwSpec AwProofs.
Import ListNotations.

(** run() accepts an all-to-all of two sets of nodes of one kind each exactly when they fit. *)
Theorem a2a_accepts : forall w kl kr ls rs, alike kl ls -> alike kr rs ->
  ((exists h, prepare w ls rs = Some h) <-> fits w kl kr (length ls) (length rs) = true).
Proof.
  intros w kl kr ls rs A B. pose proof (prep_alike w _ _ _ _ A B) as P.
  destruct (fits w kl kr (length ls) (length rs)).
  - destruct P as (h & E & _). split; eauto.
  - split; [intros (h & E); congruence | discriminate].
Qed.

(** The full claim: whatever the kinds of the nodes, an accepted all-to-all has one channel of its
    own for each pair of nodes that should communicate, and no other. *)
Definition a2a_channels_claim : Prop :=
  forall w ls rs h, prepare w ls rs = Some h -> exists f, (f = NoFeedback <-> w = false) /\ wired f ls rs h.

(** It holds when all the nodes of each set are of the same kind. *)
Theorem a2a_channels_partial : forall w kl kr ls rs h, alike kl ls -> alike kr rs ->
  prepare w ls rs = Some h -> wired (wanted w kl kr) ls rs h.
Proof.
  intros w kl kr ls rs h A B E. pose proof (prep_alike w _ _ _ _ A B) as P.
  destruct (fits w kl kr (length ls) (length rs)); [|congruence].
  destruct P as (h' & E' & W). rewrite E' in E. inversion E; subst; exact W.
Qed.

(** Without feedback, and for nodes of any kinds: it holds exactly when either the first node of the
    first set is not multi-output, or there is one node to send to, or all of them are
    multi-output; and likewise for the second set. *)
Theorem a2a_forward_iff : forall ls rs h, prepare false ls rs = Some h ->
  (wired NoFeedback ls rs h <->
   (mo (kd ls 0) = true -> length rs = 1 \/ forallb mo ls = true)
   /\ (mi (kd rs 0) = true -> length ls = 1 \/ forallb mi rs = true)).
Proof. exact forward_iff. Qed.

(** A standard node after a multi-output one in the first set: accepted, but not connected. *)
Definition k_mo : kind := mkKind false true.
Definition k_mi : kind := mkKind true false.
Definition k_mm : kind := mkKind true true.

Theorem a2a_channels_refuted : ~ a2a_channels_claim.
Proof.
  intros C. destruct (C false [k_mo; std] [std; std] _ eq_refl) as (f & F & W).
  assert (f = NoFeedback) by (apply F; reflexivity). subst f.
  apply (a2a_forward_iff [k_mo; std] [std; std] _ eq_refl) in W. destruct W as (W & _).
  destruct (W eq_refl) as [X|X]; discriminate.
Qed.

(** Then a node of the second set waits for a channel that nobody writes.  And so does a node of the
    first set when only some nodes of the second one are multi-output, in an all-to-all with
    wrap_around(). *)
Definition dead_channel (ls rs : list kind) (h : heap) (x : node) : Prop :=
  exists b, In (Some b) (inputs ls rs h x) /\ forall y, ~ In (Some b) (outputs ls rs h y).

Theorem a2a_mixed_dead_channel :
  (exists h, prepare false [k_mo; std] [std; std] = Some h /\ dead_channel [k_mo; std] [std; std] h (R 0))
  /\ (exists h, prepare true [k_mm; k_mm] [k_mm; k_mi] = Some h /\ dead_channel [k_mm; k_mm] [k_mm; k_mi] h (L 0)).
Proof.
  split; (eexists; split; [reflexivity|]).
  - exists 1. split; [vm_compute; tauto|]. intros y. destruct y as [[|[|[|j]]]|[|[|[|i]]]]; vm_compute; intuition congruence.
  - exists 2. split; [vm_compute; tauto|]. intros y. destruct y as [[|[|[|j]]]|[|[|[|i]]]]; vm_compute; intuition congruence.
Qed.

(** ** Non-vacuity *)
Example all_run : exists h, prepare true [k_mm; k_mm] [k_mm; k_mm; k_mm] = Some h
  /\ inputs [k_mm; k_mm] [k_mm; k_mm; k_mm] h (L 1) = [Some 1; Some 3; Some 5]
  /\ outputs [k_mm; k_mm] [k_mm; k_mm; k_mm] h (R 2) = [Some 4; Some 5]
  /\ outputs [k_mm; k_mm] [k_mm; k_mm; k_mm] h (L 1) = [Some 7; Some 9; Some 11]
  /\ inputs [k_mm; k_mm] [k_mm; k_mm; k_mm] h (R 2) = [Some 10; Some 11].
Proof. eexists; split; [reflexivity|]. vm_compute. auto. Qed.
Example all_wired : exists h, prepare true [k_mm; k_mm] [k_mm; k_mm; k_mm] = Some h
  /\ wired AllToAll [k_mm; k_mm] [k_mm; k_mm; k_mm] h.
Proof.
  eexists; split; [reflexivity|]. apply (a2a_channels_partial true k_mm k_mm); [split; [discriminate|repeat constructor]..|reflexivity].
Qed.
Example one_wired : exists h, prepare true [std; std] [std; std] = Some h /\ wired OneToOne [std; std] [std; std] h.
Proof.
  eexists; split; [reflexivity|]. apply (a2a_channels_partial true std std); [split; [discriminate|repeat constructor]..|reflexivity].
Qed.
Example mo_std_wired : exists h, prepare true [k_mo; k_mo] [k_mm; k_mm] = Some h /\ wired OneToOne [k_mo; k_mo] [k_mm; k_mm] h.
Proof.
  eexists; split; [reflexivity|]. apply (a2a_channels_partial true k_mo k_mm); [split; [discriminate|repeat constructor]..|reflexivity].
Qed.
Example std_mm_wired : exists h, prepare true [k_mm; k_mm] [k_mi; k_mi] = Some h /\ wired OneToOne [k_mm; k_mm] [k_mi; k_mi] h.
Proof.
  eexists; split; [reflexivity|]. apply (a2a_channels_partial true k_mm k_mi); [split; [discriminate|repeat constructor]..|reflexivity].
Qed.
Example misfit : prepare true [std; std] [std] = None /\ prepare false [k_mi] [std] = None /\ prepare false [std] [k_mo] = None.
Proof. repeat split. Qed.
(** A first set that begins with a standard node may contain multi-output ones. *)
Example mixed_wired : exists h, prepare false [std; k_mo] [std; std] = Some h /\ wired NoFeedback [std; k_mo] [std; std] h.
Proof.
  eexists; split; [reflexivity|]. apply (a2a_forward_iff [std; k_mo] [std; std]); [reflexivity|]. split; discriminate.
Qed.

Print Assumptions a2a_accepts.
Print Assumptions a2a_channels_partial.
Print Assumptions a2a_forward_iff.
Print Assumptions a2a_channels_refuted.
Print Assumptions a2a_mixed_dead_channel.
