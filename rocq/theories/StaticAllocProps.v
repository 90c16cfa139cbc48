(** Property C32: StaticAllocator. *)
From Coq Require Import List Arith Bool Lia.
From Verif Require Import Base StaticAllocModel.
From Verif Require StaticAllocProofs.
Import ListNotations.

(** At any point of any execution the blocks handed out and not given back are pairwise distinct,
    lie inside the segment and do not overlap (each is [slotsize] bytes long; the 8 header bytes in
    front of a block belong to no other block either). *)
Theorem static_alloc_exclusive : forall W req slotsize nch l s, 1 <= req -> 1 <= nch ->
  exec (step W req slotsize nch) init l = Some s ->
  NoDup (live (tr s)) /\
  (forall p, In p (live (tr s)) -> 8 <= p /\ p + slotsize <= nslot req nch * ssize slotsize) /\
  (forall p q, In p (live (tr s)) -> In q (live (tr s)) -> p <> q -> p + slotsize <= q - 8 \/ q + slotsize <= p - 8).
Proof.
  intros W req slotsize nch l s H1 H2 E.
  exact (StaticAllocProofs.live_blocks req slotsize nch H1 H2 s (StaticAllocProofs.Inv_reach W req slotsize nch H1 H2 l s E)).
Qed.

(** The segment has at least the requested number of slots. *)
Theorem static_alloc_capacity : forall req nch, 1 <= req -> 1 <= nch ->
  req <= nslot req nch /\ nslot req nch = perch req nch * nch.
Proof.
  intros req nch H1 H2.
  exact (conj (StaticAllocProofs.nslot_enough req nch H1 H2) (StaticAllocProofs.perch_eq req nch H1 H2)).
Qed.

(** A block is never handed out by two different channels. *)
Theorem static_alloc_channels : forall W req slotsize nch l s c d p, 1 <= req -> 1 <= nch ->
  exec (step W req slotsize nch) init l = Some s ->
  In (Alloc c p) (tr s) -> In (Alloc d p) (tr s) -> c = d.
Proof.
  intros W req slotsize nch l s c d p H1 H2. exact (StaticAllocProofs.channels_disjoint W req slotsize nch H1 H2 l s c d p).
Qed.

(** Once one block of the channel is free (not handed out, no dealloc of it under way), a pending
    alloc returns within [2 * perch + 1] of its own steps, whatever the other threads do; this
    includes the wrap-around of the probe counter. *)
Theorem static_alloc_progress : forall W req slotsize nch l0 s l s' c j, 1 <= req -> 1 <= nch -> perch req nch <= W ->
  exec (step W req slotsize nch) init l0 = Some s -> pcs s c = Probe -> j < perch req nch ->
  ~ In ((c * perch req nch + j) * ssize slotsize + 8) (live (tr s)) ->
  freeing s ((c * perch req nch + j) * ssize slotsize) = false ->
  exec (step W req slotsize nch) s l = Some s' ->
  2 * perch req nch + 1 <= length (filter (fun a => match a with ARun c' => c' =? c | _ => false end) l) ->
  exists t p u, tr s' = tr s ++ t ++ Alloc c p :: u.
Proof.
  intros W req slotsize nch l0 s l s' c j H1 H2. exact (StaticAllocProofs.alloc_terminates W req slotsize nch H1 H2 l0 s l s' c j).
Qed.

(** When all blocks of the channel are handed out, alloc spins until one is given back: it never
    reports exhaustion. *)
Theorem static_alloc_full_spins : forall W req slotsize nch l s s' c, 1 <= req -> 1 <= nch ->
  pcs s c = Probe -> (forall j, j < perch req nch -> go s ((c * perch req nch + j) * ssize slotsize) = false) ->
  Forall (fun a => match a with DStore _ => False | _ => True end) l ->
  exec (step W req slotsize nch) s l = Some s' -> pcs s' c = Probe.
Proof.
  intros W req slotsize nch l s s' c H1 H2 A B F E.
  exact (proj1 (StaticAllocProofs.full_blocks W req slotsize nch H1 H2 l s s' c A B F E)).
Qed.

(** 3 slots requested on 2 channels (rounded up to 4); both channels allocate, one block is given
    back and allocated again after a wrap of the counter (W = 5). *)
Definition sa_demo : list act :=
  [ACall 0; ARun 0; ACall 1; ARun 1; ARun 0; ARun 1; ACall 0; ARun 0; ARun 0; ACall 0; ARun 0; ARun 0;
   DCall 24; ARun 0; DStore 24; ARun 0; ARun 0; ARun 0].
Example static_alloc_nonvacuous :
  match exec (step 5 3 8 2) init sa_demo with
  | Some s => live (tr s) = [24; 40; 8] /\ tr s = [Alloc 0 8; Alloc 1 40; Alloc 0 24; Free 24; Alloc 0 24]
  | None => False
  end.
Proof. vm_compute. auto. Qed.
(** The hypotheses of the progress theorem are met with the last steps of that run. *)
Example static_alloc_progress_nonvacuous :
  match exec (step 5 3 8 2) init (firstn 15 sa_demo) with
  | Some s => pcs s 0 = Probe /\ perch 3 2 = 2 /\ ~ In ((0 * 2 + 1) * 16 + 8) (live (tr s)) /\ freeing s ((0 * 2 + 1) * 16) = false /\
      match exec (step 5 3 8 2) s [ARun 0; ARun 0; ARun 0; ACall 0; ARun 0] with Some _ => True | None => False end
  | None => False
  end.
Proof. vm_compute. split; [reflexivity|]. split; [reflexivity|]. split; [|split; [reflexivity|exact I]]. intros H; repeat destruct H as [H|H]; auto; discriminate. Qed.

Print Assumptions static_alloc_exclusive.
Print Assumptions static_alloc_capacity.
Print Assumptions static_alloc_channels.
Print Assumptions static_alloc_progress.
Print Assumptions static_alloc_full_spins.
