(** C34: a submitted task descriptor is not overwritten before it is executed.  Model: RingModel.v. *)
From Coq Require Import List Arith Bool Lia Permutation.
From Verif Require Import Base RingModel RingProofs.
Import ListNotations.

(** ** Macro data flow (ff_mdf) *)

(** The scheduler acts on the submitted descriptors, in order, each as it was submitted. *)
Definition mdf_ring_claim (M : nat) (cap : option nat) : Prop := forall D l (s : mst D),
  exec (mstep M cap) mdf_init l = Some s -> prefix (got s) (map Some (subm s)).

(** Bounded channels (FF_BOUNDED_BUFFER) shorter than the ring by two: true.  ff_mdf gives the channel
    [outstandingTasks] entries and the ring [outstandingTasks]+16. *)
Theorem mdf_ring_bounded : forall M c, c + 2 <= M -> mdf_ring_claim M (Some c).
Proof.
  intros M c H D l s E. assert (HM : 1 <= M) by lia.
  destruct (mreach_bounded M (Some c) HM c l s eq_refl H E) as [I _]. apply (minv_prefix M s I).
Qed.

Theorem mdf_ring_default_sizes_bounded : forall outstanding, mdf_ring_claim (outstanding + 16) (Some outstanding).
Proof. intros. apply mdf_ring_bounded. lia. Qed.

(** ... and nothing is dropped: once the channel has been drained every descriptor has been read. *)
Theorem mdf_ring_bounded_all_read : forall M c D l (s : mst D), c + 2 <= M ->
  exec (mstep M (Some c)) mdf_init l = Some s -> snd_ s = None -> ch s = [] -> rcv s = None ->
  got s = map Some (subm s).
Proof.
  intros M c D l s H E. assert (HM : 1 <= M) by lia.
  destruct (mreach_bounded M (Some c) HM c l s eq_refl H E) as [I _]. apply (minv_done M HM s I).
Qed.

(** Default build (unbounded channels): false for every ring size. *)
Theorem mdf_ring_unbounded_refuted : forall M, 1 <= M -> ~ mdf_ring_claim M None.
Proof.
  intros M HM C. destruct (adds_run M HM (S M)) as (s & E & N & S1 & S2 & G & SB & CH & R).
  destruct CH as (r & CH); [lia|]. specialize (R eq_refl).
  assert (X : exec (mstep M None) mdf_init (adds (S M) ++ [MRecv; MRead]) =
              Some (mkM (ring s) (nt s) (snd_ s) r None (subm s) (got s ++ [ring s 0]))).
  { apply exec_app. exists s. split; [exact E|]. cbn. rewrite S2, CH. cbn. reflexivity. }
  specialize (C nat _ _ X). cbn [got subm] in C. rewrite R, G, SB in C. destruct C as (w & C). cbn in C.
  injection C as C _. lia.
Qed.

(** What remains true there: as long as fewer than [M] descriptors wait to be read at each submission. *)
Theorem mdf_ring_unbounded_partial : forall M cap D l (s : mst D), 1 <= M ->
  few M cap mdf_init l -> exec (mstep M cap) mdf_init l = Some s ->
  prefix (got s) (map Some (subm s)).
Proof.
  intros M cap D l s HM F E. apply (minv_prefix M s). exact (mreach M cap HM l _ s (minv_init M HM) F E).
Qed.

(** ** Task farm (ff_taskf) *)

(** Every task is run, and every closure deleted, at most once and as submitted. *)
Definition each_once {D} (s : tst D) : Prop :=
  (exists waiting, Permutation (ran s ++ waiting) (map Some (tsubm s))) /\
  (exists waiting, Permutation (dele s ++ waiting) (ran s)).

(** Number of tasks submitted and not yet retired, at every submission, is below [b]. *)
Fixpoint outstanding_below {D} (b M : nat) (cap : option nat) (s : tst D) (l : list (tact D)) : Prop :=
  match l with
  | [] => True
  | a :: r =>
      match a with TAdd _ => length (tsubm s) < length (dele s) + b | _ => True end /\
      match tstep M cap s a with None => True | Some s' => outstanding_below b M cap s' r end
  end.

(** Holds when at most [M] tasks are added between two moments when the farm is empty
    (ff_taskf: between two waits). *)
Theorem taskf_ring_partial : forall M cap D l (s : tst D), 1 <= M ->
  batched M cap taskf_init 0 l -> exec (tstep M cap) taskf_init l = Some s -> each_once s.
Proof.
  intros M cap D l s HM F E. destruct (treach M cap HM l _ 0 s (TInv_init M HM) F E) as (b & I).
  exact (TInv_spec M s b I).
Qed.

Theorem taskf_ring_complete_partial : forall M cap D l (s : tst D), 1 <= M ->
  batched M cap taskf_init 0 l -> exec (tstep M cap) taskf_init l = Some s ->
  tsnd s = None -> tch s = [] -> work s = [] -> back s = [] ->
  Permutation (ran s) (map Some (tsubm s)) /\ Permutation (dele s) (map Some (tsubm s)).
Proof.
  intros M cap D l s HM F E E1 E2 E3 E4. destruct (treach M cap HM l _ 0 s (TInv_init M HM) F E) as (b & I).
  apply (TInv_done M s b I). unfold at_rest. rewrite E1, E2, E3, E4. reflexivity.
Qed.

(** False in general, for every ring size and with bounded or unbounded channels, even when at most two tasks are
    ever outstanding: a slow task's slot is reused as soon as [M] more tasks have been added. *)
Definition taskf_ring_claim (M : nat) (cap : option nat) : Prop := forall D l (s : tst D),
  outstanding_below 2 M cap taskf_init l -> exec (tstep M cap) taskf_init l = Some s -> each_once s.

Lemma below_app : forall D b M cap (l1 l2 : list (tact D)) s m, outstanding_below b M cap s l1 ->
  exec (tstep M cap) s l1 = Some m -> outstanding_below b M cap m l2 -> outstanding_below b M cap s (l1 ++ l2).
Proof.
  intros D b M cap l1. induction l1 as [|a l1 IH]; intros l2 s m F E H; cbn [exec app] in *; [injection E as ->; exact H|].
  cbn [outstanding_below] in *. destruct F as [F1 F2]. destruct (tstep M cap s a) as [s1|]; [|discriminate].
  split; auto. eapply IH; eauto.
Qed.

Lemma turns_below : forall M cap k, 2 <= M -> cap <> Some 0 -> k < M -> outstanding_below 2 M cap taskf_init (turns k).
Proof.
  intros M cap k HM HC. induction k as [|k IH]; intros L.
  - unfold turns. cbn. rewrite (room_nil cap HC). cbn. repeat split; auto; lia.
  - destruct (turns_run M cap HM HC k) as (s & E & N & S1 & C & W & B & SB & R & DL); [lia|].
    unfold turns. rewrite seq_S, flat_map_app, app_assoc. eapply below_app; [apply IH; lia|exact E|].
    cbn [flat_map app outstanding_below tstep]. rewrite S1. cbn [tsnd tch work back tstep tring tnt tsubm ran dele].
    split; [rewrite SB, DL, seq_length; lia|]. split; auto.
    rewrite C, (room_nil cap HC). cbn [tsnd tch work back tstep tring tnt tsubm ran dele app]. rewrite W, B. cbn. auto.
Qed.

Theorem taskf_ring_refuted : forall M cap, 2 <= M -> cap <> Some 0 -> ~ taskf_ring_claim M cap.
Proof.
  intros M cap HM HC K. destruct (lapping_run M cap HM HC) as (s & E & SB & R).
  destruct (K nat (lapping M) s) as [(w & P) _]; auto.
  - destruct (turns_run M cap HM HC (M - 1)) as (s1 & E1 & N & S1 & C & W & B & SB1 & R1 & DL); [lia|].
    unfold lapping. eapply below_app; [apply turns_below; auto; lia|exact E1|].
    cbn [outstanding_below tstep]. rewrite S1. cbn [tsnd tch work back tstep tring tnt tsubm ran dele].
    split; [rewrite SB1, DL, seq_length; lia|]. split; auto.
    rewrite C, (room_nil cap HC). cbn [tsnd tch work back tstep tring tnt tsubm ran dele app]. rewrite W, B. cbn. auto.
  - rewrite R, SB in P. assert (ND : NoDup (map (@Some nat) (seq 0 (S M)))).
    { apply FinFun.Injective_map_NoDup; [intros a b X; congruence|apply seq_NoDup]. }
    apply (Permutation_NoDup (Permutation_sym P)) in ND. rewrite <- app_assoc in ND.
    apply NoDup_remove_2 with (l := map Some (seq 1 (M - 1))) (l' := [Some M] ++ w) (a := Some M) in ND.
    apply ND. apply in_app_iff. right. cbn. auto.
Qed.

(** Non-vacuity. *)
Example mdf_bounded_case :
  option_map (fun s => (got s, subm s)) (exec (mstep 4 (Some 2)) mdf_init
    [MAdd 10; MSend; MAdd 11; MSend; MAdd 12; MRecv; MRead; MSend; MAdd 13; MRecv; MRead; MSend; MRecv; MAdd 14; MRead])
  = Some ([Some 10; Some 11; Some 12], [10; 11; 12; 13; 14]).
Proof. vm_compute. reflexivity. Qed.
Example few_case : few 2 None mdf_init [MAdd 10; MSend; MAdd 11; MSend; MRecv; MRead; MAdd 12].
Proof. cbn. repeat split; lia. Qed.
Example batched_case :
  let l := [TAdd 10; TSend; TRecv; TAdd 11; TSend; TRecv; TWork 1; TWork 0; TBack 1; TBack 0; TAdd 12; TSend; TRecv; TWork 0] in
  batched 2 None taskf_init 0 l /\
  option_map (fun s => (ran s, dele s)) (exec (tstep 2 None) taskf_init l) = Some ([Some 11; Some 10; Some 12], [Some 10; Some 11]).
Proof. split; [vm_compute; repeat split; repeat constructor|vm_compute; reflexivity]. Qed.
(** The refuting execution for a ring of 3: task 0 is never run, task 3 is run twice. *)
Example lapping_case :
  option_map (@ran nat) (exec (tstep 3 None) taskf_init (lapping 3)) = Some [Some 1; Some 2; Some 3; Some 3].
Proof. vm_compute. reflexivity. Qed.

Print Assumptions mdf_ring_bounded.
Print Assumptions mdf_ring_default_sizes_bounded.
Print Assumptions mdf_ring_bounded_all_read.
Print Assumptions mdf_ring_unbounded_refuted.
Print Assumptions mdf_ring_unbounded_partial.
Print Assumptions taskf_ring_partial.
Print Assumptions taskf_ring_complete_partial.
Print Assumptions taskf_ring_refuted.
