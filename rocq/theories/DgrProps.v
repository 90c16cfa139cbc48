(** Property C51: a program divided into distributed groups delivers the same streams. *)
From Coq Require Import List Arith Bool Lia.
From Verif Require Import Base DgrModel DgrSpec DgrProofs DgrProofs2 DgrProofs3 DgrProofs4 DgrProofs5 DgrProofs6 DgrProofs7.
Import ListNotations.

(** A program: channels between nodes in range, no channel twice. *)
Definition wf_edges (n : nat) (edges : list (nat * nat)) : Prop :=
  NoDup edges /\ forall u v, In (u, v) edges -> u < n /\ v < n.
(** With acknowledgements: the nodes of a group that send have the same connections (see
    [dgr_anonymous_refuted]). *)
Definition same_conns (edges : list (nat * nat)) (grp : nat -> nat) (ack : bool) : Prop :=
  ack = true -> forall u w h, grp u = grp w -> succ edges u <> [] -> In h (conns edges grp w) -> In h (conns edges grp u).

(** In every reachable state, what a node was handed from each of its sources is, in order, a prefix of its share
    of what the source sent, every value sent has exactly one destination, the one asked for if one was; the end of
    a stream comes after the node's whole share and only if the source has ended; nothing comes from a node that is
    not a source, nothing is lost and no process aborts. *)
Theorem dgr_delivery_partial :
  forall X n edges grp (size : X -> nat) urgent batch limit ack otf l s,
    wf_edges n edges -> (forall x, 0 < size x) -> same_conns edges grp ack -> forallb no_eos_to l = true ->
    exec (step n edges grp size urgent batch limit ack) (init_st otf) l = Some s ->
    aborted s = false /\ lost s = 0 /\
    (forall v u o, In (u, o) (recv s v) -> In (u, v) edges) /\
    forall u, exists t, shares edges u (sent s u) t /\
      forall v, In (u, v) edges ->
        prefix (from u (recv s v)) (owed v (sent s u) t) /\
        (In None (from u (recv s v)) -> closed s u = true /\ from u (recv s v) = owed v (sent s u) t).
Proof.
  intros X n edges grp size urgent batch limit ack otf l s (Hnd & Hr) Hs Ha Hl E.
  assert (I : Inv edges grp ack otf s) by (eapply inv_exec; eauto).
  pose proof I as (pre & tc & et & dd & de & tn & IS & IP & IB & ID & IL & IE & Hab & Hlo).
  split; auto. split; auto. split; [intros v u o; apply IL|]. intros u. eapply inv_safe; eauto.
Qed.

(** When the runtime has nothing left to do, every node has received its whole share of each stream that ended. *)
Theorem dgr_complete_partial :
  forall X n edges grp (size : X -> nat) urgent batch limit ack otf l s,
    wf_edges n edges -> (forall x, 0 < size x) -> same_conns edges grp ack -> 0 < otf -> forallb no_eos_to l = true ->
    exec (step n edges grp size urgent batch limit ack) (init_st otf) l = Some s ->
    (forall a, internal a = true -> step n edges grp size urgent batch limit ack s a = None) ->
    forall u, closed s u = true -> exists t, shares edges u (sent s u) t /\
      forall v, In (u, v) edges -> from u (recv s v) = owed v (sent s u) t.
Proof.
  intros X n edges grp size urgent batch limit ack otf l s (Hnd & Hr) Hs Ha Ho Hl E Q u HC.
  assert (I : Inv edges grp ack otf s) by (eapply inv_exec; eauto).
  destruct (inv_safe edges grp ack otf s I u) as (t & Ht & K). exists t. split; auto.
  intros v Hv. destruct (K v Hv) as (_ & K2). apply K2.
  eapply (inv_quiet n edges grp size urgent batch limit ack otf); eauto.
Qed.

(** The runtime does reach such a state: from every reachable state its own steps come to an end. *)
Theorem dgr_terminates_partial :
  forall X n edges grp (size : X -> nat) urgent batch limit ack otf l s,
    wf_edges n edges -> (forall x, 0 < size x) -> same_conns edges grp ack -> forallb no_eos_to l = true ->
    exec (step n edges grp size urgent batch limit ack) (init_st otf) l = Some s ->
    exists N, forall l' s', forallb internal l' = true ->
      exec (step n edges grp size urgent batch limit ack) s l' = Some s' -> length l' <= N.
Proof.
  intros X n edges grp size urgent batch limit ack otf l s (Hnd & Hr) Hs Ha Hl E.
  assert (I : Inv edges grp ack otf s) by (eapply inv_exec; eauto).
  exists (measure n edges grp s). intros l' s' Hl' E'.
  destruct (internal_bounded n edges grp size urgent batch limit ack otf Hr Hnd Hs Ha l' s s' I Hl' E'). lia.
Qed.

(** A node with inputs stops reading exactly when it has seen the end of all of them, and has then ended its output. *)
Theorem dgr_stops_last_partial :
  forall X n edges grp (size : X -> nat) urgent batch limit ack otf l s,
    wf_edges n edges -> (forall x, 0 < size x) -> same_conns edges grp ack -> forallb no_eos_to l = true ->
    exec (step n edges grp size urgent batch limit ack) (init_st otf) l = Some s ->
    forall v, (alive s v = false <->
               (exists u, In (u, v) edges) /\ forall u, In (u, v) edges -> In None (from u (recv s v))) /\
              (alive s v = false -> (exists w, In (v, w) edges) -> closed s v = true).
Proof.
  intros X n edges grp size urgent batch limit ack otf l s (Hnd & Hr) Hs Ha Hl E v.
  assert (I : Inv edges grp ack otf s) by (eapply inv_exec; eauto).
  destruct I as (pre & tc & et & dd & de & tn & IS & IP & IB & ID & IL & IE & Hab & Hlo). split.
  - rewrite (e_dead _ _ _ _ _ IE). split.
    + intros (H1 & H2). split.
      * destruct (pred edges v) as [|u r] eqn:Ep; [congruence|]. exists u. apply pred_in. rewrite Ep. simpl. auto.
      * intros u Hu. apply from_in. apply (e_ended _ _ _ _ _ IE). apply H2. now apply pred_in.
    + intros ((u & Hu) & H). split.
      * intros Z. apply pred_in in Hu. rewrite Z in Hu. contradiction.
      * intros w Hw. apply (e_ended _ _ _ _ _ IE). apply from_in. apply H. now apply pred_in.
  - intros Hv (w & Hw). destruct (e_closed _ _ _ _ _ IE v Hv) as [|Z]; auto.
    apply succ_in in Hw. rewrite Z in Hw. contradiction.
Qed.

(** A program without cycles whose sources have all ended: when the runtime has nothing left to do, every node with
    inputs has received all of them to the end and has stopped. *)
Theorem dgr_ends_partial :
  forall X n edges grp (size : X -> nat) urgent batch limit ack otf l s (rank : nat -> nat),
    wf_edges n edges -> (forall x, 0 < size x) -> same_conns edges grp ack -> 0 < otf -> forallb no_eos_to l = true ->
    (forall u v, In (u, v) edges -> rank u < rank v) ->
    exec (step n edges grp size urgent batch limit ack) (init_st otf) l = Some s ->
    (forall a, internal a = true -> step n edges grp size urgent batch limit ack s a = None) ->
    (forall u v, In (u, v) edges -> (forall w, ~ In (w, u) edges) -> closed s u = true) ->
    forall v, (exists u, In (u, v) edges) ->
      alive s v = false /\
      forall u, In (u, v) edges -> exists t, shares edges u (sent s u) t /\ from u (recv s v) = owed v (sent s u) t.
Proof.
  intros X n edges grp size urgent batch limit ack otf l s rank Hwf Hs Ha Ho Hl Hrk E Q Hsrc.
  assert (K : forall k v, rank v < k -> (exists u, In (u, v) edges) ->
    alive s v = false /\ forall u, In (u, v) edges -> closed s u = true).
  { induction k as [|k IH]; intros v Hk Hex; [lia|].
    assert (HC : forall u, In (u, v) edges -> closed s u = true).
    { intros u Hu. destruct (pred edges u) as [|w r] eqn:Ep.
      - apply (Hsrc u v Hu). intros w Hw. apply pred_in in Hw. rewrite Ep in Hw. contradiction.
      - assert (Hw : In (w, u) edges) by (apply pred_in; rewrite Ep; simpl; auto).
        destruct (IH u) as (Hal & _); [specialize (Hrk _ _ Hu); lia|eauto|].
        destruct (dgr_stops_last_partial _ _ _ _ _ _ _ _ _ _ _ _ Hwf Hs Ha Hl E u) as (_ & H). apply H; eauto. }
    split; auto. destruct (dgr_stops_last_partial _ _ _ _ _ _ _ _ _ _ _ _ Hwf Hs Ha Hl E v) as (H & _). apply H.
    split; auto. intros u Hu.
    destruct (dgr_complete_partial _ _ _ _ _ _ _ _ _ _ _ _ Hwf Hs Ha Ho Hl E Q u (HC u Hu)) as (t & _ & Ht).
    rewrite (Ht v Hu). unfold owed. apply in_app_iff. simpl. auto. }
  intros v Hex. destruct (K (S (rank v)) v (Nat.lt_succ_diag_r _) Hex) as (Hal & HC). split; auto.
  intros u Hu. destruct (dgr_complete_partial _ _ _ _ _ _ _ _ _ _ _ _ Hwf Hs Ha Ho Hl E Q u (HC u Hu)) as (t & Ht1 & Ht2).
  exists t. auto.
Qed.

(** Flow control, for every program: at most [otf] batches of a connection are unacknowledged. *)
Theorem dgr_unacknowledged_bounded :
  forall X n edges grp (size : X -> nat) urgent batch limit otf l s,
    exec (step n edges grp size urgent batch limit true) (init_st otf) l = Some s ->
    forall g h, length (net s g h) + acks s g h <= otf.
Proof.
  intros X n edges grp size urgent batch limit otf l s E.
  set (P := fun s : st X => forall g h, credit s g h + length (net s g h) + acks s g h = otf).
  assert (Hp : forall g m hs s, P s -> P (push_all size urgent batch limit s g hs m)).
  { intros g m hs. induction hs as [|h hs IH]; intros s0 H0; [exact H0|]. unfold push_all. simpl.
    destruct (push size urgent batch limit (buf s0 g h) m) as [b bs]. apply IH. exact H0. }
  assert (Hf : forall g hs (s : st X), P s -> P (flush_all s g hs)).
  { intros g hs. induction hs as [|h hs IH]; intros s0 H0; [exact H0|]. unfold flush_all. simpl.
    destruct (buf s0 g h); apply IH; exact H0. }
  assert (Hstep : forall s a s', P s -> step n edges grp size urgent batch limit true s a = Some s' -> P s').
  { intros s0 a s' H0 Es. unfold step in Es. destruct (aborted s0) eqn:Hab; [discriminate|].
    assert (Sinj : forall a b : st X, Some a = Some b -> a = b) by congruence.
    destruct a; cbv zeta in Es.
    - destruct (nth_error (succ edges u) j); [|discriminate]. destruct (alive s0 u); [|discriminate].
      destruct (closed s0 u); apply Sinj in Es; subst s'; exact H0.
    - destruct (alive s0 u); [|discriminate]. destruct (succ edges u); [apply Sinj in Es; subst s'; exact H0|].
      destruct (closed s0 u); apply Sinj in Es; subst s'; exact H0.
    - destruct (alive s0 u); [|discriminate]. destruct (succ edges u); [apply Sinj in Es; subst s'; exact H0|].
      destruct (closed s0 u); apply Sinj in Es; subst s'; exact H0.
    - destruct (alive s0 u && negb (closed s0 u)); [|discriminate].
      destruct (succ edges u); apply Sinj in Es; subst s'; exact H0.
    - destruct (alive s0 u && (j <? length (succ edges u))); [|discriminate].
      destruct (closed s0 u); apply Sinj in Es; subst s'; exact H0.
    - destruct (outq s0 u) as [|m r]; [discriminate|]. destruct (pend s0 (grp u)); [|discriminate].
      destruct (choosing s0 (grp u)); [discriminate|]. destruct (is_flush m).
      + apply Sinj in Es. subst s'. apply Hf. exact H0.
      + destruct (dest m) as [d|].
        * destruct (known edges grp (grp u) d); apply Sinj in Es; subst s'; [apply Hp|]; exact H0.
        * destruct (bsize size (cont m) =? 0); [apply Sinj in Es; subst s'; apply Hp; exact H0|].
          destruct (mem c (conns edges grp u)); [|discriminate].
          match type of Es with (if ?b then _ else _) = _ => destruct b end; apply Sinj in Es; subst s'; [exact H0|].
          apply Hp. exact H0.
    - destruct (pend s0 g) as [|(h & b) r]; [discriminate|]. cbn [andb] in Es.
      destruct (credit s0 g h =? 0) eqn:Ec; [discriminate|]. apply Sinj in Es. subst s'. intros g' h'. cbn.
      rewrite !fupd2_case. apply Nat.eqb_neq in Ec. specialize (H0 g' h').
      destruct (Nat.eqb_spec g' g) as [->|]; cbn [andb]; auto. destruct (Nat.eqb_spec h' h) as [->|]; auto.
      rewrite app_length. cbn. lia.
    - destruct (pend s0 g) as [|(h0 & b) r]; [discriminate|].
      destruct ((credit s0 g h0 =? 0) && (0 <? acks s0 g h)) eqn:Ec; [|discriminate]. apply Sinj in Es. subst s'.
      apply andb_true_iff in Ec. destruct Ec as (_ & Ec). apply Nat.ltb_lt in Ec. intros g' h'. cbn.
      rewrite !fupd2_case. specialize (H0 g' h').
      destruct (Nat.eqb_spec g' g) as [->|]; cbn [andb]; auto. destruct (Nat.eqb_spec h' h) as [->|]; auto. lia.
    - destruct (choosing s0 g) as [m|]; [|discriminate].
      destruct (0 <? acks s0 g h) eqn:Ec; [|discriminate]. apply Sinj in Es. subst s'. apply Hp.
      apply Nat.ltb_lt in Ec. intros g' h'. cbn. rewrite !fupd2_case. specialize (H0 g' h').
      destruct (Nat.eqb_spec g' g) as [->|]; cbn [andb]; auto. destruct (Nat.eqb_spec h' h) as [->|]; auto. lia.
    - destruct (net s0 g h) as [|b r] eqn:Hn; [discriminate|]. destruct (rb s0 h); [|discriminate].
      apply Sinj in Es. subst s'. intros g' h'. cbn. rewrite !fupd2_case. specialize (H0 g' h').
      destruct (Nat.eqb_spec g' g) as [->|]; cbn [andb]; auto. destruct (Nat.eqb_spec h' h) as [->|]; auto.
      rewrite Hn in H0. cbn in H0. lia.
    - destruct (rb s0 h) as [|m r]; [discriminate|]. destruct (dest m); [apply Sinj in Es; subst s'; exact H0|].
      destruct (targets n edges grp h (src m)); [apply Sinj in Es; subst s'; exact H0|].
      destruct (bsize size (cont m) =? 0); [apply Sinj in Es; subst s'; exact H0|].
      destruct (mem v _); [|discriminate]. apply Sinj in Es. subst s'. exact H0.
    - destruct (lq s0 v) as [|m r]; [discriminate|]. destruct (alive s0 v); [|discriminate].
      destruct (if bsize size (cont m) =? 0 then None else _); [apply Sinj in Es; subst s'; exact H0|].
      destruct (mem (src m) (ended s0 v)); [apply Sinj in Es; subst s'; exact H0|].
      destruct (length (pred edges v) <=? _); [|apply Sinj in Es; subst s'; exact H0].
      destruct (succ edges v); [apply Sinj in Es; subst s'; exact H0|].
      destruct (closed s0 v); apply Sinj in Es; subst s'; exact H0. }
  assert (HP : P s).
  { assert (K : forall l s0, P s0 -> exec (step n edges grp size urgent batch limit true) s0 l = Some s -> P s).
    { clear l E. induction l as [|a l IH]; intros s0 H0 E; simpl in E; [now injection E as <-|].
      destruct (step n edges grp size urgent batch limit true s0 a) as [s1|] eqn:E1; [|discriminate].
      exact (IH s1 (Hstep _ _ _ H0 E1) E). }
    apply (K l (init_st otf)); auto. intros g h. cbn. lia. }
  intros g h. specialize (HP g h). lia.
Qed.

(** ** Concrete case: two sources in group 0, one node in each of the groups 1 and 2, batches of two, acknowledgements. *)
Definition ex_edges := [(0, 2); (0, 3); (1, 2); (1, 3)].
Definition ex_grp (u : nat) := match u with 0 => 0 | 1 => 0 | 2 => 1 | _ => 2 end.
Definition ex_step := step (X := nat) 4 ex_edges ex_grp (fun x => S x) (fun _ => false) 2 100 true.
Definition ex_user : list (act nat) :=
  [SendTo 0 0 7; SendAny 1 8; SendAny 0 9; Take 0 1; Take 1 1; AskFlush 1; SendTo 1 1 5; End 0; SendAny 1 6; End 1].
(** The steps of the runtime, the first one that is possible each time. *)
Definition ex_cands : list (act nat) :=
  [Take 0 1; Take 1 2; Emit 0; AckRead 0 1; AckRead 0 2; AckAny 0 1; AckAny 0 2; Deliver 0 1; Deliver 0 2;
   Route 1 2; Route 2 3; Recv 2; Recv 3].
Fixpoint ex_first (s : st nat) (l : list (act nat)) : option (act nat * st nat) :=
  match l with [] => None | a :: l => match ex_step s a with Some s' => Some (a, s') | None => ex_first s l end end.
Fixpoint ex_greedy (k : nat) (s : st nat) : list (act nat) :=
  match k with
  | 0 => []
  | S k => match ex_first s ex_cands with Some (a, s') => a :: ex_greedy k s' | None => [] end
  end.
Definition ex_tail : list (act nat) :=
  match exec ex_step (init_st 1) ex_user with Some s => ex_greedy 100 s | None => [] end.
Definition ex_final : st nat := match exec ex_step (init_st 1) (ex_user ++ ex_tail) with Some s => s | None => init_st 1 end.

Lemma ex_wf : wf_edges 4 ex_edges.
Proof.
  split.
  - repeat constructor; simpl; intuition congruence.
  - intros u v H. simpl in H. repeat (destruct H as [H|H]; [injection H as <- <-; lia|]). contradiction.
Qed.
Lemma ex_conns : same_conns ex_edges ex_grp true.
Proof.
  intros _ u w h Hg Hs Hh. destruct u as [|[|u]]; [..|exfalso; apply Hs; destruct u as [|[|u]]; reflexivity];
    (destruct w as [|[|[|[|w]]]]; try (exfalso; exact Hh); exact Hh).
Qed.
Example dgr_example :
  exec ex_step (init_st 1) (ex_user ++ ex_tail) = Some ex_final /\
  sent ex_final 0 = [(Some 2, 7); (None, 9)] /\ sent ex_final 1 = [(None, 8); (Some 3, 5); (None, 6)] /\
  from 0 (recv ex_final 2) = [Some 7; Some 9; None] /\ from 0 (recv ex_final 3) = [None] /\
  from 1 (recv ex_final 2) = [Some 8; None] /\ from 1 (recv ex_final 3) = [Some 5; Some 6; None].
Proof.
  split; [|repeat (split; [vm_compute; reflexivity|]); vm_compute; reflexivity].
  assert (Z : match exec ex_step (init_st 1) (ex_user ++ ex_tail) with Some _ => true | None => false end = true)
    by (vm_compute; reflexivity).
  unfold ex_final. destruct (exec ex_step (init_st 1) (ex_user ++ ex_tail)); [reflexivity|discriminate].
Qed.
Example dgr_example_hyps :
  forallb no_eos_to (ex_user ++ ex_tail) = true /\ closed ex_final 0 = true /\ closed ex_final 1 = true /\
  alive ex_final 2 = false /\ alive ex_final 3 = false /\
  forall a, internal a = true -> ex_step ex_final a = None.
Proof.
  repeat (split; [vm_compute; reflexivity|]).
  intros a Ha. destruct a; try discriminate.
  - destruct u as [|[|[|[|u]]]]; vm_compute; reflexivity.
  - destruct g as [|[|[|g]]]; vm_compute; reflexivity.
  - destruct g as [|[|[|g]]]; vm_compute; reflexivity.
  - destruct g as [|[|[|g]]]; vm_compute; reflexivity.
  - destruct g as [|[|[|g]]]; [destruct h as [|[|[|h]]]|..]; vm_compute; reflexivity.
  - destruct h as [|[|[|h]]]; vm_compute; reflexivity.
  - destruct v as [|[|[|[|v]]]]; vm_compute; reflexivity.
Qed.

(** ** What does not hold. *)

(** With acknowledgements, a value without destination may be sent to whichever connection acknowledges first, also
    one that leads to no destination of its source: the value is dropped there. *)
Definition dgr_anonymous_claim : Prop :=
  forall X n edges grp (size : X -> nat) urgent batch limit ack otf l s,
    wf_edges n edges -> (forall x, 0 < size x) -> forallb no_eos_to l = true ->
    exec (step n edges grp size urgent batch limit ack) (init_st otf) l = Some s -> lost s = 0.
Theorem dgr_anonymous_refuted : ~ dgr_anonymous_claim.
Proof.
  intros H.
  set (l := [SendAny 0 7; Take 0 1; Emit 0; SendAny 1 8; Take 1 2; Emit 0; Deliver 0 2; SendAny 0 9; Take 0 1;
             AckAny 0 2; Emit 0; Route 2 3; Deliver 0 2; Route 2 3]).
  specialize (H nat 4 [(0, 2); (1, 3)] ex_grp (fun x => S x) (fun _ => false) 1 100 true 1 l).
  assert (Z : match exec (step 4 [(0, 2); (1, 3)] ex_grp (fun x => S x) (fun _ => false) 1 100 true) (init_st 1) l with
              | Some s => lost s = 1 | None => False end) by (vm_compute; auto).
  destruct (exec (step 4 [(0, 2); (1, 3)] ex_grp (fun x => S x) (fun _ => false) 1 100 true) (init_st 1) l) as [s|] eqn:E; [|contradiction].
  assert (K : lost s = 0); [|rewrite K in Z; discriminate].
  refine (H s _ _ eq_refl eq_refl); [|intros; lia].
  split; [repeat constructor; simpl; intuition congruence|].
  intros u v Hi. simpl in Hi. repeat (destruct Hi as [Hi|Hi]; [injection Hi as <- <-; lia|]). contradiction.
Qed.

(** ff_send_out_to(EOS, j): the index j is taken for the identifier of a node, the process may abort ... *)
Definition dgr_eos_to_claim : Prop :=
  forall X n edges grp (size : X -> nat) urgent batch limit ack otf l s,
    wf_edges n edges -> (forall x, 0 < size x) -> same_conns edges grp ack ->
    exec (step n edges grp size urgent batch limit ack) (init_st otf) l = Some s -> aborted s = false.
Theorem dgr_eos_to_refuted : ~ dgr_eos_to_claim.
Proof.
  intros H. set (l := [EosTo (X := nat) 0 0; Take 0 0]).
  specialize (H nat 2 [(0, 1)] (fun u => u) (fun x => S x) (fun _ => false) 1 100 false 1 l).
  assert (Z : match exec (step 2 [(0, 1)] (fun u => u) (fun x => S x) (fun _ => false) 1 100 false) (init_st 1) l with
              | Some s => aborted s = true | None => False end) by (vm_compute; auto).
  destruct (exec (step 2 [(0, 1)] (fun u => u) (fun x => S x) (fun _ => false) 1 100 false) (init_st 1) l) as [s|] eqn:E; [|contradiction].
  assert (K : aborted s = false); [|rewrite K in Z; discriminate].
  refine (H s _ _ _ eq_refl); [|intros; lia|discriminate].
  split; [repeat constructor; simpl; intuition congruence|].
  intros u v Hi. simpl in Hi. destruct Hi as [Hi|[]]. injection Hi as <- <-. lia.
Qed.
(** ... or another output sees the end of the stream. *)
Definition dgr_eos_to_one_claim : Prop :=
  forall X n edges grp (size : X -> nat) urgent batch limit ack otf l s u j,
    wf_edges n edges -> (forall x, 0 < size x) -> same_conns edges grp ack -> forallb internal l = true ->
    exec (step n edges grp size urgent batch limit ack) (init_st otf) (EosTo u j :: l) = Some s ->
    forall v, In None (from u (recv s v)) -> nth_error (succ edges u) j = Some v.
Theorem dgr_eos_to_one_refuted : ~ dgr_eos_to_one_claim.
Proof.
  intros H. set (l := [Take (X := nat) 0 0; Emit 0; Deliver 0 1; Route 1 0; Recv 1]).
  specialize (H nat 3 [(0, 1); (0, 2)] (fun u => Nat.min u 1) (fun x => S x) (fun _ => false) 1 100 false 1 l).
  assert (Z : match exec (step 3 [(0, 1); (0, 2)] (fun u => Nat.min u 1) (fun x => S x) (fun _ => false) 1 100 false) (init_st 1) (EosTo 0 1 :: l) with
              | Some s => from 0 (recv s 1) = [None] | None => False end) by (vm_compute; auto).
  destruct (exec (step 3 [(0, 1); (0, 2)] (fun u => Nat.min u 1) (fun x => S x) (fun _ => false) 1 100 false) (init_st 1) (EosTo 0 1 :: l)) as [s|] eqn:E; [|contradiction].
  assert (K : nth_error (succ [(0, 1); (0, 2)] 0) 1 = Some 1); [|discriminate].
  refine (H s 0 1 _ _ _ eq_refl E 1 _).
  - split; [repeat constructor; simpl; intuition congruence|].
    intros u v Hi. simpl in Hi. repeat (destruct Hi as [Hi|Hi]; [injection Hi as <- <-; lia|]). contradiction.
  - intros; lia.
  - discriminate.
  - rewrite Z. simpl. auto.
Qed.

(** A value whose serialization is empty is taken for the end of the stream. *)
Definition dgr_empty_value_claim : Prop :=
  forall X n edges grp (size : X -> nat) urgent batch limit ack otf l s,
    wf_edges n edges -> same_conns edges grp ack -> forallb no_eos_to l = true ->
    exec (step n edges grp size urgent batch limit ack) (init_st otf) l = Some s ->
    forall u v, In None (from u (recv s v)) -> closed s u = true.
Theorem dgr_empty_value_refuted : ~ dgr_empty_value_claim.
Proof.
  intros H. set (l := [SendAny 0 0; Take (X := nat) 0 1; Emit 0; Deliver 0 1; Route 1 1; Recv 1]).
  specialize (H nat 2 [(0, 1)] (fun u => u) (fun x => x) (fun _ => false) 1 100 false 1 l).
  assert (Z : match exec (step 2 [(0, 1)] (fun u => u) (fun x => x) (fun _ => false) 1 100 false) (init_st 1) l with
              | Some s => closed s 0 = false /\ from 0 (recv s 1) = [None] | None => False end) by (vm_compute; auto).
  destruct (exec (step 2 [(0, 1)] (fun u => u) (fun x => x) (fun _ => false) 1 100 false) (init_st 1) l) as [s|] eqn:E; [|contradiction].
  destruct Z as (Z1 & Z2).
  assert (K : closed s 0 = true); [|rewrite K in Z1; discriminate]. refine (H s _ _ eq_refl eq_refl 0 1 _).
  - split; [repeat constructor; simpl; intuition congruence|].
    intros u v Hi. simpl in Hi. destruct Hi as [Hi|[]]. injection Hi as <- <-. lia.
  - discriminate.
  - rewrite Z2. simpl. auto.
Qed.

(** A node whose svc returned EOS is handed further values (in shared memory its thread would have ended). *)
Definition dgr_end_stops_claim : Prop :=
  forall X n edges grp (size : X -> nat) urgent batch limit ack otf l s s' v,
    wf_edges n edges -> (forall x, 0 < size x) -> same_conns edges grp ack -> forallb no_eos_to l = true ->
    exec (step n edges grp size urgent batch limit ack) (init_st otf) l = Some s -> closed s v = true ->
    step n edges grp size urgent batch limit ack s (Recv v) = Some s' ->
    forall u x, In (u, Some x) (recv s' v) -> In (u, Some x) (recv s v).
Theorem dgr_end_stops_refuted : ~ dgr_end_stops_claim.
Proof.
  intros H. set (l := [SendAny 0 7; Take (X := nat) 0 1; Emit 0; Deliver 0 1; Route 1 1; End 1]).
  specialize (H nat 3 [(0, 1); (1, 2)] (fun u => u) (fun x => S x) (fun _ => false) 1 100 false 1 l).
  set (f := step 3 [(0, 1); (1, 2)] (fun u => u) (fun x => S x) (fun _ => false) 1 100 false) in *.
  assert (Z : match exec f (init_st 1) l with
              | Some s => match f s (Recv 1) with
                          | Some s' => closed s 1 = true /\ recv s 1 = [] /\ In (0, Some 7) (recv s' 1)
                          | None => False end
              | None => False end) by (vm_compute; auto).
  destruct (exec f (init_st 1) l) as [s|] eqn:E; [|contradiction].
  destruct (f s (Recv 1)) as [s'|] eqn:E'; [|contradiction].
  destruct Z as (Z1 & Z2 & Z3).
  assert (K : In (0, Some 7) (recv s 1)); [|rewrite Z2 in K; exact K].
  refine (H s s' 1 _ _ _ eq_refl eq_refl Z1 E' 0 7 Z3).
  - split; [repeat constructor; simpl; intuition congruence|].
    intros u v Hi. simpl in Hi. repeat (destruct Hi as [Hi|Hi]; [injection Hi as <- <-; lia|]). contradiction.
  - intros; lia.
  - discriminate.
Qed.

Print Assumptions dgr_delivery_partial.
Print Assumptions dgr_complete_partial.
Print Assumptions dgr_terminates_partial.
Print Assumptions dgr_stops_last_partial.
Print Assumptions dgr_ends_partial.
Print Assumptions dgr_unacknowledged_bounded.
Print Assumptions dgr_anonymous_refuted.
Print Assumptions dgr_eos_to_refuted.
Print Assumptions dgr_eos_to_one_refuted.
Print Assumptions dgr_empty_value_refuted.
Print Assumptions dgr_end_stops_refuted.
