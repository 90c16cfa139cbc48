(** All-to-all: the theorems.  [L] and [R] are the nodes of the two sets in a network that may
    contain more channels ([pre], [post]): what feeds the first set and what follows the second. *)
From Coq Require Import List Arith Bool Lia Permutation.
From Verif Require Import Base NetModel NetSpec NetProofs NetProofs2 NetProofs3 NetProofs4 NetProps A2AModel A2AProofs.
Import ListNotations.

Section Props.
  Context {X St : Type}.
  Variable N : net X St.
  Variables (L R : list nat) (cp : option nat) (pre post : list chan).

  (** The channels of the all-to-all are all the outputs of the first set and all the inputs of
      the second. *)
  Definition has_a2a : Prop :=
    chans N = pre ++ a2a_chans L R cp ++ post /\ NoDup L /\ NoDup R /\
    (forall k, In k (pre ++ post) -> ~ In (src k) L /\ ~ In (dst k) R).

  (** Output i of the j-th node of the first set and input j of the i-th node of the second are
      the two ends of the same channel; there are no other outputs and inputs. *)
  Theorem a2a_wiring : has_a2a -> forall i j r l, nth_error R i = Some r -> nth_error L j = Some l ->
    length (outs N l) = length R /\ length (ins N r) = length L /\
    exists c, nth_error (outs N l) i = Some c /\ nth_error (ins N r) j = Some c /\ chan_of N c = Some (mkChan l r cp).
  Proof.
    intros (EC & NDL & NDR & OUT) i j r l ER EL.
    rewrite (a2a_outs N L R cp pre post EC NDL OUT j l EL), (a2a_ins N L R cp pre post EC NDR OUT i r ER).
    rewrite !map_length, !seq_length. split; [auto|]. split; [auto|]. exists (cid L pre i j).
    assert (i < length R) by (apply nth_error_Some; congruence). assert (j < length L) by (apply nth_error_Some; congruence).
    rewrite !nth_map_seq by auto. split; [auto|]. split; [auto|]. eapply a2a_chan; eauto.
  Qed.

  (** When all threads have ended: what the i-th node of the second set read on its input j is,
      in order, what the j-th node of the first set sent to its output i, then one mark. *)
  Theorem a2a_directed_delivery : has_a2a -> wf N -> forall h s, exec (step N) (init_st N) h = Some s -> all_done N s ->
    forall i j r l c, nth_error R i = Some r -> nth_error L j = Some l -> nth_error (ins N r) j = Some c ->
    l < nodes N -> patient N r -> directed (requests N s l) ->
    on c (hl s r) = map Item (sent_to i (requests N s l)) ++ [Eos].
  Proof.
    intros A W h s E D i j r l c ER EL EI LN PT DI.
    destruct (a2a_wiring A i j r l ER EL) as (_ & _ & c' & H1 & H2 & H3).
    assert (c' = c) by congruence. subst c'. 
    pose proof (finished_to N W h s l i c (mkChan l r cp) E D LN H1 H3) as H. cbn [dst] in H. auto.
  Qed.

  (** Whatever the scheduling of undirected sends: what the second set reads, in total, is what
      the first set sent, in total. *)
  Theorem a2a_exchange : has_a2a -> wf N -> forall h s, exec (step N) (init_st N) h = Some s -> all_done N s ->
    (forall l, In l L -> l < nodes N) -> (forall r, In r R -> patient N r) ->
    Permutation (flat_map (fun l => sent (requests N s l)) L) (flat_map (fun r => items (map snd (hl s r))) R).
  Proof. intros (EC & NDL & NDR & OUT) W h s E D LN PT. eapply (a2a_total N L R cp pre post); eauto. Qed.

  (** A node of the second set ends after all the nodes of the first set have sent their mark to
      it. *)
  Theorem a2a_ends_last : has_a2a -> wf N -> forall h s, exec (step N) (init_st N) h = Some s ->
    forall i j r l, nth_error R i = Some r -> nth_error L j = Some l -> patient N r -> ph (nd s r) <> Running ->
    ph (nd s l) <> Running.
  Proof.
    intros A W h s E i j r l ER EL PT P PL. destruct (a2a_wiring A i j r l ER EL) as (_ & _ & c & H1 & H2 & H3).
    pose proof (net_ends_after_inputs N W h s r c _ E PT P H3 eq_refl) as HE.
    pose proof (reach N _ _ E) as I. apply (running_no_eos N W s c _ I H3 PL). rewrite (i_read _ _ I c _ H3).
    apply in_or_app. left. apply in_on. auto.
  Qed.
End Props.

(** ** The all-to-all alone: sources on the left, sinks on the right. *)
Section Alone.
  Context {X St : Type}.
  Variables (nL nR : nat) (cp : option nat) (u0 : nat -> St) (out : nat -> list (list (req X)))
            (sink : nat -> St -> nat -> X -> St).
  Definition a2a_net : net X St :=
    mkNet (nL + nR) (a2a_chans (seq 0 nL) (seq nL nR) cp) u0
      (fun v => if v <? nL then out v else []) (fun v u c x => (sink v u c x, [], false)) (fun _ u _ => (u, [])).

  Lemma a2a_net_has : has_a2a a2a_net (seq 0 nL) (seq nL nR) cp [] [].
  Proof.
    split; [simpl; rewrite app_nil_r; auto|]. split; [apply seq_NoDup|]. split; [apply seq_NoDup|]. intros k [].
  Qed.
  Lemma a2a_net_chan : forall c k, chan_of a2a_net c = Some k -> src k < nL /\ nL <= dst k < nL + nR /\ cap k = cp.
  Proof.
    intros c k H. unfold chan_of in H. apply nth_error_In in H. cbn [chans a2a_net] in H. unfold a2a_chans in H.
    apply in_flat_map in H as (r & Hr & H). apply in_map_iff in H as (l & <- & Hl). apply in_seq in Hr, Hl. cbn [src dst cap]. split; [lia|]. split; [lia|auto].
  Qed.

  (** The left nodes send items, to right nodes that exist. *)
  Definition sources_ok : Prop := forall v g r, v < nL -> In g (out v) -> In r g ->
    match r with To j (Item _) => j < nR | To _ Eos => False | Any _ => True end.

  Lemma a2a_net_wf : 0 < nR -> cp <> Some 0 -> sources_ok -> wf a2a_net.
  Proof.
    intros PR PC SO. constructor.
    - intros c k H. apply a2a_net_chan in H. simpl. lia.
    - intros c k b H E. apply a2a_net_chan in H as (_ & _ & EC). destruct b; [congruence|lia].
    - intros v Hv. simpl. destruct (v <? nL) eqn:LV; [|constructor]. apply Nat.ltb_lt in LV.
      assert (EL : nth_error (seq 0 nL) v = Some v).
      { rewrite (nth_error_nth' _ 0) by (rewrite seq_length; auto). rewrite seq_nth by auto. reflexivity. }
      assert (LO : length (outs a2a_net v) = nR).
      { destruct a2a_net_has as (EC & NDL & NDR & OUT).
        rewrite (a2a_outs a2a_net _ _ cp [] [] EC NDL OUT v v EL), map_length, !seq_length. reflexivity. }
      apply Forall_forall. intros g Hg. apply Forall_forall. intros r Hr. specialize (SO v g r LV Hg Hr).
      destruct r as [j [x|]|x]; simpl; auto; [rewrite LO; auto|]. destruct (outs a2a_net v); [simpl in LO; lia|discriminate].
    - constructor.
    - constructor.
  Qed.

  (** It never deadlocks, always ends, and then every right node has read, on its input j, what
      the left node j sent to it. *)
  Theorem a2a_alone_completes : 0 < nR -> cp <> Some 0 -> sources_ok ->
    (forall f : nat -> act, exists k, exec (step a2a_net) (init_st a2a_net) (map f (seq 0 k)) = None) /\
    (forall h s, exec (step a2a_net) (init_st a2a_net) h = Some s -> all_done a2a_net s \/ exists a s', step a2a_net s a = Some s') /\
    (forall h s, exec (step a2a_net) (init_st a2a_net) h = Some s -> all_done a2a_net s ->
       forall i j, i < nR -> j < nL -> directed (out j) ->
       exists c, nth_error (ins a2a_net (nL + i)) j = Some c /\
                 on c (hl s (nL + i)) = map Item (sent_to i (out j)) ++ [Eos]).
  Proof.
    intros PR PC SO. pose proof (a2a_net_wf PR PC SO) as W. pose proof a2a_net_has as A.
    assert (AC : acyclic a2a_net) by (intros c k H; apply a2a_net_chan in H; lia).
    split; [apply net_terminates; auto|]. split.
    - apply net_no_deadlock; auto. intros c k b _ _ u c' x. reflexivity.
    - intros h s E D i j Hi Hj DI.
      assert (ER : nth_error (seq nL nR) i = Some (nL + i)).
      { rewrite (nth_error_nth' _ 0) by (rewrite seq_length; auto). rewrite seq_nth by auto. reflexivity. }
      assert (EL : nth_error (seq 0 nL) j = Some j).
      { rewrite (nth_error_nth' _ 0) by (rewrite seq_length; auto). rewrite seq_nth by auto. reflexivity. }
      destruct (a2a_wiring a2a_net _ _ cp [] [] A i j _ _ ER EL) as (_ & _ & c & H1 & H2 & H3). exists c. split; [auto|].
      assert (RQ : requests a2a_net s j = out j).
      { unfold requests. cbn [boot a2a_net start]. replace (j <? nL) with true by (symmetry; apply Nat.ltb_lt; auto).
        replace (replies a2a_net j (u0 j) (hl s j)) with (@nil (list (req X))); [apply app_nil_r|].
        generalize (u0 j). generalize (hl s j). clear. induction l as [|[c [x|]] l IH]; intros u; simpl; auto. }
      rewrite <- RQ. eapply (a2a_directed_delivery a2a_net _ _ cp [] [] A W h s E D i j); eauto.
      + simpl. lia.
      + intros u c' x. reflexivity.
      + rewrite RQ. auto.
  Qed.
End Alone.

(** ** Two left nodes, two right nodes, channels of one slot. *)
Definition two : net nat (list nat) :=
  a2a_net 2 2 (Some 1) (fun _ => [])
    (fun v => match v with 0 => [[To 1 (Item 10)]; [To 0 (Item 11); To 1 (Item 11)]] | _ => [[To 1 (Item 20)]] end)
    (fun v u c x => u ++ [x]).
Example two_hyps : sources_ok 2 2 (fun v => match v with 0 => [[To 1 (Item 10)]; [To 0 (Item 11); To 1 (Item 11)]] | _ => [[To 1 (Item 20)]] end)
  /\ directed [[To 1 (Item 10)]; [To 0 (Item 11); To 1 (Item 11)]].
Proof.
  split.
  - intros v g r Hv Hg Hr. destruct v as [|v]; simpl in Hg.
    + destruct Hg as [<-|[<-|[]]]; simpl in Hr; repeat destruct Hr as [<-|Hr]; try tauto; lia.
    + destruct Hg as [<-|[]]; simpl in Hr; destruct Hr as [<-|[]]. lia.
  - repeat constructor; simpl; try (intros x H; repeat destruct H as [H|H]; try discriminate; tauto); try tauto.
    intros [H|[]]. discriminate.
Qed.
Definition two_run : list act :=
  [Put 1 0 0; Next 1; Put 0 0 0; Next 0; Put 0 0 0; Get 3 2; Get 3 3; Put 1 1 0; Put 0 0 0; Next 0; Get 2 0; Put 0 0 0;
   Get 3 2; Put 0 0 0; Next 0; Fin 0; Put 1 0 0; Next 1; Fin 1; Get 3 2; Get 3 3; Next 3; Fin 3; Get 2 1; Get 2 0; Next 2; Fin 2].
Example two_done : exists s, exec (step two) (init_st two) two_run = Some s /\ all_done two s /\
  hl s 3 = [(2, Item 10); (3, Item 20); (2, Item 11); (2, Eos); (3, Eos)] /\ hl s 2 = [(0, Item 11); (1, Eos); (0, Eos)].
Proof.
  eexists. split; [vm_compute; reflexivity|]. split.
  - intros v Hv. simpl in Hv. do 4 (destruct v as [|v]; [reflexivity|]). lia.
  - split; reflexivity.
Qed.

Print Assumptions a2a_wiring.
Print Assumptions a2a_directed_delivery.
Print Assumptions a2a_exchange.
Print Assumptions a2a_ends_last.
Print Assumptions a2a_alone_completes.
