(** Master-worker farm (feedback from the workers to the emitter): the theorems. *)
From Coq Require Import List Arith Bool Lia Permutation.
From Verif Require Import Base NetModel NetSpec NetProofs NetProps MwModel MwProofs.
Import ListNotations.

Section Props.
  Context {X St : Type}.
  (** Any number of workers, any worker code (with a state), any emitter code. *)
  Variables (n : nat) (cp : option nat) (u0 : nat -> St) (first : list (list (req X)))
            (emit : St -> nat -> X -> St * list (list (req X)) * bool) (wk : nat -> St -> X -> St * X).
  Notation N := (mw_net n cp u0 first emit wk).

  (** The emitter's sends are items for existing workers, or for any worker. *)
  Definition emitter_ok : Prop := sane n first /\ forall u c x, sane n (snd (fst (emit u c x))).

  (** Results the worker function gives, in order, on a sequence of tasks. *)
  Fixpoint results (w : nat) (u : St) (xs : list X) : list X :=
    match xs with [] => [] | x :: l => snd (wk w u x) :: results w (fst (wk w u x)) l end.

  (** In every reachable state the results that came back to the emitter from worker w are those
      of the first tasks it sent to worker w, in order: none lost, repeated, reordered or
      invented. *)
  Theorem mw_results : 0 < n -> cp <> Some 0 -> emitter_ok -> forall l s w, exec (step N) (init_st N) l = Some s -> w < n ->
    prefix (items (on (n + w) (hl s 0))) (results w (u0 (S w)) (items (on w (hp s 0)))).
  Proof.
    intros P C [S1 S2] l s w E Hw. destruct (mw_results_lem n cp u0 first emit wk P C S1 S2 l s w E Hw) as (zs & H).
    exists zs. rewrite <- H. clear. generalize (items (on w (hp s 0))) (u0 (S w)).
    induction l as [|x l IH]; intros u; simpl; [auto|]. rewrite IH. reflexivity.
  Qed.

  (** The emitter returns EOS by the time it has received as many results as it sent tasks. *)
  Definition emitter_counts : Prop := forall log, (forall cm, In cm log -> snd cm <> Eos) ->
    length (sent (first ++ replies N 0 (u0 0) log)) <= length log -> quits N 0 (u0 0) log = true.

  (** Then the farm never deadlocks: if no thread can move, all have ended. *)
  Theorem mw_completes : 0 < n -> cp <> Some 0 -> emitter_ok -> emitter_counts ->
    forall l s, exec (step N) (init_st N) l = Some s -> stuck N s -> all_done N s.
  Proof. intros P C [S1 S2] AT. apply mw_complete_lem; auto. Qed.

  (** If moreover the emitter never sends more than B tasks, every execution ends. *)
  Theorem mw_terminates : 0 < n -> cp <> Some 0 -> emitter_ok ->
    forall B, (forall log, length (concat (first ++ replies N 0 (u0 0) log)) <= B) ->
    forall f : nat -> act, exists k, exec (step N) (init_st N) (map f (seq 0 k)) = None.
  Proof. intros P C [S1 S2] B HB. apply (mw_finite_lem n cp u0 first emit wk P C S1 S2 B HB). Qed.

  (** Workers end only after the emitter has started to close. *)
  Theorem mw_workers_end_after : 0 < n -> cp <> Some 0 -> emitter_ok ->
    forall l s w, exec (step N) (init_st N) l = Some s -> w < n -> ph (nd s (S w)) <> Running -> ph (nd s 0) <> Running.
  Proof.
    intros P C [S1 S2] l s w E Hw PW P0. pose proof (mw_wf n cp u0 first emit wk P C S1 S2) as W.
    assert (K : chan_of N w = Some (mkChan 0 (S w) cp)) by (apply mw_chan; left; auto).
    pose proof (net_ends_after_inputs N W l s (S w) w _ E (wk_patient n cp u0 first emit wk w) PW K eq_refl) as HE.
    pose proof (net_one_mark N W l s w _ E K) as (xs & HM). cbn [src] in HM. rewrite P0 in HM.
    pose proof (net_channels_fifo N l s w _ E K) as HF. cbn [src dst] in HF. rewrite HM in HF.
    assert (HI : In Eos (map (@Item X) xs)) by (rewrite HF; apply in_or_app; left; apply in_on; auto).
    apply in_map_iff in HI as (y & Y & _). discriminate.
  Qed.
End Props.

(** ** Two workers that square; the emitter sends 3 tasks, then one more for the first result, and
    stops at the fourth result. *)
Definition sq (n : nat) : net nat nat :=
  mw_net n (Some 1) (fun _ => 0) [[Any 3]; [Any 4]; [To 0 (Item 5)]]
    (fun u c x => (S u, match u with 0 => [[Any x]] | _ => [] end, 3 <=? u)) (fun w u x => (u, x * x)).

Lemma sq_ok : forall n, 0 < n -> emitter_ok n [[Any 3]; [Any 4]; [To 0 (Item 5)]]
    (fun (u : nat) (c : nat) (x : nat) => (S u, match u with 0 => [[Any x]] | _ => [] end, 3 <=? u)).
Proof.
  intros n Hn. split.
  - intros g r Hg Hr. simpl in Hg. destruct Hg as [<-|[<-|[<-|[]]]]; destruct Hr as [<-|[]]; auto.
  - intros u c x g r Hg Hr. simpl in Hg. destruct u; simpl in Hg; [|tauto]. destruct Hg as [<-|[]]. destruct Hr as [<-|[]]. auto.
Qed.

Lemma sq_replies : forall n log u, length (sent (replies (sq n) 0 u log)) <= (if u =? 0 then 1 else 0) /\
  length (concat (replies (sq n) 0 u log)) <= (if u =? 0 then 1 else 0).
Proof.
  intros n. induction log as [|[c [x|]] log IH]; intros u; cbn [replies sq mw_net svc eosn].
  - simpl. destruct (u =? 0); lia.
  - destruct (IH (S u)) as [H1 H2]. simpl in H1, H2. destruct u; cbn [app]; simpl; rewrite ?app_length; simpl; auto.
    fold (sent (replies (sq n) 0 1 log)). lia.
  - apply IH.
Qed.

Example sq_counts : forall n, emitter_counts n (Some 1) (fun _ => 0) [[Any 3]; [Any 4]; [To 0 (Item 5)]]
    (fun (u : nat) (c : nat) (x : nat) => (S u, match u with 0 => [[Any x]] | _ => [] end, 3 <=? u)) (fun w u x => (u, x * x)).
Proof.
  intros n log NE LE. fold (sq n) in *. rewrite NetProofs4.sent_app, app_length in LE. simpl in LE.
  assert (Q : forall log u, (forall cm, In cm log -> snd cm <> Eos) -> 4 <= u + length log -> log <> [] -> quits (sq n) 0 u log = true).
  { clear. induction log as [|[c [x|]] log IH]; intros u NE L NN; [congruence| |exfalso; apply (NE (c, Eos)); [left; auto|auto]].
    cbn [quits]. cbn [sq mw_net svc fst snd]. destruct (3 <=? u) eqn:B; [reflexivity|]. apply Nat.leb_gt in B. rewrite orb_false_l. apply IH.
    - intros cm H. apply NE. right. auto.
    - simpl in L. lia.
    - intros ->. simpl in L. lia. }
  destruct log as [|[c [x|]] log].
  - simpl in LE. lia.
  - apply Q; [auto| |discriminate]. cbn [replies sq mw_net svc] in LE. cbn [app] in LE. cbn [sent flat_map] in LE.
    rewrite app_length in LE. simpl in LE. simpl. lia.
  - exfalso. apply (NE (c, Eos)); [left; auto|auto].
Qed.
Example sq_bound : forall n log, length (concat ([[Any 3]; [Any 4]; [To 0 (Item 5)]] ++ replies (sq n) 0 0 log)) <= 4.
Proof.
  intros n log. rewrite concat_app, app_length. destruct (sq_replies n log 0) as [_ H].
  replace (if 0 =? 0 then 1 else 0) with 1 in H by reflexivity. simpl. lia.
Qed.

Definition sq_run : list act :=
  [Put 0 0 1; Next 0; Put 0 0 0; Next 0; Get 1 0; Put 1 0 0; Next 1; Put 0 0 0; Next 0; Get 0 2; Get 2 1; Put 0 0 1; Next 0;
   Put 2 0 0; Next 2; Get 1 0; Put 1 0 0; Next 1; Get 2 1; Get 0 3; Put 2 0 0; Next 2; Get 0 2; Get 0 3; Put 0 1 0; Put 0 0 0; Next 0; Fin 0;
   Get 1 0; Put 1 0 0; Next 1; Fin 1; Get 2 1; Put 2 0 0; Next 2; Fin 2].
Example sq_done : exists s, exec (step (sq 2)) (init_st (sq 2)) sq_run = Some s /\ all_done (sq 2) s /\
  hl s 0 = [(2, Item 16); (3, Item 9); (2, Item 25); (3, Item 256)].
Proof.
  eexists. split; [vm_compute; reflexivity|]. split.
  - intros v Hv. simpl in Hv. do 3 (destruct v as [|v]; [reflexivity|]). lia.
  - reflexivity.
Qed.

Print Assumptions mw_results.
Print Assumptions mw_completes.
Print Assumptions mw_terminates.
Print Assumptions mw_workers_end_after.
