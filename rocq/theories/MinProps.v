(** C66: what a multi-input node is told about its channels. *)
From Coq Require Import List Arith Bool ZArith Lia.
From Verif Require Import Base GatherModel MinModel MinSpec.
From Verif Require MinProofs.
Import ListNotations.

(** A program registers channels with set_input and set_input_feedback, in any order ([l]), and the node
    runs; [content c] is what channel [c] delivers. *)
Definition node_start {C A St : Type} (l : list (reg C)) (content : C -> list (msg A))
    (r : Z) (ne nf : nat) (sk : bool) (u : St) : mst A St :=
  start (length (workers l)) r ne nf sk u (map content (workers l)).
Definition node_step {C A B St : Type} (l : list (reg C)) (each : bool)
    (svc : St -> option A -> Z -> bool -> St * fres B) (eosn : St -> Z -> Z -> bool -> St) :=
  step (length (workers l)) (feedbackid l) each svc eosn.

Lemma worker_in : forall C (l : list (reg C)) k c, nth_error (ins l) k = Some c ->
  nth_error (workers l) (feedbackid l + k) = Some c.
Proof.
  intros C l k c E. unfold workers, feedbackid. rewrite nth_error_app2 by lia.
  rewrite Nat.add_comm, Nat.add_sub. exact E.
Qed.
Lemma worker_fb : forall C (l : list (reg C)) k c, nth_error (fbs l) k = Some c ->
  nth_error (workers l) k = Some c.
Proof.
  intros C l k c E. unfold workers. rewrite nth_error_app1; [exact E|]. apply nth_error_Some. congruence.
Qed.
Lemma nth_content : forall C A (l : list (reg C)) (content : C -> list (msg A)) i c,
  nth_error (workers l) i = Some c -> i < length (workers l) /\ nth i (map content (workers l)) [] = content c.
Proof.
  intros C A l content i c E. split; [apply nth_error_Some; congruence|].
  apply nth_error_nth. apply map_nth_error. exact E.
Qed.

Section About.
  Context {C A B St : Type} (l : list (reg C)) (content : C -> list (msg A)) (each : bool)
          (svc : St -> option A -> Z -> bool -> St * fres B) (eosn : St -> Z -> Z -> bool -> St).
  Hypothesis some : 0 < length (workers l).

  (** In every run (the first or a later one), for every arrival order: the calls made with
      get_channel_id() = k and fromInput() are those due to the messages of the k-th channel given to
      set_input, in order; the calls with get_channel_id() = k and not fromInput() are those due to the k-th
      channel given to set_input_feedback; there are no others. *)
  Theorem min_told : forall r ne nf sk u p s,
    exec (node_step l each svc eosn) (node_start l content r ne nf sk u) p = Some s ->
    (forall k c, nth_error (ins l) k = Some c ->
       prefix_of (filter (about (Z.of_nat k) true) (filter of_message (calls s))) (due each (Z.of_nat k) true (content c))) /\
    (forall k c, nth_error (fbs l) k = Some c ->
       prefix_of (filter (about (Z.of_nat k) false) (filter of_message (calls s))) (due each (Z.of_nat k) false (content c))) /\
    (forall x, In x (calls s) -> of_message x = true ->
       exists k, k < length (ins l) /\ told x = (Z.of_nat k, true) \/
                 k < length (fbs l) /\ told x = (Z.of_nat k, false)).
  Proof using some.
    intros r ne nf sk u p s E.
    assert (LC : length (map content (workers l)) = length (workers l)) by apply map_length.
    assert (I : MinProofs.inv (length (workers l)) (feedbackid l) each (map content (workers l)) s).
    { refine (exec_inv (node_step l each svc eosn) _ _ _ _ _ _ E).
      - intros a b c I H. eapply MinProofs.inv_step; eauto.
      - apply MinProofs.inv_start; assumption. }
    assert (G : forall i, i < length (workers l) ->
      prefix_of (MinProofs.seen (feedbackid l) i (calls s))
                (MinProofs.dueof (feedbackid l) each i (nth i (map content (workers l)) []))).
    { intros i Li. destruct (nth i (offline s) true) eqn:O.
      - exists []. rewrite app_nil_r. eapply MinProofs.v_end; eauto.
      - eexists. eapply MinProofs.v_run; eauto. }
    split; [|split].
    - intros k c Ek. destruct (nth_content _ _ l content _ _ (worker_in _ l k c Ek)) as [Li EN].
      specialize (G _ Li). rewrite EN in G. unfold MinProofs.seen, MinProofs.dueof in G.
      rewrite (MinProofs.obs_val (length (workers l)) (feedbackid l) (map content (workers l)) some LC) in G.
      destruct (Nat.ltb_spec (feedbackid l + k) (feedbackid l)); [lia|].
      replace (feedbackid l + k - feedbackid l) with k in G by lia. exact G.
    - intros k c Ek. destruct (nth_content _ _ l content _ _ (worker_fb _ l k c Ek)) as [Li EN].
      specialize (G _ Li). rewrite EN in G. unfold MinProofs.seen, MinProofs.dueof in G.
      rewrite (MinProofs.obs_val (length (workers l)) (feedbackid l) (map content (workers l)) some LC) in G.
      assert (k < feedbackid l) by (apply nth_error_Some; congruence).
      destruct (Nat.ltb_spec k (feedbackid l)); [exact G|lia].
    - intros x X M. destruct (MinProofs.v_from _ _ _ _ _ I x X M) as (i & Li & T).
      rewrite (MinProofs.obs_val (length (workers l)) (feedbackid l) (map content (workers l)) some LC) in T.
      unfold workers in Li. rewrite app_length in Li. fold (feedbackid l) in Li.
      destruct (Nat.ltb_spec i (feedbackid l)) as [K|K].
      + exists i. right. split; [exact K|exact T].
      + exists (i - feedbackid l). left. split; [lia|exact T].
  Qed.

  (** If svc never asks to leave, then when the node has ended all the calls due have been made. *)
  Theorem min_told_all : forall r sk u p s,
    stays svc ->
    exec (node_step l each svc eosn) (node_start l content r 0 0 sk u) p = Some s -> stop s <> None ->
    (forall k c, nth_error (ins l) k = Some c ->
       filter (about (Z.of_nat k) true) (filter of_message (calls s)) = due each (Z.of_nat k) true (content c)) /\
    (forall k c, nth_error (fbs l) k = Some c ->
       filter (about (Z.of_nat k) false) (filter of_message (calls s)) = due each (Z.of_nat k) false (content c)).
  Proof using some.
    intros r sk u p s STAY E ES.
    assert (LC : length (map content (workers l)) = length (workers l)) by apply map_length.
    assert (I : MinProofs.inv (length (workers l)) (feedbackid l) each (map content (workers l)) s).
    { refine (exec_inv (node_step l each svc eosn) _ _ _ _ _ _ E).
      - intros a b c I H. eapply MinProofs.inv_step; eauto.
      - apply MinProofs.inv_start; assumption. }
    assert (N : MinProofs.cnt (length (workers l)) s).
    { refine (exec_inv (node_step l each svc eosn) _ _ _ _ _ _ E).
      - intros a b c N H. eapply MinProofs.cnt_step; eauto.
      - eapply MinProofs.cnt_start; eauto. }
    destruct N as [LO N]. destruct (stop s); [|congruence].
    assert (G : forall i, i < length (workers l) ->
      MinProofs.seen (feedbackid l) i (calls s) =
      MinProofs.dueof (feedbackid l) each i (nth i (map content (workers l)) [])).
    { intros i Li. eapply MinProofs.v_end; eauto. apply MinProofs.trues_all; lia. }
    split.
    - intros k c Ek. destruct (nth_content _ _ l content _ _ (worker_in _ l k c Ek)) as [Li EN].
      specialize (G _ Li). rewrite EN in G. unfold MinProofs.seen, MinProofs.dueof in G.
      rewrite (MinProofs.obs_val (length (workers l)) (feedbackid l) (map content (workers l)) some LC) in G.
      destruct (Nat.ltb_spec (feedbackid l + k) (feedbackid l)); [lia|].
      replace (feedbackid l + k - feedbackid l) with k in G by lia. exact G.
    - intros k c Ek. destruct (nth_content _ _ l content _ _ (worker_fb _ l k c Ek)) as [Li EN].
      specialize (G _ Li). rewrite EN in G. unfold MinProofs.seen, MinProofs.dueof in G.
      rewrite (MinProofs.obs_val (length (workers l)) (feedbackid l) (map content (workers l)) some LC) in G.
      assert (k < feedbackid l) by (apply nth_error_Some; congruence).
      destruct (Nat.ltb_spec k (feedbackid l)); [exact G|lia].
  Qed.

  (** eosnotify() without argument: never before the end, and never if the node is notified at each end.
      Otherwise it is the last call, and there is one, if every channel ends with the usual mark. *)
  Definition quiet (s : mst A St) : Prop := filter at_the_end (calls s) = [].
  Definition only_eos (cs : list (list (msg A))) : Prop := forall q k, In q cs -> In (Mark k) q -> k = Eos.
  Definition once (s : mst A St) : Prop :=
    exists pre i b, calls s = pre ++ [CEos (-1) i b] /\ filter at_the_end pre = [].
  Lemma in_lupd : forall (X : Type) (m : list X) i x y, In y (lupd m i x) -> y = x \/ In y m.
  Proof using. induction m as [|a m IH]; intros [|i] x y H; cbn in *; intuition. destruct (IH _ _ _ H0); auto. Qed.

  Section Notify.
    Let n := length (workers l).
    Let f := feedbackid l.
    Lemma chid_nonneg : forall r, (0 <= fst (chid f (Z.of_nat r)))%Z.
    Proof using.
    clear some.
      intros r. unfold chid. destruct (Nat.ltb_spec 0 f), (Z.ltb_spec (Z.of_nat r) (Z.of_nat f)); cbn [andb fst]; try lia.
    Qed.
    Definition good (s : mst A St) : Prop :=
      match stop s with
      | None => quiet s
      | Some _ => each = true -> quiet s
      end.
    Lemma finish_good : forall s r, quiet s -> good (finish n f each eosn s r).
    Proof using.
    clear some.
      intros s r Q. unfold good, finish, quiet in *. destruct r as [[]|], each, (chid f (nextr s)); cbn; auto; discriminate.
    Qed.
    Lemma loop_good : forall s, stop s = None -> quiet s -> good (loop n f each eosn s).
    Proof using.
    clear some.
      intros s N Q. unfold loop. destruct ((neos s <? n) && (neosnf s <? n)); [|apply finish_good; auto]. unfold good. rewrite N. auto.
    Qed.
    Lemma call_good : forall s t, quiet s -> good (call n f each svc eosn s t).
    Proof using.
    clear some.
      intros s t Q. unfold call. destruct (chid f (nextr s)) as [i b]. destruct (svc (ust s) t i b) as [u r].
      assert (Q' : filter (at_the_end (A := A)) (calls s ++ [CSvc t i b]) = []) by (rewrite filter_app; unfold quiet in Q; rewrite Q; reflexivity).
      destruct r as [y| | |[]|]; first [apply loop_good; [reflexivity|exact Q'] | apply finish_good; exact Q'].
    Qed.
    Lemma ended_good : forall s r k, stop s = None -> quiet s -> good (ended n f each eosn s r k).
    Proof using.
    clear some.
      intros s r k N Q. unfold ended. pose proof (chid_nonneg r) as Z0. destruct (chid f (Z.of_nat r)) as [i b]. cbn [fst] in Z0.
      unfold quiet in Q. 
      match goal with |- context [let (_, _) := ?e in _] => assert (FE : filter (at_the_end (A := A)) (snd e) = []); [|destruct e as [u cl]] end.
      { destruct each; cbn [snd]; [|exact Q]. rewrite filter_app, Q. cbn. destruct (Z.eqb_spec i (-1)); [lia|reflexivity]. }
      apply loop_good; [reflexivity|exact FE].
    Qed.
    Lemma step_good : forall s a s', good s -> step n f each svc eosn s a = Some s' -> good s'.
    Proof using.
    clear some.
      intros s [v] s' G H. unfold step in H. destruct (stop s) eqn:E; [discriminate|]. unfold good in G. rewrite E in G.
      destruct (skip s); [injection H as <-; apply call_good; exact G|]. destruct (select _ _ _ _) as [i|]; [|discriminate].
      destruct v; [|injection H as <-; exact G]. destruct (nth i (chans s) []) as [|m q]; [injection H as <-; exact G|].
      destruct m as [x| |k]; injection H as <-.
      - apply call_good. exact G.
      - apply loop_good; [reflexivity|exact G].
      - apply ended_good; [reflexivity|exact G].
    Qed.

    (** The same when every channel ends with the usual mark. *)
    Definition good2 (s : mst A St) : Prop :=
      ret s = Eos /\ only_eos (chans s) /\ match stop s with None => quiet s | Some _ => each = false -> once s end.
    Lemma finish_good2 : forall s, ret s = Eos -> only_eos (chans s) -> quiet s -> good2 (finish n f each eosn s (RMark Eos)).
    Proof using.
    clear some.
      intros s N O Q. unfold good2, finish. destruct each, (chid f (nextr s)) as [i b]; cbn; split; auto; split; auto; [discriminate|].
      intros _. exists (calls s), i, b. auto.
    Qed.
    Lemma loop_good2 : forall s, stop s = None -> ret s = Eos -> only_eos (chans s) -> quiet s -> good2 (loop n f each eosn s).
    Proof using.
    clear some.
      intros s N R O Q. unfold loop. destruct ((neos s <? n) && (neosnf s <? n)); [|rewrite R; apply finish_good2; auto].
      unfold good2. rewrite N. auto.
    Qed.
    Lemma call_good2 : forall s t, stays svc -> ret s = Eos -> only_eos (chans s) -> quiet s -> good2 (call n f each svc eosn s t).
    Proof using.
    clear some.
      intros s t ST R O Q. unfold call. destruct (chid f (nextr s)) as [i b]. specialize (ST (ust s) t i b).
      destruct (svc (ust s) t i b) as [u r]. cbn in ST.
      assert (Q' : filter (at_the_end (A := A)) (calls s ++ [CSvc t i b]) = []) by (rewrite filter_app; unfold quiet in Q; rewrite Q; reflexivity).
      destruct r as [y| | |[]|]; try contradiction; (apply loop_good2; auto).
    Qed.
    Lemma step_good2 : forall s a s', stays svc -> good2 s -> step n f each svc eosn s a = Some s' -> good2 s'.
    Proof using.
    clear some.
      intros s [v] s' ST (R & O & G) H. unfold step in H. destruct (stop s) eqn:E; [discriminate|].
      destruct (skip s); [injection H as <-; apply call_good2; auto|]. destruct (select _ _ _ _) as [i|]; [|discriminate].
      assert (K : good2 (mkM (Z.of_nat i) (offline s) (neos s) (neosnf s) (ret s) false (ust s) (chans s) (calls s) None)) by (split; auto).
      destruct v; [|injection H as <-; exact K]. destruct (nth i (chans s) []) as [|m q] eqn:EN; [injection H as <-; exact K|].
      assert (IN : In (m :: q) (chans s)).
      { rewrite <- EN. apply nth_In. destruct (Nat.lt_ge_cases i (length (chans s))) as [L|L]; [exact L|]. rewrite nth_overflow in EN by exact L. discriminate. }
      assert (O' : only_eos (lupd (chans s) i q)).
      { intros q' k Hq Hk. apply in_lupd in Hq. destruct Hq as [->|Hq]; [|eapply O; eauto]. apply (O _ k IN). right. exact Hk. }
      destruct m as [x| |k]; injection H as <-.
      - apply call_good2; auto.
      - apply loop_good2; auto.
      - assert (KE : k = Eos) by (apply (O _ k IN); left; reflexivity). subst k. unfold ended. pose proof (chid_nonneg i) as Z0.
        destruct (chid f (Z.of_nat i)) as [j b]. cbn [fst] in Z0. unfold quiet in G. 
        match goal with |- context [let (_, _) := ?e in _] => assert (FE : filter (at_the_end (A := A)) (snd e) = []); [|destruct e as [u cl]] end.
        { destruct each; cbn [snd calls]; [|exact G]. rewrite filter_app, G. cbn. destruct (Z.eqb_spec j (-1)); [lia|reflexivity]. }
        apply loop_good2; auto.
    Qed.
  End Notify.

  Theorem min_end_notified : forall r ne nf sk u p s,
    exec (node_step l each svc eosn) (node_start l content r ne nf sk u) p = Some s ->
    (stop s = None \/ each = true -> filter at_the_end (calls s) = []) /\
    (stop s <> None -> each = false -> stays svc -> (forall c k, In (Mark k) (content c) -> k = Eos) ->
     exists pre i b, calls s = pre ++ [CEos (-1) i b] /\ filter at_the_end pre = []).
  Proof using.
    clear some.
    intros r ne nf sk u p s E. split.
    - assert (G : good s).
      { refine (exec_inv (node_step l each svc eosn) _ _ _ _ _ _ E); [intros; eapply step_good; eauto|reflexivity]. }
      unfold good in G. destruct (stop s); intros [X|X]; try discriminate X; first [exact G|exact (G X)].
    - intros NS EE ST OE. assert (G : good2 s).
      { refine (exec_inv (node_step l each svc eosn) _ _ _ _ _ _ E); [intros; eapply step_good2; eauto|].
        split; [reflexivity|]. split; [|reflexivity]. intros q k Hq Hk. cbn [node_start start chans] in Hq. apply in_map_iff in Hq.
        destruct Hq as (c & <- & _). eauto. }
      destruct G as (_ & _ & G). destruct (stop s); [|destruct (NS eq_refl)]. exact (G EE).
  Qed.

  (** The call without a task that starts a node set up with skipfirstpop: in the first run the channel
      number is -1, the number of no channel. *)
  Theorem min_first_call_partial : forall u v p s,
    exec (node_step l each svc eosn) (node_start l content (-1) 0 0 true u) (v :: p) = Some s ->
    exists b rest, calls s = CSvc None (-1) b :: rest.
  Proof using some.
    intros u v p s E. cbn [exec] in E.
    destruct (node_step l each svc eosn (node_start l content (-1) 0 0 true u) v) as [s1|] eqn:E1; [|discriminate].
    assert (P1 : exists b rest, calls s1 = CSvc None (-1) b :: rest).
    { unfold node_step, step in E1. destruct v. cbn [node_start start stop skip] in E1. injection E1 as <-.
      unfold call. cbn [nextr offline neos neosnf ret skip chans calls ust].
      assert (CH : exists b, chid (feedbackid l) (-1) = ((-1)%Z, b)).
      { unfold chid. destruct (Nat.ltb_spec 0 (feedbackid l)) as [K|K]; cbn [andb].
        - destruct (Z.ltb_spec (-1) (Z.of_nat (feedbackid l))); [eauto|lia].
        - exists true. f_equal. lia. }
      destruct CH as (b & ->). destruct (svc u None (-1)%Z b) as [u' r']. exists b.
      assert (LP : forall x : mst A St, exists y, calls (loop (length (workers l)) (feedbackid l) each eosn x) = calls x ++ y).
      { intros x. destruct (MinProofs.loop_same (length (workers l)) (feedbackid l) each eosn x) as (_ & _ & y & Y & _). eauto. }
      assert (FP : forall (x : mst A St) q, exists y, calls (finish (length (workers l)) (feedbackid l) each eosn x q) = calls x ++ y).
      { intros x q. destruct (MinProofs.finish_same (length (workers l)) (feedbackid l) each eosn x q) as (_ & _ & y & Y & _). eauto. }
      destruct r' as [y| | |[]|];
        match goal with
        | |- context [loop _ _ _ _ ?x] => destruct (LP x) as (y' & ->)
        | |- context [finish _ _ _ _ ?x ?q] => destruct (FP x q) as (y' & ->)
        end; cbn [calls app]; eauto. }
    destruct P1 as (b & rest & P1).
    assert (K : exists y, calls s = calls s1 ++ y).
    { refine (exec_inv (node_step l each svc eosn) (fun t => exists y, calls t = calls s1 ++ y) _ _ _ _ _ E).
      - intros a w c (y & Y) H.
        assert (X : exists z, calls c = calls a ++ z); [|destruct X as (z & ->); rewrite Y, <- app_assoc; eauto].
        clear - H. unfold node_step, step in H. destruct w as [w]. destruct (stop a); [discriminate|].
        assert (LP : forall x : mst A St, exists y, calls (loop (length (workers l)) (feedbackid l) each eosn x) = calls x ++ y).
        { intros x. destruct (MinProofs.loop_same (length (workers l)) (feedbackid l) each eosn x) as (_ & _ & y & Y & _). eauto. }
        assert (FP : forall (x : mst A St) q, exists y, calls (finish (length (workers l)) (feedbackid l) each eosn x q) = calls x ++ y).
        { intros x q. destruct (MinProofs.finish_same (length (workers l)) (feedbackid l) each eosn x q) as (_ & _ & y & Y & _). eauto. }
        assert (CP : forall (x : mst A St) t, exists y, calls (call (length (workers l)) (feedbackid l) each svc eosn x t) = calls x ++ y).
        { intros x t. unfold call. destruct (chid (feedbackid l) (nextr x)) as [i b].
          destruct (svc (ust x) t i b) as [u r]. destruct r as [y| | |[]|];
          match goal with
          | |- context [loop _ _ _ _ ?x] => destruct (LP x) as (y' & ->)
          | |- context [finish _ _ _ _ ?x ?q] => destruct (FP x q) as (y' & ->)
          end; cbn [calls]; rewrite <- app_assoc; eauto. }
        assert (N : exists z, calls a = calls a ++ z) by (exists []; rewrite app_nil_r; reflexivity).
        destruct (skip a).
        + injection H as <-. match goal with |- context [call _ _ _ _ _ ?x ?t] => exact (CP x t) end.
        + destruct (select _ _ _ _) as [i|]; [|discriminate].
          destruct w; [|injection H as <-; exact N].
          destruct (nth i (chans a) []) as [|m q]; [injection H as <-; exact N|].
          destruct m as [x| |k]; injection H as <-.
          * match goal with |- context [call _ _ _ _ _ ?x ?t] => exact (CP x t) end.
          * match goal with |- context [loop _ _ _ _ ?x] => exact (LP x) end.
          * unfold ended. cbn [nextr offline neos neosnf ret skip chans calls ust].
            destruct (chid (feedbackid l) (Z.of_nat i)) as [id b].
            assert (Q : exists u' z, (if each then (eosn (ust a) id id b, calls a ++ [CEos id id b]) else (ust a, calls a)) = (u', calls a ++ z)).
            { destruct each; [eauto|]. exists (ust a), []. rewrite app_nil_r. reflexivity. }
            destruct Q as (u' & z & ->).
            match goal with |- context [loop _ _ _ _ ?x] => destruct (LP x) as (y' & ->) end.
            cbn [calls]. rewrite <- app_assoc. eauto.
      - exists []. rewrite app_nil_r. reflexivity. }
    destruct K as (y & ->). rewrite P1. exists b, (rest ++ y). reflexivity.
  Qed.
End About.

(** In a later run the number is that of the channel the previous run read last, and in every run of a node
    without feedback channels fromInput() is true: the call cannot be told from one that handles a message by
    looking at the channel. *)
Definition min_first_call_claim : Prop :=
  forall (l : list (reg nat)) content content' (svc : unit -> option nat -> Z -> bool -> unit * fres nat) eosn each p s v s',
  0 < length (workers l) -> stays svc ->
  exec (node_step l each svc eosn) (node_start l content (-1) 0 0 true tt) p = Some s -> stop s <> None ->
  exec (node_step l each svc eosn) (node_start l content' (nextr s) (neos s) (neosnf s) true (ust s)) [v] = Some s' ->
  exists b rest, calls s' = CSvc None (-1) b :: rest.

Definition min_from_input_claim : Prop :=
  forall (l : list (reg nat)) content (svc : unit -> option nat -> Z -> bool -> unit * fres nat) eosn each v s i b,
  0 < length (workers l) -> stays svc ->
  exec (node_step l each svc eosn) (node_start l content (-1) 0 0 true tt) [v] = Some s ->
  In (CSvc None i b) (calls s) -> b = false.

Definition svc_on : unit -> option nat -> Z -> bool -> unit * fres nat := fun u _ _ _ => (u, FGoOn).
Definition eosn_on : unit -> Z -> Z -> bool -> unit := fun u _ _ _ => u.

Theorem min_first_call_refuted : ~ min_first_call_claim.
Proof.
  intros H.
  set (l := [RegIn 0; RegIn 1]). set (co := fun _ : nat => [Mark Eos] : list (msg nat)).
  destruct (exec (node_step l true svc_on eosn_on) (node_start l co (-1) 0 0 true tt) [Poll true; Poll true; Poll true])
    as [s|] eqn:E; [|vm_compute in E; discriminate].
  assert (SS : stop s <> None) by (vm_compute in E; injection E as <-; discriminate).
  destruct (exec (node_step l true svc_on eosn_on) (node_start l co (nextr s) (neos s) (neosnf s) true (ust s)) [Poll true])
    as [s'|] eqn:E'; [|vm_compute in E; injection E as <-; vm_compute in E'; discriminate].
  destruct (H l co co svc_on eosn_on true _ s _ s' ltac:(vm_compute; lia) ltac:(intros ? ? ? ?; exact Logic.I) E SS E') as (b & rest & X).
  vm_compute in E. injection E as <-. vm_compute in E'. injection E' as <-. cbn in X. discriminate.
Qed.

Theorem min_from_input_refuted : ~ min_from_input_claim.
Proof.
  intros H.
  destruct (exec (node_step [RegIn 0] true svc_on eosn_on) (node_start [RegIn 0] (fun _ => []) (-1) 0 0 true tt) [Poll true])
    as [s|] eqn:E; [|vm_compute in E; discriminate].
  assert (X := H [RegIn 0] (fun _ => []) svc_on eosn_on true (Poll true) s (-1)%Z true ltac:(vm_compute; lia)
                 ltac:(intros ? ? ? ?; exact Logic.I) E).
  vm_compute in E. injection E as <-. cbn in X. specialize (X (or_introl eq_refl)). discriminate.
Qed.

(** ** Non-vacuity: two inputs and a feedback channel registered in between, a complete run. *)
Definition demo : list (reg nat) := [RegIn 10; RegFb 20; RegIn 11].
Definition demo_content (c : nat) : list (msg nat) :=
  match c with 10 => [Task 1; Mark Eos] | 11 => [Task 2; GoOn; Task 3; Mark Eos] | _ => [Task 4; Mark Eos] end.
Example min_run : exists p s,
  0 < length (workers demo) /\ stays svc_on /\
  exec (node_step demo true svc_on eosn_on) (node_start demo demo_content (-1) 0 0 true tt) p = Some s /\
  stop s <> None /\
  calls s = [CSvc None (-1) false; CSvc (Some 4) 0 false; CSvc (Some 2) 1 true; CEos 0 0 false;
             CSvc (Some 1) 0 true; CEos 0 0 true; CSvc (Some 3) 1 true; CEos 1 1 true].
Proof.
  exists [Poll true; Poll true; Poll false; Poll true; Poll true; Poll true; Poll true; Poll true; Poll true; Poll true].
  eexists. split; [vm_compute; lia|]. split; [intros ? ? ? ?; exact Logic.I|].
  split; [vm_compute; reflexivity|]. split; [discriminate|reflexivity].
Qed.

(** The same node not notified at each end: one call of eosnotify, the last. *)
Example min_run_end : exists p s pre i b,
  exec (node_step demo false svc_on eosn_on) (node_start demo demo_content (-1) 0 0 true tt) p = Some s /\
  stop s <> None /\ (forall c k, In (Mark k) (demo_content c) -> k = Eos) /\
  calls s = pre ++ [CEos (-1) i b] /\ length pre = 5.
Proof.
  exists [Poll true; Poll true; Poll false; Poll true; Poll true; Poll true; Poll true; Poll true; Poll true; Poll true].
  eexists. eexists [_; _; _; _; _], _, _. split; [vm_compute; reflexivity|]. split; [discriminate|]. split; [|split; reflexivity].
  assert (N : forall l : list (msg nat), forallb (fun m => match m with Mark Eos => true | Mark _ => false | _ => true end) l = true ->
              forall k, In (Mark k) l -> k = Eos).
  { intros l F k H. rewrite forallb_forall in F. specialize (F _ H). destruct k; congruence. }
  intros c. apply N. unfold demo_content. do 12 (destruct c as [|c]; [reflexivity|]). reflexivity.
Qed.

Print Assumptions min_told.
Print Assumptions min_told_all.
Print Assumptions min_end_notified.
Print Assumptions min_first_call_partial.
Print Assumptions min_first_call_refuted.
Print Assumptions min_from_input_refuted.
