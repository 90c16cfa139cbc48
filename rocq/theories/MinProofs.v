(** Proofs about the channel numbers of a multi-input node. *)
From Coq Require Import List Arith Bool ZArith Lia.
From Verif Require Import Base GatherModel MinModel MinSpec.
From Verif Require GatherProofs.
Import ListNotations.

  Lemma nth_lupd : forall (X : Type) (l : list X) i j x d, i < length l ->
    nth j (lupd l i x) d = if j =? i then x else nth j l d.
  Proof.
    intros X l. induction l as [|y l IH]; intros i j x d L; [simpl in L; lia|].
    destruct i as [|i], j as [|j]; cbn [lupd nth Nat.eqb]; auto. apply IH. simpl in L. lia.
  Qed.

  Fixpoint trues (l : list bool) : nat := match l with [] => 0 | b :: l => (if b then 1 else 0) + trues l end.
  Lemma trues_le : forall l, trues l <= length l.
  Proof. induction l as [|[] l IH]; simpl; lia. Qed.
  Lemma trues_all : forall l, length l <= trues l -> forall i, i < length l -> nth i l true = true.
  Proof.
    induction l as [|b l IH]; intros H i Li; [destruct i; reflexivity|]. pose proof (trues_le l).
    destruct b; simpl in H; [|lia]. destruct i; [reflexivity|]. simpl. apply IH; simpl in *; lia.
  Qed.
  Lemma trues_lupd : forall l i, i < length l -> nth i l true = false -> trues (lupd l i true) = S (trues l).
  Proof.
    induction l as [|b l IH]; intros i Li E; [simpl in Li; lia|].
    destruct i as [|i]; simpl in *; [subst; reflexivity|]. rewrite IH by (auto; lia). lia.
  Qed.


Section P.
  Context {A B St : Type}.
  Variables (n f : nat) (each : bool).
  Variable svc : St -> option A -> Z -> bool -> St * fres B.
  Variable eosn : St -> Z -> Z -> bool -> St.
  Variable cs0 : list (list (msg A)).
  Hypothesis Hn : 0 < n.
  Hypothesis Hc : length cs0 = n.

  Definition obs (i : nat) : Z * bool := chid f (Z.of_nat i).
  Lemma obs_val : forall i, obs i = if i <? f then (Z.of_nat i, false) else (Z.of_nat (i - f), true).
  Proof using Hn Hc.
    intros i. unfold obs, chid.
    destruct (Nat.ltb_spec 0 f), (Nat.ltb_spec i f), (Z.ltb_spec (Z.of_nat i) (Z.of_nat f));
      cbn [andb]; try lia; f_equal; lia.
  Qed.
  Lemma obs_inj : forall i j, obs i = obs j -> i = j.
  Proof using Hn Hc.
    intros i j. rewrite !obs_val. destruct (Nat.ltb_spec i f), (Nat.ltb_spec j f); intros H1;
      injection H1; intros; try discriminate; lia.
  Qed.
  Lemma obs_nonneg : forall i, (0 <= fst (obs i))%Z.
  Proof using Hn Hc. intros i. rewrite obs_val. destruct (i <? f); cbn [fst]; lia. Qed.

  Definition seen (i : nat) (l : list (ucall A)) : list (ucall A) :=
    filter (about (fst (obs i)) (snd (obs i))) (filter of_message l).
  Lemma seen_app : forall i a b, seen i (a ++ b) = seen i a ++ seen i b.
  Proof using. intros. unfold seen. now rewrite filter_app, filter_app. Qed.

  Lemma about_obs : forall i (c : ucall A), about (fst (obs i)) (snd (obs i)) c = true <-> told c = obs i.
  Proof using Hn Hc.
    intros i c. unfold about. rewrite andb_true_iff, Z.eqb_eq, Bool.eqb_true_iff.
    destruct (told c), (obs i); cbn [fst snd]. split; [intros [-> ->]; reflexivity|intros X; injection X; auto].
  Qed.

  Lemma seen_one : forall i j (c : ucall A), of_message c = true -> told c = obs j ->
    seen i [c] = if i =? j then [c] else [].
  Proof using Hn Hc.
    intros i j c M T. unfold seen. cbn [filter]. rewrite M. cbn [filter].
    destruct (about (fst (obs i)) (snd (obs i)) c) eqn:E.
    - apply about_obs in E. rewrite E in T. apply obs_inj in T. subst. now rewrite Nat.eqb_refl.
    - destruct (Nat.eqb_spec i j) as [->|]; [|reflexivity].
      pose proof (proj2 (about_obs j c) T). congruence.
  Qed.

  Lemma seen_none : forall i (c : ucall A), of_message c = false -> seen i [c] = [].
  Proof using. intros i c M. unfold seen. cbn [filter]. rewrite M. reflexivity. Qed.

  Definition dueof (i : nat) (l : list (msg A)) : list (ucall A) := due each (fst (obs i)) (snd (obs i)) l.

  Record inv (s : mst A St) : Prop := {
    v_off : length (offline s) = n;
    v_len : length (chans s) = n;
    v_run : forall i, i < n -> nth i (offline s) true = false ->
            seen i (calls s) ++ dueof i (nth i (chans s) []) = dueof i (nth i cs0 []);
    v_end : forall i, i < n -> nth i (offline s) true = true ->
            seen i (calls s) = dueof i (nth i cs0 []);
    v_from : forall c, In c (calls s) -> of_message c = true -> exists i, i < n /\ told c = obs i }.

  (** Changes that neither add a call about a message nor touch the channels. *)
  Definition same (s s' : mst A St) : Prop :=
    offline s' = offline s /\ chans s' = chans s /\
    exists x, calls s' = calls s ++ x /\ forall c, In c x -> of_message c = false.
  Lemma seen_quiet : forall i x, (forall c, In c x -> of_message c = false) -> seen i x = [].
  Proof using.
    intros i x H. induction x as [|c x IH]; [reflexivity|].
    change (c :: x) with ([c] ++ x). rewrite seen_app, seen_none, IH; auto.
    - intros d D. apply H. right. exact D.
    - apply H. left. reflexivity.
  Qed.
  Lemma inv_same : forall s s', same s s' -> inv s -> inv s'.
  Proof using.
    intros s s' (E1 & E2 & x & E3 & Q) [I1 I2 I3 I4 I5].
    constructor; rewrite ?E1, ?E2, ?E3; auto.
    - intros i Li O. rewrite seen_app, (seen_quiet i x Q), app_nil_r. auto.
    - intros i Li O. rewrite seen_app, (seen_quiet i x Q), app_nil_r. auto.
    - intros c C M. apply in_app_or in C as [C|C]; [auto|]. rewrite (Q c C) in M. discriminate.
  Qed.
  Lemma same_refl : forall s, same s s.
  Proof using. intros s. split; [auto|]. split; [auto|]. exists []. rewrite app_nil_r. split; [auto|intros c []]. Qed.
  Lemma same_trans : forall a b c, same a b -> same b c -> same a c.
  Proof using.
    intros a b c (A1 & A2 & x & A3 & A4) (B1 & B2 & y & B3 & B4).
    split; [congruence|]. split; [congruence|]. exists (x ++ y). rewrite B3, A3, app_assoc. split; [auto|].
    intros d D. apply in_app_or in D as [D|D]; auto.
  Qed.

  Lemma finish_same : forall s r, same s (finish n f each eosn s r).
  Proof using.
    intros s r. unfold finish. destruct r as [[]|]; try (destruct each);
      try (repeat split; cbn [offline chans calls]; try reflexivity; exists []; rewrite app_nil_r; split; [reflexivity|intros c []]).
    destruct (chid f (nextr s)) as [i b]. split; [reflexivity|]. split; [reflexivity|].
    exists [CEos (-1) i b]. split; [reflexivity|]. intros c [<-|[]]. reflexivity.
  Qed.
  Lemma loop_same : forall s, same s (loop n f each eosn s).
  Proof using.
    intros s. unfold loop. destruct (_ && _); [apply same_refl|apply finish_same].
  Qed.

  (** A task of channel [i] that has just been taken. *)
  Lemma call_inv : forall s t, (forall s1 : mst A St, True) ->
    (forall u, inv (mkM (nextr s) (offline s) (neos s) (neosnf s) (ret s) (skip s) u (chans s)
                 (calls s ++ [CSvc t (fst (chid f (nextr s))) (snd (chid f (nextr s)))]) None)) ->
    inv (call n f each svc eosn s t).
  Proof using.
    intros s t _ H. unfold call. destruct (chid f (nextr s)) as [i b]. cbn [fst snd] in H.
    destruct (svc (ust s) t i b) as [u r]. specialize (H u).
    destruct r as [y| | |[]|];
      first [exact (inv_same _ _ (loop_same _) H) | exact (inv_same _ _ (finish_same _ _) H)].
  Qed.

  Lemma inv_step : forall s a s', step n f each svc eosn s a = Some s' -> inv s -> inv s'.
  Proof using Hn Hc.
    intros s [v] s' H I. unfold step in H.
    destruct (stop s); [discriminate|]. destruct (skip s) eqn:SK.
    - injection H as <-. apply call_inv; [auto|]. cbn [nextr offline neos neosnf ret skip chans calls].
      intros u. eapply inv_same; [|exact I].
      split; [reflexivity|]. split; [reflexivity|]. eexists. split; [reflexivity|].
      intros c [<-|[]]. reflexivity.
    - destruct (select n n _ (offline s)) as [i|] eqn:ES; [|discriminate].
      apply GatherProofs.select_sound in ES as [Li Oi]; [|exact Hn].
      destruct I as [I1 I2 I3 I4 I5].
      assert (NOP : forall r0 q u e, inv (mkM r0 (offline s) (neos s) (neosnf s) (ret s) q u (chans s) (calls s) e)).
      { intros. constructor; cbn [offline chans calls]; auto. }
      destruct v; [|injection H as <-; apply NOP].
      destruct (nth i (chans s) []) as [|m q] eqn:EQ; [injection H as <-; apply NOP|].
      destruct m as [x| |k]; injection H as <-.
      + (* a task *)
        apply call_inv; [auto|]. cbn [nextr offline neos neosnf ret skip chans calls]. intros u.
        fold (obs i).
        assert (M : of_message (CSvc (Some x) (fst (obs i)) (snd (obs i))) = true) by reflexivity.
        assert (T : told (CSvc (Some x) (fst (obs i)) (snd (obs i))) = obs i) by (cbn; destruct (obs i); reflexivity).
        constructor; cbn [offline chans calls]; auto.
        * rewrite lupd_length. exact I2.
        * intros j Lj Oj. rewrite seen_app, (seen_one j i _ M T), nth_lupd by lia.
          specialize (I3 j Lj Oj). destruct (Nat.eqb_spec j i) as [->|NE].
          -- rewrite EQ in I3. rewrite <- I3, <- app_assoc. reflexivity.
          -- rewrite app_nil_r. exact I3.
        * intros j Lj Oj. rewrite seen_app, (seen_one j i _ M T).
          destruct (Nat.eqb_spec j i) as [->|NE]; [congruence|]. rewrite app_nil_r. auto.
        * intros c C MC. apply in_app_or in C as [C|[<-|[]]]; [auto|]. exists i. auto.
      + (* GO_ON *)
        eapply inv_same; [apply loop_same|]. constructor; cbn [offline chans calls]; auto.
        * rewrite lupd_length. exact I2.
        * intros j Lj Oj. rewrite nth_lupd by lia. specialize (I3 j Lj Oj).
          destruct (Nat.eqb_spec j i) as [->|NE]; [|exact I3]. rewrite EQ in I3. exact I3.
      + (* a mark *)
        unfold ended. cbn [nextr offline neos neosnf ret skip chans calls ust].
        destruct (chid f (Z.of_nat i)) as [id b] eqn:EO.
        assert (OB : obs i = (id, b)) by exact EO.
        pose proof (obs_nonneg i) as NN. rewrite OB in NN. cbn [fst] in NN.
        set (x := if each then [CEos id id b] else [] : list (ucall A)).
        assert (X : forall j, seen j x = if j =? i then x else []).
        { intros j. unfold x. destruct each; [|destruct (j =? i); reflexivity].
          apply (seen_one j i); [cbn; destruct (Z.eqb_spec id (-1)); [lia|reflexivity]|cbn; auto]. }
        assert (G : forall u, inv (mkM (Z.of_nat i) (lupd (offline s) i true)
              (match k with EosNF => neos s | _ => S (neos s) end)
              (match k with EosNF => S (neosnf s) | _ => neosnf s end)
              k false u (lupd (chans s) i q) (calls s ++ x) None)).
        { intros u. constructor; cbn [offline chans calls].
          - rewrite lupd_length. exact I1.
          - rewrite lupd_length. exact I2.
          - intros j Lj Oj. rewrite nth_lupd in Oj by lia.
            destruct (Nat.eqb_spec j i) as [->|NE]; [discriminate|].
            rewrite seen_app, X, nth_lupd by lia. destruct (Nat.eqb_spec j i); [congruence|].
            rewrite app_nil_r. auto.
          - intros j Lj Oj. rewrite nth_lupd in Oj by lia. rewrite seen_app, X.
            destruct (Nat.eqb_spec j i) as [->|NE].
            + specialize (I3 i Li Oi). rewrite EQ in I3. rewrite <- I3. f_equal. unfold dueof. cbn [due].
              rewrite OB. reflexivity.
            + rewrite app_nil_r. auto.
          - intros c C MC. apply in_app_or in C as [C|C]; [auto|].
            unfold x in C. destruct each; [|destruct C]. destruct C as [<-|[]]. exists i. split; [exact Li|]. cbn. auto. }
        assert (PQ : exists u, (if each then (eosn (ust s) id id b, calls s ++ [CEos id id b]) else (ust s, calls s)) =
                               (u, calls s ++ x)).
        { unfold x. destruct each; [eauto|]. rewrite app_nil_r. eauto. }
        destruct PQ as (u & ->). eapply inv_same; [apply loop_same|apply G].
  Qed.

  Lemma inv_start : forall r ne nf sk u, inv (start n r ne nf sk u cs0).
  Proof using Hn Hc.
    intros. constructor; cbn [start offline chans calls]; auto.
    - apply repeat_length.
    - intros i Li O. rewrite nth_repeat in O || idtac. exfalso.
      assert (nth i (repeat false n) true = false).
      { clear O. revert i Li. clear Hc Hn. induction n as [|m IH]; intros [|i] Li; try lia; cbn; auto. apply IH. lia. }
      congruence.
    - intros c [].
  Qed.

  (** ** When svc never leaves early, the node stops only after all channels ended. *)
  Definition cnt (s : mst A St) : Prop :=
    length (offline s) = n /\
    match stop s with
    | None => neos s + neosnf s = trues (offline s)
    | Some _ => n <= trues (offline s)
    end.
  Hypothesis ST : stays svc.

  Lemma loop_cnt : forall s, stop s = None -> cnt s -> cnt (loop n f each eosn s).
  Proof using Hn Hc ST.
    intros s E [L C]. rewrite E in C. unfold loop.
    destruct (Nat.ltb_spec (neos s) n), (Nat.ltb_spec (neosnf s) n); cbn [andb];
      try (split; [exact L|]; rewrite E; exact C);
      (unfold finish; destruct (ret s); try (destruct each); try (destruct (chid f (nextr s)));
       split; cbn [offline stop]; auto; lia).
  Qed.

  Lemma cnt_step : forall s a s', step n f each svc eosn s a = Some s' -> cnt s -> cnt s'.
  Proof using Hn Hc ST.
    intros s [v] s' H [L C]. unfold step in H.
    destruct (stop s) eqn:SS; [discriminate|].
    assert (CALL : forall s1 t, stop s1 = None -> cnt s1 -> cnt (call n f each svc eosn s1 t)).
    { intros s1 t E1 [L1 C1]. rewrite E1 in C1. unfold call. destruct (chid f (nextr s1)) as [i b].
      pose proof (ST (ust s1) t i b) as Y. destruct (svc (ust s1) t i b) as [u r]. cbn [snd] in Y.
      destruct r; try contradiction; (apply loop_cnt; [reflexivity|split; [exact L1|exact C1]]). }
    destruct (skip s).
    - injection H as <-. apply CALL; [reflexivity|]. split; [exact L|exact C].
    - destruct (select n n _ (offline s)) as [i|] eqn:ES; [|discriminate].
      apply GatherProofs.select_sound in ES as [Li Oi]; [|exact Hn].
      destruct v; [|injection H as <-; split; [exact L|exact C]].
      destruct (nth i (chans s) []) as [|m q]; [injection H as <-; split; [exact L|exact C]|].
      destruct m as [x| |k]; injection H as <-.
      + apply CALL; [reflexivity|]. split; [exact L|exact C].
      + apply loop_cnt; [reflexivity|]. split; [exact L|exact C].
      + unfold ended. cbn [nextr offline neos neosnf ret skip chans calls ust].
        assert (TL : trues (lupd (offline s) i true) = S (trues (offline s))) by (apply trues_lupd; auto; lia).
        destruct (chid f (Z.of_nat i)) as [id b].
        destruct (if each then (eosn (ust s) id id b, calls s ++ [CEos id id b]) else (ust s, calls s)) as [u cl].
        apply loop_cnt; [reflexivity|]. split; cbn [offline stop neos neosnf];
          [rewrite lupd_length; exact L|rewrite TL; destruct k; lia].
  Qed.

  Lemma cnt_start : forall r sk u, cnt (start n r 0 0 sk u cs0).
  Proof using Hn Hc ST.
    intros. split; cbn [start offline stop neos neosnf]; [apply repeat_length|].
    clear. induction n; simpl; auto.
  Qed.
End P.
