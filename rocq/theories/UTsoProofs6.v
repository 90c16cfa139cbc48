From Coq Require Import List Arith Bool Lia.
From Verif Require Import Base UTsoModel UTsoSpec UTsoProofs UTsoProofs2 UTsoProofs3 UTsoProofs5.
Import ListNotations.

Lemma replay_det : forall t p q b p1 q1 b1 p2 q2 b2, replay t p q b p1 q1 b1 -> replay t p q b p2 q2 b2 -> p1 = p2 /\ q1 = q2.
Proof.
  induction t as [|e t IH]; intros p q b p1 q1 b1 p2 q2 b2 H1 H2; cbn [replay] in *.
  - destruct H1 as (-> & -> & _), H2 as (-> & -> & _). auto.
  - destruct e; eauto.
    + destruct H1 as (x & u & E1 & H1), H2 as (x' & u' & E2 & H2). rewrite E1 in E2. injection E2 as <- <-. eauto.
    + destruct H1 as (u & E1 & H1), H2 as (v & E2 & H2). rewrite E1 in E2. injection E2 as <-. eauto.
    + destruct H1, H2. eauto.
Qed.
Lemma replay_pushes : forall t p q b p' q' b', replay t p q b p' q' b' -> q ++ p ++ pushes t = pops t ++ q' ++ p'.
Proof.
  induction t as [|e t IH]; intros p q b p' q' b' R; cbn [replay pushes pops app] in *.
  - destruct R as (-> & -> & _). rewrite app_nil_r. reflexivity.
  - destruct e.
    + rewrite <- (IH _ _ _ _ _ _ R). rewrite <- !app_assoc. reflexivity.
    + destruct R as (x & p1 & -> & R). rewrite <- (IH _ _ _ _ _ _ R). rewrite <- !app_assoc. reflexivity.
    + eauto.
    + destruct R as (q1 & -> & R). cbn [app]. rewrite (IH _ _ _ _ _ _ R). reflexivity.
    + destruct R. eauto.
Qed.

Section Proofs.
Variable n : nat.
Hypothesis Hn : 1 <= n.

Lemma main_fifo : forall l s, exec (step n) init_st l = Some s -> exists p q, delayed_fifo (tr s) p q.
Proof. intros l s E. destruct (exec_Inv n Hn l s E) as (saw & I). exists (enqs (pbuf s)), (vstored s), saw. apply (i_rep _ _ _ I). Qed.
Lemma main_order : forall t p q, delayed_fifo t p q -> pushes t = pops t ++ q ++ p.
Proof. intros t p q (b & R). apply (replay_pushes _ _ _ _ _ _ _ R). Qed.
Lemma main_prefix : forall l s, exec (step n) init_st l = Some s -> prefix (pops (tr s)) (pushes (tr s)).
Proof. intros l s E. destruct (main_fifo l s E) as (p & q & F). exists (q ++ p). apply main_order. auto. Qed.
Lemma main_uaf : forall l s, exec (step n) init_st l = Some s -> uaf s = false.
Proof. intros l s E. destruct (exec_Inv n Hn l s E) as (saw & I). apply (i_uaf _ _ _ I). Qed.
Lemma main_way : forall l s p q, exec (step n) init_st l = Some s -> delayed_fifo (tr s) p q -> p = enqs (pbuf s).
Proof.
  intros l s p q E (b & R). destruct (exec_Inv n Hn l s E) as (saw & I). apply (replay_det _ _ _ _ _ _ _ _ _ _ R (i_rep _ _ _ I)).
Qed.
Lemma enqs_le : forall b, length (enqs b) <= length b.
Proof. induction b as [|y b IH]; cbn; [lia|]. destruct y; cbn; lia. Qed.
Lemma main_drained : forall l s p q, exec (step n) init_st l = Some s -> delayed_fifo (tr s) p q -> length p <= length (pbuf s).
Proof. intros l s p q E F. rewrite (main_way l s p q E F). apply enqs_le. Qed.
Lemma drain_steps : forall k s, length (pbuf s) = k -> exists s', exec (step n) s (repeat DrainP k) = Some s' /\ pbuf s' = [] /\
  pp s' = pp s /\ cp s' = cp s /\ pushes (tr s') = pushes (tr s) /\ pops (tr s') = pops (tr s).
Proof using n.
  clear Hn.
  induction k as [|k IH]; intros s L.
  - exists s. destruct (pbuf s) eqn:B; [|discriminate]. cbn. auto 7.
  - destruct (pbuf s) as [|z b] eqn:B; [discriminate|]. cbn [repeat exec step]. unfold drainP. rewrite B.
    assert (PA : forall t, pushes (t ++ [EVis]) = pushes t /\ pops (t ++ [EVis]) = pops t).
    { induction t as [|e t [I1 I2]]; cbn; auto. destruct e; cbn; rewrite ?I1, ?I2; auto. }
    destruct z; match goal with |- exists s', exec _ ?S _ = _ /\ _ => destruct (IH S ltac:(cbn in *; lia)) as (s' & H1 & H2 & H3 & H4 & H5 & H6) end;
      exists s'; (split; [exact H1|]); (split; [exact H2|]); (split; [exact H3|]); (split; [exact H4|]);
      cbn [tr emit set_cont setm touch] in H5, H6; destruct (PA (tr s)) as [P1 P2]; split; congruence.
Qed.
End Proofs.
