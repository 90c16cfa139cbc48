(** C55: the bytes a value is serialised to are the bytes handed to the sender. *)
From Coq Require Import List ZArith Bool Lia FinFun.
From Verif Require Import SerModel SerProofs.
Import ListNotations.
Open Scope Z_scope.

Notation lenz l := (Z.of_nat (length l)).

(** Whatever sequence of values is serialised, each of at most 2^31 bytes: no access is out of
    bounds; the i-th buffer handed over, read back over its announced size, is exactly the bytes
    of the i-th value; no two values share a block; and behind each there are the 17 spare bytes
    the buffer reserves for a header. *)
Theorem ser_roundtrip : forall (B : Type) (values : list (list B)) (initial : Z),
  1 <= initial -> (forall v, In v values -> lenz v <= 2 ^ 31) ->
  exists outs s',
    ser_all values (ser_new 0 initial) = Some (outs, s') /\
    map (fun o => deser (snd (fst o)) (snd o)) outs = map (map Some) values /\
    map snd outs = map (fun v => lenz v) values /\
    NoDup (map (fun o => fst (fst o)) outs) /\
    (forall o, In o outs -> snd o + 17 <= lenz (snd (fst o))).
Proof.
  intros B values n L H. destruct (new_ok (B := B) 0 n L) as [H0 B0].
  destruct (ser_all_ok values (ser_new 0 n) H0 H) as (outs & s' & E & D & I & F). exists outs, s'. split; auto. split; auto. split; [|split].
  - apply (f_equal (map (@length (option B)))) in D. rewrite !map_map in D.
    assert (G : forall (os : list (nat * list (option B) * Z)) (vs : list (list B)),
      (forall o, In o os -> 0 <= snd o /\ snd o <= lenz (snd (fst o))) ->
      map (fun o => length (deser (snd (fst o)) (snd o))) os = map (fun v => length (map Some v)) vs -> map snd os = map (fun v => lenz v) vs).
    { clear. induction os as [|o os IH]; intros [|v vs] P E; try discriminate; auto. cbn [map] in E. injection E as E1 E2.
      cbn [map]. f_equal; [|apply IH; auto; intros; apply P; right; auto]. unfold deser in E1. rewrite firstn_length, map_length in E1.
      specialize (P o (or_introl eq_refl)). lia. }
    apply G; auto. intros o Io. rewrite Forall_forall in F. pose proof (F o Io) as Fo. unfold header in Fo. split; [|lia].
    clear - E Io H0 H. revert E Io H0 H. generalize (ser_new (B := B) 0 n) as s. revert outs s'.
    induction values as [|v vs IH]; intros outs s' s E Io H0 H; cbn [ser_all] in E; [injection E as <- <-; destruct Io|].
    destruct (sputn_ok v [] s H0) as (s1 & E1 & H1 & B1); [specialize (H v (or_introl eq_refl)); simpl length; lia|]. rewrite E1 in E.
    destruct (get_reset (S (blk s1)) s1) as [o1 s2] eqn:G. destruct (reset_ok _ s1 (S (blk s1)) H1) as [H2 _]. rewrite G in H2.
    destruct (ser_all vs s2) as [[os s3]|] eqn:E2; [|discriminate]. injection E as <- <-. destruct Io as [<-|Io].
    + injection G as <- <-. destruct H1 as [? HP]. cbn [snd]. lia.
    + eapply (IH os s3 s2); eauto. intros; apply H; right; auto.
  - rewrite I, B0. apply Injective_map_NoDup; [intros i j Hij; lia|apply seq_NoDup].
  - intros o Io. rewrite Forall_forall in F. specialize (F o Io). unfold header in F. lia.
Qed.
Print Assumptions ser_roundtrip.

(** Values are written whole or not at all only up to 2 GiB: any longer one makes the buffer
    write before its beginning, because the position is carried over a reallocation as an int. *)
Definition ser_any_length_claim : Prop := forall (values : list (list bool)),
  exists outs s', ser_all values (ser_new 0 2) = Some (outs, s').
Theorem ser_too_long_crashes : forall (B : Type) (v : list B) b, 2 ^ 31 < lenz v -> sputn v (ser_new b 2) = None.
Proof. intros B. exact too_long. Qed.
Print Assumptions ser_too_long_crashes.
Theorem ser_any_length_refuted : ~ ser_any_length_claim.
Proof.
  intros C. assert (N31 : exists n, Z.of_nat n = 2 ^ 31 + 1) by (exists (Z.to_nat (2 ^ 31 + 1)); apply Z2Nat.id; discriminate). destruct N31 as [n N31].
  destruct (C [repeat true n]) as (o & s & E). cbn [ser_all] in E.
  rewrite too_long in E; [discriminate|]. rewrite repeat_length. lia.
Qed.
Print Assumptions ser_any_length_refuted.

(** An initial size of zero is not a small buffer but a write through a null pointer, whatever
    the value. *)
Theorem ser_zero_initial_crashes : forall (B : Type) (c : B) v b, sputn (c :: v) (ser_new b 0) = None.
Proof. reflexivity. Qed.
Print Assumptions ser_zero_initial_crashes.

(** Three values of 1, 5 and 0 bytes through one buffer. *)
Example ser_example : exists s', ser_all [[7]; [1; 2; 3; 4; 5]; []] (ser_new 0 2) = Some
  ([(0%nat, Some 7 :: garbage 18, 1);
    (1%nat, map Some [1; 2; 3; 4; 5] ++ garbage 20, 5);
    (2%nat, garbage 25, 0)], s').
Proof. eexists. vm_compute. reflexivity. Qed.
