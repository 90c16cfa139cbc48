(** Proofs about ScalModel.v (property C12). *)
From Coq Require Import List Arith Bool ZArith Lia Permutation.
From Verif Require Import Base LinSpec LinFacts Tracks ScalModel.
Import ListNotations.

Ltac fu := repeat (rewrite fupd_eq in * || rewrite fupd_neq in * by auto).
Ltac cs u t := destruct (Nat.eq_dec u t) as [->|?N]; fu.

Section Proofs.
  Context {A : Type}.
  Variables (n : nat) (rel : bool).
  Hypothesis Hn : 1 <= n.
  Notation sst := (sst A). Notation spc := (spc A).

  Definition dec (p : spc) : option A := match p with CDec v => Some v | _ => None end.
  Definition inc (p : spc) : option unit := match p with PInc => Some tt | _ => None end.
  Definition want (p : spc) : option A := match p with PTick x | PStore x _ => Some x | _ => None end.

  Definition total (f : nat -> list A) := flat_map f (seq 0 n).

  Lemma modlt : forall k, k mod n < n.
  Proof. intros. apply Nat.mod_upper_bound. lia. Qed.

  Lemma total_out : forall (f : nat -> list A) j l k m, (j < k \/ k + m <= j) ->
    flat_map (fupd f j l) (seq k m) = flat_map f (seq k m).
  Proof.
    intros f j l k m. revert k. induction m as [|m IH]; intros k H; cbn; auto.
    rewrite IH by lia. rewrite fupd_neq by lia. reflexivity.
  Qed.

  Lemma total_split : forall (f : nat -> list A) j l, j < n ->
    exists a b, total f = a ++ f j ++ b /\ total (fupd f j l) = a ++ l ++ b.
  Proof.
    intros f j l Hj. unfold total. assert (E : seq 0 n = seq 0 j ++ j :: seq (S j) (n - S j)).
    { replace n with (j + (1 + (n - S j))) at 1 by lia. rewrite !seq_app. cbn [seq app]. rewrite Nat.add_0_l, Nat.add_1_r. reflexivity. }
    rewrite E. rewrite !flat_map_app. cbn [flat_map]. rewrite !total_out by lia. rewrite fupd_eq. eauto.
  Qed.

  Lemma total_snoc : forall f j x, j < n -> Permutation (total (fupd f j (f j ++ [x]))) (x :: total f).
  Proof.
    intros f j x Hj. destruct (total_split f j (f j ++ [x]) Hj) as (a & b & -> & ->).
    rewrite <- app_assoc. cbn. rewrite app_assoc. apply Permutation_sym.
    replace (x :: a ++ f j ++ b) with (x :: (a ++ f j) ++ b) by (rewrite app_assoc; auto). apply Permutation_middle.
  Qed.

  Lemma total_cons : forall f j x r, j < n -> f j = x :: r -> Permutation (total f) (x :: total (fupd f j r)).
  Proof.
    intros f j x r Hj E. destruct (total_split f j r Hj) as (a & b & -> & ->). rewrite E.
    cbn. apply Permutation_sym. apply Permutation_middle.
  Qed.

  (** Holds in every execution. *)
  Record sinv (s : sst) (infl : list (nat * A)) (incs : list (nat * unit)) : Prop := {
    v_dec : tracks dec (sp s) infl;
    v_inc : tracks inc (sp s) incs;
    v_val : Permutation (pushed (str s)) (returned (str s) ++ map snd infl ++ contents n s);
    v_want : forall t x, want (sp s t) = Some x -> fst (fold_left pstep (str s) (fun _ => None, [])) t = Some x;
    v_cnt : (cnt s + Z.of_nat (length incs) = Z.of_nat (length infl) + Z.of_nat (length (contents n s)))%Z;
    v_mode : forall t, match sp s t with CTick => rel = true | CDeq | CEnq _ | CCas _ => rel = false | _ => True end }.
  Definition SInv s := exists infl incs, sinv s infl incs.

  Lemma SInv_init : SInv (scal_init rel).
  Proof.
    exists [], []. constructor; unfold scal_init, contents; cbn.
    - apply tracks_nil; auto.
    - apply tracks_nil; auto.
    - replace (flat_map (fun _ : nat => @nil A) (seq 0 n)) with (@nil A); [constructor|].
      generalize (seq 0 n). intros l; induction l; auto.
    - discriminate.
    - replace (flat_map (fun _ : nat => @nil A) (seq 0 n)) with (@nil A); [reflexivity|].
      generalize (seq 0 n). intros l; induction l; auto.
    - auto.
  Qed.

  Definition quiet (e : ev A) : Prop := match e with LinPush _ | RetPop _ (Some _) | CallPush _ _ => False | _ => True end.

  Lemma quiet_pushed : forall (l : list (ev A)) e, quiet e -> pushed (l ++ [e]) = pushed l.
  Proof. intros l e H. rewrite pushed_snoc. unfold pushed. destruct e; cbn in *; tauto. Qed.
  Lemma quiet_returned : forall (l : list (ev A)) e, quiet e -> returned (l ++ [e]) = returned l.
  Proof. intros l e H. rewrite returned_snoc. destruct e as [| | | | |? [|]|]; cbn in *; rewrite ?app_nil_r; tauto. Qed.
  Lemma quiet_fst : forall (l : list (ev A)) e, quiet e ->
    fold_left pstep (l ++ [e]) (fun _ => None, []) = fold_left pstep l (fun _ => None, []).
  Proof. intros l e H. rewrite fold_left_app. destruct e; cbn in *; tauto. Qed.

  (** Steps that leave the sub-queues and the counter alone. *)
  Lemma S_local : forall s infl incs t p e d tr',
    sinv s infl incs -> dec p = dec (sp s t) -> inc p = inc (sp s t) ->
    (want p = want (sp s t) \/ want p = None) ->
    (match p with CTick => rel = true | CDeq | CEnq _ | CCas _ => rel = false | _ => True end) ->
    (tr' = str s \/ exists ev, quiet ev /\ tr' = str s ++ [ev]) ->
    sinv (mkS (pool s) e d (cnt s) (fupd (sp s) t p) tr') infl incs.
  Proof.
    intros s infl incs t p e d tr' I E1 E2 E3 M T. destruct I.
    constructor; cbn [pool enq deq cnt sp str]; auto.
    - apply tracks_keep; auto.
    - apply tracks_keep; auto.
    - destruct T as [->|(ev & Q & ->)]; auto. rewrite quiet_pushed, quiet_returned by auto. exact v_val0.
    - intros u x W. assert (W' : want (sp s u) = Some x) by (cs u t; auto; destruct E3; congruence).
      specialize (v_want0 u x W'). destruct T as [->|(ev & Q & ->)]; auto. rewrite quiet_fst; auto.
    - intros u. cs u t; auto. apply v_mode0.
  Qed.

  Lemma SInv_step : forall s a s', SInv s -> sstep n rel s a = Some s' -> SInv s'.
  Proof.
    intros s a s' (infl & incs & I) H. destruct a as [t x|t|t]; cbn in H.
    - destruct (sp s t) eqn:P; try discriminate. injection H as <-. exists infl, incs. destruct I. unfold sgoe.
      constructor; cbn [pool enq deq cnt sp str]; auto.
      + apply tracks_keep; auto. rewrite P; auto.
      + apply tracks_keep; auto. rewrite P; auto.
      + rewrite pushed_snoc, returned_snoc. cbn. rewrite app_nil_r. exact v_val0.
      + intros u y W. rewrite fold_left_app. cbn. cs u t; [cbn in W; congruence|auto].
      + intros u. cs u t; auto. apply v_mode0.
    - destruct (sp s t) eqn:P; try discriminate. injection H as <-. exists infl, incs.
      apply S_local; auto; rewrite ?P; cbn; auto. right. exists (CallPop t). split; cbn; auto.
    - assert (MT := v_mode _ _ _ I t).
      destruct (sp s t) as [|x|x k| | | |q|q| |k|v] eqn:P; try discriminate.
      + injection H as <-. exists infl, incs. apply S_local; auto; rewrite ?P; cbn; auto.
      + injection H as <-. destruct I.
        assert (A1 : tracks inc (fupd (sp s) t PInc) ((t, tt) :: incs)) by (apply tracks_add; auto; rewrite P; auto).
        exists infl, ((t, tt) :: incs). constructor; cbn [pool enq deq cnt sp str]; auto.
        * apply tracks_keep; auto. rewrite P; auto.
        * rewrite pushed_snoc, returned_snoc. cbn [pstep snd]. rewrite (v_want0 t x) by (rewrite P; auto).
          cbn. rewrite app_nil_r. unfold contents in *. cbn [pool].
          change (flat_map (fupd (pool s) (k mod n) (pool s (k mod n) ++ [x])) (seq 0 n)) with
            (total (fupd (pool s) (k mod n) (pool s (k mod n) ++ [x]))).
          rewrite (total_snoc (pool s) (k mod n) x (modlt k)). change (flat_map (pool s) (seq 0 n)) with (total (pool s)) in v_val0.
          rewrite <- Permutation_cons_append. unfold pushed in v_val0. rewrite v_val0.
          rewrite !app_assoc. apply Permutation_middle.
        * intros u y W. rewrite fold_left_app. cbn. cs u t; [discriminate|]. auto.
        * cbn [length]. unfold contents in *. cbn [pool].
          change (flat_map (fupd (pool s) (k mod n) (pool s (k mod n) ++ [x])) (seq 0 n)) with
            (total (fupd (pool s) (k mod n) (pool s (k mod n) ++ [x]))).
          rewrite (Permutation_length (total_snoc (pool s) (k mod n) x (modlt k))). cbn [length]. unfold total. lia.
        * intros u. cs u t; auto. apply v_mode0.
      + injection H as <-. destruct I.
        destruct (tracks_del inc _ _ t SIdle tt v_inc0) as (l1 & l2 & -> & T2); [rewrite P; auto|auto|].
        exists infl, (l1 ++ l2). constructor; cbn [pool enq deq cnt sp str]; auto.
        * apply tracks_keep; auto. rewrite P; auto.
        * rewrite quiet_pushed, quiet_returned by exact Logic.I. exact v_val0.
        * intros u y W. rewrite quiet_fst by exact Logic.I. cs u t; [discriminate|]. auto.
        * rewrite app_length in *. cbn [length] in *. unfold contents in *. cbn [pool] in *. lia.
        * intros u. cs u t; auto. apply v_mode0.
      + destruct (cnt s =? 0)%Z; injection H as <-; exists infl, incs.
        * apply S_local; auto; rewrite ?P; cbn; auto. right. exists (RetPop t None). split; cbn; auto.
        * destruct rel eqn:ER; apply S_local; auto; rewrite ?P; cbn; auto.
      + injection H as <-. exists infl, incs. apply S_local; auto; rewrite ?P; cbn; auto.
      + destruct (q <=? enq s); injection H as <-; exists infl, incs.
        * apply S_local; auto; rewrite ?P; cbn; auto.
        * apply S_local; auto; rewrite ?P; cbn; auto. right. exists (RetPop t None). split; cbn; auto.
      + destruct (deq s =? q); injection H as <-; exists infl, incs; apply S_local; auto; rewrite ?P; cbn; auto.
      + injection H as <-. exists infl, incs. apply S_local; auto; rewrite ?P; cbn; auto.
      + destruct (pool s (k mod n)) as [|v r] eqn:EP; injection H as <-.
        * exists infl, incs. apply S_local; auto; rewrite ?P; cbn; auto. right. exists (RetPop t None). split; cbn; auto.
        * destruct I. assert (TC := total_cons (pool s) (k mod n) v r (modlt k) EP).
          exists ((t, v) :: infl), incs. constructor; cbn [pool enq deq cnt sp str]; auto.
          -- apply tracks_add; auto. rewrite P; auto.
          -- apply tracks_keep; auto. rewrite P; auto.
          -- rewrite quiet_pushed, quiet_returned by exact Logic.I. unfold contents in *. cbn [pool map snd]. rewrite v_val0. unfold total in TC. rewrite TC.
             apply Permutation_app_head. cbn. rewrite <- Permutation_middle. reflexivity.
          -- intros u y W. rewrite quiet_fst by exact Logic.I. cs u t; [discriminate|]. auto.
          -- unfold contents in *. cbn [pool length]. apply Permutation_length in TC. unfold total in TC. cbn [length] in TC. lia.
          -- intros u. cs u t; auto. apply v_mode0.
      + injection H as <-. destruct I.
        destruct (tracks_del dec _ _ t SIdle v v_dec0) as (l1 & l2 & -> & T2); [rewrite P; auto|auto|].
        exists (l1 ++ l2), incs. constructor; cbn [pool enq deq cnt sp str]; auto.
        * apply tracks_keep; auto. rewrite P; auto.
        * rewrite pushed_snoc, returned_snoc. cbn. unfold pushed in v_val0. unfold contents in *. cbn [pool].
          rewrite v_val0. rewrite !map_app. cbn. rewrite <- !app_assoc. apply Permutation_app_head. cbn.
          apply Permutation_sym. apply Permutation_middle.
        * intros u y W. rewrite fold_left_app. cbn. cs u t; [discriminate|]. auto.
        * rewrite app_length in *. cbn [length] in *. unfold contents in *. cbn [pool] in *. lia.
        * intros u. cs u t; auto. apply v_mode0.
  Qed.

  Lemma sreach : forall l s, exec (sstep n rel) (scal_init rel) l = Some s -> SInv s.
  Proof.
    intros l s. apply (exec_inv (sstep n rel) SInv); [|apply SInv_init].
    intros s0 a s1 I H. eapply SInv_step; eauto.
  Qed.

  Lemma quiescent_cnt : forall s, SInv s -> (forall t, sp s t = SIdle) -> cnt s = Z.of_nat (length (contents n s)).
  Proof.
    intros s (infl & incs & I) Q. destruct I.
    assert (infl = []) by (eapply tracks_empty; eauto; intros t; rewrite Q; auto).
    assert (incs = []) by (eapply tracks_empty; eauto; intros t; rewrite Q; auto). subst. cbn in *. lia.
  Qed.
End Proofs.

Lemma exec_cons : forall A n rel s a s1 l (s' : sst A), sstep n rel s a = Some s1 -> exec (sstep n rel) s1 l = Some s' ->
  exec (sstep n rel) s (a :: l) = Some s'.
Proof. intros A n rel s a s1 l s' H E. cbn [exec]. rewrite H. exact E. Qed.
Tactic Notation "one" tactic(R) :=
  eapply exec_cons; [cbn [sstep sgo sgoe pool enq deq cnt sp str]; rewrite ?fupd_eq; R; reflexivity|].

Section Relaxed.
  Context {A : Type}.
  Variable n : nat.
  Hypothesis Hn : 1 <= n.
  Notation sst := (sst A).

  Fixpoint missed (t j : nat) : list (ev A) :=
    match j with 0 => [] | S j => CallPop t :: RetPop t None :: missed t j end.

  Lemma solo_pops : forall j (s : sst) t v r, sp s t = SIdle -> cnt s <> 0%Z ->
    pool s ((S (deq s) + j) mod n) = v :: r ->
    exists k l s' w, k <= j /\ Forall (fun a => a = SPop t \/ a = SRun t) l /\ exec (sstep n true) s l = Some s' /\
      (sp s' t = SIdle /\ forall u, u <> t -> sp s' u = sp s u) /\
      str s' = str s ++ missed t k ++ [CallPop t; LinPop t; RetPop t (Some w)].
  Proof.
    intros j. induction j as [|j IH]; intros s t v r Q C E; apply Z.eqb_neq in C.
    - rewrite Nat.add_0_r in E. exists 0, [SPop t; SRun t; SRun t; SRun t; SRun t].
      do 2 eexists. split; auto. split; [repeat (apply Forall_cons; [auto|]); apply Forall_nil|].
      split.
      + one (rewrite Q). one (rewrite C). one idtac. one (rewrite E). one idtac. reflexivity.
      + split; [|cbn [str]; rewrite <- !app_assoc; reflexivity].
        cbn [sp sgo sgoe]. split; [apply fupd_eq|intros u N; rewrite !fupd_neq by auto; auto].
    - destruct (pool s (S (deq s) mod n)) as [|w r'] eqn:E0.
      + remember (mkS (pool s) (enq s) (S (deq s)) (cnt s)
                      (fupd (fupd (fupd (fupd (sp s) t CCnt) t CTick) t (CTake (S (deq s)))) t SIdle)
                      ((str s ++ [CallPop t]) ++ [RetPop t None])) as s1 eqn:Es1.
        assert (X : exec (sstep n true) s [SPop t; SRun t; SRun t; SRun t] = Some s1).
        { one (rewrite Q). one (rewrite C). one idtac. one (rewrite E0). subst s1. reflexivity. }
        destruct (IH s1 t v r) as (k & l & s' & w & Hk & Hl & Hx & (Hi & Ho) & Ht).
        * subst s1. cbn. apply fupd_eq.
        * subst s1. cbn. apply Z.eqb_neq. exact C.
        * subst s1. cbn [pool deq]. rewrite <- E. f_equal. f_equal. lia.
        * exists (S k), ([SPop t; SRun t; SRun t; SRun t] ++ l), s', w. split; [lia|]. split.
          { apply Forall_app. split; auto. repeat (apply Forall_cons; [auto|]); apply Forall_nil. }
          split.
          -- apply exec_app. eauto.
          -- split; [split; auto; intros u N; rewrite Ho by auto; subst s1; cbn [sp]; rewrite !fupd_neq by auto; auto|].
             rewrite Ht. subst s1. cbn [str]. rewrite <- !app_assoc. reflexivity.
      + exists 0, [SPop t; SRun t; SRun t; SRun t; SRun t].
        do 2 eexists. split; [lia|]. split; [repeat (apply Forall_cons; [auto|]); apply Forall_nil|].
        split.
        * one (rewrite Q). one (rewrite C). one idtac. one (rewrite E0). one idtac. reflexivity.
        * split; [|cbn [str]; rewrite <- !app_assoc; reflexivity].
          cbn [sp sgo sgoe]. split; [apply fupd_eq|intros u N; rewrite !fupd_neq by auto; auto].
  Qed.

  Lemma mod_reach : forall d j, j < n -> exists i, i < n /\ (d + i) mod n = j.
  Proof.
    intros d j Hj. exists ((j + (n - d mod n)) mod n). split; [apply Nat.mod_upper_bound; lia|].
    rewrite Nat.add_mod_idemp_r by lia. rewrite (Nat.div_mod d n) at 1 by lia.
    assert (d mod n < n) by (apply Nat.mod_upper_bound; lia).
    replace (n * (d / n) + d mod n + (j + (n - d mod n))) with (j + (S (d / n)) * n) by lia.
    rewrite Nat.mod_add by lia. apply Nat.mod_small; auto.
  Qed.

  Lemma contents_nonempty : forall s : sst, contents n s <> [] -> exists j v r, j < n /\ pool s j = v :: r.
  Proof.
    intros s H. unfold contents in H. destruct (flat_map (pool s) (seq 0 n)) as [|x l] eqn:E; [congruence|].
    assert (X : In x (flat_map (pool s) (seq 0 n))) by (rewrite E; cbn; auto). apply in_flat_map in X.
    destruct X as (j & Hj & Hx). apply in_seq in Hj. destruct (pool s j) as [|v r] eqn:P; [destruct Hx|].
    exists j, v, r. split; [lia|auto].
  Qed.

  Lemma relaxed_complete : forall l (s : sst) t, exec (sstep n true) (scal_init true) l = Some s ->
    (forall u, sp s u = SIdle) -> contents n s <> [] ->
    exists k l' s' w, k < n /\ Forall (fun a => a = SPop t \/ a = SRun t) l' /\ exec (sstep n true) s l' = Some s' /\
      (forall u, sp s' u = SIdle) /\
      str s' = str s ++ missed t k ++ [CallPop t; LinPop t; RetPop t (Some w)].
  Proof.
    intros l s t X Q C. assert (I := sreach n true Hn l s X). assert (E := quiescent_cnt n true Hn s I Q).
    destruct (contents_nonempty s C) as (j & v & r & Hj & P).
    destruct (mod_reach (S (deq s)) j Hj) as (i & Hi & Ei).
    destruct (solo_pops i s t v r) as (k & l' & s' & w & Hk & R1 & R2 & (R3 & R4) & R5).
    - apply Q.
    - rewrite E. destruct (contents n s); cbn; [congruence|lia].
    - rewrite Ei. exact P.
    - exists k, l', s', w. split; [lia|]. repeat split; auto.
      intros u. destruct (Nat.eq_dec u t) as [->|N]; auto. rewrite R4 by auto. apply Q.
  Qed.
End Relaxed.

Section Strict.
  Context {A : Type}.
  Variable n : nat.
  Hypothesis Hn : 1 <= n.
  Notation sst := (sst A). Notation spc := (spc A).

  Definition pushing (p : spc) : bool := match p with PTick _ | PStore _ _ | PInc => true | _ => false end.
  Definition popping (p : spc) : bool :=
    match p with CCnt | CDeq | CEnq _ | CCas _ | CTick | CTake _ | CDec _ => true | _ => false end.
  Definition sto (p : spc) : option nat := match p with PStore _ k => Some k | _ => None end.
  Definition tak (p : spc) : option nat := match p with CTake k => Some k | _ => None end.

  Definition b2n (b : bool) := if b then 1 else 0.
  Fixpoint cntm (j : nat) (l : list (nat * nat)) : nat :=
    match l with [] => 0 | e :: r => b2n (snd e mod n =? j) + cntm j r end.
  Fixpoint cntr (j a m : nat) : nat :=
    match m with 0 => 0 | S m => b2n (a mod n =? j) + cntr j (S a) m end.

  Lemma cntm_app : forall j l m, cntm j (l ++ m) = cntm j l + cntm j m.
  Proof. intros j l m. induction l; cbn; lia. Qed.
  Lemma cntr_snoc : forall m j a, cntr j a (S m) = cntr j a m + b2n ((a + m) mod n =? j).
  Proof.
    intros m. induction m as [|m IH]; intros j a.
    - cbn [cntr]. rewrite (Nat.add_0_r a). lia.
    - change (cntr j a (S (S m))) with (b2n (a mod n =? j) + cntr j (S a) (S m)). rewrite IH.
      cbn [cntr]. replace (S a + m) with (a + S m) by lia. lia.
  Qed.

  (** Executions in which no pop overlaps a push. *)
  Fixpoint phased (s : sst) (l : list (sact A)) : Prop :=
    match l with
    | [] => True
    | a :: r =>
        match a with
        | SPush _ _ => forall u, popping (sp s u) = false
        | SPop _ => forall u, pushing (sp s u) = false
        | SRun _ => True
        end /\ match sstep n false s a with None => True | Some s' => phased s' r end
    end.

  Record pinv (s : sst) (ps tk : list (nat * nat)) : Prop := {
    p_sto : tracks sto (sp s) ps;
    p_tak : tracks tak (sp s) tk;
    p_len : forall j, j < n -> length (pool s j) + cntm j ps = cntr j (deq s) (S (enq s) - deq s) + cntm j tk;
    p_deq : deq s <= S (enq s);
    p_cas : forall t q, sp s t = CCas q -> q <= enq s;
    p_tick : forall t, sp s t <> CTick;
    p_ph : forall t u, pushing (sp s t) = true -> popping (sp s u) = true -> False }.
  Definition PInv s := exists ps tk, pinv s ps tk.

  Lemma PInv_init : PInv (scal_init false).
  Proof.
    exists [], []. constructor; unfold scal_init; cbn; try discriminate; auto.
    - apply tracks_nil; auto.
    - apply tracks_nil; auto.
  Qed.

  Lemma P_local : forall s ps tk t p tr',
    pinv s ps tk -> sto p = sto (sp s t) -> tak p = tak (sp s t) ->
    (forall q, p = CCas q -> q <= enq s) -> p <> CTick ->
    (pushing p = true -> pushing (sp s t) = true \/ forall u, popping (sp s u) = false) ->
    (popping p = true -> popping (sp s t) = true \/ forall u, pushing (sp s u) = false) ->
    pinv (mkS (pool s) (enq s) (deq s) (cnt s) (fupd (sp s) t p) tr') ps tk.
  Proof.
    intros s ps tk t p tr' I E1 E2 E3 E4 E5 E6. destruct I. constructor; cbn [pool enq deq cnt sp str]; auto.
    - apply tracks_keep; auto.
    - apply tracks_keep; auto.
    - intros u q. cs u t; auto. apply p_cas0.
    - intros u. cs u t; auto.
    - intros u w. cs u t; cs w t; auto; intros X Y.
      + destruct p; discriminate.
      + destruct (E5 X) as [Z|Z]; [exact (p_ph0 t w Z Y)|]. rewrite Z in Y. discriminate.
      + destruct (E6 Y) as [Z|Z]; [exact (p_ph0 u t X Z)|]. rewrite Z in X. discriminate.
      + exact (p_ph0 u w X Y).
  Qed.

  Lemma PInv_step : forall s a s', PInv s ->
    match a with
        | SPush _ _ => forall u, popping (sp s u) = false
        | SPop _ => forall u, pushing (sp s u) = false
        | SRun _ => True
    end -> sstep n false s a = Some s' -> PInv s'.
  Proof.
    intros s a s' (ps & tk & I) PH H. destruct a as [t x|t|t]; cbn in H.
    - destruct (sp s t) eqn:P; try discriminate. injection H as <-. exists ps, tk.
      apply P_local; auto; rewrite ?P; cbn; auto; discriminate.
    - destruct (sp s t) eqn:P; try discriminate. injection H as <-. exists ps, tk.
      apply P_local; auto; rewrite ?P; cbn; auto; discriminate.
    - assert (TK := p_tick _ _ _ I t).
      assert (PHT : forall q p', (pushing p' = true -> pushing (sp s t) = true) -> (popping p' = true -> popping (sp s t) = true) ->
                forall u w, pushing (fupd (sp s) t p' u) = true -> popping (fupd (sp s) t p' w) = true -> q).
      { intros q p' X1 X2 u w. cs u t; cs w t; intros Y1 Y2; exfalso.
        - destruct p'; discriminate.
        - exact (p_ph _ _ _ I t w (X1 Y1) Y2).
        - exact (p_ph _ _ _ I u t Y1 (X2 Y2)).
        - exact (p_ph _ _ _ I u w Y1 Y2). }
      destruct (sp s t) as [|x|x k| | | |q|q| |k|v] eqn:P; try discriminate; try congruence.
      + (* PTick *)
        injection H as <-. destruct I.
        assert (A1 : tracks sto (fupd (sp s) t (PStore x (S (enq s)))) ((t, S (enq s)) :: ps)) by (apply tracks_add; auto; rewrite P; auto).
        exists ((t, S (enq s)) :: ps), tk. constructor; cbn [pool enq deq cnt sp str]; auto.
        * apply tracks_keep; auto. rewrite P; auto.
        * intros j Hj. specialize (p_len0 j Hj). cbn [cntm snd].
          replace (S (S (enq s)) - deq s) with (S (S (enq s) - deq s)) by lia. rewrite cntr_snoc.
          replace (deq s + (S (enq s) - deq s)) with (S (enq s)) by lia. lia.
        * intros u q. cs u t; [discriminate|]. intros E. specialize (p_cas0 u q E). lia.
        * intros u. cs u t; [discriminate|auto].
        * apply PHT; auto.
      + (* PStore *)
        injection H as <-. destruct I.
        destruct (tracks_del sto _ _ t PInc k p_sto0) as (l1 & l2 & -> & T2); [rewrite P; auto|auto|].
        exists (l1 ++ l2), tk. constructor; cbn [pool enq deq cnt sp str]; auto.
        * apply tracks_keep; auto. rewrite P; auto.
        * intros j Hj. specialize (p_len0 j Hj). rewrite !cntm_app in *. cbn [cntm snd] in p_len0.
          destruct (Nat.eq_dec j (k mod n)) as [->|N].
          -- rewrite fupd_eq, app_length. cbn [length]. rewrite Nat.eqb_refl in p_len0. cbn [b2n] in p_len0. lia.
          -- rewrite fupd_neq by auto. rewrite (proj2 (Nat.eqb_neq _ _)) in p_len0 by auto. cbn [b2n] in p_len0. lia.
        * intros u q. cs u t; [discriminate|]. apply p_cas0.
        * intros u. cs u t; [discriminate|auto].
        * apply PHT; auto.
      + (* PInc *)
        injection H as <-. exists ps, tk. destruct I.
        constructor; cbn [pool enq deq cnt sp str]; auto.
        * apply tracks_keep; auto. rewrite P; auto.
        * apply tracks_keep; auto. rewrite P; auto.
        * intros u q. cs u t; [discriminate|]. apply p_cas0.
        * intros u. cs u t; [discriminate|auto].
        * apply PHT; discriminate.
      + (* CCnt *)
        destruct (cnt s =? 0)%Z; injection H as <-; exists ps, tk; apply P_local; auto; rewrite ?P; cbn; auto; discriminate.
      + injection H as <-. exists ps, tk; apply P_local; auto; rewrite ?P; cbn; auto; discriminate.
      + destruct (q <=? enq s) eqn:E; injection H as <-; exists ps, tk; apply P_local; auto; rewrite ?P; cbn; auto; try discriminate.
        intros q0 E0; injection E0 as <-. apply Nat.leb_le in E; auto.
      + (* CCas *)
        destruct (deq s =? q) eqn:E; injection H as <-; [|exists ps, tk; apply P_local; auto; rewrite ?P; cbn; auto; discriminate].
        apply Nat.eqb_eq in E. subst q. assert (LE := p_cas _ _ _ I t _ P). destruct I.
        exists ps, ((t, deq s) :: tk). constructor; cbn [pool enq deq cnt sp str]; auto.
        * apply tracks_keep; auto. rewrite P; auto.
        * apply tracks_add; auto. rewrite P; auto.
        * intros j Hj. specialize (p_len0 j Hj). cbn [cntm snd].
          replace (S (enq s) - deq s) with (S (S (enq s) - S (deq s))) in p_len0 by lia. cbn [cntr] in p_len0. lia.
        * lia.
        * intros u q. cs u t; [discriminate|]. apply p_cas0.
        * intros u. cs u t; [discriminate|auto].
        * apply PHT; auto; discriminate.
      + (* CTake *)
        assert (NP : ps = []).
        { eapply tracks_empty; [exact (p_sto _ _ _ I)|]. intros u. destruct (sto (sp s u)) eqn:E; auto. exfalso.
          apply (p_ph _ _ _ I u t); [destruct (sp s u); try discriminate; auto|rewrite P; auto]. }
        subst ps. destruct I.
        assert (IN : In (t, k) tk) by (apply (proj2 p_tak0); rewrite P; auto).
        assert (GE : 1 <= cntm (k mod n) tk).
        { apply in_split in IN. destruct IN as (l1 & l2 & ->). rewrite cntm_app. cbn [cntm snd]. rewrite Nat.eqb_refl. cbn [b2n]. lia. }
        assert (LK := p_len0 (k mod n) (Nat.mod_upper_bound k n ltac:(lia))). cbn [cntm] in LK.
        destruct (pool s (k mod n)) as [|v r] eqn:EP; [cbn [length] in LK; lia|]. injection H as <-.
        destruct (tracks_del tak _ _ t (CDec v) k p_tak0) as (l1 & l2 & -> & T2); [rewrite P; auto|auto|].
        exists [], (l1 ++ l2). constructor; cbn [pool enq deq cnt sp str]; auto.
        * apply tracks_keep; auto. rewrite P; auto.
        * intros j Hj. specialize (p_len0 j Hj). rewrite !cntm_app in *. cbn [cntm snd] in *.
          destruct (Nat.eq_dec j (k mod n)) as [->|N].
          -- rewrite fupd_eq. rewrite Nat.eqb_refl, EP in p_len0. cbn [b2n length] in p_len0. lia.
          -- rewrite fupd_neq by auto. rewrite (proj2 (Nat.eqb_neq _ _)) in p_len0 by auto. cbn [b2n] in p_len0. lia.
        * intros u q. cs u t; [discriminate|]. apply p_cas0.
        * intros u. cs u t; [discriminate|auto].
        * apply PHT; auto.
      + (* CDec *)
        injection H as <-. exists ps, tk. destruct I.
        constructor; cbn [pool enq deq cnt sp str]; auto.
        * apply tracks_keep; auto. rewrite P; auto.
        * apply tracks_keep; auto. rewrite P; auto.
        * intros u q. cs u t; [discriminate|]. apply p_cas0.
        * intros u. cs u t; [discriminate|auto].
        * apply PHT; discriminate.
  Qed.

  Lemma preach_from : forall l s s', PInv s -> phased s l -> exec (sstep n false) s l = Some s' -> PInv s'.
  Proof.
    intros l. induction l as [|a r IH]; intros s s' I PH H; cbn [exec] in H; [injection H as <-; auto|].
    cbn [phased] in PH. destruct PH as [P1 P2]. destruct (sstep n false s a) as [s1|] eqn:E; [|discriminate].
    apply (IH s1); auto. eapply PInv_step; eauto.
  Qed.

  Lemma strict_complete : forall l (s : sst) t, phased (scal_init false) l ->
    exec (sstep n false) (scal_init false) l = Some s ->
    (forall u, sp s u = SIdle) -> contents n s <> [] ->
    exists s' w, exec (sstep n false) s (SPop t :: repeat (SRun t) 6) = Some s' /\
      str s' = str s ++ [CallPop t; LinPop t; RetPop t (Some w)].
  Proof.
    intros l s t PH X Q C. assert (I := sreach n false Hn l s X). assert (E := quiescent_cnt n false Hn s I Q).
    assert (J := preach_from l _ _ PInv_init PH X). destruct J as (ps & tk & J). destruct J.
    assert (ps = []) by (eapply tracks_empty; eauto; intros u; rewrite Q; auto).
    assert (tk = []) by (eapply tracks_empty; eauto; intros u; rewrite Q; auto). subst.
    destruct (contents_nonempty n Hn s C) as (j & v & r & Hj & P).
    assert (LE : deq s <= enq s).
    { specialize (p_len0 j Hj). rewrite P in p_len0. cbn [length cntm] in p_len0.
      destruct (S (enq s) - deq s) eqn:Z; [cbn [cntr] in p_len0; lia|lia]. }
    assert (LD := p_len0 (deq s mod n) (Nat.mod_upper_bound _ n ltac:(lia))).
    replace (S (enq s) - deq s) with (S (enq s - deq s)) in LD by lia. cbn [cntr cntm] in LD. rewrite Nat.eqb_refl in LD. cbn [b2n] in LD.
    destruct (pool s (deq s mod n)) as [|w r'] eqn:EP; [cbn [length] in LD; lia|].
    assert (NZ : (cnt s =? 0)%Z = false) by (apply Z.eqb_neq; rewrite E; destruct (contents n s); cbn; [congruence|lia]).
    apply Nat.leb_le in LE.
    do 2 eexists. split.
    - cbn [repeat]. one (rewrite (Q t)). one (rewrite NZ). one idtac. one (rewrite LE). one (rewrite Nat.eqb_refl).
      one (rewrite EP). one idtac. reflexivity.
    - cbn [str sgo sgoe]. rewrite <- !app_assoc. reflexivity.
  Qed.

  (** Once dequeue has passed enqueue, pops alone never return anything. *)
  Definition stuck (s0 s : sst) : Prop :=
    enq s < deq s /\ pool s = pool s0 /\ returned (str s) = returned (str s0) /\
    forall t, match sp s t with SIdle | CCnt | CDeq => True | CEnq q => enq s < q | _ => False end.

  Lemma stuck_step : forall s0 s a s', stuck s0 s -> (forall t x, a <> SPush t x) -> sstep n false s a = Some s' -> stuck s0 s'.
  Proof.
    intros s0 s a s' (S1 & S2 & S3 & S4) NP H. destruct a as [t x|t|t]; cbn in H; [destruct (NP t x); auto| |].
    - destruct (sp s t) eqn:P; try discriminate. injection H as <-. split; auto. split; auto. split.
      + cbn [str sgo sgoe]. rewrite quiet_returned by exact Logic.I. exact S3.
      + intros u. cbn [str sgo sgoe sp enq]. cs u t; auto. apply S4.
    - assert (S4t := S4 t). destruct (sp s t) as [|x|x k| | | |q|q| |k|v] eqn:P; try discriminate; try tauto.
      + destruct (cnt s =? 0)%Z; injection H as <-; (split; [auto|split; [auto|split]]); cbn [str sgo sgoe sp enq].
        * rewrite quiet_returned by exact Logic.I. exact S3.
        * intros u. cs u t; auto. apply S4.
        * exact S3.
        * intros u. cs u t; auto. apply S4.
      + injection H as <-; (split; [auto|split; [auto|split]]); cbn [str sgo sgoe sp enq]; auto. intros u. cs u t; auto. apply S4.
      + destruct (q <=? enq s) eqn:E; [apply Nat.leb_le in E; lia|]. injection H as <-; (split; [auto|split; [auto|split]]); cbn [str sgo sgoe sp enq].
        * rewrite quiet_returned by exact Logic.I. exact S3.
        * intros u. cs u t; auto. apply S4.
  Qed.

  Lemma stuck_exec : forall l s0 s s', stuck s0 s -> (forall t x, ~ In (SPush t x) l) -> exec (sstep n false) s l = Some s' -> stuck s0 s'.
  Proof.
    intros l s0. induction l as [|a r IH]; intros s s' S NP H; cbn [exec] in H; [injection H as <-; auto|].
    destruct (sstep n false s a) as [s1|] eqn:E; [|discriminate]. apply (IH s1); auto.
    - eapply stuck_step; eauto. intros t x ->. apply (NP t x). cbn; auto.
    - intros t x Hin. apply (NP t x). cbn; auto.
  Qed.
End Strict.

Section Serial.
  Context {A : Type}.
  Variable n : nat.
  Hypothesis Hn : 1 <= n.
  Notation sst := (sst A). Notation spc := (spc A).

  (** Executions in which no two operations overlap. *)
  Fixpoint serial (s : sst) (l : list (sact A)) : Prop :=
    match l with
    | [] => True
    | a :: r =>
        match a with
        | SPush _ _ | SPop _ => forall u, sp s u = SIdle
        | SRun _ => True
        end /\ match sstep n false s a with None => True | Some s' => serial s' r end
    end.

  (** What sub-queue [j] holds when the queue holds [q] and the first ticket is [d]. *)
  Fixpoint picks (d : nat) (q : list A) (j : nat) : list A :=
    match q with [] => [] | x :: r => (if d mod n =? j then [x] else []) ++ picks (S d) r j end.

  Lemma picks_snoc : forall q d x j, picks d (q ++ [x]) j = picks d q j ++ (if (d + length q) mod n =? j then [x] else []).
  Proof.
    intros q. induction q as [|y q IH]; intros d x j; cbn [picks app length].
    - rewrite Nat.add_0_r, app_nil_r. reflexivity.
    - rewrite IH, <- app_assoc. replace (S d + length q) with (d + S (length q)) by lia. reflexivity.
  Qed.

  Definition sstat (p : spc) : status A :=
    match p with
    | SIdle => Idle
    | PTick x | PStore x _ => WantPush x
    | PInc => DidPush
    | CDec v => DidPop v
    | _ => WantPop
    end.

  (** [d]: first ticket; relation between the counters and the queue [q] at each point of the one running operation. *)
  Definition shape (s : sst) (q : list A) (p : spc) : Prop :=
    match p with
    | SIdle | PTick _ | CCnt | CDeq => S (enq s) = deq s + length q /\ cnt s = Z.of_nat (length q)
    | PStore _ k => k = enq s /\ enq s = deq s + length q /\ cnt s = Z.of_nat (length q)
    | PInc => S (enq s) = deq s + length q /\ (cnt s + 1)%Z = Z.of_nat (length q)
    | CEnq q0 => q0 = deq s /\ S (enq s) = deq s + length q /\ cnt s = Z.of_nat (length q)
    | CCas q0 => q0 = deq s /\ S (enq s) = deq s + length q /\ cnt s = Z.of_nat (length q) /\ q <> []
    | CTake k => deq s = S k /\ S (enq s) = k + length q /\ cnt s = Z.of_nat (length q) /\ q <> []
    | CDec _ => S (enq s) = deq s + length q /\ (cnt s - 1)%Z = Z.of_nat (length q)
    | CTick => False
    end.
  Definition first (s : sst) (p : spc) : nat := match p with CTake k => k | _ => deq s end.

  Record qinv (s : sst) (a : nat) (q : list A) (th : nat -> status A) : Prop := {
    q_lin : lins None false [] (fun _ => Idle) (str s) q th;
    q_th : forall t, th t = sstat (sp s t);
    q_one : forall t, t <> a -> sp s t = SIdle;
    q_shape : shape s q (sp s a);
    q_pool : forall j, j < n -> pool s j = picks (first s (sp s a)) q j }.
  Definition QInv s := exists a q th, qinv s a q th.

  Lemma QInv_init : QInv (scal_init false).
  Proof.
    exists 0, [], (fun _ => Idle). constructor; unfold scal_init; cbn; auto. constructor.
  Qed.

  Lemma sstat_upd : forall (s : sst) th t p, (forall u, th u = sstat (sp s u)) -> forall u, fupd th t (sstat p) u = sstat (fupd (sp s) t p u).
  Proof. intros. cs u t; auto. Qed.
  Lemma sstat_same : forall (s : sst) th t p, (forall u, th u = sstat (sp s u)) -> sstat p = sstat (sp s t) -> forall u, th u = sstat (fupd (sp s) t p u).
  Proof. intros s th t p H E u. rewrite H. cs u t; auto. Qed.

  Lemma QInv_step : forall s a s', QInv s ->
    match a with SPush _ _ | SPop _ => forall u, sp s u = SIdle | SRun _ => True end ->
    sstep n false s a = Some s' -> QInv s'.
  Proof.
    intros s a s' (r & q & th & I) PH H. destruct a as [t x|t|t]; cbn [sstep] in H.
    - rewrite (PH t) in H. injection H as <-. destruct I. rewrite (PH r) in *. exists t, q, (fupd th t (WantPush x)).
      constructor; cbn [pool enq deq cnt sp str sgoe]; auto.
      + eapply lins_snoc; [exact q_lin0|]. apply lin_call_push. rewrite q_th0, PH. reflexivity.
      + apply (sstat_upd s th t (PTick x)); auto.
      + intros u N. rewrite fupd_neq; auto.
      + rewrite fupd_eq. exact q_shape0.
      + rewrite fupd_eq. exact q_pool0.
    - rewrite (PH t) in H. injection H as <-. destruct I. rewrite (PH r) in *. exists t, q, (fupd th t WantPop).
      constructor; cbn [pool enq deq cnt sp str sgoe]; auto.
      + eapply lins_snoc; [exact q_lin0|]. apply lin_call_pop. rewrite q_th0, PH. reflexivity.
      + apply (sstat_upd s th t CCnt); auto.
      + intros u N. rewrite fupd_neq; auto.
      + rewrite fupd_eq. exact q_shape0.
      + rewrite fupd_eq. exact q_pool0.
    - destruct (Nat.eq_dec t r) as [->|N]; [|rewrite (q_one _ _ _ _ I t N) in H; discriminate].
      destruct I. assert (TH := q_th0 r).
      assert (ON : forall p u, u <> r -> fupd (sp s) r p u = SIdle) by (intros p u N; rewrite fupd_neq; auto).
      destruct (sp s r) as [|x|x k| | | |q0|q0| |k|v] eqn:P; try discriminate; cbn [shape first sstat] in *.
      + (* PTick *)
        injection H as <-. exists r, q, th. constructor; cbn [pool enq deq cnt sp str]; [try exact q_lin0| |exact (ON _)| |].
        * apply sstat_same; auto. rewrite P; auto.
        * rewrite fupd_eq. cbn [shape]. cbn [enq deq cnt]. lia.
        * rewrite fupd_eq. exact q_pool0.
      + (* PStore *)
        injection H as <-. destruct q_shape0 as (-> & S2 & S3). exists r, (q ++ [x]), (fupd th r DidPush).
        constructor; cbn [pool enq deq cnt sp str]; [try exact q_lin0| |exact (ON _)| |].
        * eapply lins_snoc; [exact q_lin0|]. apply lin_push; [auto|exact Logic.I].
        * apply (sstat_upd s th r PInc); auto.
        * rewrite fupd_eq. cbn [shape]. cbn [enq deq cnt]. rewrite app_length. cbn [length]. lia.
        * rewrite fupd_eq. cbn [first deq]. intros j Hj. rewrite picks_snoc. rewrite <- S2.
          destruct (Nat.eq_dec j (enq s mod n)) as [->|N].
          -- rewrite fupd_eq, Nat.eqb_refl, q_pool0 by auto. reflexivity.
          -- rewrite fupd_neq by auto. rewrite (proj2 (Nat.eqb_neq _ _)) by auto. rewrite app_nil_r. auto.
      + (* PInc *)
        injection H as <-. exists r, q, (fupd th r Idle). constructor; cbn [pool enq deq cnt sp str]; [try exact q_lin0| |exact (ON _)| |].
        * eapply lins_snoc; [exact q_lin0|]. apply lin_ret_push; auto.
        * apply (sstat_upd s th r SIdle); auto.
        * rewrite fupd_eq. cbn [shape enq deq cnt]. lia.
        * rewrite fupd_eq. exact q_pool0.
      + (* CCnt *)
        destruct (cnt s =? 0)%Z eqn:E; injection H as <-.
        * apply Z.eqb_eq in E. assert (q = []) by (destruct q; auto; cbn [length] in *; lia). subst q.
          exists r, [], (fupd th r Idle). constructor; cbn [pool enq deq cnt sp str sgoe]; [try exact q_lin0| |exact (ON _)| |].
          -- eapply lins_snoc; [exact q_lin0|]. apply lin_fail_pop; auto.
          -- apply (sstat_upd s th r SIdle); auto.
          -- rewrite fupd_eq. exact q_shape0.
          -- rewrite fupd_eq. exact q_pool0.
        * exists r, q, th. constructor; cbn [pool enq deq cnt sp str sgo]; [try exact q_lin0| |exact (ON _)| |].
          -- apply sstat_same; auto. rewrite P; auto.
          -- rewrite fupd_eq. exact q_shape0.
          -- rewrite fupd_eq. exact q_pool0.
      + (* CDeq *)
        injection H as <-. exists r, q, th. constructor; cbn [pool enq deq cnt sp str sgo]; [try exact q_lin0| |exact (ON _)| |].
        * apply sstat_same; auto. rewrite P; auto.
        * rewrite fupd_eq. cbn [shape enq deq cnt]. tauto.
        * rewrite fupd_eq. exact q_pool0.
      + (* CEnq *)
        destruct q_shape0 as (-> & S2 & S3). destruct (deq s <=? enq s) eqn:E; injection H as <-.
        * apply Nat.leb_le in E. exists r, q, th. constructor; cbn [pool enq deq cnt sp str sgo]; [try exact q_lin0| |exact (ON _)| |].
          -- apply sstat_same; auto. rewrite P; auto.
          -- rewrite fupd_eq. cbn [shape enq deq cnt]. repeat split; auto. intros ->. cbn [length] in S2. lia.
          -- rewrite fupd_eq. exact q_pool0.
        * apply Nat.leb_gt in E. assert (q = []) by (destruct q; auto; cbn [length] in *; lia). subst q.
          exists r, [], (fupd th r Idle). constructor; cbn [pool enq deq cnt sp str sgoe]; [try exact q_lin0| |exact (ON _)| |].
          -- eapply lins_snoc; [exact q_lin0|]. apply lin_fail_pop; auto.
          -- apply (sstat_upd s th r SIdle); auto.
          -- rewrite fupd_eq. cbn [shape enq deq cnt]. auto.
          -- rewrite fupd_eq. exact q_pool0.
      + (* CCas *)
        destruct q_shape0 as (-> & S2 & S3 & S4). rewrite Nat.eqb_refl in H. injection H as <-.
        exists r, q, th. constructor; cbn [pool enq deq cnt sp str]; [try exact q_lin0| |exact (ON _)| |].
        * apply sstat_same; auto. rewrite P; auto.
        * rewrite fupd_eq. cbn [shape enq deq cnt]. auto.
        * rewrite fupd_eq. exact q_pool0.
      + (* CTick *) destruct q_shape0.
      + (* CTake *)
        destruct q_shape0 as (S1 & S2 & S3 & S4). destruct q as [|v q]; [congruence|].
        assert (ML : k mod n < n) by (apply Nat.mod_upper_bound; lia).
        assert (EP : pool s (k mod n) = v :: picks (S k) q (k mod n)).
        { rewrite q_pool0 by auto. cbn [picks]. rewrite Nat.eqb_refl. reflexivity. }
        rewrite EP in H. injection H as <-. exists r, q, (fupd th r (DidPop v)).
        constructor; cbn [pool enq deq cnt sp str]; [try exact q_lin0| |exact (ON _)| |].
        * eapply lins_snoc; [exact q_lin0|]. apply lin_pop; auto.
        * apply (sstat_upd s th r (CDec v)); auto.
        * rewrite fupd_eq. cbn [shape enq deq cnt]. cbn [length] in *. lia.
        * rewrite fupd_eq. cbn [first deq]. rewrite S1. intros j Hj. destruct (Nat.eq_dec j (k mod n)) as [->|N].
          -- rewrite fupd_eq. reflexivity.
          -- rewrite fupd_neq by auto. rewrite q_pool0 by auto. cbn [picks]. rewrite (proj2 (Nat.eqb_neq _ _)) by auto. reflexivity.
      + (* CDec *)
        injection H as <-. exists r, q, (fupd th r Idle). constructor; cbn [pool enq deq cnt sp str]; [try exact q_lin0| |exact (ON _)| |].
        * eapply lins_snoc; [exact q_lin0|]. apply lin_ret_pop; auto.
        * apply (sstat_upd s th r SIdle); auto.
        * rewrite fupd_eq. exact q_shape0.
        * rewrite fupd_eq. exact q_pool0.
  Qed.

  Lemma serial_lin : forall l (s : sst), serial (scal_init false) l -> exec (sstep n false) (scal_init false) l = Some s ->
    exists q, linearizable None false (str s) q.
  Proof.
    assert (G : forall l (s s' : sst), QInv s -> serial s l -> exec (sstep n false) s l = Some s' -> QInv s').
    { intros l. induction l as [|a r IH]; intros s s' I PH H; cbn [exec] in H; [injection H as <-; auto|].
      cbn [serial] in PH. destruct PH as [P1 P2]. destruct (sstep n false s a) as [s1|] eqn:E; [|discriminate].
      apply (IH s1); auto. eapply QInv_step; eauto. }
    intros l s PH H. destruct (G l _ s QInv_init PH H) as (a & q & th & I). exists q, th. exact (q_lin _ _ _ _ I).
  Qed.
End Serial.
