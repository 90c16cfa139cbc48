From Coq Require Import List Arith Bool Lia Permutation.
From Coq Require Import ZifyBool ZifyNat.
From Verif Require Import Base TkfModel TkfSpec.
Import ListNotations.

Definition b2n (b : bool) : nat := if b then 1 else 0.

(** ** Sums over the workers *)
Fixpoint sum (n : nat) (f : nat -> nat) : nat := match n with 0 => 0 | S n => f n + sum n f end.

Lemma sum_ext : forall n f g, (forall i, i < n -> f i = g i) -> sum n f = sum n g.
Proof. induction n; simpl; intros; auto. rewrite (H n), (IHn f g); auto; intros; apply H; lia. Qed.
Lemma sum_upd : forall (g : worker -> nat) f w n i, i < n ->
  sum n (fun j => g (updw f i w j)) + g (f i) = sum n (fun j => g (f j)) + g w.
Proof.
  intros g f w. induction n; simpl; intros i L; [lia|].
  destruct (Nat.eq_dec i n) as [->|N].
  - rewrite (sum_ext n (fun j => g (updw f n w j)) (fun j => g (f j))).
    + unfold updw at 1. rewrite Nat.eqb_refl. lia.
    + intros j J. unfold updw. destruct (Nat.eqb_spec j n); [lia|reflexivity].
  - specialize (IHn i ltac:(lia)). unfold updw at 1. destruct (Nat.eqb_spec n i); lia.
Qed.
Lemma sum_upd_same : forall (g : worker -> nat) f w n i, i < n -> g w = g (f i) ->
  sum n (fun j => g (updw f i w j)) = sum n (fun j => g (f j)).
Proof. intros. pose proof (sum_upd g f w n i H). lia. Qed.
Lemma sum_0 : forall n f, sum n f = 0 -> forall i, i < n -> f i = 0.
Proof. induction n; simpl; intros; [lia|]. destruct (Nat.eq_dec i n) as [->|]; [lia|]. apply (IHn f); lia. Qed.
Lemma sum_le : forall n f i, i < n -> f i <= sum n f.
Proof. induction n; simpl; intros; [lia|]. destruct (Nat.eq_dec i n) as [->|]; [lia|]. specialize (IHn f i ltac:(lia)). lia. Qed.
Lemma sum_z : forall n f, (forall i, i < n -> f i = 0) -> sum n f = 0.
Proof. induction n; simpl; intros; auto. rewrite (H n), IHn; auto. Qed.

(** ** Counting messages *)
Definition isT (m : msg) : nat := match m with Tsk _ => 1 | _ => 0 end.
Definition isE (m : msg) : nat := match m with Eos => 1 | _ => 0 end.
Definition isG (m : msg) : nat := match m with GoOut => 1 | _ => 0 end.
Definition isO (t : nat) (m : msg) : nat := match m with Tsk u => b2n (u =? t) | _ => 0 end.
Fixpoint cnt (f : msg -> nat) (l : list msg) : nat := match l with [] => 0 | m :: r => f m + cnt f r end.
Lemma cnt_app : forall f a b, cnt f (a ++ b) = cnt f a + cnt f b.
Proof. induction a; simpl; intros; auto. rewrite IHa; lia. Qed.
Lemma cnt_kinds : forall l, cnt isT l + cnt isE l + cnt isG l = length l.
Proof. induction l as [|[]]; simpl; lia. Qed.
Lemma cnt_O_T : forall t l, cnt (isO t) l <= cnt isT l.
Proof. induction l as [|[]]; simpl; unfold b2n; try destruct (_ =? _); lia. Qed.

Definition hasn (w : worker) : nat := match pc w with WHas _ => 1 | _ => 0 end.
Definition haso (t : nat) (w : worker) : nat := match pc w with WHas u => b2n (u =? t) | _ => 0 end.
Definition load (w : worker) : nat := cnt isT (wq w) + hasn w + cnt isT (fb w).
Definition eosn (w : worker) : nat := cnt isE (wq w) + cnt isE (fb w).
Definition pend (t : nat) (w : worker) : nat := cnt (isO t) (wq w) + haso t w.
Definition back (t : nat) (w : worker) : nat := cnt (isO t) (fb w).
Definition debt (w : worker) : nat := b2n (fz w) + match pc w with WRun | WHas _ => 1 | _ => 0 end.
Definition terms (w : worker) : nat := cnt isE (wq w) + cnt isG (wq w).
Fixpoint occ (t : nat) (l : list nat) : nat := match l with [] => 0 | u :: r => b2n (u =? t) + occ t r end.

Section Inv.
  Variable n : nat.
  Variable cap : option nat.
  Variable l : list round.

  Definition S_ (g : worker -> nat) (s : st) : nat := sum n (fun i => g (ws s i)).

  Definition lbT (s : st) : bool :=
    match rounds s with
    | [] => false
    | r :: _ => match mp s with MLb => false | MOff _ => early r | MThaw _ | MWait => true end
    end.
  Definition eoff (s : st) : bool :=
    match rounds s with
    | [] => false
    | r :: _ => match mp s with MWait => true | MOff _ => false | MLb | MThaw _ => negb (early r) end
    end.
  Definition thw (s : st) (i : nat) : bool :=
    match rounds s with
    | [] => false
    | r :: _ => match mp s with MLb => false | MThaw j => i <? j | MWait => i <? running s | MOff _ => early r && (i <? running s) end
    end.
  Definition rcv (s : st) : bool :=
    lbT s && match lp s with
             | LSleep => negb (lfz s) | LRun | LSend _ => eosreceived s
             | LCast _ _ _ | LEnd => true | LUb => false end.
  Definition inb (i : nat) (a : list nat) : bool := existsb (Nat.eqb i) a.
  Definition bc (s : st) (i : nat) : bool :=
    (i <? running s) && match lp s with
                        | LSleep => lbT s && negb (lfz s)
                        | LRun => eosreceived s && (numtasks s =? 0)
                        | LCast _ a b => negb (inb i (a ++ b))
                        | LEnd => true | LSend _ | LUb => false end.

  Definition lbok (s : st) : Prop :=
    match lp s with
    | LSleep => S_ load s = 0 /\ S_ eosn s = 0 /\ frozen s = negb (lfz s) /\ (lbT s = false -> lfz s = false)
    | LEnd => S_ load s = 0 /\ S_ eosn s = 0
    | LRun => S_ load s = numtasks s /\ 0 < nwc s
        /\ (if eosreceived s then if numtasks s =? 0 then S_ eosn s = nwc s else S_ eosn s = 0 /\ nwc s = running s
            else S_ eosn s = 0 /\ nwc s = S (running s))
    | LSend _ => S (S_ load s) = numtasks s /\ eosreceived s = false /\ S_ eosn s = 0 /\ nwc s = S (running s)
    | LCast m a b => S_ load s = 0 /\ numtasks s = 0 /\ eosreceived s = true /\ NoDup (a ++ b)
        /\ Forall (fun i => i < running s) (a ++ b)
        /\ match m with
           | Eos => S_ eosn s + length (a ++ b) = running s /\ nwc s = S (running s)
           | GoOut => S_ eosn s = 0 | Tsk _ => False end
    | LUb => False
    end.
  Definition active (s : st) : Prop := lp s <> LSleep -> lfz s = false /\ frozen s = false /\ lbT s = true.

  Definition inqok (s : st) : Prop :=
    exists ts, inq s = map Tsk ts ++ (if eoff s && negb (rcv s) then [Eos] else [])
      /\ (rcv s = true -> eoff s = true /\ ts = []).

  Definition mainok (s : st) : Prop :=
    match rounds s with
    | [] => True
    | r :: _ => match mp s with MThaw j => j < running s | MOff j => j <= k r | _ => True end
    end.
  Definition offd (s : st) : nat :=
    match rounds s with
    | [] => 0
    | r :: _ => match mp s with MOff j => j | MWait => k r | MLb | MThaw _ => if early r then 0 else k r end
    end.
  Definition sent (t : nat) (s : st) : nat := match lp s with LSend u => b2n (u =? t) | _ => 0 end.

  Record Inv (s : st) : Prop := {
    I_bound : forall i, n <= i -> ws s i = worker0;
    I_run : lbT s = true -> exists r rs, rounds s = r :: rs /\ running s = run_with n r /\ 0 < running s <= n;
    I_main : mainok s;
    I_lb : lbok s;
    I_act : active s;
    I_in : inqok s;
    I_fb : forall i, cnt isG (fb (ws s i)) = 0;
    I_rounds : exists dn, l = dn ++ rounds s /\ next s = total dn + offd s /\ (forall t, t < total dn -> occ t (ran s) = 1 /\ occ t (freed s) = 1);
    I_occ : forall t, cnt (isO t) (inq s) + S_ (pend t) s + sent t s + occ t (ran s) = b2n (t <? next s);
    I_freed : forall t, occ t (freed s) + S_ (back t) s = occ t (ran s);
    I_term : lost s = false -> forall i, debt (ws s i) + b2n (bc s i) = terms (ws s i) + b2n (thw s i);
    I_out : forall i, running s <= i -> load (ws s i) = 0 /\ eosn (ws s i) = 0 }.

  Hypothesis prop : proper n l.

  Lemma run_le : forall r, run_with n r <= n.
  Proof. intros r. unfold run_with. destruct (Nat.ltb_spec n (if early r then n else if 0 <? nw r then nw r else k r)); lia. Qed.

  Lemma Inv_init : Inv (init l).
  Proof.
    constructor; simpl.
    - reflexivity.
    - unfold lbT; simpl. destruct l as [|r rs]; [discriminate|]. unfold start. destruct (early r) eqn:E; simpl; congruence.
    - unfold mainok; simpl. destruct l as [|r rs]; auto. unfold start. destruct (early r); auto. lia.
    - unfold lbok, S_; simpl. repeat split; apply sum_z; reflexivity.
    - intros N. elim N. reflexivity.
    - exists []. assert (E : lbT (init l) = false /\ eoff (init l) = false).
      { unfold lbT, eoff; simpl. destruct l as [|r rs]; auto. unfold start. destruct (early r) eqn:E; simpl; rewrite ?E; auto. }
      destruct E as [E F]. unfold rcv. rewrite E, F. simpl. split; [reflexivity|discriminate].
    - reflexivity.
    - exists []. simpl. split; [reflexivity|split; [|intros; lia]]. unfold offd; simpl. destruct l as [|r rs]; auto. unfold start. destruct (early r) eqn:E; rewrite ?E; auto.
    - intros t. unfold S_, pend, sent. simpl. rewrite sum_z; auto.
    - intros t. unfold S_, back. simpl. apply sum_z; reflexivity.
    - intros _ i. unfold bc, thw, lbT; simpl. destruct l as [|r rs]; simpl; [reflexivity|].
      unfold start. destruct (early r) eqn:E; simpl; rewrite ?E; reflexivity.
    - auto.
  Qed.

  Ltac proj := unfold set_main, set_in, set_thaw, set_lp, set_cnt, set_w, set_freeze, add_ran, add_freed, set_lost, push in *;
    cbn [rounds mp next inq running lp lfz frozen nwc numtasks eosreceived ws ran freed lost pc fz wq fb] in *.
  Ltac defs := unfold lbT, eoff, thw, rcv, bc, lbok, active, inqok, mainok, offd, sent, S_ in *.

  Lemma updw_eq : forall f i w, updw f i w i = w.
  Proof. intros. unfold updw. rewrite Nat.eqb_refl. reflexivity. Qed.
  Lemma updw_ne : forall f i w j, j <> i -> updw f i w j = f j.
  Proof. intros. unfold updw. destruct (Nat.eqb_spec j i); congruence. Qed.

  Lemma total_app : forall a b, total (a ++ b) = total a + total b.
  Proof. induction a; simpl; intros; auto. rewrite IHa. lia. Qed.

  Lemma occ_in : forall t a, In t a <-> 0 < occ t a.
  Proof.
    induction a as [|u a IH]; simpl; [split; [tauto|lia]|]. unfold b2n. destruct (Nat.eqb_spec u t).
    - split; [lia|auto].
    - rewrite <- (Nat.add_0_l (occ t a)) in IH. split; [intros [E|E]; [congruence|apply IH in E; lia]|intros E; right; apply IH; lia].
  Qed.
  Lemma occ_nodup : forall a, (forall t, occ t a <= 1) -> NoDup a.
  Proof.
    induction a as [|u a IH]; intros H; constructor.
    - intros C. apply occ_in in C. specialize (H u). simpl in H. unfold b2n in H. rewrite Nat.eqb_refl in H. lia.
    - apply IH. intros t. specialize (H t). simpl in H. lia.
  Qed.

  Lemma cnt_map_T : forall f ts, (forall t, f (Tsk t) = 0) -> cnt f (map Tsk ts) = 0.
  Proof. induction ts; simpl; intros; auto. rewrite H, IHts; auto. Qed.

  Lemma Inv_main : forall s s', Inv s -> main_step n s = Some s' -> Inv s'.
  Proof.
    intros s s' J E. destruct s as [R p nx iq rn q z f c nt e w ra fr lo]. destruct J. unfold main_step in E. proj.
    destruct R as [|r R]; [discriminate|].
    destruct I_rounds0 as (dn & Il & In0 & Id).
    assert (Pr : 0 < run_with n r).
    { pose proof prop as P. unfold proper in P. rewrite Il in P. proj. apply Forall_app in P. destruct P as (_ & P). inversion P; auto. }
    destruct p as [j| |i|].
    - (* MOff *)
      assert (Lb : lbT (mkSt (r :: R) (MOff j) nx iq rn q z f c nt e w ra fr lo) = early r) by reflexivity.
      destruct I_in0 as (ts & Iq & Ir). unfold mainok in I_main0. proj.
      destruct (Nat.ltb_spec j (k r)) as [Hj|Hj]; injection E as <-; proj.
      + constructor; try assumption; proj.
        * exists (ts ++ [nx]). unfold eoff in *. proj. simpl in Iq. rewrite app_nil_r in Iq. simpl. rewrite Iq, map_app, app_nil_r.
          split; [reflexivity|]. intros X. destruct (Ir X). discriminate.
        * exists dn. unfold offd in *; proj. split; [exact Il|split; [lia|exact Id]].
        * intros t. specialize (I_occ0 t). unfold sent, S_ in *; proj. rewrite cnt_app. simpl. unfold b2n in *.
          destruct (Nat.ltb_spec t nx), (Nat.ltb_spec t (S nx)), (Nat.eqb_spec nx t); lia.
      + assert (j = k r) by lia. subst j.
        assert (X : eoff (mkSt (r :: R) (if early r then MWait else MLb) nx (iq ++ [Eos]) rn q z f c nt e w ra fr lo) = true)
          by (unfold eoff; proj; destruct (early r); reflexivity).
        assert (Y : lbT (mkSt (r :: R) (if early r then MWait else MLb) nx (iq ++ [Eos]) rn q z f c nt e w ra fr lo) = early r)
          by (unfold lbT; proj; destruct (early r); reflexivity).
        assert (Z : rcv (mkSt (r :: R) (MOff (k r)) nx iq rn q z f c nt e w ra fr lo) = false).
        { destruct (rcv _) eqn:T; auto. destruct (Ir eq_refl) as (T' & _). discriminate. }
        constructor; try assumption; proj.
        * rewrite Y. exact I_run0.
        * unfold mainok; proj. destruct (early r); auto.
        * unfold lbok in *. rewrite Y. exact I_lb0.
        * unfold active in *. rewrite Y. exact I_act0.
        * exists ts. rewrite X. unfold rcv in *. rewrite Y. proj. rewrite Lb in Z. rewrite Z. simpl.
          split; [|discriminate]. simpl in Iq. rewrite app_nil_r in Iq. rewrite Iq. reflexivity.
        * exists dn. unfold offd in *; proj. split; [exact Il|split; [|exact Id]]. destruct (early r) eqn:Er; rewrite ?Er; lia.
        * intros t. specialize (I_occ0 t). unfold sent, S_ in *; proj. rewrite cnt_app. simpl. lia.
        * intros Lo i. specialize (I_term0 Lo i). unfold bc, thw in *. rewrite Y. rewrite Lb in I_term0. proj.
          destruct (early r); exact I_term0.
    - (* MLb *)
      injection E as <-; proj.
      assert (Q : q = LSleep).
      { destruct q; auto; exfalso; destruct (I_act0 ltac:(discriminate)) as (_ & _ & X); discriminate. }
      subst q. unfold lbok in I_lb0. proj. destruct I_lb0 as (L1 & L2 & L3 & L4). specialize (L4 eq_refl). subst z. simpl in L3. subst f.
      destruct (Nat.ltb_spec 0 (run_with n r)); [|lia].
      constructor; try assumption; proj.
      * intros _. exists r, R. repeat split; auto. apply run_le.
      * unfold lbok; proj. repeat split; auto.
      * intros X. elim X. reflexivity.
      * exists dn. auto.
      * intros Lo i. specialize (I_term0 Lo i). unfold bc, thw, lbT in *; proj. simpl in *. rewrite !andb_false_r in *. simpl in *. exact I_term0.
      * intros i _. destruct (Nat.lt_ge_cases i n) as [Hi|Hi]; [|rewrite (I_bound0 i Hi); auto].
        split; [exact (sum_0 _ _ L1 i Hi)|exact (sum_0 _ _ L2 i Hi)].
    - (* MThaw *)
      injection E as <-; proj.
      destruct (I_run0 eq_refl) as (r' & R' & ER & Rn & Rp). injection ER as <- <-.
      unfold mainok in I_main0. proj.
      assert (Y : forall x, lbT (mkSt (r :: R) (if S i <? rn then MThaw (S i) else if early r then MOff 0 else MWait) nx iq rn q z f c nt e x ra fr (lo || fz (w i))) = true).
      { intros x. unfold lbT; proj. destruct (S i <? rn); auto. destruct (early r) eqn:Er; rewrite ?Er; auto. }
      assert (X : forall x, eoff (mkSt (r :: R) (if S i <? rn then MThaw (S i) else if early r then MOff 0 else MWait) nx iq rn q z f c nt e x ra fr (lo || fz (w i))) = negb (early r)).
      { intros x. unfold eoff; proj. destruct (S i <? rn); auto. destruct (early r) eqn:Er; rewrite ?Er; auto. }
      assert (Sm : forall g, (forall u, g (mkW (pc u) true (wq u) (fb u)) = g u) ->
        sum n (fun j => g (updw w i (mkW (pc (w i)) true (wq (w i)) (fb (w i))) j)) = sum n (fun j => g (w j))).
      { intros g G. apply sum_upd_same; [lia|apply G]. }
      constructor; proj.
      * intros i0 Hi. rewrite updw_ne by lia. auto.
      * intros _. exists r, R. auto.
      * unfold mainok; proj. destruct (Nat.ltb_spec (S i) rn); auto. destruct (early r); auto. lia.
      * unfold lbok in *. rewrite Y. unfold S_ in *; proj. rewrite !Sm by reflexivity. destruct q; intuition auto.
      * unfold active in *. rewrite Y. proj. intros Q. destruct (I_act0 Q) as (A & B & _). auto.
      * destruct I_in0 as (ts & Iq & Ir). exists ts. unfold rcv in *. rewrite X, Y. exact (conj Iq Ir).
      * intros i0. destruct (Nat.eq_dec i0 i) as [->|N]; [rewrite updw_eq|rewrite updw_ne by auto]; simpl; auto.
      * exists dn. split; [exact Il|split; [|exact Id]]. unfold offd in *; proj. rewrite In0. f_equal. destruct (S i <? rn); auto. destruct (early r) eqn:Er; rewrite ?Er; auto.
      * intros t. specialize (I_occ0 t). unfold sent, S_ in *; proj. rewrite Sm by reflexivity. exact I_occ0.
      * intros t. specialize (I_freed0 t). unfold S_ in *; proj. rewrite Sm by reflexivity. exact I_freed0.
      * intros Lo i0. apply orb_false_iff in Lo. destruct Lo as (Lo & Fz). specialize (I_term0 Lo i0). unfold bc in *. rewrite Y. proj.
        assert (T : thw (mkSt (r :: R) (if S i <? rn then MThaw (S i) else if early r then MOff 0 else MWait) nx iq rn q z f c nt e (updw w i (mkW (pc (w i)) true (wq (w i)) (fb (w i)))) ra fr (lo || fz (w i))) i0 = (i0 <? S i)).
        { unfold thw; proj. destruct (Nat.ltb_spec (S i) rn); auto. assert (rn = S i) by lia. subst rn.
          destruct (early r) eqn:Er; simpl; auto. }
        rewrite T. unfold thw in I_term0; proj. simpl in I_term0.
        destruct (Nat.eq_dec i0 i) as [->|N]; [rewrite updw_eq|rewrite updw_ne by auto].
        -- unfold debt, terms in *; simpl in *. rewrite Fz in I_term0. rewrite Nat.ltb_irrefl in I_term0.
           destruct (Nat.ltb_spec i (S i)); [|lia]. simpl in *. lia.
        -- assert (EQ : (i0 <? S i) = (i0 <? i)) by (destruct (Nat.ltb_spec i0 (S i)), (Nat.ltb_spec i0 i); lia). rewrite EQ. exact I_term0.
      * intros i0 Hi. rewrite updw_ne by lia. auto.
    - (* MWait *)
      destruct f eqn:F; [|discriminate]. injection E as <-; proj.
      assert (Q : q = LSleep).
      { destruct q; auto; exfalso; destruct (I_act0 ltac:(discriminate)) as (_ & X & _); discriminate. }
      subst q. unfold lbok in I_lb0. proj. destruct I_lb0 as (L1 & L2 & L3 & L4).
      destruct z; [discriminate|].
      destruct I_in0 as (ts & Iq & Ir). unfold rcv, lbT, eoff in Iq, Ir; proj. simpl in Iq, Ir. destruct (Ir eq_refl) as (_ & ->). simpl in Iq. subst iq.
      assert (Y : forall g w a b e0, lbT (mkSt R (match R with [] => MWait | r' :: _ => start r' end) nx [] rn LSleep g b a e0 e w ra fr lo) = false).
      { intros. unfold lbT; proj. destruct R as [|r' R']; auto. unfold start. destruct (early r') eqn:Er; rewrite ?Er; auto. }
      assert (X : forall g w a b e0, eoff (mkSt R (match R with [] => MWait | r' :: _ => start r' end) nx [] rn LSleep g b a e0 e w ra fr lo) = false).
      { intros. unfold eoff; proj. destruct R as [|r' R']; auto. unfold start. destruct (early r') eqn:Er; rewrite ?Er; auto. }
      assert (O : forall t, t < nx -> occ t ra = 1).
      { intros t Ht. specialize (I_occ0 t). unfold sent, S_ in *; proj. simpl in I_occ0.
        rewrite (sum_z n (fun i => pend t (w i))) in I_occ0.
        - destruct (Nat.ltb_spec t nx); [|lia]. unfold b2n in I_occ0. lia.
        - intros i Hi. pose proof (sum_0 _ _ L1 i Hi) as A. simpl in A. unfold load, hasn, pend, haso in *.
          pose proof (cnt_O_T t (wq (w i))). destruct (pc (w i)); lia. }
      assert (O' : forall t, t < nx -> occ t fr = 1).
      { intros t Ht. specialize (I_freed0 t). rewrite (O t Ht) in I_freed0. unfold S_ in *; proj.
        rewrite (sum_z n (fun i => back t (w i))) in I_freed0; [lia|].
        intros i Hi. pose proof (sum_0 _ _ L1 i Hi) as A. simpl in A. unfold load, back in *. pose proof (cnt_O_T t (fb (w i))). lia. }
      constructor; try assumption; proj.
      * rewrite Y. discriminate.
      * unfold mainok; proj. destruct R as [|r' R']; auto. unfold start. destruct (early r'); auto. lia.
      * unfold lbok; proj. repeat split; auto.
      * intros A. elim A. reflexivity.
      * exists []. unfold rcv. rewrite Y, X. split; [reflexivity|discriminate].
      * exists (dn ++ [r]). rewrite <- app_assoc. split; [exact Il|]. rewrite total_app. unfold offd in *; proj. simpl.
        split; [|intros t Ht; split; [apply O|apply O']; lia].
        rewrite In0. destruct R as [|r' R']; [lia|]. unfold start. destruct (early r') eqn:Er; rewrite ?Er; lia.
      * intros Lo i. specialize (I_term0 Lo i). unfold bc in *. rewrite Y. unfold thw, lbT in *; proj. simpl in *. rewrite andb_true_r in I_term0. rewrite andb_false_r.
        assert (T : match R with [] => false | r0 :: _ => match match R with [] => MWait | r' :: _ => start r' end with
          MOff _ => early r0 && (i <? rn) | MLb => false | MThaw j => i <? j | MWait => i <? rn end end = false).
        { destruct R as [|r' R']; auto. unfold start. destruct (early r') eqn:Er; rewrite ?Er; auto. }
        rewrite T. simpl. lia.
  Qed.

  Lemma inb_in : forall i a, inb i a = true <-> In i a.
  Proof.
    intros. unfold inb. rewrite existsb_exists. split; [intros (x & I & E); apply Nat.eqb_eq in E; subst; auto|].
    intros I. exists i. rewrite Nat.eqb_refl. auto.
  Qed.
  Lemma inb_out : forall i a, inb i a = false <-> ~ In i a.
  Proof. intros. rewrite <- inb_in. destruct (inb i a); split; congruence. Qed.

  Lemma map_T_head : forall ts m q x, map Tsk ts ++ x = m :: q ->
    (exists t ts', ts = t :: ts' /\ m = Tsk t /\ q = map Tsk ts' ++ x) \/ (ts = [] /\ x = m :: q).
  Proof. intros [|t ts] m q x E; simpl in E; [auto|]. left. inversion E. eauto. Qed.

  Lemma Inv_lin : forall s s', Inv s -> lin_step s = Some s' -> Inv s'.
  Proof.
    intros s s' J E. destruct s as [R p nx iq rn q z f c nt e w ra fr lo]. destruct J. unfold lin_step in E. proj.
    destruct q; try discriminate. destruct (I_act0 ltac:(discriminate)) as (Az & Af & AT). proj. subst z f.
    destruct (I_run0 AT) as (r & R' & ER & Rn & Rp). proj.
    destruct (Nat.eqb_spec rn 0) as [|_]; [lia|].
    unfold lbok in I_lb0. proj. destruct I_lb0 as (L1 & L2 & L3).
    destruct I_in0 as (ts & Iq & Ir). unfold rcv in Iq, Ir. rewrite AT in Iq, Ir. proj. rewrite andb_true_l in Iq, Ir.
    destruct iq as [|m iq]; [discriminate|].
    destruct e.
    { exfalso. destruct (Ir eq_refl) as (_ & ->). rewrite andb_false_r in Iq. discriminate. }
    symmetry in Iq. apply map_T_head in Iq. destruct L3 as (L3 & L4).
    destruct Iq as [(t & ts' & -> & -> & Iq) | (-> & Iq)].
    - injection E as <-. constructor; try assumption; proj.
      + unfold lbok, S_ in *; proj. repeat split; auto.
      + intros _. proj. auto.
      + exists ts'. unfold rcv. change (lbT _) with (lbT (mkSt R p nx (Tsk t :: iq) rn LRun false false c nt false w ra fr lo)). rewrite AT. proj.
        change (eoff _) with (eoff (mkSt R p nx (Tsk t :: iq) rn LRun false false c nt false w ra fr lo)). split; [exact Iq|]. simpl. discriminate.
      + intros u. specialize (I_occ0 u). unfold sent, S_ in *; proj. simpl in I_occ0. lia.
    - destruct (eoff _ && negb false) eqn:EO; [|discriminate]. inversion Iq; subst m iq. rewrite andb_true_r in EO.
      assert (BC : forall i, bc (mkSt R p nx [Eos] rn LRun false false c nt false w ra fr lo) i = false) by (intros; unfold bc; proj; simpl; apply andb_false_r).
      destruct (Nat.eqb_spec nt 0) as [Z|Z]; injection E as <-.
      + constructor; try assumption; proj.
        * unfold lbok, S_ in *; proj. rewrite app_nil_r. repeat split; auto; try lia.
          -- apply seq_NoDup.
          -- apply Forall_forall. intros x X. apply in_seq in X. lia.
          -- rewrite seq_length. lia.
        * intros _. proj. auto.
        * exists []. unfold rcv. change (lbT _) with (lbT (mkSt R p nx [Eos] rn LRun false false c nt false w ra fr lo)). rewrite AT. proj. simpl. rewrite andb_false_r. auto.
        * intros Lo i. specialize (I_term0 Lo i). rewrite BC in I_term0. unfold bc; proj. rewrite app_nil_r.
          assert (X : (i <? rn) && negb (inb i (seq 0 rn)) = false).
          { destruct (Nat.ltb_spec i rn); auto. assert (Y : inb i (seq 0 rn) = true) by (apply inb_in, in_seq; lia). rewrite Y. auto. }
          rewrite X. exact I_term0.
      + unfold count_eos. proj. destruct (Nat.eqb_spec c 1); [lia|].
        constructor; try assumption; proj.
        * unfold lbok, S_ in *; proj. destruct (Nat.eqb_spec nt 0); [lia|]. repeat split; auto; lia.
        * exists []. unfold rcv. change (lbT _) with (lbT (mkSt R p nx [Eos] rn LRun false false c nt false w ra fr lo)). rewrite AT. proj. simpl. rewrite andb_false_r. auto.
        * intros Lo i. specialize (I_term0 Lo i). rewrite BC in I_term0. unfold bc; proj. destruct (Nat.eqb_spec nt 0); [lia|]. simpl. rewrite andb_false_r. exact I_term0.
  Qed.

  Lemma Inv_lback : forall s i s', Inv s -> lback_step s i = Some s' -> Inv s'.
  Proof.
    intros s i s' J E. destruct s as [R p nx iq rn q z f c nt e w ra fr lo]. destruct J. unfold lback_step in E. proj.
    destruct q; try discriminate. destruct (I_act0 ltac:(discriminate)) as (Az & Af & AT). proj. subst z f.
    destruct (I_run0 AT) as (r & R' & ER & Rn & Rp). proj.
    destruct (Nat.ltb_spec i rn) as [Hi|]; [|discriminate].
    assert (Hn : i < n) by lia.
    unfold lbok in I_lb0. proj. destruct I_lb0 as (L1 & L2 & L3). unfold S_ in *; proj.
    destruct (fb (w i)) as [|[t| |] qq] eqn:F; [discriminate| | |].
    - (* a task comes back *)
      set (w' := mkW (pc (w i)) (fz (w i)) (wq (w i)) qq) in *.
      pose proof (sum_upd load w w' n i Hn) as S1. pose proof (sum_upd eosn w w' n i Hn) as S2.
      assert (S3 : forall u, sum n (fun j => pend u (updw w i w' j)) = sum n (fun j => pend u (w j))) by (intros; apply sum_upd_same; auto).
      pose proof (fun u => sum_upd (back u) w w' n i Hn) as S4.
      assert (D1 : load (w i) = S (load w')) by (unfold load, w', hasn; proj; rewrite F; simpl; lia).
      assert (D2 : eosn (w i) = eosn w') by (unfold eosn, w'; proj; rewrite F; simpl; lia).
      destruct nt as [|nt].
      { exfalso. pose proof (sum_le n (fun j => load (w j)) i Hn) as X. simpl in X. lia. }
      assert (E' : s' = mkSt R p nx iq rn (if (nt =? 0) && e then LCast GoOut (seq 0 rn) [] else LRun) false false c nt e (updw w i w') ra (t :: fr) lo).
      { destruct ((nt =? 0) && e); injection E as <-; reflexivity. }
      clear E. subst s'.
      assert (L3' : sum n (fun j => eosn (w j)) = 0 /\ nwc (mkSt R p nx iq rn LRun false false c (S nt) e w ra fr lo) = (if e then rn else S rn)).
      { destruct e; exact L3. }
      proj. destruct L3' as (E0 & Nw).
      constructor; try assumption; proj.
      + intros j Hj. rewrite updw_ne by lia. auto.
      + unfold lbok, S_; proj. destruct ((nt =? 0) && e) eqn:B.
        * apply andb_true_iff in B. destruct B as (B & ->). apply Nat.eqb_eq in B. subst nt. rewrite app_nil_r.
          repeat split; auto; try lia.
          -- apply seq_NoDup.
          -- apply Forall_forall. intros x X. apply in_seq in X. lia.
        * repeat split; auto; [lia|]. destruct e.
          -- rewrite andb_true_r in B. rewrite B. lia.
          -- lia.
      + intros _. proj. auto.
      + destruct I_in0 as (ts & Iq & Ir). exists ts. unfold rcv in *. 
        assert (X : forall s1 s2, rounds s1 = rounds s2 -> mp s1 = mp s2 -> lbT s1 = lbT s2) by (intros ? ? A B; unfold lbT; rewrite A, B; reflexivity).
        rewrite (X _ (mkSt R p nx iq rn LRun false false c (S nt) e w ra fr lo)) by reflexivity. rewrite AT in *. proj.
        destruct ((nt =? 0) && e) eqn:B; [|exact (conj Iq Ir)]. apply andb_true_iff in B. destruct B as (_ & ->). exact (conj Iq Ir).
      + intros j. destruct (Nat.eq_dec j i) as [->|N]; [rewrite updw_eq|rewrite updw_ne by auto]; auto.
        unfold w'; simpl. specialize (I_fb0 i). rewrite F in I_fb0. simpl in I_fb0. exact I_fb0.
      + destruct I_rounds0 as (dn & A & B & C). exists dn. split; [exact A|split; [exact B|]]. intros u Hu. destruct (C u Hu) as (C1 & C2). split; [exact C1|].
        specialize (I_freed0 u). specialize (S4 u). unfold back in S4 at 2 4. unfold w' in S4 at 2. rewrite F in S4. simpl in S4. simpl. lia.
      + intros u. specialize (I_occ0 u). unfold sent, S_ in *; proj. rewrite S3. destruct ((nt =? 0) && e); exact I_occ0.
      + intros u. specialize (I_freed0 u). specialize (S4 u). unfold S_ in *; proj. unfold back in S4 at 2 4. unfold w' in S4 at 2. rewrite F in S4. simpl in S4. simpl. lia.
      + intros Lo j. specialize (I_term0 Lo j).
        assert (X : bc (mkSt R p nx iq rn (if (nt =? 0) && e then LCast GoOut (seq 0 rn) [] else LRun) false false c nt e (updw w i w') ra (t :: fr) lo) j = false).
        { unfold bc; proj. destruct ((nt =? 0) && e) eqn:B.
          - rewrite app_nil_r. destruct (Nat.ltb_spec j rn); auto. assert (Y : inb j (seq 0 rn) = true) by (apply inb_in, in_seq; lia). rewrite Y. auto.
          - rewrite andb_comm in B. rewrite B. apply andb_false_r. }
        rewrite X. unfold bc in I_term0; proj. simpl in I_term0. rewrite !andb_false_r in I_term0.
        destruct (Nat.eq_dec j i) as [->|N]; [rewrite updw_eq|rewrite updw_ne by auto]; exact I_term0.
      + intros j Hj. rewrite updw_ne by lia. auto.
    - (* an end mark *)
      set (w' := mkW (pc (w i)) (fz (w i)) (wq (w i)) qq) in *.
      pose proof (sum_upd eosn w w' n i Hn) as S2.
      assert (S1 : sum n (fun j => load (updw w i w' j)) = sum n (fun j => load (w j))).
      { apply sum_upd_same; auto. unfold load, w', hasn; proj; rewrite F; reflexivity. }
      assert (S3 : forall u, sum n (fun j => pend u (updw w i w' j)) = sum n (fun j => pend u (w j))) by (intros; apply sum_upd_same; auto).
      assert (S4 : forall u, sum n (fun j => back u (updw w i w' j)) = sum n (fun j => back u (w j))).
      { intros; apply sum_upd_same; auto. unfold back, w'; proj; rewrite F; reflexivity. }
      assert (D2 : eosn (w i) = S (eosn w')) by (unfold eosn, w'; proj; rewrite F; simpl; lia).
      pose proof (sum_le n (fun j => eosn (w j)) i Hn) as X. simpl in X.
      assert (Q : e = true /\ nt = 0 /\ sum n (fun j => eosn (w j)) = c).
      { destruct e; [|lia]. destruct (Nat.eqb_spec nt 0); [|lia]. auto. }
      destruct Q as (-> & -> & Q). clear L3.
      assert (E' : s' = mkSt R p nx iq rn (if c =? 1 then LEnd else LRun) false false (pred c) 0 true (updw w i w') ra fr lo).
      { injection E as <-. unfold count_eos. proj. reflexivity. }
      clear E. subst s'.
      constructor; try assumption; proj.
      + intros j Hj. rewrite updw_ne by lia. auto.
      + unfold lbok, S_; proj. destruct (Nat.eqb_spec c 1); simpl; lia.
      + intros _. proj. auto.
      + destruct I_in0 as (ts & Iq & Ir). exists ts. unfold rcv in *. 
        assert (Y : forall s1 s2, rounds s1 = rounds s2 -> mp s1 = mp s2 -> lbT s1 = lbT s2) by (intros ? ? A B; unfold lbT; rewrite A, B; reflexivity).
        rewrite (Y _ (mkSt R p nx iq rn LRun false false c 0 true w ra fr lo)) by reflexivity. rewrite AT in *. proj.
        destruct (c =? 1); exact (conj Iq Ir).
      + intros j. destruct (Nat.eq_dec j i) as [->|N]; [rewrite updw_eq|rewrite updw_ne by auto]; auto.
        unfold w'; simpl. specialize (I_fb0 i). rewrite F in I_fb0. simpl in I_fb0. exact I_fb0.
      + intros u. specialize (I_occ0 u). unfold sent, S_ in *; proj. rewrite S3. destruct (c =? 1); exact I_occ0.
      + intros u. specialize (I_freed0 u). unfold S_ in *; proj. rewrite S4. exact I_freed0.
      + intros Lo j. specialize (I_term0 Lo j). unfold bc in *; proj. simpl in I_term0.
        replace (match (if c =? 1 then LEnd else LRun) with LSleep => _ | _ => _ end) with true by (destruct (c =? 1); reflexivity).
        destruct (Nat.eq_dec j i) as [->|N]; [rewrite updw_eq|rewrite updw_ne by auto]; exact I_term0.
      + intros j Hj. rewrite updw_ne by lia. auto.
    - exfalso. specialize (I_fb0 i). rewrite F in I_fb0. simpl in I_fb0. lia.
  Qed.

  Lemma lbT_eq : forall s1 s2, rounds s1 = rounds s2 -> mp s1 = mp s2 -> lbT s1 = lbT s2.
  Proof. intros ? ? A B; unfold lbT; rewrite A, B; reflexivity. Qed.
  Lemma eoff_eq : forall s1 s2, rounds s1 = rounds s2 -> mp s1 = mp s2 -> eoff s1 = eoff s2.
  Proof. intros ? ? A B; unfold eoff; rewrite A, B; reflexivity. Qed.

  Lemma Inv_lput : forall s i s', Inv s -> lput_step cap s i = Some s' -> Inv s'.
  Proof.
    intros s i s' J E. destruct s as [R p nx iq rn q z f c nt e w ra fr lo]. destruct J. unfold lput_step in E. proj.
    destruct q as [| |t| | |]; try discriminate. destruct (I_act0 ltac:(discriminate)) as (Az & Af & AT). proj. subst z f.
    destruct (I_run0 AT) as (r & R' & ER & Rn & Rp). proj.
    destruct (Nat.ltb_spec i rn) as [Hi|]; [|discriminate]. destruct (room cap (w i)); [|discriminate]. simpl in E. injection E as <-.
    assert (Hn : i < n) by lia.
    unfold lbok in I_lb0. proj. destruct I_lb0 as (L1 & -> & L3 & L4). unfold S_ in *; proj.
    set (w' := mkW (pc (w i)) (fz (w i)) (wq (w i) ++ [Tsk t]) (fb (w i))) in *.
    pose proof (sum_upd load w w' n i Hn) as S1.
    assert (S2 : sum n (fun j => eosn (updw w i w' j)) = sum n (fun j => eosn (w j))).
    { apply sum_upd_same; auto. unfold eosn, w'; proj. rewrite cnt_app. simpl. lia. }
    pose proof (fun u => sum_upd (pend u) w w' n i Hn) as S3.
    assert (S4 : forall u, sum n (fun j => back u (updw w i w' j)) = sum n (fun j => back u (w j))) by (intros; apply sum_upd_same; auto).
    assert (D1 : load w' = S (load (w i))) by (unfold load, w', hasn; proj; rewrite cnt_app; simpl; lia).
    constructor; proj.
    - intros j Hj. rewrite updw_ne by lia. auto.
    - intros _. eauto.
    - exact I_main0.
    - unfold lbok, S_; proj. rewrite S2. repeat split; auto; lia.
    - intros _. proj. auto.
    - exact I_in0.
    - intros j. destruct (Nat.eq_dec j i) as [->|N]; [rewrite updw_eq|rewrite updw_ne by auto]; auto. apply I_fb0.
    - exact I_rounds0.
    - intros u. specialize (I_occ0 u). specialize (S3 u). unfold sent, S_ in *; proj.
      assert (D3 : pend u w' = pend u (w i) + b2n (t =? u)) by (unfold pend, w', haso; proj; rewrite cnt_app; simpl; lia). lia.
    - intros u. specialize (I_freed0 u). unfold S_ in *; proj. rewrite S4. exact I_freed0.
    - intros Lo j. specialize (I_term0 Lo j). unfold bc in *; proj. simpl in *. rewrite andb_false_r in *.
      destruct (Nat.eq_dec j i) as [->|N]; [rewrite updw_eq|rewrite updw_ne by auto]; [|exact I_term0].
      change (thw _ i) with (thw (mkSt R p nx iq rn (LSend t) false false c nt false w ra fr lo) i).
      unfold debt, terms, w' in *; proj. rewrite !cnt_app. simpl in *. lia.
    - intros j Hj. rewrite updw_ne by lia. auto.
  Qed.

  (** One more copy of an end mark or of GO_OUT. *)
  Lemma Inv_push : forall R p nx iq rn c nt e w ra fr lo m i a b a' b',
    Inv (mkSt R p nx iq rn (LCast m a b) false false c nt e w ra fr lo) ->
    Permutation (a ++ b) (i :: a' ++ b') ->
    Inv (mkSt R p nx iq rn (LCast m a' b') false false c nt e (updw w i (mkW (pc (w i)) (fz (w i)) (wq (w i) ++ [m]) (fb (w i)))) ra fr lo).
  Proof.
    intros R p nx iq rn c nt e w ra fr lo m i a b a' b' J P. destruct J. proj.
    destruct (I_act0 ltac:(discriminate)) as (_ & _ & AT). destruct (I_run0 AT) as (r & R' & ER & Rn & Rp). proj.
    unfold lbok in I_lb0. proj. destruct I_lb0 as (L1 & -> & -> & L4 & L5 & L6). unfold S_ in *; proj.
    pose proof (Permutation_NoDup P L4) as N. inversion N as [|? ? Ni Na]; subst.
    assert (F : Forall (fun j => j < run_with n r) (i :: a' ++ b')) by (eapply Permutation_Forall; eauto). inversion F as [|? ? Hi Fa]; subst.
    apply Permutation_length in P as Pl. simpl in Pl.
    assert (Hn : i < n) by lia.
    set (w' := mkW (pc (w i)) (fz (w i)) (wq (w i) ++ [m]) (fb (w i))) in *.
    assert (Mt : match m with Tsk _ => False | _ => True end) by (destruct m; auto).
    assert (S1 : sum n (fun j => load (updw w i w' j)) = sum n (fun j => load (w j))).
    { apply sum_upd_same; auto. unfold load, w', hasn; proj. rewrite cnt_app. destruct m; try tauto; simpl; lia. }
    pose proof (sum_upd eosn w w' n i Hn) as S2.
    assert (D2 : eosn w' = eosn (w i) + isE m) by (unfold eosn, w'; proj; rewrite cnt_app; simpl; lia).
    assert (S3 : forall u, sum n (fun j => pend u (updw w i w' j)) = sum n (fun j => pend u (w j))).
    { intros; apply sum_upd_same; auto. unfold pend, w', haso; proj. rewrite cnt_app. destruct m; try tauto; simpl; lia. }
    assert (S4 : forall u, sum n (fun j => back u (updw w i w' j)) = sum n (fun j => back u (w j))) by (intros; apply sum_upd_same; auto).
    constructor; proj.
    - intros j Hj. rewrite updw_ne by lia. auto.
    - intros _. eauto.
    - exact I_main0.
    - unfold lbok, S_; proj. repeat split; auto; try lia. destruct m; try tauto; simpl in D2; lia.
    - intros _. proj. auto.
    - exact I_in0.
    - intros j. destruct (Nat.eq_dec j i) as [->|N']; [rewrite updw_eq|rewrite updw_ne by auto]; auto. apply I_fb0.
    - exact I_rounds0.
    - intros u. specialize (I_occ0 u). unfold sent, S_ in *; proj. rewrite S3. exact I_occ0.
    - intros u. specialize (I_freed0 u). unfold S_ in *; proj. rewrite S4. exact I_freed0.
    - intros Lo j. specialize (I_term0 Lo j). unfold bc in *; proj.
      destruct (Nat.eq_dec j i) as [->|N']; [rewrite updw_eq|rewrite updw_ne by auto].
      + apply inb_out in Ni. rewrite Ni.
        assert (X : inb i (a ++ b) = true) by (apply inb_in; eapply Permutation_in; [symmetry; eauto|left; auto]). rewrite X in I_term0.
        rewrite andb_false_r in I_term0. destruct (Nat.ltb_spec i (run_with n r)); [|lia].
        unfold debt, terms, w' in *; proj. rewrite !cnt_app. change (thw _ i) with (thw (mkSt (r :: R') p nx iq (run_with n r) (LCast m a b) false false c 0 true w ra fr lo) i).
        assert (isE m + isG m = 1) by (destruct m; try tauto; auto). simpl in *. lia.
      + assert (X : inb j (a' ++ b') = inb j (a ++ b)).
        { destruct (inb j (a' ++ b')) eqn:Y.
          - symmetry. apply inb_in. eapply Permutation_in; [symmetry; eauto|]. right. apply inb_in; auto.
          - symmetry. apply inb_out in Y. apply inb_out. intros C. eapply Permutation_in in C; [|eauto]. destruct C; congruence. }
        rewrite X. exact I_term0.
    - intros j Hj. rewrite updw_ne by lia. auto.
  Qed.

  Lemma Inv_lstep : forall s s', Inv s -> lstep_step cap s = Some s' -> Inv s'.
  Proof.
    intros s s' J E. destruct s as [R p nx iq rn q z f c nt e w ra fr lo]. unfold lstep_step in E. proj.
    destruct q as [| |t|m a b| |]; try discriminate.
    - (* waking up *)
      destruct J; proj. destruct z; [|discriminate]. injection E as <-. unfold begin_run. proj.
      unfold lbok in I_lb0. proj. destruct I_lb0 as (L1 & L2 & -> & L4). unfold S_ in *; proj.
      assert (AT : lbT (mkSt R p nx iq rn LSleep true false c nt e w ra fr lo) = true).
      { destruct (lbT _); auto. specialize (L4 eq_refl). discriminate. }
      destruct (I_run0 AT) as (r & R' & ER & Rn & Rp).
      constructor; proj; try assumption.
      + unfold lbok, S_; proj. repeat split; auto; lia.
      + intros _. proj. auto.
      + intros Lo j. specialize (I_term0 Lo j). unfold bc in *. proj. simpl in *. rewrite !andb_false_r in *. exact I_term0.
    - assert (A : z = false /\ f = false) by (destruct J; destruct (I_act0 ltac:(discriminate)) as (? & ? & _); auto).
      destruct A as (-> & ->).
      destruct a as [|i a].
      + destruct b as [|i b].
        * injection E as <-.
          destruct J; proj. destruct (I_act0 ltac:(discriminate)) as (_ & _ & AT). destruct (I_run0 AT) as (r & R' & ER & Rn & Rp). proj.
          unfold lbok in I_lb0. proj. destruct I_lb0 as (L1 & -> & -> & L4 & L5 & L6). unfold S_ in *; proj.
          destruct m as [t| |]; [tauto| |].
          -- unfold count_eos. proj. destruct (Nat.eqb_spec c 1); [lia|].
             constructor; proj; try assumption.
             ++ unfold lbok, S_; proj. simpl in *. repeat split; auto; lia.
             ++ intros _. proj. auto.
          -- constructor; proj; try assumption.
             ++ unfold lbok, S_; proj. auto.
             ++ intros _. proj. auto.
        * destruct (room cap (w i)); [|discriminate]. injection E as <-. eapply Inv_push; eauto.
      + destruct (room cap (w i)); injection E as <-.
        * eapply Inv_push; eauto.
        * assert (P : Permutation (i :: a ++ b) (a ++ i :: b)) by apply Permutation_middle.
          destruct J; proj. destruct (I_act0 ltac:(discriminate)) as (_ & _ & AT).
          constructor; proj; try assumption.
          -- unfold lbok in *. proj. destruct I_lb0 as (L1 & L2 & L3 & L4 & L5 & L6). unfold S_ in *; proj. repeat split; auto.
             ++ eapply Permutation_NoDup; eauto.
             ++ eapply Permutation_Forall; eauto.
             ++ rewrite <- (Permutation_length P). exact L6.
          -- intros _. proj. auto.
          -- intros Lo j. specialize (I_term0 Lo j). unfold bc in *. proj.
             assert (X : inb j (a ++ i :: b) = inb j ((i :: a) ++ b)).
             { destruct (inb j (a ++ i :: b)) eqn:Y.
               - symmetry. apply inb_in. eapply Permutation_in; [symmetry; exact P|]. apply inb_in; auto.
               - symmetry. apply inb_out in Y. apply inb_out. intros C. apply Y. eapply Permutation_in; [exact P|exact C]. }
             rewrite X. exact I_term0.
    - destruct J; proj. destruct (I_act0 ltac:(discriminate)) as (Az & Af & AT). proj. subst z f. injection E as <-.
      unfold lbok in I_lb0. proj. destruct I_lb0 as (L1 & L2).
      assert (AT' : forall q z f, lbT (mkSt R p nx iq rn q z f c nt e w ra fr lo) = true) by (intros; erewrite lbT_eq; [exact AT|reflexivity|reflexivity]).
      constructor; proj; try assumption.
      + unfold lbok; proj. repeat split; auto.
      + intros X. elim X. reflexivity.
      + intros Lo j. specialize (I_term0 Lo j). unfold bc in *. proj. rewrite AT'. exact I_term0.
  Qed.

  (** A step of a worker changes nothing but this worker and what has been run. *)
  Lemma Inv_worker : forall R p nx iq rn q z f c nt e w ra fr lo i w' ra',
    Inv (mkSt R p nx iq rn q z f c nt e w ra fr lo) -> i < n ->
    load w' = load (w i) -> eosn w' = eosn (w i) -> cnt isG (fb w') = cnt isG (fb (w i)) ->
    (forall u, pend u w' + occ u ra' = pend u (w i) + occ u ra) ->
    (forall u, occ u ra <= occ u ra') ->
    (forall u, back u w' + occ u ra = back u (w i) + occ u ra') ->
    debt w' + terms (w i) = debt (w i) + terms w' ->
    Inv (mkSt R p nx iq rn q z f c nt e (updw w i w') ra' fr lo).
  Proof.
    intros R p nx iq rn q z f c nt e w ra fr lo i w' ra' J Hn D1 D2 D3 D4 D5 D6 D7. destruct J. proj.
    assert (S1 : sum n (fun j => load (updw w i w' j)) = sum n (fun j => load (w j))) by (apply sum_upd_same; auto).
    assert (S2 : sum n (fun j => eosn (updw w i w' j)) = sum n (fun j => eosn (w j))) by (apply sum_upd_same; auto).
    pose proof (fun u => sum_upd (pend u) w w' n i Hn) as S3.
    pose proof (fun u => sum_upd (back u) w w' n i Hn) as S4.
    assert (O : forall u, cnt (isO u) iq + sum n (fun j => pend u (updw w i w' j)) + sent u (mkSt R p nx iq rn q z f c nt e w ra fr lo) + occ u ra' = b2n (u <? nx)).
    { intros u. specialize (I_occ0 u). specialize (S3 u). specialize (D4 u). unfold S_ in *; proj. lia. }
    constructor; proj; try assumption.
    - intros j Hj. rewrite updw_ne by lia. auto.
    - unfold lbok, S_ in *; proj. rewrite S1, S2. exact I_lb0.
    - intros j. destruct (Nat.eq_dec j i) as [->|N']; [rewrite updw_eq|rewrite updw_ne by auto]; auto. rewrite D3. auto.
    - destruct I_rounds0 as (dn & A & B & C). exists dn. split; [exact A|split; [exact B|]]. intros t Ht. destruct (C t Ht) as (C1 & C2). split; [|exact C2]. specialize (O t). specialize (D5 t).
      unfold b2n in O. destruct (t <? nx); lia.
    - intros u. specialize (I_freed0 u). specialize (S4 u). specialize (D6 u). unfold S_ in *; proj. lia.
    - intros Lo j. specialize (I_term0 Lo j). 
      change (debt (updw w i w' j) + b2n (bc (mkSt R p nx iq rn q z f c nt e w ra fr lo) j) = terms (updw w i w' j) + b2n (thw (mkSt R p nx iq rn q z f c nt e w ra fr lo) j)).
      destruct (Nat.eq_dec j i) as [->|N']; [rewrite updw_eq|rewrite updw_ne by auto]; auto. lia.
    - intros j Hj. specialize (I_out0 j Hj). destruct (Nat.eq_dec j i) as [->|N']; [rewrite updw_eq|rewrite updw_ne by auto]; auto. lia.
  Qed.

  Lemma Inv_w : forall s i s', Inv s -> w_step n s i = Some s' -> Inv s'.
  Proof.
    intros s i s' J E. destruct s as [R p nx iq rn q z f c nt e w ra fr lo]. unfold w_step in E. proj.
    destruct (Nat.ltb_spec i n) as [Hn|]; [|discriminate]. simpl in E.
    destruct (pc (w i)) as [| |t|] eqn:P.
    - destruct (fz (w i)) eqn:Z; [|discriminate]. injection E as <-.
      apply Inv_worker with ra; auto; intros; unfold load, hasn, eosn, pend, haso, back, debt, terms; proj; rewrite ?P, ?Z; auto.
    - destruct (wq (w i)) as [|[t| |] qq] eqn:Q; [discriminate| | |]; injection E as <-;
      apply Inv_worker with ra; auto; intros; unfold load, hasn, eosn, pend, haso, back, debt, terms; proj; rewrite ?P, ?Q, ?cnt_app; simpl; lia.
    - injection E as <-.
      apply Inv_worker with ra; auto; intros; unfold load, hasn, eosn, pend, haso, back, debt, terms; proj; rewrite ?P, ?cnt_app; simpl; lia.
    - injection E as <-. destruct (fz (w i)) eqn:Z;
      apply Inv_worker with ra; auto; intros; unfold load, hasn, eosn, pend, haso, back, debt, terms; proj; rewrite ?P, ?Z; auto.
  Qed.

  Lemma Inv_step : forall s a s', Inv s -> step n cap s a = Some s' -> Inv s'.
  Proof.
    intros s [| |i|i| |i] s' J E; simpl in E.
    - eapply Inv_main; eauto. - eapply Inv_lin; eauto. - eapply Inv_lback; eauto.
    - eapply Inv_lput; eauto. - eapply Inv_lstep; eauto. - eapply Inv_w; eauto.
  Qed.

  Lemma Inv_exec : forall acts s', exec (step n cap) (init l) acts = Some s' -> Inv s'.
  Proof. intros acts s' E. eapply (exec_inv _ Inv); [intros; eapply Inv_step; eauto|apply Inv_init|exact E]. Qed.

  Lemma Inv_safe : forall s, Inv s -> each_once s /\ waited l s /\ lp s <> LUb.
  Proof.
    intros s J. destruct J.
    assert (O1 : forall t, occ t (ran s) <= b2n (t <? next s)) by (intros t; specialize (I_occ0 t); lia).
    assert (O2 : forall t, occ t (freed s) <= occ t (ran s)) by (intros t; specialize (I_freed0 t); lia).
    assert (O3 : forall t, occ t (ran s) <= 1) by (intros t; specialize (O1 t); unfold b2n in O1; destruct (t <? next s); lia).
    split; [|split].
    - split; [|split; [|split]].
      + apply occ_nodup, O3.
      + apply occ_nodup. intros t. specialize (O2 t). specialize (O3 t). lia.
      + intros t T. apply occ_in. apply occ_in in T. specialize (O2 t). lia.
      + intros t T. apply occ_in in T. specialize (O1 t). unfold b2n in O1. destruct (Nat.ltb_spec t (next s)); lia.
    - destruct I_rounds0 as (dn & El & _ & D). intros t Ht. unfold returned in Ht.
      assert (X : firstn (length l - length (rounds s)) l = dn).
      { rewrite El at 2. rewrite El, app_length. replace (length dn + length (rounds s) - length (rounds s)) with (length dn + 0) by lia.
        rewrite firstn_app_2. simpl. apply app_nil_r. }
      rewrite X in Ht. destruct (D t Ht) as (D1 & D2). split; apply occ_in; lia.
    - intros C. unfold lbok in I_lb0. rewrite C in I_lb0. exact I_lb0.
  Qed.

  (** *** Somebody can move *)
  Definition quiet (w : worker) : bool :=
    match pc w with WSleep => negb (fz w) | WRun => match wq w with [] => true | _ => false end | _ => false end.
  Lemma quiet_or : forall (f : nat -> bool) m, (forall i, i < m -> f i = true) \/ exists i, i < m /\ f i = false.
  Proof.
    induction m as [|m [IH|(i & H & F)]]; [left; intros; lia| |right; exists i; split; auto].
    destruct (f m) eqn:F; [left|right; exists m; auto]. intros i Hi. destruct (Nat.eq_dec i m) as [->|]; auto. apply IH. lia.
  Qed.
  Lemma quiet_step : forall s i, i < n -> quiet (ws s i) = false -> exists s', step n cap s (WStep i) = Some s'.
  Proof.
    intros s i Hi Q. simpl. unfold w_step. destruct (Nat.ltb_spec i n); [|lia]. simpl. unfold quiet in Q.
    destruct (pc (ws s i)); [destruct (fz (ws s i)); [eauto|discriminate]|destruct (wq (ws s i)) as [|[]]; [discriminate|eauto..]|eauto|eauto].
  Qed.
  Lemma sum_pos : forall m f, 0 < sum m f -> exists i, i < m /\ 0 < f i.
  Proof.
    induction m as [|m IH]; simpl; intros f H; [lia|]. destruct (f m) eqn:F.
    - destruct (IH f) as (i & Hi & P); [lia|]. exists i. auto.
    - exists m. lia.
  Qed.

  Lemma Inv_move : forall s, cap <> Some 0 -> Inv s -> lost s = false -> rounds s <> [] -> can_move n cap s.
  Proof.
    intros s Hc J Lo HR. destruct J.
    destruct (quiet_or (fun i => quiet (ws s i)) n) as [Q|(i & Hi & Q)]; [|destruct (quiet_step s i Hi Q) as (s' & E); exists (WStep i), s'; exact E].
    destruct (mp s) as [j| |i|] eqn:P.
    1-3: exists Main; simpl; unfold main_step; rewrite P; destruct (rounds s); [congruence|]; try (destruct (j <? k r)); eauto.
    destruct (frozen s) eqn:F.
    { exists Main. simpl. unfold main_step. rewrite P, F. destruct (rounds s); [congruence|]. eauto. }
    assert (AT : lbT s = true) by (unfold lbT; rewrite P; destruct (rounds s); [congruence|reflexivity]).
    assert (EO : eoff s = true) by (unfold eoff; rewrite P; destruct (rounds s); [congruence|reflexivity]).
    destruct (I_run0 AT) as (r & R' & ER & Rn & Rp).
    assert (W : forall i, i < running s -> wq (ws s i) = []).
    { intros i Hi. specialize (Q i ltac:(lia)). simpl in Q. unfold quiet in Q.
      destruct (pc (ws s i)) eqn:Pc; try discriminate; [|destruct (wq (ws s i)); [reflexivity|discriminate]].
      apply negb_true_iff in Q. specialize (I_term0 Lo i). unfold debt in I_term0. rewrite Pc, Q in I_term0. simpl in I_term0.
      assert (T : thw s i = true) by (unfold thw; rewrite P, ER; apply Nat.ltb_lt; auto). rewrite T in I_term0.
      destruct (bc s i) eqn:B; simpl in I_term0; [|lia].
      assert (L : S_ load s = 0).
      { unfold bc in B. apply andb_true_iff in B. destruct B as (_ & B). unfold lbok in I_lb0.
        destruct (lp s) eqn:Lp; try discriminate; try tauto. apply andb_true_iff in B. destruct B as (_ & B). apply Nat.eqb_eq in B. lia. }
      pose proof (sum_0 _ _ L i ltac:(lia)) as L'. simpl in L'. unfold load in L'. unfold terms in I_term0.
      pose proof (cnt_kinds (wq (ws s i))). apply length_zero_iff_nil. lia. }
    assert (Rm : forall i, i < running s -> room cap (ws s i) = true).
    { intros i Hi. unfold room. rewrite (W i Hi). destruct cap as [[|c]|]; auto; congruence. }
    assert (Fb : forall i, i < n -> running s <= i \/ fb (ws s i) = [] \/ lp s <> LRun \/ exists s', step n cap s (LBack i) = Some s').
    { intros i Hi. destruct (Nat.le_gt_cases (running s) i) as [|G]; auto. right.
      destruct (fb (ws s i)) as [|m q] eqn:Fi; auto. right. destruct (lp s) eqn:Lp; try (left; discriminate). right.
      simpl. unfold lback_step. rewrite Lp, Fi. destruct (Nat.ltb_spec i (running s)); [|lia]. destruct m; eauto. destruct (numtasks s); eauto. }
    unfold lbok in I_lb0. destruct (lp s) as [| |t|m a b| |] eqn:Lp.
    - destruct I_lb0 as (_ & _ & E & _). rewrite F in E. destruct (lfz s) eqn:Z; [|discriminate].
      exists LStep. simpl. unfold lstep_step. rewrite Lp, Z. eauto.
    - destruct I_lb0 as (L1 & L2 & L3). destruct (eosreceived s) eqn:E.
      + assert (X : exists i, i < n /\ 0 < load (ws s i) + eosn (ws s i)).
        { destruct (Nat.eqb_spec (numtasks s) 0).
          - destruct (sum_pos n (fun i => eosn (ws s i))) as (i & Hi & X); [unfold S_ in L3; lia|]. exists i. simpl in X. lia.
          - destruct (sum_pos n (fun i => load (ws s i))) as (i & Hi & X); [unfold S_ in L1; lia|]. exists i. simpl in X. lia. }
        destruct X as (i & Hi & X). destruct (Fb i Hi) as [G|[G|[G|G]]]; [| |congruence|].
        * destruct (I_out0 i G). lia.
        * exfalso. destruct (Nat.le_gt_cases (running s) i) as [G'|G']; [destruct (I_out0 i G'); lia|].
          specialize (Q i Hi). simpl in Q. unfold load, eosn, hasn in X. rewrite G, (W i G') in X. simpl in X.
          unfold quiet in Q. destruct (pc (ws s i)); try discriminate; lia.
        * destruct G as (s' & G). exists (LBack i), s'. exact G.
      + destruct I_in0 as (ts & Iq & _). unfold rcv in Iq. rewrite Lp, E, AT, EO in Iq. simpl in Iq.
        exists LIn. simpl. unfold lin_step. rewrite Lp. destruct (Nat.eqb_spec (running s) 0); [eauto|].
        destruct (inq s) as [|[]] eqn:Iq'; eauto. destruct ts; discriminate.
    - exists (LPut 0). simpl. unfold lput_step. rewrite Lp, (Rm 0) by lia. destruct (Nat.ltb_spec 0 (running s)); [|lia]. simpl. eauto.
    - exists LStep. simpl. unfold lstep_step. rewrite Lp. destruct a as [|i a].
      + destruct b as [|i b]; [eauto|]. destruct I_lb0 as (_ & _ & _ & _ & Fa & _). simpl in Fa. inversion Fa; subst. rewrite Rm by auto. eauto.
      + destruct (room cap (ws s i)); eauto.
    - exists LStep. simpl. unfold lstep_step. rewrite Lp. eauto.
    - tauto.
  Qed.

  (** *** Every schedule is finite *)
  Definition B : nat := 3 + 5 * n.
  Definition wt (m : msg) : nat := match m with Tsk _ => 4 | _ => 3 end.
  Definition wf (m : msg) : nat := 1.
  Definition wi (m : msg) : nat := match m with Tsk _ => 6 | _ => 1 end.
  Definition wwork (w : worker) : nat :=
    cnt wt (wq w) + match pc w with WHas _ => 3 | WEnd => 1 | _ => 0 end + cnt wf (fb w) + b2n (fz w).
  Definition mwork (r : round) (p : mpc) : nat :=
    match p with
    | MOff j => 7 * (k r - j) + 3 + if early r then 0 else B + 2 + 2 * n
    | MLb => B + 3 + 2 * n + if early r then 7 * k r + 2 else 0
    | MThaw i => 2 * (n - i) + 1 + if early r then 7 * k r + 2 else 0
    | MWait => 1
    end.
  Definition lwork (s : st) : nat :=
    match lp s with
    | LSleep | LUb => 0
    | LRun => if eosreceived s && (numtasks s =? 0) then 1 else B
    | LSend _ => 5 + B
    | LCast _ a b => 2 + 5 * length a + 4 * length b
    | LEnd => 1
    end.
  Definition rwork (R : list round) (p : mpc) : nat :=
    match R with [] => 0 | r :: rs => mwork r p + fold_right (fun r a => mwork r (start r) + a) 0 rs end.
  Definition work (s : st) : nat :=
    rwork (rounds s) (mp s) + cnt wi (inq s) + lwork s + (if lfz s then B + 1 else 0) + S_ wwork s.

  Lemma work_step : forall s a s', Inv s -> step n cap s a = Some s' -> work s' < work s.
  Proof.
    intros s a s' J E. pose proof J as J'. destruct s as [R p nx iq rn q z f c nt e w ra fr lo]. destruct J. 
    destruct a as [| |i|i| |i]; simpl in E.
    - unfold main_step in E. proj. destruct R as [|r R]; [discriminate|]. destruct p as [j| |i|].
      + unfold mainok in I_main0; proj.
        destruct (Nat.ltb_spec j (k r)) as [Hj|Hj]; injection E as <-; unfold work, rwork, lwork; proj; rewrite cnt_app; unfold S_; proj; cbn [mwork cnt wi].
        * lia.
        * destruct (early r) eqn:Er; cbn [mwork]; rewrite ?Er; lia.
      + injection E as <-. unfold work, rwork, lwork, S_; proj. destruct (0 <? run_with n r); [|destruct (early r) eqn:Er]; cbn [mwork]; destruct z; rewrite ?Er; try lia;
        destruct (early r); lia.
      + destruct (I_run0 eq_refl) as (r' & R' & ER & Rn & Rp). unfold mainok in I_main0; proj. injection E as <-. unfold work, rwork, lwork, S_; proj.
        pose proof (sum_upd wwork w (mkW (pc (w i)) true (wq (w i)) (fb (w i))) n i ltac:(lia)) as X.
        assert (D : wwork (mkW (pc (w i)) true (wq (w i)) (fb (w i))) <= wwork (w i) + 1) by (unfold wwork, b2n; proj; destruct (fz (w i)); lia).
        destruct (Nat.ltb_spec (S i) rn); [|destruct (early r) eqn:Er]; cbn [mwork]; rewrite ?Er; try lia; destruct (early r); lia.
      + destruct f; [|discriminate]. injection E as <-. unfold work, rwork, lwork, S_; proj. destruct R as [|r' R']; cbn [mwork fold_right]; lia.
    - unfold lin_step in E. proj. destruct q; try discriminate. destruct (I_act0 ltac:(discriminate)) as (Az & Af & AT). proj. subst z f.
      destruct (I_run0 AT) as (r & R' & ER & Rn & Rp). proj.
      destruct (Nat.eqb_spec rn 0); [lia|].
      destruct I_in0 as (ts & Iq & Ir). unfold rcv in Iq, Ir. rewrite AT in Iq, Ir. proj. rewrite andb_true_l in Iq, Ir.
      destruct iq as [|m iq]; [discriminate|].
      destruct e.
      { exfalso. destruct (Ir eq_refl) as (_ & ->). rewrite andb_false_r in Iq. discriminate. }
      destruct m as [t| |].
      + injection E as <-. unfold work, lwork, S_; proj. cbn [cnt wi andb]. lia.
      + unfold count_eos in E. proj. destruct (Nat.eqb_spec nt 0) as [Z|Z]; injection E as <-; unfold work, lwork, S_; proj; cbn [cnt wi andb].
        * rewrite seq_length. unfold B. cbn [length]. lia.
        * destruct (c =? 1); unfold B; [lia|]. destruct (Nat.eqb_spec nt 0); lia.
      + injection E as <-. unfold work, lwork, S_, B; proj; cbn [cnt wi andb]. lia.
    - unfold lback_step in E. proj. destruct q; try discriminate. destruct (I_act0 ltac:(discriminate)) as (Az & Af & AT). proj. subst z f.
      destruct (I_run0 AT) as (r & R' & ER & Rn & Rp). proj.
      destruct (Nat.ltb_spec i rn); [|discriminate].
      destruct (fb (w i)) as [|m qq] eqn:F; [discriminate|].
      pose proof (sum_upd wwork w (mkW (pc (w i)) (fz (w i)) (wq (w i)) qq) n i ltac:(lia)) as X.
      assert (D : wwork (w i) = 1 + wwork (mkW (pc (w i)) (fz (w i)) (wq (w i)) qq)) by (unfold wwork; proj; rewrite F; simpl; change (wf m) with 1; lia).
      destruct m as [t| |].
      + destruct nt as [|nt]; [injection E as <-; unfold work, lwork, S_, B in *; proj; destruct (e && _); lia|].
        destruct (Nat.eqb_spec nt 0) as [Z|Z]; destruct e; cbn [andb] in E; injection E as <-; unfold work, lwork, S_; proj; cbn [andb Nat.eqb].
        * rewrite seq_length. unfold B. cbn [length]. lia.
        * lia.
        * destruct (Nat.eqb_spec nt 0); lia.
        * lia.
      + injection E as <-. unfold count_eos. proj. unfold work, lwork, S_, B in *; proj. destruct (c =? 1); [|lia]. destruct (e && (nt =? 0)); lia.
      + injection E as <-. unfold work, lwork, S_, B in *; proj. destruct (e && (nt =? 0)); lia.
    - unfold lput_step in E. proj. destruct q as [| |t| | |]; try discriminate. destruct (I_act0 ltac:(discriminate)) as (Az & Af & AT). proj. subst z f.
      destruct (I_run0 AT) as (r & R' & ER & Rn & Rp). proj. unfold lbok in I_lb0. proj. destruct I_lb0 as (_ & -> & _).
      destruct (Nat.ltb_spec i rn); [|discriminate]. destruct (room cap (w i)); [|discriminate]. cbn [andb] in E. injection E as <-.
      pose proof (sum_upd wwork w (mkW (pc (w i)) (fz (w i)) (wq (w i) ++ [Tsk t]) (fb (w i))) n i ltac:(lia)) as X.
      unfold wwork in X at 2 4. proj. rewrite cnt_app in X. cbn [cnt wt] in X.
      unfold work, lwork, S_; proj. cbn [andb]. lia.
    - unfold lstep_step in E. proj.
      assert (Pu : forall i m, i < n -> (forall t, m <> Tsk t) -> sum n (fun j => wwork (updw w i (mkW (pc (w i)) (fz (w i)) (wq (w i) ++ [m]) (fb (w i))) j)) = sum n (fun j => wwork (w j)) + 3).
      { intros i m Hi Hm. pose proof (sum_upd wwork w (mkW (pc (w i)) (fz (w i)) (wq (w i) ++ [m]) (fb (w i))) n i Hi) as X.
        unfold wwork in X at 2 4. proj. rewrite cnt_app in X. assert (wt m = 3) by (destruct m; auto; congruence). cbn [cnt] in X. lia. }
      destruct q as [| |t|m a b| |]; try discriminate.
      + destruct z; [|discriminate]. injection E as <-. unfold begin_run, work, lwork, S_; proj. cbn [andb]. lia.
      + destruct (I_act0 ltac:(discriminate)) as (Az & Af & AT). proj. subst z f.
        destruct (I_run0 AT) as (r & R' & ER & Rn & Rp). proj. unfold lbok in I_lb0. proj. destruct I_lb0 as (_ & -> & -> & _ & Fa & M).
        assert (Hm : forall t, m <> Tsk t) by (intros t ->; exact M).
        destruct a as [|i a].
        * destruct b as [|i b].
          -- injection E as <-. unfold count_eos. destruct m; unfold work, lwork, S_, B; proj; cbn [length andb Nat.eqb]; try lia. destruct (c =? 1); lia.
          -- cbn [app] in Fa. inversion Fa; subst. destruct (room cap (w i)); [|discriminate]. injection E as <-. unfold work, lwork, S_; proj. rewrite Pu by (auto; lia). cbn [length]. lia.
        * cbn [app] in Fa. inversion Fa; subst. destruct (room cap (w i)); injection E as <-; unfold work, lwork, S_; proj; [rewrite Pu by (auto; lia)|]; cbn [length]; lia.
      + destruct z; injection E as <-; unfold begin_run, work, lwork, S_; proj; cbn [andb]; lia.
    - unfold w_step in E. proj. destruct (Nat.ltb_spec i n) as [Hn|]; [|discriminate]. cbn [negb] in E.
      assert (X : forall w' ra', wwork w' < wwork (w i) -> work (mkSt R p nx iq rn q z f c nt e (updw w i w') ra' fr lo) < work (mkSt R p nx iq rn q z f c nt e w ra fr lo)).
      { intros w' ra' L. pose proof (sum_upd wwork w w' n i Hn) as Y. unfold work, lwork, S_; proj. lia. }
      destruct (pc (w i)) as [| |t|] eqn:P.
      + destruct (fz (w i)) eqn:Z; [|discriminate]. injection E as <-. apply X. unfold wwork; proj. rewrite P, Z. unfold b2n. lia.
      + destruct (wq (w i)) as [|[t| |] qq] eqn:Q; [discriminate| | |]; injection E as <-; apply X; unfold wwork; proj; rewrite P, Q, ?cnt_app; cbn [cnt wt]; unfold wf; lia.
      + injection E as <-. apply X. unfold wwork; proj. rewrite P, cnt_app. cbn [cnt]. unfold wf. lia.
      + injection E as <-. destruct (fz (w i)) eqn:Z; apply X; unfold wwork; proj; rewrite P, Z; unfold b2n; lia.
  Qed.

  Lemma work_exec : forall acts s s', Inv s -> exec (step n cap) s acts = Some s' -> length acts + work s' <= work s.
  Proof.
    induction acts as [|a acts IH]; simpl; intros s s' J E; [injection E as <-; lia|].
    destruct (step n cap s a) as [s1|] eqn:S1; [|discriminate].
    pose proof (work_step _ _ _ J S1). specialize (IH s1 s' (Inv_step _ _ _ J S1) E). lia.
  Qed.
  Lemma work_init : work (init l) <= fold_right (fun r a => 7 * k r + 7 * n + 8 + a) 0 l.
  Proof.
    unfold work, init, lwork, S_; proj. rewrite (sum_z n) by reflexivity. cbn [cnt].
    assert (X : forall r, mwork r (start r) <= 7 * k r + 7 * n + 8).
    { intros r. unfold start. destruct (early r) eqn:Er; cbn [mwork]; rewrite Er; unfold B; lia. }
    destruct l as [|r rs]; [simpl; lia|]. unfold rwork. cbn [fold_right]. specialize (X r) as Xr.
    assert (Y : forall x, fold_right (fun r a => mwork r (start r) + a) 0 x <= fold_right (fun r a => 7 * k r + 7 * n + 8 + a) 0 x).
    { induction x as [|r' x IH]; cbn [fold_right]; [lia|]. apply Nat.add_le_mono; [apply X|exact IH]. }
    specialize (Y rs).
    lia.
  Qed.
End Inv.

(** ** One round: no thaw is lost *)
Definition fresh (r : round) (s : st) : Prop :=
  lost s = false /\ (rounds s = [] \/ rounds s = [r] /\
    match mp s with
    | MOff _ => early r = false -> forall i, fz (ws s i) = false
    | MLb => forall i, fz (ws s i) = false
    | MThaw j => forall i, j <= i -> fz (ws s i) = false
    | MWait => True
    end).

Ltac proj := unfold set_main, set_in, set_thaw, set_lp, set_cnt, set_w, set_freeze, add_ran, add_freed, set_lost, push, count_eos, begin_run in *;
    cbn [rounds mp next inq running lp lfz frozen nwc numtasks eosreceived ws ran freed lost pc fz wq fb] in *.

Lemma others_fz : forall n cap s a s', step n cap s a = Some s' -> a <> Main ->
  rounds s' = rounds s /\ mp s' = mp s /\ lost s' = lost s /\ forall i, fz (ws s i) = false -> fz (ws s' i) = false.
Proof.
  intros n cap s a s' E N.
  assert (F : forall i w', fz w' = fz (ws s i) \/ fz w' = false -> forall t, fz (ws s t) = false -> fz (updw (ws s) i w' t) = false).
  { intros i w' W t T. unfold updw. destruct (Nat.eqb_spec t i); subst; destruct W; congruence. }
  destruct a as [| |i|i| |i]; simpl in E; [congruence| | | | |].
  - unfold lin_step in E. destruct (lp s); try discriminate. destruct (running s =? 0); [injection E as <-; proj; auto|].
    destruct (inq s) as [|[]]; try discriminate; try destruct (numtasks s =? 0); injection E as <-; proj; auto.
  - unfold lback_step in E. destruct (lp s); try discriminate. destruct (i <? running s); [|discriminate].
    destruct (fb (ws s i)) as [|[]]; try discriminate; [destruct (numtasks s) as [|c]; [|destruct ((c =? 0) && eosreceived s)]| |];
    injection E as <-; proj; repeat split; intros; apply F; auto.
  - unfold lput_step in E. destruct (lp s); try discriminate. destruct ((i <? running s) && _); [|discriminate].
    injection E as <-; proj; repeat split; intros; apply F; auto.
  - unfold lstep_step in E. destruct (lp s) as [| |t|m a b| |]; try discriminate.
    + destruct (lfz s); [|discriminate]. injection E as <-; proj; auto.
    + destruct a as [|i a]; [destruct b as [|i b]|].
      * destruct m; injection E as <-; proj; auto.
      * destruct (room _ _); [|discriminate]. injection E as <-; proj; repeat split; intros; apply F; auto.
      * destruct (room _ _); injection E as <-; proj; repeat split; intros; auto; apply F; auto.
    + destruct (lfz s); injection E as <-; proj; auto.
  - unfold w_step in E. destruct (negb _); [discriminate|].
    destruct (pc (ws s i)).
    + destruct (fz (ws s i)); [|discriminate]. injection E as <-; proj; repeat split; intros; apply F; auto.
    + destruct (wq (ws s i)) as [|[]]; try discriminate; injection E as <-; proj; repeat split; intros; apply F; auto.
    + injection E as <-; proj; repeat split; intros; apply F; auto.
    + injection E as <-; proj; repeat split; intros; apply F; auto; destruct (fz (ws s i)); auto.
Qed.

Lemma fresh_step : forall n cap r s a s', fresh r s -> step n cap s a = Some s' -> fresh r s'.
Proof.
  intros n cap r s a s' (Lo & H) E.
  assert (D : a = Main \/ a <> Main) by (destruct a; auto; right; discriminate).
  destruct D as [->|D].
  - simpl in E. unfold main_step in E. destruct H as [H|(HR & H)]; [rewrite H in E; discriminate|]. rewrite HR in E.
    unfold fresh. destruct (mp s) as [j| |i|] eqn:P.
    + destruct (j <? k r); injection E as <-; proj; split; auto. right. split; auto. destruct (early r); auto.
    + injection E as <-; proj. split; auto. right. split; auto. destruct (0 <? _); [intros; apply H|]. destruct (early r) eqn:Er; auto; try congruence.
    + injection E as <-; proj. split; [rewrite Lo, (H i); auto|]. right. split; auto. destruct (S i <? running s).
      * intros j Hj. unfold updw. destruct (Nat.eqb_spec j i); [lia|]. apply H. lia.
      * destruct (early r) eqn:Er; auto; try congruence.
    + destruct (frozen s); [|discriminate]. injection E as <-; proj. auto.
  - destruct (others_fz _ _ _ _ _ E D) as (A & B & C & F). unfold fresh. rewrite A, B, C. split; [auto|].
    destruct H as [H|(HR & H)]; [auto|]. right. split; auto. destruct (mp s); auto.
Qed.
Lemma fresh_exec : forall n cap r acts s, exec (step n cap) (init [r]) acts = Some s -> lost s = false.
Proof.
  intros n cap r acts s E. assert (X : fresh r s).
  { eapply (exec_inv _ (fresh r)); [intros; eapply fresh_step; eauto| |exact E]. split; auto. right. split; auto.
    unfold init, start; proj. destruct (early r); auto. }
  apply X.
Qed.
