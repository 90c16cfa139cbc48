From Coq Require Import List Arith Bool ZArith Lia.
From Verif Require Import Base NetIoModel.
Import ListNotations.

Lemma poke_nil : forall m a, poke m a [] = m.
Proof. destruct a; auto. Qed.

Lemma poke_app : forall a m b c, length b <= length a -> poke m a (b ++ c) = poke (poke m a b) (skipn (length b) a) c.
Proof.
  induction a as [|x a IH]; intros m b c H; destruct b as [|y b]; simpl in *; auto; try lia. apply IH. lia.
Qed.

Lemma skipn_seq : forall k p n, skipn k (seq p n) = seq (p + k) (n - k).
Proof.
  induction k; intros p n; [rewrite Nat.add_0_r, Nat.sub_0_r; auto|]. destruct n; simpl; auto. rewrite IHk. f_equal; lia.
Qed.

Lemma firstn_seq : forall k p n, firstn k (seq p n) = seq p (Nat.min k n).
Proof. induction k; intros p n; simpl; auto. destruct n; simpl; auto. f_equal. apply IHk. Qed.

(** readn *)
Lemma readn_loop_ok : forall os n nleft ptr m, nleft <= n -> rlegal nleft os ->
  match readn_loop n nleft ptr m os with
  | Ret z m' => exists d e, delivered os = d ++ e /\ m' = poke m (seq ptr nleft) d /\ length d <= nleft /\
      (z = Z.of_nat (n - nleft + length d) /\ (length d < nleft -> e = []) \/
       z = (-1)%Z /\ d = [] /\ nleft = n /\ 1 <= n /\ e = [])
  | Blocked m' => m' = poke m (seq ptr nleft) (delivered os) /\ length (delivered os) < nleft
  end.
Proof.
  induction os as [|r os IH]; intros n nleft ptr m Hn L; cbn [readn_loop].
  - destruct (Nat.eqb_spec nleft 0).
    + subst. exists [], []. cbn [seq poke length]. split; [reflexivity|]. split; [reflexivity|]. split; [lia|]. left. split; [f_equal; lia|auto].
    + simpl. rewrite poke_nil. split; auto. lia.
  - destruct (Nat.eqb_spec nleft 0).
    + subst. exists [], (delivered (r :: os)). split; auto. simpl seq. split; [destruct (delivered _); auto|]. split; auto.
      left. split; [simpl; f_equal; lia|simpl; lia].
    + destruct r as [| |b].
      * destruct (Nat.eqb_spec nleft n).
        -- exists [], []. simpl delivered. rewrite poke_nil. split; auto. split; auto. split; [simpl; lia|]. right. repeat split; auto. lia.
        -- exists [], []. simpl delivered. rewrite poke_nil. split; auto. split; auto. split; [simpl; lia|]. left. split; [simpl; f_equal; lia|auto].
      * exists [], []. simpl delivered. rewrite poke_nil. split; auto. split; auto. split; [simpl; lia|]. left. split; [simpl; f_equal; lia|auto].
      * destruct L as [Lb L]. specialize (IH n (nleft - length b) (ptr + length b) (poke m (seq ptr nleft) b) ltac:(lia) L).
        assert (PK : forall d, poke (poke m (seq ptr nleft) b) (seq (ptr + length b) (nleft - length b)) d = poke m (seq ptr nleft) (b ++ d)).
        { intros d. rewrite poke_app by (rewrite seq_length; lia). rewrite skipn_seq. auto. }
        destruct (readn_loop _ _ _ _ os) as [z m'|m'].
        -- destruct IH as (d & e & E & M & Ld & C). exists (b ++ d), e. cbn [delivered]. rewrite E, app_assoc. split; auto.
           split; [rewrite M; apply PK|]. rewrite app_length. split; [lia|].
           destruct C as [[-> C]|(_ & _ & X & _)]; [|lia]. left. split; [f_equal; lia|]. intros; apply C; lia.
        -- destruct IH as [M Ld]. cbn [delivered]. rewrite M, app_length. split; [apply PK|lia].
Qed.

(** writen *)
Lemma writen_loop_ok : forall os n nleft ptr m out, nleft <= n -> wlegal nleft os ->
  match writen_loop n nleft ptr m out os with
  | Ret z o => exists k, k <= nleft /\ o = out ++ map m (seq ptr k) /\
      (z = Z.of_nat (n - nleft + k) \/ z = (-1)%Z /\ k = 0 /\ nleft = n)
  | Blocked o => exists k, k < nleft /\ o = out ++ map m (seq ptr k)
  end.
Proof.
  induction os as [|r os IH]; intros n nleft ptr m out Hn L; cbn [writen_loop].
  - destruct (Nat.eqb_spec nleft 0); exists 0; simpl; rewrite app_nil_r.
    + split; [lia|]. split; [reflexivity || (try rewrite app_nil_r; reflexivity)|]. left. f_equal. lia.
    + split; [lia|auto].
  - destruct (Nat.eqb_spec nleft 0).
    + exists 0. simpl. rewrite app_nil_r. split; [lia|]. split; [reflexivity || (try rewrite app_nil_r; reflexivity)|]. left. f_equal. lia.
    + assert (Z0 : exists k, k <= nleft /\ out = out ++ map m (seq ptr k) /\
         (Z.of_nat (n - nleft) = Z.of_nat (n - nleft + k) \/ Z.of_nat (n - nleft) = (-1)%Z /\ k = 0 /\ nleft = n)).
      { exists 0. simpl. rewrite app_nil_r. split; [lia|]. split; [reflexivity || (try rewrite app_nil_r; reflexivity)|]. left. f_equal. lia. }
      destruct r as [|[|k]]; auto.
      * destruct (Nat.eqb_spec nleft n); auto. exists 0. simpl. rewrite app_nil_r. split; [lia|]. split; auto.
      * destruct L as [Lk L]. specialize (IH n (nleft - S k) (ptr + S k) m (out ++ map m (seq ptr (S k))) ltac:(lia) L).
        assert (A : forall j, (out ++ map m (seq ptr (S k))) ++ map m (seq (ptr + S k) j) = out ++ map m (seq ptr (S k + j))).
        { intros j. rewrite seq_app, map_app, app_assoc. auto. }
        destruct (writen_loop _ _ _ _ _ os) as [z o|o].
        -- destruct IH as (j & Lj & O & C). exists (S k + j). split; [lia|]. rewrite <- A. split; auto.
           destruct C as [->|(_ & _ & X)]; [left; f_equal; lia|lia].
        -- destruct IH as (j & Lj & O). exists (S k + j). split; [lia|]. rewrite <- A. auto.
Qed.

(** advance *)
Lemma addrs_cons : forall b l v, addrs ((b, l) :: v) = seq b l ++ addrs v.
Proof. reflexivity. Qed.

Lemma advance_addrs : forall v r, addrs (advance r v) = skipn r (addrs v).
Proof.
  induction v as [|[b l] v IH]; intros r; cbn [advance].
  - destruct r; auto.
  - rewrite addrs_cons. destruct (Nat.leb_spec l r).
    + rewrite IH, skipn_app, seq_length, (skipn_all2 (seq b l)) by (rewrite seq_length; lia). auto.
    + rewrite addrs_cons, skipn_app, seq_length. replace (r - l) with 0 by lia. rewrite skipn_O, skipn_seq. auto.
Qed.

Lemma advance_nil : forall v r, r <= total v -> advance r v = [] <-> r = total v \/ v = [].
Proof.
  unfold total. induction v as [|[b l] v IH]; intros r H; cbn [advance].
  - split; auto.
  - rewrite addrs_cons, app_length, seq_length in *. destruct (Nat.leb_spec l r).
    + rewrite IH by lia. split; [|intros [->|X]; [left; lia|discriminate]].
      intros [X| ->]; left; [lia|]. simpl in *. lia.
    + split; [discriminate|]. intros [->|X]; [lia|discriminate].
Qed.

Lemma readvn_ok : forall os v m, rlegal (total v) os ->
  match readvn v m os with
  | Ret z m' =>
      (z = 1%Z /\ exists d e, delivered os = d ++ e /\ length d = total v /\ m' = poke m (addrs v) d) \/
      ((z = 0 \/ z = -1)%Z /\ m' = poke m (addrs v) (delivered os) /\ (length (delivered os) < total v \/ delivered os = []))
  | Blocked m' => m' = poke m (addrs v) (delivered os) /\ (length (delivered os) < total v \/ delivered os = [])
  end.
Proof.
  induction os as [|r os IH]; intros v m L; cbn [readvn].
  - simpl. rewrite poke_nil. auto.
  - destruct r as [| |b]; cbn [delivered].
    + right. rewrite poke_nil. auto.
    + right. rewrite poke_nil. auto.
    + destruct L as [Lb L].
      pose proof (advance_addrs v (length b)) as AA.
      destruct (advance (length b) v) as [|s v'] eqn:E.
      * apply advance_nil in E; [|lia]. left. split; auto. exists b, (delivered os). split; auto. split; auto.
        destruct E as [E|E]; auto. subst. unfold total in Lb. simpl in Lb. lia.
      * assert (Hne : length b < total v).
        { destruct (Nat.eq_dec (length b) (total v)) as [X|X]; [|lia]. exfalso.
          assert (advance (length b) v = []) by (apply advance_nil; auto; lia). congruence. }
        assert (TT : total (s :: v') = total v - length b) by (unfold total; rewrite AA, skipn_length; auto).
        rewrite <- TT in L. specialize (IH (s :: v') (poke m (addrs v) b) L). rewrite AA in IH.
        assert (PK : forall d, poke (poke m (addrs v) b) (skipn (length b) (addrs v)) d = poke m (addrs v) (b ++ d))
          by (intros; rewrite poke_app; auto; fold (total v); lia).
        destruct (readvn (s :: v') _ os) as [z m'|m'].
        -- destruct IH as [(-> & d & e & D & LD & M)|(Hz & M & LD)].
           ++ left. split; auto. exists (b ++ d), e. rewrite D, app_assoc, app_length. split; auto. split; [lia|]. rewrite M; apply PK.
           ++ right. split; auto. rewrite M. split; [apply PK|]. left. rewrite app_length. destruct LD as [LD|LD]; [lia|rewrite LD; simpl; lia].
        -- destruct IH as (M & LD). rewrite M. split; [apply PK|]. left. rewrite app_length. destruct LD as [LD|LD]; [lia|rewrite LD; simpl; lia].
Qed.

Lemma writevn_ok : forall os v m out, wlegal (total v) os ->
  match writevn v m out os with
  | Ret z o => (z = 1%Z /\ o = out ++ map m (addrs v)) \/ (z = (-1)%Z /\ exists k, k <= total v /\ o = out ++ map m (firstn k (addrs v)))
  | Blocked o => exists k, k <= total v /\ o = out ++ map m (firstn k (addrs v))
  end.
Proof.
  induction os as [|r os IH]; intros v m out L; cbn [writevn].
  - exists 0. simpl. rewrite app_nil_r. split; auto. lia.
  - destruct r as [|k].
    + right. split; auto. exists 0. simpl. rewrite app_nil_r. split; auto. lia.
    + destruct L as [Lk L]. pose proof (advance_addrs v k) as AA.
      destruct (advance k v) as [|s v'] eqn:E.
      * left. split; auto. apply advance_nil in E; auto. destruct E as [->| ->].
        -- unfold total. rewrite firstn_all. auto.
        -- simpl. rewrite firstn_nil. auto.
      * assert (TT : total (s :: v') = total v - k) by (unfold total; rewrite AA, skipn_length; auto).
        rewrite <- TT in L. specialize (IH (s :: v') m (out ++ map m (firstn k (addrs v))) L). rewrite AA in IH.
        assert (CAT : forall j, (out ++ map m (firstn k (addrs v))) ++ map m (firstn j (skipn k (addrs v))) = out ++ map m (firstn (k + j) (addrs v))).
        { intros j. rewrite <- app_assoc, <- map_app. do 2 f_equal.
          rewrite <- (firstn_skipn k (firstn (k + j) (addrs v))). rewrite firstn_firstn, skipn_firstn_comm.
          replace (Nat.min k (k + j)) with k by lia. replace (k + j - k) with j by lia. auto. }
        assert (ALL : (out ++ map m (firstn k (addrs v))) ++ map m (skipn k (addrs v)) = out ++ map m (addrs v)).
        { rewrite <- app_assoc, <- map_app, firstn_skipn. auto. }
        destruct (writevn (s :: v') m _ os) as [z o|o].
        -- destruct IH as [[-> O]|(-> & j & J & O)].
           ++ left. split; auto. rewrite O. apply ALL.
           ++ right. split; auto. exists (k + j). split; [lia|]. rewrite O. apply CAT.
        -- destruct IH as (j & J & O). exists (k + j). split; [lia|]. rewrite O. apply CAT.
Qed.

(** The number of system calls that move data. *)
Lemma readn_calls : forall os n nleft ptr m, nleft <= n -> rlegal nleft os -> nleft <= length os ->
  match readn_loop n nleft ptr m os with Ret _ _ => True | Blocked _ => False end.
Proof.
  induction os as [|r os IH]; intros n nleft ptr m Hn L Len; cbn [readn_loop].
  - simpl in Len. assert (nleft = 0) by lia. subst. simpl. auto.
  - destruct (Nat.eqb_spec nleft 0); auto. destruct r as [| |b]; auto.
    + destruct (nleft =? n); auto.
    + destruct L as [Lb L]. apply IH; auto; simpl in Len; lia.
Qed.

Lemma readvn_calls : forall os v m, rlegal (total v) os -> total v <= length os -> os <> [] ->
  match readvn v m os with Ret _ _ => True | Blocked _ => False end.
Proof.
  induction os as [|r os IH]; intros v m L Len NE; cbn [readvn]; [congruence|].
  destruct r as [| |b]; auto. destruct L as [Lb L].
  pose proof (advance_addrs v (length b)) as AA.
  destruct (advance (length b) v) as [|s v'] eqn:E; auto.
  assert (Hne : length b < total v).
  { destruct (Nat.eq_dec (length b) (total v)) as [X|X]; [|lia]. exfalso.
    assert (advance (length b) v = []) by (apply advance_nil; auto; lia). congruence. }
  assert (TT : total (s :: v') = total v - length b) by (unfold total; rewrite AA, skipn_length; auto).
  apply IH; [rewrite TT; auto|simpl in Len; lia|]. intros ->. simpl in Len. lia.
Qed.
