From Coq Require Import List Arith Bool Lia.
From Verif Require Import Base UTsoModel UTsoSpec.
Import ListNotations.

(** Occurrences of an address. *)
Fixpoint cc (l : list nat) (g : nat) : nat :=
  match l with [] => 0 | a :: l' => (if a =? g then 1 else 0) + cc l' g end.
Lemma cc_app : forall l r g, cc (l ++ r) g = cc l g + cc r g.
Proof. induction l as [|a l IH]; intros; cbn [cc app]; [lia|]. rewrite IH. lia. Qed.
Lemma in_cc : forall l g, In g l <-> 1 <= cc l g.
Proof.
  induction l as [|a l IH]; intros g; cbn [cc In]; [lia|]. rewrite IH. destruct (Nat.eqb_spec a g); intuition lia.
Qed.
Lemma cc_hd : forall a, (if a =? a then 1 else 0) = 1.
Proof. intros. rewrite Nat.eqb_refl. reflexivity. Qed.

(** What a store buffer will do. *)
Fixpoint links (b : list pstore) : list nat :=
  match b with [] => [] | SLink g :: b' => g :: links b' | _ :: b' => links b' end.
Fixpoint wsets (b : list pstore) : list nat :=
  match b with [] => [] | SBufw g :: b' => g :: wsets b' | _ :: b' => wsets b' end.
Fixpoint enqs (b : list pstore) : list item :=
  match b with [] => [] | SEnq _ x :: b' => x :: enqs b' | _ :: b' => enqs b' end.
Fixpoint frees (c : list cstore) : list nat :=
  match c with [] => [] | SFree g :: c' => g :: frees c' | _ :: c' => frees c' end.
Fixpoint deqn (c : list cstore) (g : nat) : nat :=
  match c with [] => 0 | SDeq h :: c' => (if h =? g then 1 else 0) + deqn c' g | _ :: c' => deqn c' g end.

(** The stores of the consumer to segment [g] are before it gives [g] away; [cur]: segments it may
    still give away; [cur2]: those it has reset. *)
Fixpoint ctouch (cur cur2 : list nat) (c : list cstore) : Prop :=
  match c with
  | [] => True
  | SDeq g :: c' => (In g (gives c') \/ In g (frees c') \/ In g cur) /\ ctouch cur cur2 c'
  | SRst g :: c' => (In g (gives c') \/ In g (frees c') \/ In g cur2) /\ ctouch cur cur2 c'
  | _ :: c' => ctouch cur cur2 c'
  end.
(** A new segment is constructed before it is linked. *)
Fixpoint newok (held : list nat) (b : list pstore) : Prop :=
  match b with
  | [] => True
  | SNew g :: b' => (In g (links b') \/ In g held) /\ newok held b'
  | _ :: b' => newok held b'
  end.
(** Values go to the segment [buf_w] then designates; [r]: its last value. *)
Fixpoint enqok (b : list pstore) (w r : nat) : Prop :=
  match b with
  | [] => w = r
  | SEnq g _ :: b' => g = w /\ enqok b' w r
  | SBufw g :: b' => enqok b' g r
  | _ :: b' => enqok b' w r
  end.
(** A segment is linked before [buf_w] designates it; [lk]: linked, [buf_w] not yet stored. *)
Fixpoint wlok (lk : list nat) (b : list pstore) : Prop :=
  (exists p, p ++ links b = wsets b ++ lk) /\ match b with [] => True | _ :: b' => wlok lk b' end.
(** Objects are written before their address is pushed, and not while it is in the queue. *)
Fixpoint payok (b : list pstore) (m : nat -> nat) (vis : list nat) : Prop :=
  match b with
  | [] => True
  | SPay a v :: b' => ~ In a vis /\ payok b' (fupd m a v) vis
  | SEnq _ x :: b' => m (fst x) = snd x /\ payok b' m (fst x :: vis)
  | _ :: b' => payok b' m vis
  end.
Fixpoint endpay (b : list pstore) (m : nat -> nat) : nat -> nat :=
  match b with [] => m | SPay a v :: b' => endpay b' (fupd m a v) | _ :: b' => endpay b' m end.

Ltac ind b := induction b as [|y b IH]; intros; [|destruct y]; cbn [app pcont ccont takes gives frees links wsets enqs deqn ctouch newok enqok wlok payok endpay In] in *; auto.

Lemma pcont_app : forall b c g l, pcont (b ++ c) g l = pcont c g (pcont b g l).
Proof. ind b. Qed.
Lemma ccont_app : forall b c g l, ccont (b ++ c) g l = ccont c g (ccont b g l).
Proof. ind b. Qed.
Lemma takes_app : forall b c, takes (b ++ c) = takes b + takes c.
Proof. ind b. rewrite IH. reflexivity. Qed.
Lemma gives_app : forall b c, gives (b ++ c) = gives b ++ gives c.
Proof. ind b. rewrite IH. reflexivity. Qed.
Lemma frees_app : forall b c, frees (b ++ c) = frees b ++ frees c.
Proof. ind b. rewrite IH. reflexivity. Qed.
Lemma links_app : forall b c, links (b ++ c) = links b ++ links c.
Proof. ind b. rewrite IH. reflexivity. Qed.
Lemma wsets_app : forall b c, wsets (b ++ c) = wsets b ++ wsets c.
Proof. ind b. rewrite IH. reflexivity. Qed.
Lemma enqs_app : forall b c, enqs (b ++ c) = enqs b ++ enqs c.
Proof. ind b. rewrite IH. reflexivity. Qed.
Lemma deqn_app : forall b c g, deqn (b ++ c) g = deqn b g + deqn c g.
Proof. ind b. rewrite IH. lia. Qed.
Lemma endpay_app : forall b c m, endpay (b ++ c) m = endpay c (endpay b m).
Proof. ind b. Qed.

Lemma pcont_le : forall b g l1 l2, length l1 <= length l2 -> length (pcont b g l1) <= length (pcont b g l2).
Proof. ind b; apply IH; destruct (_ =? _); rewrite ?app_length; lia. Qed.
Lemma pcont_ge : forall b g l, ~ In (SNew g) b -> length l <= length (pcont b g l).
Proof.
  induction b as [|y b IH]; intros g l N; cbn [pcont]; [lia|]. assert (N' : ~ In (SNew g) b) by (intros X; apply N; right; auto).
  destruct y; auto.
  - etransitivity; [|apply IH; auto]. destruct (_ =? _); rewrite ?app_length; lia.
  - destruct (Nat.eqb_spec g0 g) as [->|]; [|auto]. destruct N. left. auto.
Qed.
(** Only stores on other segments. *)
Lemma pcont_other : forall b g l, ~ In (SNew g) b -> (forall x, ~ In (SEnq g x) b) -> pcont b g l = l.
Proof.
  induction b as [|y b IH]; intros g l N1 N2; cbn [pcont]; auto.
  assert (X1 : ~ In (SNew g) b) by (intros X; apply N1; right; auto).
  assert (X2 : forall x, ~ In (SEnq g x) b) by (intros x X; apply (N2 x); right; auto).
  destruct y; auto.
  - destruct (Nat.eqb_spec g0 g) as [->|]; [|auto]. destruct (N2 x). left. auto.
  - destruct (Nat.eqb_spec g0 g) as [->|]; [|auto]. destruct N1. left. auto.
Qed.
Lemma pstore_dec : forall x y : pstore, {x = y} + {x <> y}.
Proof. repeat decide equality. Defined.
Lemma pcont_new : forall b g l, In (SNew g) b -> (forall x, ~ In (SEnq g x) b) -> pcont b g l = [].
Proof.
  induction b as [|y b IH]; intros g l N1 N2; [destruct N1|].
  assert (X2 : forall x, ~ In (SEnq g x) b) by (intros x X; apply (N2 x); right; auto).
  destruct N1 as [->|N1].
  - cbn [pcont]. rewrite Nat.eqb_refl. destruct (In_dec pstore_dec (SNew g) b) as [I|I]; [auto|]. apply pcont_other; auto.
  - destruct y; cbn [pcont]; auto.
Qed.

Lemma ccont_skip : forall c g l, ~ In (SRst g) c -> deqn c g <= length l -> ccont c g l = skipn (deqn c g) l.
Proof.
  induction c as [|y c IH]; intros g l N L; cbn [ccont deqn] in *; auto.
  assert (N' : ~ In (SRst g) c) by (intros X; apply N; right; auto).
  destruct y; auto.
  - destruct (Nat.eqb_spec g0 g) as [->|].
    + cbn [plus] in *. destruct l as [|a l]; cbn [length] in L; [lia|]. cbn [tl skipn]. apply IH; auto. lia.
    + apply IH; auto.
  - destruct (Nat.eqb_spec g0 g) as [->|]; [|auto]. destruct N. left. auto.
Qed.

Lemma ctouch_deq : forall cur cur2 c g, ctouch cur cur2 c -> 1 <= deqn c g -> In g (gives c) \/ In g (frees c) \/ In g cur.
Proof.
  intros cur cur2. induction c as [|y c IH]; intros g H D; cbn [deqn] in D; [lia|].
  destruct y; cbn [ctouch gives frees In] in *.
  - destruct (Nat.eqb_spec g0 g) as [->|]; [tauto|]. destruct H. auto.
  - destruct H. auto.
  - destruct (IH g H D) as [?|[?|?]]; auto.
  - destruct (IH g H D) as [?|[?|?]]; auto.
Qed.
Lemma ctouch_rst : forall cur cur2 c g, ctouch cur cur2 c -> In (SRst g) c -> In g (gives c) \/ In g (frees c) \/ In g cur2.
Proof.
  intros cur cur2. induction c as [|y c IH]; intros g H D; [destruct D|]. cbn [In] in D.
  destruct y; cbn [ctouch gives frees In] in *.
  - destruct D as [D|D]; [discriminate|]. destruct H. auto.
  - destruct D as [E|D]; [injection E as ->; tauto|]. destruct H. auto.
  - destruct D as [D|D]; [discriminate|]. destruct (IH g H D) as [?|[?|?]]; auto.
  - destruct D as [D|D]; [discriminate|]. destruct (IH g H D) as [?|[?|?]]; auto.
Qed.
Lemma ctouch_mono : forall a2 b2 c a1 b1, ctouch a1 b1 c -> (forall g, In g a1 -> In g a2) -> (forall g, In g b1 -> In g b2) -> ctouch a2 b2 c.
Proof. intros a2 b2. ind c; eauto; destruct H as [H H2]; split; eauto; destruct H as [?|[?|?]]; auto. Qed.
(** Appending a store. *)
Lemma ctouch_out : forall a2 b2 c a1 b1 g x, ctouch a1 b1 c -> x = SGive g \/ x = SFree g ->
  (forall h, In h a1 -> h = g \/ In h a2) -> (forall h, In h b1 -> h = g \/ In h b2) -> ctouch a2 b2 (c ++ [x]).
Proof.
  intros a2 b2 c a1 b1 g x. ind c.
  - destruct H0 as [-> | ->]; cbn; auto.
  - destruct H as [H H3]. split; eauto. rewrite gives_app, frees_app, !in_app_iff.
    destruct H as [?|[?|?]]; auto. destruct (H1 _ H) as [->|?]; [|auto]. destruct H0 as [-> | ->]; cbn; auto.
  - destruct H as [H H3]. split; eauto. rewrite gives_app, frees_app, !in_app_iff.
    destruct H as [?|[?|?]]; auto. destruct (H2 _ H) as [->|?]; [|auto]. destruct H0 as [-> | ->]; cbn; auto.
Qed.
Lemma ctouch_deq_app : forall a b c g, ctouch a b c -> In g a -> ctouch a b (c ++ [SDeq g]).
Proof. intros a b. ind c; intuition; rewrite gives_app, frees_app, !in_app_iff; auto. Qed.
Lemma ctouch_rst_app : forall a b c g, ctouch a b c -> In g b -> ctouch a b (c ++ [SRst g]).
Proof. intros a b. ind c; intuition; rewrite gives_app, frees_app, !in_app_iff; auto. Qed.

Lemma newok_in : forall h b g, newok h b -> In (SNew g) b -> In g (links b) \/ In g h.
Proof.
  intros h. ind b; try tauto; try (destruct H0; [discriminate|auto]).
  - destruct H, H0 as [E|?]; auto. injection E as ->. auto.
  - destruct (IH g H H0); auto.
Qed.
Lemma newok_mono : forall h2 b h1 x, newok h1 b -> (forall g, In g h1 -> In g h2 \/ In g (links [x])) ->
  match x with SNew g => In g h2 | _ => True end -> newok h2 (b ++ [x]).
Proof.
  intros h2. ind b; eauto.
  - destruct x; cbn; auto.
  - destruct H. split; eauto. rewrite links_app, in_app_iff. destruct H as [?|H]; auto. destruct (H0 _ H); auto.
Qed.
Lemma newok_held : forall h2 b h1, newok h1 b -> (forall g, In g h1 -> In g h2) -> newok h2 b.
Proof. intros h2. ind b; eauto. destruct H. split; eauto. destruct H; auto. Qed.

Lemma enqok_in : forall b w r g x, enqok b w r -> In (SEnq g x) b -> g = w \/ In g (wsets b).
Proof.
  ind b; try tauto; try (destruct H0; [discriminate|eauto]).
  - destruct H, H0 as [E|?]; [injection E as -> ->; auto|eauto].
  - destruct (IH _ _ _ _ H H0) as [->|?]; auto.
Qed.
Lemma enqok_last : forall b w r, enqok b w r -> r = w \/ In r (wsets b).
Proof. ind b; try tauto; try (destruct H; eauto; fail); eauto. destruct (IH _ _ H) as [->|?]; auto. Qed.
Lemma enqok_app : forall b w r x, enqok b w r -> match x with SEnq g _ => g = r | SBufw _ => False | _ => True end -> enqok (b ++ [x]) w r.
Proof. ind b; eauto; [destruct x; cbn; subst; tauto|]. destruct H. split; eauto. Qed.
Lemma enqok_bufw : forall b w r g, enqok b w r -> enqok (b ++ [SBufw g]) w g.
Proof. ind b; eauto. destruct H. split; eauto. Qed.

Lemma wlok_here : forall lk b, wlok lk b -> exists p, p ++ links b = wsets b ++ lk.
Proof. intros lk b H. destruct b; apply H. Qed.
Lemma wlok_cons : forall lk y b, (exists p, p ++ links (y :: b) = wsets (y :: b) ++ lk) -> wlok lk b -> wlok lk (y :: b).
Proof. intros. split; auto. Qed.
Lemma wlok_app : forall lk b x, wlok lk b -> match x with SLink _ | SBufw _ => False | _ => True end -> wlok lk (b ++ [x]).
Proof.
  intros lk. induction b as [|y b IH]; intros x H N.
  - destruct x; try contradiction; cbn; (split; [exists lk; apply app_nil_r|]); auto; (split; [exists lk; apply app_nil_r|]); auto.
  - destruct H as [(p & H) H2]. refine (wlok_cons _ y (b ++ [x]) _ (IH x H2 N)). exists p.
    change (y :: b ++ [x]) with ((y :: b) ++ [x]). rewrite links_app, wsets_app. destruct x; try contradiction; cbn [links wsets]; rewrite !app_nil_r; exact H.
Qed.
Lemma wlok_link : forall b g, wlok [] b -> wlok [g] (b ++ [SLink g]).
Proof.
  induction b as [|y b IH]; intros g H.
  - cbn. split; [exists []; reflexivity|]. split; auto. exists [g]. reflexivity.
  - destruct H as [(p & H) H2]. refine (wlok_cons _ y (b ++ [SLink g]) _ (IH g H2)). exists p.
    change (y :: b ++ [SLink g]) with ((y :: b) ++ [SLink g]). rewrite links_app, wsets_app, app_assoc, H. cbn [links]. cbn [wsets]. rewrite <- !app_assoc. reflexivity.
Qed.
Lemma wlok_bufw : forall b g, wlok [g] b -> wlok [] (b ++ [SBufw g]).
Proof.
  induction b as [|y b IH]; intros g H.
  - cbn. split; [exists [g]; reflexivity|]. split; auto. exists []. reflexivity.
  - destruct H as [(p & H) H2]. refine (wlok_cons _ y (b ++ [SBufw g]) _ (IH g H2)). exists p.
    change (y :: b ++ [SBufw g]) with ((y :: b) ++ [SBufw g]). rewrite links_app, wsets_app, app_assoc, H, !app_nil_r. reflexivity.
Qed.

Lemma payok_mono : forall b m v1 v2, payok b m v1 -> (forall a, In a v2 -> In a v1) -> payok b m v2.
Proof.
  ind b; eauto.
  - destruct H. split; eauto.
  - destruct H. split; auto. eapply IH; [eauto|]. cbn. intuition.
Qed.
Lemma payok_app : forall b m vis z, payok b m vis ->
  match z with SPay a _ => ~ In a vis /\ ~ In a (map fst (enqs b)) | SEnq _ y => endpay b m (fst y) = snd y | _ => True end -> payok (b ++ [z]) m vis.
Proof.
  induction b as [|y b IH]; intros m vis z H Z.
  - destruct z; cbn in *; tauto.
  - destruct y as [a v|g x| |g|g|g]; cbn [app payok enqs endpay map In] in *; auto.
    + destruct H. split; auto.
    + destruct H. split; auto. apply IH; auto. destruct z; auto. cbn [In]. tauto.
Qed.

Lemma replay_app : forall (t1 t2 : list event) p q b p' q' b',
  replay (t1 ++ t2) p q b p' q' b' <-> exists pm qm bm, replay t1 p q b pm qm bm /\ replay t2 pm qm bm p' q' b'.
Proof.
  induction t1 as [|e t1 IH]; intros t2 p q b p' q' b'; cbn [app replay].
  - split; [intros H; exists p, q, b; auto | intros (pm & qm & bm & (-> & -> & ->) & H); auto].
  - destruct e; try apply IH.
    + split.
      * intros (x & p1 & E & H). apply IH in H as (pm & qm & bm & H1 & H2). exists pm, qm, bm. split; eauto.
      * intros (pm & qm & bm & (x & p1 & E & H1) & H2). exists x, p1. split; auto. apply IH. eauto.
    + split.
      * intros (q1 & E & H). apply IH in H as (pm & qm & bm & H1 & H2). exists pm, qm, bm. split; eauto.
      * intros (pm & qm & bm & (q1 & E & H1) & H2). exists q1. split; auto. apply IH. eauto.
    + rewrite IH. firstorder.
Qed.
Lemma replay_snoc : forall t e p q b p1 q1 b1 p2 q2 b2,
  replay t p q b p1 q1 b1 -> replay [e] p1 q1 b1 p2 q2 b2 -> replay (t ++ [e]) p q b p2 q2 b2.
Proof. intros. apply replay_app. eauto. Qed.
