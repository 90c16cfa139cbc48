(** Accelerator: a pipeline of transducers. *)
From Coq Require Import List Arith Bool Lia Permutation.
From Verif Require Import Base NetModel NetSpec NetProofs NetProofs2 NetProofs4 NetProps AccModel AccSpec AccProofs AccProofs2.
Import ListNotations.

Lemma filter_seq : forall v m, filter (fun c => c =? v) (seq 0 m) = if v <? m then [v] else [].
Proof.
  intros v. induction m as [|m IH]; auto. rewrite seq_S, filter_app, IH. cbn [Nat.add filter].
  destruct (Nat.ltb_spec v m); destruct (Nat.ltb_spec v (S m)); try lia; destruct (Nat.eqb_spec m v); try lia; auto. simpl. congruence.
Qed.

Lemma prefix_trans : forall A (a b c : list A), prefix a b -> prefix b c -> prefix a c.
Proof. intros A a b c [r ->] [r' ->]. exists (r ++ r'). rewrite app_assoc. auto. Qed.

Section Pipe.
  Context {X St : Type}.
  Variables (n : nat) (cp : nat -> option nat) (st0 : nat -> St) (f : nat -> St -> X -> St * list X).
  Hypothesis CP : forall i b, cp i = Some b -> 1 <= b.
  Notation boot0 := (fun _ : nat => @nil (list (req X))).
  Notation eosn0 := (fun (_ : nat) (u : St) (_ : nat) => (u, @nil (list (req X)))).
  Notation N := (N n (pipe_chans n cp) st0 boot0 (pipe_svc f) eosn0).
  Notation stream := (stream n (pipe_chans n cp) st0 boot0 (pipe_svc f) eosn0).

  Lemma pipe_len : length (pipe_chans n cp) = S n.
  Proof using Type. unfold pipe_chans. rewrite map_length, seq_length. auto. Qed.
  Lemma pipe_chan : forall c, chan_of N c = if c <=? n then Some (mkChan c (S c) (if c =? n then None else cp c)) else None.
  Proof using Type.
    intros c. unfold chan_of. change (chans N) with (pipe_chans n cp). destruct (Nat.leb_spec c n) as [L|L].
    - unfold pipe_chans. rewrite nth_error_map. rewrite (nth_error_nth' _ 0) by (rewrite seq_length; lia). rewrite seq_nth by lia. auto.
    - apply nth_error_None. rewrite pipe_len. lia.
  Qed.
  Lemma pipe_chan_some : forall c k, chan_of N c = Some k -> c <= n /\ k = mkChan c (S c) (if c =? n then None else cp c).
  Proof using Type. intros c k H. rewrite pipe_chan in H. destruct (Nat.leb_spec c n); [|discriminate]. injection H as <-. auto. Qed.

  Lemma pipe_outs : forall v, outs N v = if v <=? n then [v] else [].
  Proof using Type.
    intros v. unfold outs. change (chans N) with (pipe_chans n cp). rewrite pipe_len.
    transitivity (filter (fun c => c =? v) (seq 0 (S n))).
    - apply filter_ext_in. intros c Hc. apply in_seq in Hc. rewrite pipe_chan. destruct (Nat.leb_spec c n); [auto|lia].
    - rewrite filter_seq. destruct (Nat.ltb_spec v (S n)); destruct (Nat.leb_spec v n); auto; lia.
  Qed.
  Lemma pipe_ins : forall v, ins N (S v) = if v <=? n then [v] else [].
  Proof using Type.
    intros v. unfold ins. change (chans N) with (pipe_chans n cp). rewrite pipe_len.
    transitivity (filter (fun c => c =? v) (seq 0 (S n))).
    - apply filter_ext_in. intros c Hc. apply in_seq in Hc. rewrite pipe_chan. destruct (Nat.leb_spec c n); [auto|lia].
    - rewrite filter_seq. destruct (Nat.ltb_spec v (S n)); destruct (Nat.leb_spec v n); auto; lia.
  Qed.
  Lemma pipe_ins0 : ins N 0 = [].
  Proof using Type.
    unfold ins. change (chans N) with (pipe_chans n cp). rewrite pipe_len. 
    rewrite (filter_ext_in _ (fun _ => false)). 
    - induction (seq 0 (S n)); auto.
    - intros c Hc. apply in_seq in Hc. rewrite pipe_chan. destruct (Nat.leb_spec c n); [auto|lia].
  Qed.

  Lemma pipe_ok : acc_ok n (pipe_chans n cp) st0 boot0 (pipe_svc f) eosn0.
  Proof using CP.
    constructor.
    - constructor.
      + intros c k K. apply pipe_chan_some in K. destruct K as [L ->]. simpl. lia.
      + intros c k b K C. apply pipe_chan_some in K. destruct K as [L ->]. simpl in C. destruct (c =? n); [discriminate|]. eapply CP; eauto.
      + intros v Hv. simpl. unfold host_out. destruct (v =? 0); [apply Forall_nil|]. destruct (v =? host_in n); apply Forall_nil.
      + intros v u c x Hv. cbn [NetModel.svc AccModel.N AccModel.stream]. destruct (Nat.eqb_spec v (host_in n)) as [->|NE]; [constructor|].
        unfold pipe_svc. destruct (f v u x) as [u' o]. cbn [fst snd]. unfold ok_groups. rewrite Forall_forall. intros g Hg. apply in_map_iff in Hg.
        destruct Hg as (y & <- & _). constructor; [|constructor]. simpl ok_req. rewrite pipe_outs. 
        assert (v <= n) by (simpl in Hv; unfold host_in in NE; lia). destruct (Nat.leb_spec v n); [simpl; lia|lia].
      + intros v u c Hv. simpl. destruct (v =? host_in n); apply Forall_nil.
    - intros c k K. apply pipe_chan_some in K. destruct K as [L ->]. simpl. lia.
    - intros c k b _ _ u d x. cbn [NetModel.svc AccModel.N AccModel.stream]. destruct (_ =? _); auto. unfold pipe_svc. destruct (f _ u x). auto.
    - unfold host_out. rewrite pipe_outs. auto.
    - unfold host_in. rewrite pipe_ins, Nat.leb_refl. auto.
    - intros k K. assert (E : out_chan n (pipe_chans n cp) st0 boot0 (pipe_svc f) eosn0 = n).
      { unfold out_chan, host_in. rewrite pipe_ins, Nat.leb_refl. auto. }
      rewrite E in K. apply pipe_chan_some in K. destruct K as [_ ->]. simpl. rewrite Nat.eqb_refl. auto.
  Qed.
  Lemma pipe_out : out_chan n (pipe_chans n cp) st0 boot0 (pipe_svc f) eosn0 = n.
  Proof using Type. unfold out_chan, host_in. rewrite pipe_ins, Nat.leb_refl. auto. Qed.
  Lemma pipe_patient : forall xs v, patient (stream xs) v.
  Proof using Type. intros xs v u d x. cbn [NetModel.svc AccModel.stream]. destruct (_ =? _); auto. unfold pipe_svc. destruct (f _ u x). auto. Qed.

  (** Requests of single values to the only output are pushed as they are. *)
  Lemma realizes_single : forall xs v c, outs (stream xs) v = [c] -> forall ms P,
    realizes (stream xs) v (map (fun m => [To 0 m]) ms) P -> P = map (pair c) ms.
  Proof using Type.
    intros xs v c O. induction ms as [|m ms IH]; intros P R; inversion R as [|g g' p G P' PE FO RE]; subst; auto.
    apply Permutation_length_1_inv in PE. subst g'. inversion FO as [|r cm rs ps RS FN]; subst. inversion FN; subst.
    simpl in RS. rewrite O in RS. destruct cm as [c' m']. simpl in RS. destruct RS as [E1 E2]. injection E1 as <-. subst m'.
    simpl. f_equal. apply IH. auto.
  Qed.

  Lemma replies_pipe : forall xs v, v <> host_in n -> forall log u,
    replies (stream xs) v u log = map (fun m => [To 0 m]) (map Item (stage_out f v u (items (map snd log)))).
  Proof using Type.
    intros xs v NV. induction log as [|[c [x|]] log IH]; intros u; auto.
    - cbn [replies map snd items flat_map app stage_out]. cbn [NetModel.svc AccModel.stream]. apply Nat.eqb_neq in NV. rewrite NV. unfold pipe_svc.
      destruct (f v u x) as [u' o]. rewrite IH. change (flat_map _ (map snd log)) with (items (map snd log)).
      rewrite !map_app. f_equal. rewrite map_map. auto.
    - cbn [replies map snd items flat_map app]. cbn [NetModel.eosn AccModel.stream]. apply Nat.eqb_neq in NV. rewrite NV. cbn [app]. rewrite IH. auto.
  Qed.

  Definition code (xs : list X) (t : st X St) (v : nat) : list X :=
    match v with 0 => xs | _ => stage_out f v (st0 v) (items (map snd (hl t v))) end.

  Lemma hl0 : forall xs l t, exec (step (stream xs)) (init_st (stream xs)) l = Some t -> hl t 0 = [].
  Proof using Type.
    intros xs l t E. pose proof (reach _ _ _ E) as I. destruct (hl t 0) as [|[c m] r] eqn:H; auto.
    assert (C : In c (ins (stream xs) 0)) by (eapply (i_ins _ _ I 0 c m); rewrite H; left; auto).
    change (ins (stream xs) 0) with (ins N 0) in C. rewrite pipe_ins0 in C. destruct C.
  Qed.

  Lemma requests_pipe : forall xs l t v, exec (step (stream xs)) (init_st (stream xs)) l = Some t -> v <= n ->
    requests (stream xs) t v = map (fun m => [To 0 m]) (map Item (code xs t v)).
  Proof using Type.
    intros xs l t v E V. unfold requests. destruct v as [|v].
    - rewrite (hl0 xs l t E). simpl. rewrite app_nil_r, map_map. auto.
    - change (start (stream xs) (S v)) with (st0 (S v)). rewrite replies_pipe by (unfold host_in; lia).
      assert (B : boot (stream xs) (S v) = []) by (simpl; destruct (v =? n); auto).
      rewrite B. auto.
  Qed.

  Lemma pushed_pipe : forall xs l t v, exec (step (stream xs)) (init_st (stream xs)) l = Some t -> v <= n ->
    exists rest, hp t v ++ rest = map (pair v) (map Item (code xs t v) ++ match ph (nd t v) with Running => [] | _ => [Eos] end) /\
      (pend (nd t v) = [] -> rest = []).
  Proof using CP.
    intros xs l t v E V. destruct (net_pushes_follow_code _ (stream_wf _ _ _ _ _ _ pipe_ok xs) l t v E) as (rest & R & P); [simpl; lia|].
    exists rest. split; auto. rewrite (requests_pipe xs l t v E V) in R.
    assert (O : outs (stream xs) v = [v]) by (change (outs (stream xs) v) with (outs N v); rewrite pipe_outs; destruct (Nat.leb_spec v n); [auto|lia]).
    apply (realizes_single xs v v O). rewrite map_app. destruct (ph (nd t v)); auto; unfold eos_group in R; rewrite O in R; exact R.
  Qed.

  Lemma items_snd : forall (c : nat) (ms : list (msg X)), map snd (map (pair c) ms) = ms.
  Proof using Type. intros. rewrite map_map. apply map_id. Qed.
  Lemma items_app : forall a b : list (msg X), items (a ++ b) = items a ++ items b.
  Proof using Type. intros. unfold items. apply flat_map_app. Qed.
  Lemma items_prefix : forall a b : list (msg X), prefix a b -> prefix (items a) (items b).
  Proof using Type. intros a b [r ->]. rewrite items_app. exists (items r). auto. Qed.
  Lemma stage_prefix : forall v a u b, prefix a b -> prefix (stage_out f v u a) (stage_out f v u b).
  Proof using Type.
    intros v. induction a as [|x a IH]; intros u b [r ->]; simpl; [exists (stage_out f v u r); auto|].
    destruct (f v u x) as [u' o]. destruct (IH u' (a ++ r)) as [r' ->]; [exists r; auto|]. exists r'. rewrite app_assoc. auto.
  Qed.

  Lemma on_all : forall c (h : list (nat * msg X)), (forall d m, In (d, m) h -> d = c) -> on c h = map snd h.
  Proof using Type.
    intros c h H. unfold on. f_equal. induction h as [|[d m] h IH]; auto. simpl. rewrite (H d m (or_introl eq_refl)), Nat.eqb_refl. f_equal.
    apply IH. intros d' m' HI. apply (H d' m'). right. auto.
  Qed.

  Lemma chan_hist : forall xs l t v, exec (step (stream xs)) (init_st (stream xs)) l = Some t -> v <= n ->
    map snd (hp t v) = map snd (hl t (S v)) ++ q t v.
  Proof using CP.
    intros xs l t v E V.
    assert (K : chan_of (stream xs) v = Some (mkChan v (S v) (if v =? n then None else cp v))).
    { change (chan_of (stream xs) v) with (chan_of N v). rewrite pipe_chan. destruct (Nat.leb_spec v n); [auto|lia]. }
    pose proof (net_channels_fifo _ l t v _ E K) as F. cbn [src dst] in F.
    rewrite (on_all v (hp t v)), (on_all v (hl t (S v))) in F; auto.
    - intros d m HI. pose proof (i_ins _ _ (reach _ _ _ E) _ _ _ HI) as D. change (ins (stream xs) (S v)) with (ins N (S v)) in D. rewrite pipe_ins in D.
      destruct (Nat.leb_spec v n); [|lia]. destruct D as [<-|[]]. auto.
    - intros d m HI. destruct (pushed_pipe xs l t v E V) as (rest & R & _).
      assert (HJ : In (d, m) (hp t v ++ rest)) by (apply in_or_app; auto). rewrite R in HJ. apply in_map_iff in HJ. destruct HJ as (m' & F' & _). congruence.
  Qed.

  Lemma code_prefix : forall xs l t, exec (step (stream xs)) (init_st (stream xs)) l = Some t -> forall v, v <= n ->
    prefix (items (map snd (hp t v))) (through f st0 v xs).
  Proof using CP.
    intros xs l t E v V. assert (A : prefix (items (map snd (hp t v))) (code xs t v)).
    { destruct (pushed_pipe xs l t v E V) as (rest & R & _). apply (f_equal (map snd)) in R. rewrite items_snd, map_app in R.
      apply (f_equal items) in R. rewrite !items_app in R. rewrite items_map in R.
      replace (items (match ph (nd t v) with Running => [] | _ => [Eos] end)) with (@nil X) in R by (destruct (ph (nd t v)); auto).
      rewrite app_nil_r in R. rewrite <- R. exists (items (map snd rest)). auto. }
    revert V A. induction v as [|v IH]; intros V A; [exact A|]. eapply prefix_trans; [exact A|]. cbn [code through]. apply stage_prefix.
    pose proof (chan_hist xs l t v E ltac:(lia)) as F. eapply prefix_trans; [|apply IH; try lia].
    - apply items_prefix. exists (q t v). auto.
    - destruct (pushed_pipe xs l t v E ltac:(lia)) as (rest & R & _). apply (f_equal (map snd)) in R. rewrite items_snd, map_app in R.
      apply (f_equal items) in R. rewrite !items_app in R. rewrite items_map in R.
      replace (items (match ph (nd t v) with Running => [] | _ => [Eos] end)) with (@nil X) in R by (destruct (ph (nd t v)); auto).
      rewrite app_nil_r in R. rewrite <- R. exists (items (map snd rest)). auto.
  Qed.

  Lemma code_final : forall xs l t, exec (step (stream xs)) (init_st (stream xs)) l = Some t -> all_done (stream xs) t -> forall v, v <= n ->
    items (map snd (hl t (S v))) = through f st0 v xs.
  Proof using CP.
    intros xs l t E D. assert (A : forall v, v <= n -> items (map snd (hl t (S v))) = code xs t v).
    { intros v V. destruct (pushed_pipe xs l t v E V) as (rest & R & P). rewrite P in R by (apply (i_done _ _ (reach _ _ _ E)); apply D; simpl; lia).
      rewrite app_nil_r in R. pose proof (chan_hist xs l t v E V) as F. rewrite R, items_snd in F.
      assert (K : chan_of (stream xs) v = Some (mkChan v (S v) (if v =? n then None else cp v))).
      { change (chan_of (stream xs) v) with (chan_of N v). rewrite pipe_chan. destruct (Nat.leb_spec v n); [auto|lia]. }
      destruct (net_final_channels _ (stream_wf _ _ _ _ _ _ pipe_ok xs) l t v _ E D K (pipe_patient xs _)) as [Q _]. rewrite Q, app_nil_r in F.
      rewrite <- F, items_app, items_map. destruct (ph (nd t v)); simpl; apply app_nil_r. }
    induction v as [|v IH]; intros V; rewrite A by auto; auto. cbn [code through]. rewrite IH by lia. auto.
  Qed.
End Pipe.
