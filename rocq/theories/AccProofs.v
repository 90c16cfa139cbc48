(** The accelerator is simulated by the same network used as a stream. *)
From Coq Require Import List Arith Bool Lia.
From Verif Require Import Base NetModel NetSpec NetProofs NetProofs2 NetProofs3 AccModel AccSpec.
Import ListNotations.

Section Proofs.
  Context {X St : Type}.
  Variables (n : nat) (chs : list chan) (st0 : nat -> St) (boot0 : nat -> list (list (req X)))
            (svc0 : nat -> St -> nat -> X -> St * list (list (req X)) * bool)
            (eosn0 : nat -> St -> nat -> St * list (list (req X))).
  Notation N := (N n chs st0 boot0 svc0 eosn0).
  Notation stream := (stream n chs st0 boot0 svc0 eosn0).
  Notation astep := (astep n chs st0 boot0 svc0 eosn0).
  Notation a_init := (a_init n chs st0 boot0 svc0 eosn0).
  Notation ci := (in_chan n chs st0 boot0 svc0 eosn0).
  Notation co := (out_chan n chs st0 boot0 svc0 eosn0).
  Notation snk := (host_in n).
  Hypothesis OK : acc_ok n chs st0 boot0 svc0 eosn0.

  Lemma step_same : forall xs s a, step (stream xs) s a = step N s a.
  Proof using Type. reflexivity. Qed.

  Lemma outs0 : outs N host_out = [ci].
  Proof using OK.
    pose proof (ok_in _ _ _ _ _ _ OK) as L. unfold in_chan. destruct (outs N host_out) as [|c [|d r]]; simpl in *; try lia. auto.
  Qed.
  Lemma insS : ins N snk = [co].
  Proof using OK.
    pose proof (ok_out _ _ _ _ _ _ OK) as L. unfold out_chan. destruct (ins N snk) as [|c [|d r]]; simpl in *; try lia. auto.
  Qed.
  Lemma ins0 : ins N host_out = [].
  Proof using OK.
    destruct (ins N host_out) as [|c r] eqn:E; auto. assert (H : In c (ins N host_out)) by (rewrite E; left; auto).
    apply in_ins in H. destruct H as (k & K & D). pose proof (ok_acyclic _ _ _ _ _ _ OK c k K) as A. unfold host_out in D. lia.
  Qed.
  Lemma outsS : outs N snk = [].
  Proof using OK.
    destruct (outs N snk) as [|c r] eqn:E; auto. assert (H : In c (outs N snk)) by (rewrite E; left; auto).
    apply in_outs in H. destruct H as (k & K & D). pose proof (ok_acyclic _ _ _ _ _ _ OK c k K) as A.
    destruct (wf_ends _ (ok_wf _ _ _ _ _ _ OK) c k K) as [_ Q]. simpl in Q. unfold host_in in D. lia.
  Qed.
  Lemma ci_src : exists k, chan_of N ci = Some k /\ src k = 0.
  Proof using OK. apply in_outs. change 0 with host_out. rewrite outs0. left; auto. Qed.
  Lemma co_dst : exists k, chan_of N co = Some k /\ dst k = snk.
  Proof using OK. apply in_ins. rewrite insS. left; auto. Qed.
  Lemma src0_ci : forall c k, chan_of N c = Some k -> src k = 0 -> c = ci.
  Proof using OK. intros c k K E. assert (H : In c (outs N host_out)) by (apply in_outs; eauto). rewrite outs0 in H. destruct H as [<-|[]]; auto. Qed.
  Lemma dstS_co : forall c k, chan_of N c = Some k -> dst k = snk -> c = co.
  Proof using OK. intros c k K E. assert (H : In c (ins N snk)) by (apply in_ins; eauto). rewrite insS in H. destruct H as [<-|[]]; auto. Qed.

  (** ** The stream is well formed *)
  Lemma stream_wf : forall xs, wf (stream xs).
  Proof using OK.
    intros xs. pose proof (ok_wf _ _ _ _ _ _ OK) as W. constructor.
    - apply (wf_ends _ W).
    - apply (wf_cap _ W).
    - intros v Hv. destruct (Nat.eq_dec v 0) as [->|NZ].
      + simpl. unfold ok_groups. rewrite Forall_forall. intros g Hg. apply in_map_iff in Hg. destruct Hg as (x & <- & _).
        constructor; [|constructor]. simpl. change (outs (stream xs) 0) with (outs N host_out). rewrite outs0. simpl. lia.
      + pose proof (wf_boot _ W v Hv) as B. simpl in B |- *. unfold host_out in *. destruct v; [congruence|]. exact B.
    - apply (wf_svc _ W).
    - apply (wf_eosn _ W).
  Qed.
  Lemma stream_acyclic : forall xs, acyclic (stream xs).
  Proof using OK. intros xs. apply (ok_acyclic _ _ _ _ _ _ OK). Qed.
  Lemma stream_patient : forall xs c k b, chan_of (stream xs) c = Some k -> cap k = Some b -> patient (stream xs) (dst k).
  Proof using OK. intros xs. apply (ok_patient _ _ _ _ _ _ OK). Qed.

  (** ** Simulation *)
  Definition src_node (s : st X St) (rest : list X) (cl : bool) : node X St :=
    if cl then mkNode (st0 0) [] [] Done
    else mkNode (st0 0) (map (fun x => [To 0 (Item x)]) rest ++ [eos_group N 0]) [] Closing.
  Definition snk_node (dr : bool) : node X St :=
    if dr then mkNode (st0 snk) [] [co] Done else mkNode (st0 snk) [] [] Running.

  Record sim (s : ast X St) (rest : list X) (t : st X St) : Prop := {
    s_q : q t = q (net s);
    s_hs : hs t = hs (net s);
    s_hl : hl t = hl (net s);
    s_hp : hp t = hp (net s);
    s_nd : forall v, v <> 0 -> v <> snk -> nd t v = nd (net s) v;
    s_src : nd t 0 = src_node (net s) rest (closed s);
    s_snk : nd t snk = snk_node (drained n s) }.

  (** The history of the calls and that of the channels. *)
  Record cons (s : ast X St) : Prop := {
    c_off : hp (net s) host_out = map (pair ci) (offloaded (hist s));
    c_ld : hl (net s) snk = map (pair co) (loaded (hist s));
    c_cur : match cur s with Some (Off _ _) => closed s = false | Some _ => drained n s = false | None => True end;
    c_offi : closed s = false -> exists xs, offloaded (hist s) = map Item xs;
    c_offe : closed s = true -> exists xs, offloaded (hist s) = map Item xs ++ [Eos] }.

  Lemma offloaded_snoc : forall h (c : call X) (r : ret X), offloaded (h ++ [(c, r)]) = offloaded h ++ match c with Off m _ => if ok r then [m] else [] | _ => [] end.
  Proof using Type. intros. unfold offloaded. rewrite flat_map_app. simpl. rewrite app_nil_r. auto. Qed.
  Lemma loaded_snoc : forall h (c : call X) (r : ret X), loaded (h ++ [(c, r)]) = loaded h ++ match got r with Some m => [m] | None => [] end.
  Proof using Type. intros. unfold loaded. rewrite flat_map_app. simpl. rewrite app_nil_r. auto. Qed.

  Lemma items_map : forall xs : list X, items (map Item xs) = xs.
  Proof using Type. induction xs as [|x xs IH]; simpl; auto. unfold items in *. simpl. congruence. Qed.

  Lemma fupd_other : forall T (g : nat -> T) i j v, j <> i -> fupd g i v j = g j.
  Proof using Type. intros. apply fupd_neq. auto. Qed.

  (** Steps of internal threads keep the ends. *)
  Lemma thr_step : forall s b t, step N s b = Some t -> node_of b <> 0 -> node_of b <> snk ->
    hp t 0 = hp s 0 /\ hl t snk = hl s snk /\ nd t 0 = nd s 0 /\ nd t snk = nd s snk.
  Proof using Type.
    intros s b t E N0 NS. destruct b as [v c|v k j|v|v]; cbn [step node_of] in *.
    - destruct (ph (nd s v)); try discriminate. destruct (pend (nd s v)); try discriminate. destruct (q s c); try discriminate.
      destruct (_ && _); [|discriminate]. injection E as <-. cbn [hp hl nd]. rewrite !fupd_other by auto. auto.
    - destruct (pend (nd s v)); try discriminate. destruct (nth_error l k); try discriminate. destruct (resolve N v r j) as [[c m]|]; try discriminate.
      destruct (_ && _); [|discriminate]. injection E as <-. cbn [hp hl nd]. rewrite !fupd_other by auto. auto.
    - destruct (pend (nd s v)) as [|[|] ?]; try discriminate. destruct (_ <? _); [|discriminate]. injection E as <-. cbn [hp hl nd]. rewrite !fupd_other by auto. auto.
    - destruct (ph (nd s v)); try discriminate. destruct (pend (nd s v)); try discriminate. destruct (_ <? _); [|discriminate]. injection E as <-.
      cbn [hp hl nd]. rewrite !fupd_other by auto. auto.
  Qed.

  (** A step depends on the channels and on the node that moves. *)
  Lemma step_transfer : forall (s t s' : st X St) b, q t = q s -> hs t = hs s -> hl t = hl s -> hp t = hp s ->
    nd t (node_of b) = nd s (node_of b) -> step N s b = Some s' ->
    exists t', step N t b = Some t' /\ q t' = q s' /\ hs t' = hs s' /\ hl t' = hl s' /\ hp t' = hp s' /\
      nd t' (node_of b) = nd s' (node_of b) /\ (forall v, v <> node_of b -> nd t' v = nd t v /\ nd s' v = nd s v).
  Proof using Type.
    intros s t s' b Q HS HL HP ND E. destruct b as [v c|v k j|v|v]; cbn [step node_of] in *; rewrite ?ND, ?Q, ?HS, ?HL, ?HP.
    - destruct (ph (nd s v)); try discriminate. destruct (pend (nd s v)); try discriminate. destruct (q s c) as [|m r]; try discriminate.
      destruct (_ && _); [|discriminate]. injection E as <-. eexists. split; [reflexivity|]. cbn [hp hl nd q hs].
      repeat split; rewrite ?fupd_eq; auto; rewrite fupd_other by auto; auto.
    - destruct (pend (nd s v)) as [|g p]; try discriminate. destruct (nth_error g k); try discriminate. destruct (resolve N v r j) as [[c m]|]; try discriminate.
      unfold room in *. rewrite Q. destruct (_ && _); [|discriminate]. injection E as <-. eexists. split; [reflexivity|]. cbn [hp hl nd q hs].
      repeat split; rewrite ?fupd_eq; auto; rewrite fupd_other by auto; auto.
    - destruct (pend (nd s v)) as [|[|] ?]; try discriminate. destruct (_ <? _); [|discriminate]. injection E as <-. eexists. split; [reflexivity|].
      cbn [hp hl nd q hs]. repeat split; rewrite ?fupd_eq; auto; rewrite fupd_other by auto; auto.
    - destruct (ph (nd s v)); try discriminate. destruct (pend (nd s v)); try discriminate. destruct (_ <? _); [|discriminate]. injection E as <-.
      eexists. split; [reflexivity|]. cbn [hp hl nd q hs]. repeat split; rewrite ?fupd_eq; auto; rewrite fupd_other by auto; auto.
  Qed.

  Lemma closed_off : forall s, cons s -> closed s = existsb (fun m => negb (is_item m)) (offloaded (hist s)).
  Proof using Type.
    intros s K. unfold closed. rewrite (c_off _ K). induction (offloaded (hist s)) as [|m l IH]; simpl; auto. rewrite IH. auto.
  Qed.
  Lemma existsb_items : forall xs : list X, existsb (fun m => negb (is_item m)) (map Item xs) = false.
  Proof using Type. induction xs; simpl; auto. Qed.

  Lemma closed_same : forall s s' : ast X St, hp (net s') host_out = hp (net s) host_out -> closed s' = closed s.
  Proof using Type. intros s s' E. unfold closed. rewrite E. auto. Qed.
  Lemma drained_same : forall s s' : ast X St, hl (net s') snk = hl (net s) snk -> drained n s' = drained n s.
  Proof using Type. intros s s' E. unfold drained. rewrite E. auto. Qed.
  Lemma closed_push : forall (s : ast X St) (t : st X St) m c, hp t host_out = hp (net s) host_out ++ [(c, m)] ->
    existsb (fun cm => negb (is_item (snd cm))) (hp t host_out) = closed s || negb (is_item m).
  Proof using Type. intros s t m c E. rewrite E, existsb_app. simpl. rewrite orb_false_r. auto. Qed.

  Lemma cons_step : forall s a s', cons s -> astep s a = Some s' -> cons s'.
  Proof using OK.
    intros s a s' K E. destruct K as [KO KL KC KI KE]. destruct a as [b|c|]; cbn [AccModel.astep] in E.
    - destruct (_ || _) eqn:NB; [discriminate|]. apply orb_false_iff in NB. destruct NB as [N0 NS]. apply Nat.eqb_neq in N0, NS.
      destruct (step N (net s) b) as [t|] eqn:ES; [|discriminate]. injection E as <-.
      destruct (thr_step _ _ _ ES N0 NS) as (A1 & A2 & _ & _).
      assert (C1 : closed (mkA t (cur s) (hist s)) = closed s) by (apply closed_same; auto).
      assert (C2 : drained n (mkA t (cur s) (hist s)) = drained n s) by (apply drained_same; auto).
      constructor; cbn [net cur hist]; rewrite ?C1, ?C2; auto.
      + rewrite <- KO. exact A1.
      + rewrite <- KL. exact A2.
    - destruct (cur s); [discriminate|]. destruct (match c with Off _ _ => closed s | _ => drained n s end) eqn:G; [discriminate|].
      injection E as <-. constructor; cbn [net cur hist]; auto. destruct c; auto.
    - destruct (cur s) as [[m r|r|]|] eqn:CU; try discriminate.
      + destruct (over r).
        { injection E as <-. unfold returns. constructor; cbn [net cur hist]; auto; rewrite ?offloaded_snoc, ?loaded_snoc; simpl; rewrite ?app_nil_r; auto. }
        destruct (room N (net s) ci).
        2: { injection E as <-. constructor; cbn [net cur hist]; auto. }
        injection E as <-. unfold returns.
        assert (HP : hp (push_in ci m (net s)) host_out = hp (net s) host_out ++ [(ci, m)]) by (unfold push_in; cbn [hp]; rewrite fupd_eq; auto).
        pose proof (closed_push s _ m ci HP) as CL. rewrite KC in CL. simpl in CL.
        assert (CLS : forall cu h, closed (mkA (push_in ci m (net s)) cu h) = negb (is_item m)) by (intros; exact CL).
        destruct (KI KC) as (xs & EX).
        constructor; cbn [net cur hist]; rewrite ?offloaded_snoc, ?loaded_snoc; cbn [ok got]; rewrite ?app_nil_r.
        * rewrite HP, KO, map_app. auto.
        * unfold push_in. cbn [hl]. auto.
        * auto.
        * rewrite CLS. intros G. destruct m as [x|]; [|discriminate]. exists (xs ++ [x]). rewrite EX, map_app. auto.
        * rewrite CLS. intros G. destruct m as [x|]; [discriminate|]. exists xs. rewrite EX. auto.
      + destruct (over r).
        { injection E as <-. unfold returns. constructor; cbn [net cur hist]; auto; rewrite ?offloaded_snoc, ?loaded_snoc; simpl; rewrite ?app_nil_r; auto. }
        destruct (q (net s) co) as [|m q'].
        { injection E as <-. constructor; cbn [net cur hist]; auto. }
        injection E as <-. unfold returns, pop_out.
        constructor; cbn [net cur hist hp hl]; rewrite ?offloaded_snoc, ?loaded_snoc; cbn [ok got]; rewrite ?app_nil_r; auto.
        rewrite fupd_eq, KL, map_app. auto.
      + destruct (q (net s) co) as [|m q'].
        { injection E as <-. unfold returns. constructor; cbn [net cur hist]; auto; rewrite ?offloaded_snoc, ?loaded_snoc; simpl; rewrite ?app_nil_r; auto. }
        injection E as <-. unfold returns, pop_out.
        constructor; cbn [net cur hist hp hl]; rewrite ?offloaded_snoc, ?loaded_snoc; cbn [ok got]; rewrite ?app_nil_r; auto.
        rewrite fupd_eq, KL, map_app. auto.
  Qed.
  Lemma cons_init : cons a_init.
  Proof using Type. constructor; simpl; auto; [intros _; exists []; auto|discriminate]. Qed.

  Definition simulated (s : ast X St) : Prop := forall rest, (closed s = true -> rest = []) ->
    exists l t, exec (step (stream (items (offloaded (hist s)) ++ rest))) (init_st (stream (items (offloaded (hist s)) ++ rest))) l = Some t /\ sim s rest t.

  Lemma sim_init : simulated a_init.
  Proof using OK.
    intros rest _. exists [], (init_st (stream rest)). split; [reflexivity|].
    constructor; auto.
    - intros v V0 VS. cbn [net a_init init_st nd]. unfold init_node. change (ins (stream rest) v) with (ins N v). 
      change (eos_group (stream rest) v) with (eos_group N v). change (start (stream rest)) with (start N).
      replace (boot (stream rest) v) with (boot N v); [auto|]. simpl. unfold host_out. destruct v; [congruence|]. auto.
    - cbn [init_st nd]. unfold init_node. change (ins (stream rest) 0) with (ins N host_out). rewrite ins0. reflexivity.
    - cbn [init_st nd]. unfold init_node. change (ins (stream rest) snk) with (ins N snk). rewrite insS. simpl. rewrite Nat.eqb_refl. reflexivity.
  Qed.

  Lemma exec_snoc : forall xs l t ext t', exec (step (stream xs)) (init_st (stream xs)) l = Some t -> exec (step (stream xs)) t ext = Some t' ->
    exec (step (stream xs)) (init_st (stream xs)) (l ++ ext) = Some t'.
  Proof using Type. intros. apply exec_app. eauto. Qed.

  Lemma eos_group0 : eos_group N 0 = [To 0 Eos].
  Proof using OK. unfold eos_group. change (outs N 0) with (outs N host_out). rewrite outs0. reflexivity. Qed.
  Lemma eos_groupS : eos_group N snk = [].
  Proof using OK. unfold eos_group. rewrite outsS. reflexivity. Qed.
  Lemma lt0 : (0 <? nodes N) = true.
  Proof using Type. reflexivity. Qed.
  Lemma ltS : (snk <? nodes N) = true.
  Proof using Type. simpl. apply Nat.ltb_lt. unfold host_in. lia. Qed.

  (** The source pushes m and goes on. *)
  Lemma src_put : forall t m p, nd t 0 = mkNode (st0 0) ([To 0 m] :: p) [] Closing -> room N t ci = true ->
    exists t', exec (step N) t [Put 0 0 0; Next 0] = Some t' /\
      q t' = fupd (q t) ci (q t ci ++ [m]) /\ hs t' = fupd (hs t) ci (hs t ci ++ [m]) /\ hl t' = hl t /\
      hp t' = fupd (hp t) host_out (hp t host_out ++ [(ci, m)]) /\
      nd t' 0 = mkNode (st0 0) p [] Closing /\ forall v, v <> 0 -> nd t' v = nd t v.
  Proof using OK.
    intros t m p E R. eexists. split.
    - cbn [exec step]. rewrite E. cbn [pend nth_error]. unfold resolve. change (outs N 0) with (outs N host_out). rewrite outs0.
      cbn [nth_error option_map]. rewrite lt0, R. cbn [andb nd]. rewrite fupd_eq. cbn [pend]. unfold remove_nth. cbn [firstn skipn app]. rewrite ?lt0.
      reflexivity.
    - cbn [q hs hl hp nd]. do 4 (split; [reflexivity|]). split.
      + rewrite !fupd_eq. cbn [ust ended ph]. auto.
      + intros v V. rewrite !fupd_other by auto. auto.
  Qed.
  Lemma src_fin : forall t, nd t 0 = mkNode (st0 0) [] [] Closing ->
    exists t', exec (step N) t [Fin 0] = Some t' /\ q t' = q t /\ hs t' = hs t /\ hl t' = hl t /\ hp t' = hp t /\
      nd t' 0 = mkNode (st0 0) [] [] Done /\ forall v, v <> 0 -> nd t' v = nd t v.
  Proof using Type.
    intros t E. eexists. split.
    - cbn [exec step]. rewrite E. cbn [ph pend]. rewrite lt0. reflexivity.
    - cbn [q hs hl hp nd]. do 4 (split; [reflexivity|]). split.
      + rewrite !fupd_eq. auto.
      + intros v V. rewrite !fupd_other by auto. auto.
  Qed.
  (** The last node reads m. *)
  Lemma snk_get : forall t m r, nd t snk = mkNode (st0 snk) [] [] Running -> q t co = m :: r ->
    exists l t', exec (step N) t l = Some t' /\
      q t' = fupd (q t) co r /\ hs t' = hs t /\ hl t' = fupd (hl t) snk (hl t snk ++ [(co, m)]) /\ hp t' = hp t /\
      nd t' snk = snk_node (negb (is_item m)) /\ forall v, v <> snk -> nd t' v = nd t v.
  Proof using OK.
    intros t m r E Q. assert (MI : memb co (ins N snk) = true) by (rewrite insS; unfold memb; simpl; rewrite Nat.eqb_refl; auto).
    destruct m as [x|].
    - exists [Get snk co]. eexists. split.
      + cbn [exec step]. rewrite E. cbn [ph pend ended]. rewrite Q, ltS, MI. cbn [andb negb memb existsb]. reflexivity.
      + cbn [q hs hl hp nd]. do 4 (split; [reflexivity|]). split.
        * rewrite fupd_eq. unfold react. simpl. rewrite Nat.eqb_refl. reflexivity.
        * intros v V. rewrite fupd_other by auto. auto.
    - exists [Get snk co; Next snk; Fin snk]. eexists. split.
      + cbn [exec step]. rewrite E. cbn [ph pend ended]. rewrite Q, ltS, MI. cbn [andb negb memb existsb]. 
        assert (RE : react N snk (mkNode (st0 snk) [] [] Running) co Eos = mkNode (st0 snk) [[]] [co] Closing).
        { unfold react. change (eosn N snk (ust (mkNode (st0 snk) [] [] Running)) co) with (if snk =? snk then (st0 snk, @nil (list (req X))) else eosn0 snk (st0 snk) co).
          rewrite Nat.eqb_refl, insS. cbn [ended forallb memb existsb]. rewrite Nat.eqb_refl. cbn [orb andb]. rewrite eos_groupS. auto. }
        rewrite RE. cbn [nd]. rewrite fupd_eq. cbn [pend]. rewrite ?ltS. cbn [nd]. rewrite fupd_eq. cbn [ph pend]. rewrite ?ltS. reflexivity.
      + cbn [q hs hl hp nd]. do 4 (split; [reflexivity|]). split.
        * rewrite !fupd_eq. reflexivity.
        * intros v V. rewrite !fupd_other by auto. auto.
  Qed.

  Lemma room_q : forall s t c, q t = q s -> room N t c = room N s c.
  Proof using Type. intros s t c E. unfold room. rewrite E. auto. Qed.

  Lemma items_app1 : forall (l : list (msg X)) m, items (l ++ [m]) = items l ++ match m with Item x => [x] | Eos => [] end.
  Proof using Type. intros. unfold items. rewrite flat_map_app. simpl. rewrite app_nil_r. auto. Qed.

  Lemma sim_same : forall s s' rest t, net s' = net s -> sim s rest t -> sim s' rest t.
  Proof using Type. intros s s' rest t E [A1 A2 A3 A4 A5 A6 A7]. unfold closed, drained in *. constructor; unfold closed, drained; rewrite ?E; auto. Qed.

  Lemma sim_load : forall s m q' h cu, cons s -> drained n s = false -> q (net s) co = m :: q' -> simulated s -> offloaded h = offloaded (hist s) ->
    simulated (mkA (pop_out n co m q' (net s)) cu h).
  Proof using OK.
    intros s m q' h cu K D Q SI EH rest RC. cbn [hist] in *. rewrite EH in *.
    destruct (SI rest) as (l & t & EX & [A1 A2 A3 A4 A5 A6 A7]); [exact RC|].
    rewrite D in A7. simpl in A7. destruct (snk_get t m q' A7) as (ext & t' & E2 & B1 & B2 & B3 & B4 & B5 & B6); [rewrite A1; auto|].
    exists (l ++ ext), t'. split; [eapply exec_snoc; eauto|].
    assert (S0 : snk <> 0) by (unfold host_in; lia).
    constructor; cbn [net pop_out q hs hl hp nd].
    - rewrite B1, A1. auto.
    - rewrite B2. auto.
    - rewrite B3, A3. auto.
    - rewrite B4. auto.
    - intros v V0 VS. rewrite B6 by auto. apply A5; auto.
    - rewrite B6 by auto. exact A6.
    - rewrite B5. f_equal. unfold drained. cbn [net pop_out hl]. rewrite fupd_eq, existsb_app. unfold drained in D. rewrite D. simpl. rewrite orb_false_r. auto.
  Qed.

  Lemma sim_step : forall s a s', cons s -> simulated s -> astep s a = Some s' -> simulated s'.
  Proof using OK.
    intros s a s' K SI E. pose proof (c_cur _ K) as KC. destruct a as [b|c|]; cbn [AccModel.astep] in E.
    - destruct (_ || _) eqn:NB; [discriminate|]. apply orb_false_iff in NB. destruct NB as [N0 NS]. apply Nat.eqb_neq in N0, NS.
      destruct (step N (net s) b) as [u|] eqn:ES; [|discriminate]. injection E as <-.
      destruct (thr_step _ _ _ ES N0 NS) as (H1 & H2 & _ & _).
      assert (C1 : closed (mkA u (cur s) (hist s)) = closed s) by (apply closed_same; auto).
      assert (C2 : drained n (mkA u (cur s) (hist s)) = drained n s) by (apply drained_same; auto).
      intros rest RC. rewrite C1 in RC. cbn [hist]. destruct (SI rest RC) as (l & t & EX & [A1 A2 A3 A4 A5 A6 A7]).
      destruct (step_transfer (net s) t u b A1 A2 A3 A4 (A5 _ N0 NS) ES) as (t' & ET & B1 & B2 & B3 & B4 & B5 & B6).
      exists (l ++ [b]), t'. split.
      + eapply exec_snoc; eauto. cbn [exec]. rewrite step_same, ET. auto.
      + constructor; cbn [net]; auto.
        * intros v V0 VS. destruct (Nat.eq_dec v (node_of b)) as [->|NV]; auto. destruct (B6 v NV) as [-> ->]. apply A5; auto.
        * rewrite (proj1 (B6 0 ltac:(auto))). rewrite A6, C1. reflexivity.
        * rewrite (proj1 (B6 snk ltac:(auto))). rewrite A7, C2. reflexivity.
    - destruct (cur s); [discriminate|]. destruct (match c with Off _ _ => closed s | _ => drained n s end); [discriminate|].
      injection E as <-. intros rest RC. destruct (SI rest RC) as (l & t & EX & SM). exists l, t. split; auto. apply (sim_same s); auto.
    - destruct (cur s) as [[m r|r|]|] eqn:CU; try discriminate.
      + destruct (over r).
        { injection E as <-. intros rest RC. destruct (SI rest RC) as (l & t & EX & SM). exists l, t. unfold returns. cbn [hist]. rewrite offloaded_snoc. simpl. rewrite app_nil_r.
          split; auto. apply (sim_same s); auto. }
        destruct (room N (net s) ci) eqn:RM.
        2: { injection E as <-. intros rest RC. destruct (SI rest RC) as (l & t & EX & SM). exists l, t. split; auto. apply (sim_same s); auto. }
        injection E as <-. unfold returns. intros rest RC. cbn [hist]. rewrite offloaded_snoc. cbn [ok]. rewrite items_app1.
        assert (HP : hp (push_in ci m (net s)) host_out = hp (net s) host_out ++ [(ci, m)]) by (unfold push_in; cbn [hp]; rewrite fupd_eq; auto).
        pose proof (closed_push s _ m ci HP) as CL. rewrite KC in CL. simpl in CL.
        assert (CLS : forall cu h, closed (mkA (push_in ci m (net s)) cu h) = negb (is_item m)) by (intros; exact CL). rewrite CLS in RC.
        destruct m as [x|].
        * destruct (SI (x :: rest)) as (l & t & EX & [A1 A2 A3 A4 A5 A6 A7]); [congruence|]. rewrite <- app_assoc. cbn [app].
          rewrite KC in A6. unfold src_node in A6. cbn [map app] in A6.
          destruct (src_put t (Item x) _ A6) as (t' & ET & B1 & B2 & B3 & B4 & B5 & B6); [rewrite (room_q (net s)); auto|].
          exists (l ++ [Put 0 0 0; Next 0]), t'. split; [eapply exec_snoc; eauto|].
          constructor; unfold push_in; cbn [net q hs hl hp nd].
          -- rewrite B1, A1. auto.
          -- rewrite B2, A2. auto.
          -- rewrite B3. auto.
          -- rewrite B4, A4. auto.
          -- intros v V0 VS. rewrite B6 by auto. auto.
          -- rewrite B5. fold (push_in ci (Item x) (net s)). rewrite CLS. reflexivity.
          -- rewrite B6 by (unfold host_in; lia). exact A7.
        * rewrite (RC eq_refl) in *. rewrite !app_nil_r. destruct (SI []) as (l & t & EX & [A1 A2 A3 A4 A5 A6 A7]); [auto|]. rewrite app_nil_r in EX.
          rewrite KC in A6. unfold src_node in A6. cbn [map app] in A6. rewrite eos_group0 in A6.
          destruct (src_put t Eos _ A6) as (t' & ET & B1 & B2 & B3 & B4 & B5 & B6); [rewrite (room_q (net s)); auto|].
          destruct (src_fin t' B5) as (t'' & ET2 & D1 & D2 & D3 & D4 & D5 & D6).
          exists (l ++ [Put 0 0 0; Next 0; Fin 0]), t''. split.
          { eapply exec_snoc; eauto. change [Put 0 0 0; Next 0; Fin 0] with ([Put 0 0 0; Next 0] ++ [Fin 0]). apply exec_app. exists t'. auto. }
          constructor; unfold push_in; cbn [net q hs hl hp nd].
          -- rewrite D1, B1, A1. auto.
          -- rewrite D2, B2, A2. auto.
          -- rewrite D3, B3. auto.
          -- rewrite D4, B4, A4. auto.
          -- intros v V0 VS. rewrite D6, B6 by auto. auto.
          -- rewrite D5. fold (push_in ci Eos (net s)). rewrite CLS. reflexivity.
          -- rewrite D6, B6 by (unfold host_in; lia). exact A7.
      + destruct (over r).
        { injection E as <-. intros rest RC. destruct (SI rest RC) as (l & t & EX & SM). exists l, t. unfold returns. cbn [hist]. rewrite offloaded_snoc. simpl. rewrite app_nil_r.
          split; auto. apply (sim_same s); auto. }
        destruct (q (net s) co) as [|m q'] eqn:Q.
        { injection E as <-. intros rest RC. destruct (SI rest RC) as (l & t & EX & SM). exists l, t. split; auto. apply (sim_same s); auto. }
        injection E as <-. apply sim_load; auto. rewrite offloaded_snoc. apply app_nil_r.
      + destruct (q (net s) co) as [|m q'] eqn:Q.
        { injection E as <-. intros rest RC. destruct (SI rest RC) as (l & t & EX & SM). exists l, t. unfold returns. cbn [hist]. rewrite offloaded_snoc. simpl. rewrite app_nil_r.
          split; auto. apply (sim_same s); auto. }
        injection E as <-. apply sim_load; auto. rewrite offloaded_snoc. apply app_nil_r.
  Qed.

  Lemma acc_reach : forall l s, exec astep a_init l = Some s -> cons s /\ simulated s.
  Proof using OK.
    intros l s E. apply (exec_inv astep (fun s => cons s /\ simulated s)) with (l := l) (s := a_init); auto.
    - intros s1 a s2 [K SI] ES. split; [eapply cons_step; eauto|eapply sim_step; eauto].
    - split; [apply cons_init|apply sim_init].
  Qed.
End Proofs.
