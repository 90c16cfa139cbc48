From Coq Require Import List Arith Bool Lia.
From Verif Require Import Base PipeModel PipeSpec.
Import ListNotations.

Section Proofs.
Context {A St : Type}.
Notation tok := (tok A). Notation node := (node A St). Notation cell := (cell A St). Notation st := (st A St).

(** The tokens a node will push, given those it will find. *)
Fixpoint sem (nd : node) (s : St) (l : list tok) : list tok :=
  match l with
  | [] => []
  | t :: l' => let '(s', p, e) := body nd s t in p ++ (if e then [] else sem nd s' l')
  end.

Definition fut (c : cell) (up : list tok) : list tok :=
  pend c ++ (if fin c then [] else sem (nd c) (cst c) (inq c ++ up)).
Fixpoint flow (up : list tok) (cs : list cell) : list tok :=
  match cs with [] => up | c :: cs' => flow (fut c up) cs' end.

Lemma push_into_flow : forall t cs (o : list tok) cs' o' p, push_into t cs o = Some (cs', o') ->
  o' ++ flow p cs' = o ++ flow (t :: p) cs.
Proof.
  intros t [|c cs] o cs' o' p E; cbn [push_into] in E.
  - injection E as <- <-. cbn. rewrite <- app_assoc. reflexivity.
  - destruct (room c); [|discriminate]. injection E as <- <-. cbn [flow]. f_equal. f_equal.
    unfold fut. cbn. rewrite <- app_assoc. reflexivity.
Qed.

Lemma pop_cell_fut : forall c c' up, pop_cell c = Some c' -> fut c' up = fut c up.
Proof.
  intros c c' up E. unfold pop_cell in E. destruct (fin c) eqn:EF; [discriminate|]. destruct (pend c) eqn:EP; [|discriminate].
  destruct (inq c) as [|t q] eqn:EQ; [discriminate|]. destruct (body (nd c) (cst c) t) as [[s' p] e] eqn:EB. injection E as <-.
  unfold fut. cbn. rewrite EF, EP, EQ. cbn. rewrite EB. reflexivity.
Qed.

Lemma pop_at_flow : forall i cs cs' up, pop_at i cs = Some cs' -> flow up cs' = flow up cs.
Proof.
  intros i cs. revert i. induction cs as [|c cs IH]; intros i cs' up E; [destruct i; discriminate|]. destruct i; cbn [pop_at] in E.
  - destruct (pop_cell c) eqn:EC; [|discriminate]. injection E as <-. cbn [flow]. rewrite (pop_cell_fut _ _ up EC). reflexivity.
  - destruct (pop_at i cs) eqn:EC; [|discriminate]. injection E as <-. cbn [flow]. eauto.
Qed.

Lemma push_at_flow : forall i cs o cs' o' up, push_at i cs o = Some (cs', o') -> o' ++ flow up cs' = o ++ flow up cs.
Proof.
  intros i cs. revert i. induction cs as [|c cs IH]; intros i o cs' o' up E; [destruct i; discriminate|]. destruct i; cbn [push_at] in E.
  - destruct (pend c) as [|t p] eqn:EP; [discriminate|]. destruct (push_into t cs o) as [[cs1 o1]|] eqn:EC; [|discriminate].
    injection E as <- <-. cbn [flow]. rewrite (push_into_flow _ _ _ _ _ _ EC). unfold fut. cbn. rewrite EP. reflexivity.
  - destruct (push_at i cs o) as [[cs1 o1]|] eqn:EC; [|discriminate]. injection E as <- <-. cbn [flow]. eauto.
Qed.

Definition total_out (s : st) : list tok := out s ++ flow (src s) (cells s).

Lemma step_flow : forall s a s', step s a = Some s' -> total_out s' = total_out s.
Proof.
  intros s a s' E. unfold total_out. destruct a; cbn [step] in E.
  - destruct (src s) eqn:ES; [discriminate|]. destruct (push_into t (cells s) (out s)) as [[cs o]|] eqn:EC; [|discriminate].
    injection E as <-. cbn. eapply push_into_flow; eauto.
  - destruct (pop_at i (cells s)) eqn:EC; [|discriminate]. injection E as <-. cbn. f_equal. eapply pop_at_flow; eauto.
  - destruct (push_at i (cells s) (out s)) as [[cs o]|] eqn:EC; [|discriminate]. injection E as <-. cbn. eapply push_at_flow; eauto.
Qed.

Lemma exec_flow : forall l s s', exec step s l = Some s' -> total_out s' = total_out s.
Proof.
  intros l s s' E. symmetry. revert E. apply (exec_inv step (fun s' => total_out s = total_out s')); [|auto].
  intros s1 a s2 H E. rewrite H. symmetry. eapply step_flow; eauto.
Qed.

(** The value of [total_out] at the start. *)
Lemma sem_emits : forall nd (l : list A) s r, ends_with_eos nd ->
  sem nd s (stream l ++ r) = stream (node_fun nd s l).
Proof.
  intros nd l. induction l as [|x l IH]; intros s r T; unfold stream, node_fun in *; cbn [map app sem emits].
  - cbn. rewrite app_nil_r. reflexivity.
  - cbn [body]. specialize (T s x) as Tx. destruct (svc nd s x) as [[s' sent] rr] eqn:E. cbn in Tx.
    specialize (IH s' r T). destruct rr as [y| |k|]; try contradiction.
    + rewrite IH. destruct (emits nd s' l) as [[o s''] [e|]]; rewrite ?map_app; cbn; rewrite ?map_app; rewrite <- !app_assoc; reflexivity.
    + rewrite IH. destruct (emits nd s' l) as [[o s''] [e|]]; rewrite ?map_app; cbn; rewrite ?map_app; rewrite <- !app_assoc; reflexivity.
    + destruct k; try contradiction. cbn. rewrite app_nil_r. reflexivity.
Qed.

Lemma flow_start : forall (ns : list (node * St * option nat)) (l : list A), Forall (fun x => ends_with_eos (fst (fst x))) ns ->
  flow (stream l) (map (fun '(n, s, c) => mkCell n c s [] [] false) ns) = stream (compose ns l).
Proof.
  induction ns as [|[[n s] c] ns IH]; intros l F; cbn [map flow compose]; [reflexivity|]. inversion_clear F. cbn in H.
  unfold fut. cbn. rewrite <- (app_nil_r (stream l)). rewrite (sem_emits n l s [] H). apply IH. auto.
Qed.

Lemma main_prefix : forall (ns : list (node * St * option nat)) (l : list A) acts s, Forall (fun x => ends_with_eos (fst (fst x))) ns ->
  exec step (start ns (stream l)) acts = Some s -> prefix (out s) (stream (compose ns l)).
Proof.
  intros ns l acts s F E. apply exec_flow in E. unfold total_out at 2 in E. cbn in E. rewrite (flow_start ns l F) in E.
  exists (flow (src s) (cells s)). unfold total_out in E. auto.
Qed.

(** The number of steps still possible. *)
Fixpoint work (up : list tok) (cs : list cell) : nat :=
  match cs with
  | [] => 0
  | c :: cs' => (if fin c then 0 else length (inq c ++ up)) + length (fut c up) + work (fut c up) cs'
  end.
Definition work_st (s : st) : nat := length (src s) + work (src s) (cells s).

Lemma push_into_work : forall t cs (o : list tok) cs' o' p, push_into t cs o = Some (cs', o') ->
  work p cs' = work (t :: p) cs.
Proof.
  intros t [|c cs] o cs' o' p E; cbn [push_into] in E.
  - injection E as <- <-. reflexivity.
  - destruct (room c); [|discriminate]. injection E as <- <-. cbn [work]. unfold fut. cbn. rewrite <- app_assoc. reflexivity.
Qed.
Lemma pop_at_work : forall i cs cs' up, pop_at i cs = Some cs' -> work up cs' < work up cs.
Proof.
  intros i cs. revert i. induction cs as [|c cs IH]; intros i cs' up E; [destruct i; discriminate|]. destruct i; cbn [pop_at] in E.
  - destruct (pop_cell c) as [c'|] eqn:EC; [|discriminate]. injection E as <-. cbn [work]. rewrite (pop_cell_fut _ _ up EC).
    unfold pop_cell in EC. destruct (fin c) eqn:EF; [discriminate|]. destruct (pend c) eqn:EP; [|discriminate].
    destruct (inq c) as [|t q] eqn:EQ; [discriminate|]. destruct (body (nd c) (cst c) t) as [[s' p] e] eqn:EB. injection EC as <-.
    cbn. rewrite !app_length. destruct e; lia.
  - destruct (pop_at i cs) eqn:EC; [|discriminate]. injection E as <-. cbn [work]. specialize (IH i l (fut c up) EC). lia.
Qed.
Lemma push_at_work : forall i cs o cs' o' up, push_at i cs o = Some (cs', o') -> work up cs' < work up cs.
Proof.
  intros i cs. revert i. induction cs as [|c cs IH]; intros i o cs' o' up E; [destruct i; discriminate|]. destruct i; cbn [push_at] in E.
  - destruct (pend c) as [|t p] eqn:EP; [discriminate|]. destruct (push_into t cs o) as [[cs1 o1]|] eqn:EC; [|discriminate].
    injection E as <- <-. cbn [work]. rewrite (push_into_work _ _ _ _ _ _ EC). unfold fut. cbn. rewrite EP. cbn. lia.
  - destruct (push_at i cs o) as [[cs1 o1]|] eqn:EC; [|discriminate]. injection E as <- <-. cbn [work]. specialize (IH i o cs1 o1 (fut c up) EC). lia.
Qed.
Lemma step_work : forall s a s', step s a = Some s' -> work_st s' < work_st s.
Proof.
  intros s a s' E. unfold work_st. destruct a; cbn [step] in E.
  - destruct (src s) eqn:ES; [discriminate|]. destruct (push_into t (cells s) (out s)) as [[cs o]|] eqn:EC; [|discriminate].
    injection E as <-. cbn [src cells]. rewrite (push_into_work _ _ _ _ _ _ EC). cbn. lia.
  - destruct (pop_at i (cells s)) eqn:EC; [|discriminate]. injection E as <-. cbn [src cells]. apply pop_at_work with (up := src s) in EC. lia.
  - destruct (push_at i (cells s) (out s)) as [[cs o]|] eqn:EC; [|discriminate]. injection E as <-. cbn [src cells]. apply push_at_work with (up := src s) in EC. lia.
Qed.
Lemma exec_work : forall l s s', exec step s l = Some s' -> length l + work_st s' <= work_st s.
Proof.
  induction l as [|a l IH]; intros s s' E; cbn in E; [injection E as <-; cbn [length]; lia|].
  destruct (step s a) as [s1|] eqn:E1; [|discriminate]. apply step_work in E1. apply IH in E. cbn [length]. lia.
Qed.

(** Progress. *)
Definition stuck (s : st) : Prop := forall a, step s a = None.
Definition ended (l : list tok) : Prop := exists l1 : list A, l = map Task l1 ++ [End EOS].

Lemma ended_cons : forall t l, ended (t :: l) -> match t with Task _ => ended l | End k => k = EOS /\ l = [] end.
Proof.
  intros t l ([|x l1] & E); cbn in E; injection E as -> ->; auto. exists l1. auto.
Qed.
Lemma ended_nil : ~ ended [].
Proof. intros ([|x l] & E); discriminate. Qed.
Lemma ended_app : forall (l : list A) r, ended r -> ended (map Task l ++ r).
Proof. intros l r (l1 & ->). exists (l ++ l1). rewrite map_app, app_assoc. auto. Qed.

(** Total nodes: a stage that has left the loop has consumed everything. *)
Fixpoint wf (up : list tok) (cs : list cell) : Prop :=
  match cs with
  | [] => True
  | c :: cs' => total (nd c) /\ (fin c = true -> inq c = [] /\ up = []) /\ (fin c = false -> ended (inq c ++ up)) /\
                (match cap c with Some m => 1 <= m | None => True end) /\ wf (fut c up) cs'
  end.

Lemma push_into_wf : forall t cs (o : list tok) cs' o' p, wf (t :: p) cs -> push_into t cs o = Some (cs', o') -> wf p cs'.
Proof.
  intros t [|c cs] o cs' o' p W E; cbn [push_into] in E.
  - injection E as <- <-. exact W.
  - destruct (room c); [|discriminate]. injection E as <- <-. cbn [wf] in *. unfold fut in *. cbn. rewrite <- app_assoc. cbn.
    destruct W as (W1 & W2 & W3 & W4 & W5). split; [auto|]. split; [intros H; apply W2 in H as [_ H]; discriminate|auto].
Qed.
Lemma pop_at_wf : forall i cs cs' up, wf up cs -> pop_at i cs = Some cs' -> wf up cs'.
Proof.
  intros i cs. revert i. induction cs as [|c cs IH]; intros i cs' up W E; [destruct i; discriminate|]. destruct i; cbn [pop_at] in E.
  - destruct (pop_cell c) as [c'|] eqn:EC; [|discriminate]. injection E as <-. cbn [wf]. rewrite (pop_cell_fut _ _ up EC).
    unfold pop_cell in EC. destruct (fin c) eqn:EF; [discriminate|]. destruct (pend c) eqn:EP; [|discriminate].
    destruct (inq c) as [|t q] eqn:EQ; [discriminate|]. destruct (body (nd c) (cst c) t) as [[s' p] e] eqn:EB. injection EC as <-.
    cbn. cbn [wf] in W. destruct W as (W1 & W2 & W3 & W4 & W5). rewrite EQ in W3. specialize (W3 EF). cbn in W3. apply ended_cons in W3.
    split; [auto|]. destruct t as [x|k].
    + cbn in EB. specialize (W1 (cst c) x). destruct (svc (nd c) (cst c) x) as [[s1 sent] r]. cbn in W1.
      destruct r; try contradiction; injection EB as <- <- <-; repeat split; auto; discriminate.
    + cbn in EB. injection EB as <- <- <-. destruct W3 as [-> W3]. apply app_eq_nil in W3 as [-> ->]. repeat split; auto. discriminate.
  - destruct (pop_at i cs) eqn:EC; [|discriminate]. injection E as <-. cbn [wf] in *. destruct W as (W1 & W2 & W3 & W4 & W5). repeat split; eauto; apply W2; auto.
Qed.
Lemma push_at_wf : forall i cs o cs' o' up, wf up cs -> push_at i cs o = Some (cs', o') -> wf up cs'.
Proof.
  intros i cs. revert i. induction cs as [|c cs IH]; intros i o cs' o' up W E; [destruct i; discriminate|]. destruct i; cbn [push_at] in E.
  - destruct (pend c) as [|t p] eqn:EP; [discriminate|]. destruct (push_into t cs o) as [[cs1 o1]|] eqn:EC; [|discriminate].
    injection E as <- <-. cbn [wf] in *. destruct W as (W1 & W2 & W3 & W4 & W5). unfold fut in *. cbn. rewrite EP in W5.
    repeat split; auto; try (apply W2; auto; fail). eapply push_into_wf; eauto.
  - destruct (push_at i cs o) as [[cs1 o1]|] eqn:EC; [|discriminate]. injection E as <- <-. cbn [wf] in *.
    destruct W as (W1 & W2 & W3 & W4 & W5). repeat split; eauto; apply W2; auto.
Qed.
Definition wf_st (s : st) : Prop := wf (src s) (cells s).
Lemma step_wf : forall s a s', wf_st s -> step s a = Some s' -> wf_st s'.
Proof.
  intros s a s' W E. unfold wf_st in *. destruct a; cbn [step] in E.
  - destruct (src s) eqn:ES; [discriminate|]. destruct (push_into t (cells s) (out s)) as [[cs o]|] eqn:EC; [|discriminate].
    injection E as <-. cbn. eapply push_into_wf; eauto.
  - destruct (pop_at i (cells s)) eqn:EC; [|discriminate]. injection E as <-. cbn. eapply pop_at_wf; eauto.
  - destruct (push_at i (cells s) (out s)) as [[cs o]|] eqn:EC; [|discriminate]. injection E as <-. cbn. eapply push_at_wf; eauto.
Qed.

Lemma total_eos : forall nd : node, total nd -> ends_with_eos nd.
Proof. intros nd T s x. specialize (T s x). destruct (snd (svc nd s x)); auto; contradiction. Qed.

Lemma start_wf : forall (ns : list (node * St * option nat)) (l : list A),
  Forall (fun '(nd, _, c) => total nd /\ match c with Some m => 1 <= m | None => True end) ns ->
  wf (stream l) (map (fun '(n, s, c) => mkCell n c s [] [] false) ns).
Proof.
  induction ns as [|[[n s] c] ns IH]; intros l F; cbn [map wf]; [auto|]. inversion_clear F. destruct H as [H1 H2].
  repeat split; auto; try discriminate.
  - intros _. exists l. reflexivity.
  - unfold fut. cbn. rewrite <- (app_nil_r (stream l)). rewrite (sem_emits n l s [] (total_eos _ H1)). apply IH. auto.
Qed.

Definition blocked (cs : list cell) (o : list tok) : Prop := (forall i, pop_at i cs = None) /\ (forall i, push_at i cs o = None).
Lemma blocked_tl : forall c cs o, blocked (c :: cs) o -> blocked cs o.
Proof.
  intros c cs o [H1 H2]. split; intros i; [specialize (H1 (S i))|specialize (H2 (S i))]; cbn in *.
  - destruct (pop_at i cs); [discriminate|auto].
  - destruct (push_at i cs o) as [[? ?]|]; [discriminate|auto].
Qed.
(** Nothing blocked has input left. *)
Lemma blocked_head : forall cs o up, wf up cs -> blocked cs o -> forall t, push_into t cs o <> None.
Proof.
  induction cs as [|c cs IH]; intros o up W B t; cbn [push_into]; [discriminate|].
  destruct (room c) eqn:ER; [discriminate|]. exfalso. unfold room in ER. cbn [wf] in W. destruct W as (W1 & W2 & W3 & W4 & W5).
  destruct (cap c) as [m|]; [|discriminate]. apply Nat.ltb_ge in ER.
  destruct (inq c) as [|u q] eqn:EQ; [cbn in ER; lia|].
  destruct (fin c) eqn:EF; [destruct (W2 eq_refl); discriminate|].
  pose proof B as [B1 B2]. specialize (B1 0). specialize (B2 0). cbn in B1, B2. unfold pop_cell in B1. rewrite EF, EQ in B1.
  destruct (pend c) as [|p0 p] eqn:EP.
  - destruct (body (nd c) (cst c) u) as [[s' p'] e]. discriminate.
  - specialize (IH o _ W5 (blocked_tl _ _ _ B) p0). destruct (push_into p0 cs o) as [[? ?]|]; congruence.
Qed.
Lemma blocked_done : forall cs o, wf [] cs -> blocked cs o ->
  Forall (fun c => fin c = true /\ inq c = [] /\ pend c = []) cs.
Proof.
  induction cs as [|c cs IH]; intros o W B; [constructor|]. pose proof W as W0. cbn [wf] in W. destruct W as (W1 & W2 & W3 & W4 & W5).
  pose proof B as [B1 B2]. specialize (B1 0). specialize (B2 0). cbn in B1, B2.
  assert (EP : pend c = []).
  { destruct (pend c) as [|p0 p] eqn:EP; auto. pose proof (blocked_head cs o _ W5 (blocked_tl _ _ _ B) p0) as H.
    destruct (push_into p0 cs o) as [[? ?]|]; congruence. }
  assert (EF : fin c = true).
  { destruct (fin c) eqn:EF; auto. exfalso. unfold pop_cell in B1. rewrite EF, EP in B1. specialize (W3 eq_refl). rewrite app_nil_r in W3.
    destruct (inq c) as [|u q]; [eapply ended_nil; eauto|]. destruct (body (nd c) (cst c) u) as [[s' p'] e]. discriminate. }
  destruct (W2 EF) as [EQ _]. constructor; auto.
  apply (IH o); [|eapply blocked_tl; eauto]. unfold fut in W5. rewrite EP, EF in W5. exact W5.
Qed.

Lemma flow_done : forall cs : list cell, Forall (fun c => fin c = true /\ pend c = []) cs -> flow [] cs = [].
Proof.
  induction cs as [|c cs IH]; intros F; cbn [flow]; auto. inversion_clear F. destruct H as [H1 H2]. unfold fut. rewrite H1, H2. cbn. auto.
Qed.

Lemma stuck_src : forall s, wf_st s -> stuck s -> src s = [] /\ blocked (cells s) (out s).
Proof.
  intros s W H.
  assert (B : blocked (cells s) (out s)).
  { split; intros i; [specialize (H (Pop i))|specialize (H (Push i))]; cbn in H.
    - destruct (pop_at i (cells s)); [discriminate|auto].
    - destruct (push_at i (cells s) (out s)) as [[? ?]|]; [discriminate|auto]. }
  split; auto. destruct (src s) as [|t p] eqn:ES; auto. exfalso. specialize (H SrcPush). cbn in H. rewrite ES in H.
  pose proof (blocked_head _ _ _ W B t) as N. destruct (push_into t (cells s) (out s)) as [[? ?]|]; congruence.
Qed.

Lemma main_total : forall (ns : list (node * St * option nat)) (l : list A) acts s,
  Forall (fun '(nd, _, c) => total nd /\ match c with Some m => 1 <= m | None => True end) ns ->
  exec step (start ns (stream l)) acts = Some s -> stuck s ->
  out s = stream (compose ns l) /\ src s = [] /\ Forall (fun c => fin c = true /\ inq c = [] /\ pend c = []) (cells s).
Proof.
  intros ns l acts s F E H.
  assert (W : wf_st s).
  { revert E. apply (exec_inv step wf_st).
    - intros. eapply step_wf; eauto.
    - unfold wf_st. cbn. apply start_wf. auto. }
  destruct (stuck_src s W H) as [ES B]. pose proof W as W'. unfold wf_st in W'. rewrite ES in W'.
  pose proof (blocked_done _ _ W' B) as D. split; [|auto].
  apply exec_flow in E. unfold total_out in E. cbn in E. rewrite flow_start in E.
  - rewrite ES, flow_done, app_nil_r in E; auto. eapply Forall_impl; [|exact D]. cbn. tauto.
  - eapply Forall_impl; [|exact F]. intros [[n s0] c] [H1 _]. cbn. apply total_eos. auto.
Qed.

(** Unbounded channels: stages may stop early. *)
Fixpoint wfu (up : list tok) (cs : list cell) : Prop :=
  match cs with
  | [] => True
  | c :: cs' => ends_with_eos (nd c) /\ (fin c = false -> exists l r, inq c ++ up = stream l ++ r) /\ cap c = None /\ wfu (fut c up) cs'
  end.
Lemma push_into_wfu : forall t cs (o : list tok) cs' o' p, wfu (t :: p) cs -> push_into t cs o = Some (cs', o') -> wfu p cs'.
Proof.
  intros t [|c cs] o cs' o' p W E; cbn [push_into] in E.
  - injection E as <- <-. exact W.
  - destruct (room c); [|discriminate]. injection E as <- <-. cbn [wfu] in *. unfold fut in *. cbn. rewrite <- app_assoc. cbn. exact W.
Qed.
Lemma pop_at_wfu : forall i cs cs' up, wfu up cs -> pop_at i cs = Some cs' -> wfu up cs'.
Proof.
  intros i cs. revert i. induction cs as [|c cs IH]; intros i cs' up W E; [destruct i; discriminate|]. destruct i; cbn [pop_at] in E.
  - destruct (pop_cell c) as [c'|] eqn:EC; [|discriminate]. injection E as <-. cbn [wfu]. rewrite (pop_cell_fut _ _ up EC).
    unfold pop_cell in EC. destruct (fin c) eqn:EF; [discriminate|]. destruct (pend c) eqn:EP; [|discriminate].
    destruct (inq c) as [|t q] eqn:EQ; [discriminate|]. destruct (body (nd c) (cst c) t) as [[s' p] e] eqn:EB. injection EC as <-.
    cbn. cbn [wfu] in W. destruct W as (W1 & W2 & W3 & W4). rewrite EQ in W2. destruct (W2 EF) as (l & r & HS).
    repeat split; auto. intros ->. cbn in HS. destruct l as [|x l]; cbn in HS; injection HS as -> HS.
    + cbn in EB. discriminate.
    + exists l, r. auto.
  - destruct (pop_at i cs) eqn:EC; [|discriminate]. injection E as <-. cbn [wfu] in *. destruct W as (W1 & W2 & W3 & W4). eauto 10.
Qed.
Lemma push_at_wfu : forall i cs o cs' o' up, wfu up cs -> push_at i cs o = Some (cs', o') -> wfu up cs'.
Proof.
  intros i cs. revert i. induction cs as [|c cs IH]; intros i o cs' o' up W E; [destruct i; discriminate|]. destruct i; cbn [push_at] in E.
  - destruct (pend c) as [|t p] eqn:EP; [discriminate|]. destruct (push_into t cs o) as [[cs1 o1]|] eqn:EC; [|discriminate].
    injection E as <- <-. cbn [wfu] in *. destruct W as (W1 & W2 & W3 & W4). unfold fut in *. cbn. rewrite EP in W4.
    repeat split; auto. eapply push_into_wfu; eauto.
  - destruct (push_at i cs o) as [[cs1 o1]|] eqn:EC; [|discriminate]. injection E as <- <-. cbn [wfu] in *.
    destruct W as (W1 & W2 & W3 & W4). eauto 10.
Qed.
Definition wfu_st (s : st) : Prop := wfu (src s) (cells s).
Lemma step_wfu : forall s a s', wfu_st s -> step s a = Some s' -> wfu_st s'.
Proof.
  intros s a s' W E. unfold wfu_st in *. destruct a; cbn [step] in E.
  - destruct (src s) eqn:ES; [discriminate|]. destruct (push_into t (cells s) (out s)) as [[cs o]|] eqn:EC; [|discriminate].
    injection E as <-. cbn. eapply push_into_wfu; eauto.
  - destruct (pop_at i (cells s)) eqn:EC; [|discriminate]. injection E as <-. cbn. eapply pop_at_wfu; eauto.
  - destruct (push_at i (cells s) (out s)) as [[cs o]|] eqn:EC; [|discriminate]. injection E as <-. cbn. eapply push_at_wfu; eauto.
Qed.
Lemma start_wfu : forall (ns : list (node * St * option nat)) (l : list A),
  Forall (fun '(nd, _, c) => ends_with_eos nd /\ c = None) ns ->
  wfu (stream l) (map (fun '(n, s, c) => mkCell n c s [] [] false) ns).
Proof.
  induction ns as [|[[n s] c] ns IH]; intros l F; cbn [map wfu]; [auto|]. inversion_clear F. destruct H as [H1 H2].
  repeat split; auto.
  - intros _. exists l, []. cbn. rewrite app_nil_r. reflexivity.
  - unfold fut. cbn. rewrite <- (app_nil_r (stream l)). rewrite (sem_emits n l s [] H1). apply IH. auto.
Qed.
Lemma blocked_done_u : forall cs o, wfu [] cs -> blocked cs o -> Forall (fun c => fin c = true /\ pend c = []) cs.
Proof.
  induction cs as [|c cs IH]; intros o W B; [constructor|]. cbn [wfu] in W. destruct W as (W1 & W2 & W3 & W4).
  pose proof B as [B1 B2]. specialize (B1 0). specialize (B2 0). cbn in B1, B2.
  assert (EP : pend c = []).
  { destruct (pend c) as [|p0 p] eqn:EP; auto. destruct cs as [|c1 cs]; [discriminate|]. cbn [push_into] in B2.
    cbn [wfu] in W4. destruct W4 as (_ & _ & C1 & _). unfold room in B2. rewrite C1 in B2. discriminate. }
  assert (EF : fin c = true).
  { destruct (fin c) eqn:EF; auto. exfalso. unfold pop_cell in B1. rewrite EF, EP in B1. destruct (W2 eq_refl) as (l & r & HS).
    rewrite app_nil_r in HS. destruct (inq c) as [|u q]; [destruct l; discriminate|]. destruct (body (nd c) (cst c) u) as [[s' p'] e]. discriminate. }
  constructor; auto. apply (IH o); [|eapply blocked_tl; eauto]. unfold fut in W4. rewrite EP, EF in W4. exact W4.
Qed.
Lemma main_unbounded : forall (ns : list (node * St * option nat)) (l : list A) acts s,
  Forall (fun '(nd, _, c) => ends_with_eos nd /\ c = None) ns ->
  exec step (start ns (stream l)) acts = Some s -> stuck s ->
  out s = stream (compose ns l) /\ src s = [] /\ Forall (fun c => fin c = true /\ pend c = []) (cells s).
Proof.
  intros ns l acts s F E H.
  assert (W : wfu_st s).
  { revert E. apply (exec_inv step wfu_st).
    - intros. eapply step_wfu; eauto.
    - unfold wfu_st. cbn. apply start_wfu. auto. }
  assert (B : blocked (cells s) (out s)).
  { split; intros i; [pose proof (H (Pop i)) as Hi|pose proof (H (Push i)) as Hi]; cbn in Hi.
    - destruct (pop_at i (cells s)); [discriminate|auto].
    - destruct (push_at i (cells s) (out s)) as [[? ?]|]; [discriminate|auto]. }
  assert (ES : src s = []).
  { destruct (src s) as [|t p] eqn:ES; auto. exfalso. specialize (H SrcPush). cbn in H. rewrite ES in H. unfold wfu_st in W.
    destruct (cells s) as [|c cs]; cbn in H; [discriminate|]. cbn in W. destruct W as (_ & _ & C1 & _). unfold room in H. rewrite C1 in H. discriminate. }
  unfold wfu_st in W. rewrite ES in W. pose proof (blocked_done_u _ _ W B) as D. split; [|auto].
  apply exec_flow in E. unfold total_out in E. cbn in E. rewrite flow_start in E.
  - rewrite ES, flow_done, app_nil_r in E; auto.
  - eapply Forall_impl; [|exact F]. intros [[n s0] c] [H1 _]. cbn. auto.
Qed.
End Proofs.
