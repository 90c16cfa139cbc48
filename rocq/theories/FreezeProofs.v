(** The invariant of the freeze/thaw handshake. *)
From Coq Require Import List Arith Bool Lia.
From Verif Require Import Base FreezeModel.
Import ListNotations.

(** [a] runs are accounted for exactly while the node is to freeze again, and at least otherwise. *)
Definition acc (f a b : nat) : Prop := match f with 0 => b <= a | _ => a = b end.

Definition cinv (s : ft) : Prop :=
  match wp s with
  | WInit | WRun | WLock RNoFreeze => freezing s <= 1 /\ acc (freezing s) (runs s) (thaws s)
  | WLock _ => freezing s <= 1 /\ acc (freezing s) (runs s) (S (thaws s))
  | WSleep => freezing s = 1 /\ frozen s = true /\ runs s = S (thaws s)
  | WWake => (freezing s = 1 /\ frozen s = true /\ runs s = S (thaws s)) \/
             (freezing s = 2 /\ frozen s = false /\ runs s = thaws s) \/
             (freezing s = 0 /\ frozen s = false /\ thaws s <= runs s)
  | WCheck => freezing s <= 1 /\ (stp s = false -> acc (freezing s) (runs s) (thaws s))
  | WExit => freezing s <= 1 /\ (initerr s = true \/ stp s = true)
  | WFin => freezing s = 1 /\ (initerr s = true \/ waited s = true)
  | WDone => freezing s <= 1 /\ (freezing s = 1 -> frozen s = true)
  end.

Record FI (s : ft) : Prop := {
  fi_c : cinv s;
  fi_fz : frozen s = true -> freezing s = 1 /\
          (wp s = WSleep \/ wp s = WWake \/ (wp s = WDone /\ (initerr s = true \/ waited s = true)));
  fi_ks : forall b, kp s = KWfSleep b -> frozen s = false;
  fi_arm : armed s = true -> frozen s = true /\ kp s = KIdle /\ initerr s = false /\ waited s = false;
  fi_wt : waited s = true -> stp s = true /\ kp s <> KIdle;
  fi_st : stp s = true -> waited s = true \/ freezing s = 0;
  fi_k : match kp s with
         | KIdle => waited s = false
         | KWf b | KWfSleep b | KWfWake b => (b = true <-> waited s = true) /\ (b = true -> freezing s <> 0)
         | KThaw => waited s = true /\ frozen s = true
         | KJoin | KEnd => waited s = true /\ freezing s = 0
         | KW1 => waited s = true
         end }.

Ltac fcrush := cbn in *; subst; try (split; [lia|]); intuition (try discriminate; try congruence; try lia).

Lemma FI_init : FI ft_init.
Proof. constructor; cbn; try discriminate; auto. Qed.

Ltac fsolve := constructor; unfold cinv, acc in *; cbn in *;
  repeat match goal with
         | |- context [match ?x with 0 => _ | S _ => _ end] => destruct x eqn:?
         | H : context [match ?x with 0 => _ | S _ => _ end] |- _ => destruct x eqn:?
         end; try discriminate; intuition (try discriminate; try congruence; try lia).

Lemma FI_step s a s' : FI s -> fgstep s a = Some s' -> FI s'.
Proof.
  intros I E. destruct s as [st f fz ie w k r t ar wt]. destruct I as [i1 i2 i3 i4 i5 i6 i7].
  unfold cinv in i1. cbn in i1, i2, i3, i4, i5, i6, i7.
  destruct a as [ok|r0| | | | | |ag| |]; cbn in E; try discriminate.
  - destruct w; try discriminate. injection E as <-. destruct ok; fsolve.
  - destruct w; try discriminate. injection E as <-. destruct r0; fsolve.
  - unfold wstep in E; cbn in E. destruct w; try discriminate.
    + destruct r0.
      * destruct st; injection E as <-.
        -- destruct f as [|[|f]]; cbn; fsolve.
        -- destruct f as [|[|f]]; cbn; destruct k; fsolve.
      * injection E as <-. destruct f as [|[|f]]; cbn; fsolve.
      * destruct st; injection E as <-.
        -- destruct f as [|[|f]]; cbn; fsolve.
        -- destruct f as [|[|f]]; cbn; destruct k; fsolve.
    + injection E as <-. destruct f as [|[|f]]; cbn; destruct k; fsolve.
    + injection E as <-. destruct st; fsolve.
    + injection E as <-. destruct f as [|[|f]]; cbn; fsolve.
    + injection E as <-. destruct k; fsolve.
  - destruct w; try discriminate. injection E as <-. fsolve.
  - destruct k; try discriminate. injection E as <-. fsolve.
  - unfold kstep in E; cbn in E. destruct k; try discriminate.
    + injection E as <-. unfold wf_test; cbn. destruct wt, fz; try destruct inwait; destruct ie; cbn; fsolve.
    + injection E as <-. unfold wf_test; cbn. destruct wt, fz; try destruct inwait; destruct ie; cbn; fsolve.
    + injection E as <-. destruct f; cbn; fsolve.
    + injection E as <-. destruct w; cbn; fsolve.
    + destruct w; try discriminate. injection E as <-. fsolve.
  - destruct k; try discriminate. injection E as <-. fsolve.
  - destruct ar; [|discriminate]. destruct k; try discriminate. injection E as <-. destruct ag, w; cbn; fsolve.
  - destruct k; try discriminate. injection E as <-.
    destruct w as [| |q| | | | | |]; try (destruct q); fsolve.
Qed.

Lemma FI_exec l s : exec fgstep ft_init l = Some s -> FI s.
Proof. apply (exec_inv fgstep FI FI_step). apply FI_init. Qed.
