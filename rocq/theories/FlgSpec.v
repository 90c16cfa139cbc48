(** A command and the flags it gives to a kernel. *)
From Coq Require Import Ascii String Arith Bool List.
From Verif Require Import FlgModel.
Import ListNotations.
Open Scope list_scope.

(** One kernel of a command: its number, its device, the flags of its arguments. *)
Record entry := mkEntry { num : nat; dev : text; args : list text }.
(** The format documented in ff/bitflags.hpp:61-62 and ff/repara/rprkernels.hpp:543:
    pre $kernel_1;GPU:0;UF;SF;...; $kernel_2;CPU:0;...; $ tail. *)
Definition entry_text (e : entry) : text :=
  list_ascii_of_string "$kernel_" ++ dec (num e) ++ [semicolon] ++ dev e ++ [semicolon] ++ concat (map (fun a => a ++ [semicolon]) (args e)).
Definition command (pre : text) (es : list entry) (tail : text) : text :=
  pre ++ concat (map entry_text es) ++ [dollar] ++ tail.

(** The texts between the separators do not use the separators; at least one argument. *)
Definition plain (l : text) : Prop := ~ In "_"%char l /\ ~ In semicolon l /\ ~ In dollar l.
Definition wf_entry (e : entry) : Prop := plain (dev e) /\ Forall plain (args e) /\ args e <> [].
Definition wf (pre : text) (es : list entry) (tail : text) : Prop :=
  ~ In "_"%char pre /\ ~ In "_"%char tail /\ Forall wf_entry es.

(** What the letters mean (bitflags.hpp:63-66): S or R to copy, U to reuse, F to release. *)
Definition means (a : text) (f : flags) : Prop :=
  (copy f = true <-> In "S"%char a \/ In "R"%char a)
  /\ (reuse f = true <-> In "U"%char a)
  /\ (release f = true <-> In "F"%char a).

(** The number k written in decimal starts the number j written in decimal. *)
Definition begins (k j : nat) : Prop := exists r, dec j = dec k ++ r.
