(** extractFlags (ff/bitflags.hpp:69-111): the memory flags of one kernel in a command string, and
    getDeviceID (ff/repara/rprkernels.hpp:550-563): its device.

    Simplifications: a position in the string is the rest of the string from there; npos is None.
    A failing assert is the result None. *)
From Coq Require Import Ascii String DecimalString Arith Bool List.
Import ListNotations.
Open Scope list_scope.

Definition text := list ascii.
(** MemoryFlags (bitflags.hpp:43-57): copy, reuse, release. *)
Record flags := mkFlags { copy : bool; reuse : bool; release : bool }.
Definition default : flags := mkFlags true false false.

Fixpoint prefix (p l : text) : bool :=
  match p, l with
  | [], _ => true
  | _, [] => false
  | x :: p, y :: l => Ascii.eqb x y && prefix p l
  end.
(** std::string::rfind: the last occurrence. *)
Fixpoint rfind (p l : text) : option text :=
  match l with
  | [] => if prefix p [] then Some [] else None
  | _ :: r => match rfind p r with Some s => Some s | None => if prefix p l then Some l else None end
  end.
(** find_first_of(c, n): the rest of the string from the first c on. *)
Fixpoint find (c : ascii) (l : text) : option text :=
  match l with [] => None | x :: r => if Ascii.eqb x c then Some l else find c r end.
(** substr(n, m-n) with m the position of the first c. *)
Fixpoint before (c : ascii) (l : text) : text :=
  match l with [] => [] | x :: r => if Ascii.eqb x c then [] else x :: before c r end.
Definition has (c : ascii) (l : text) : bool := existsb (Ascii.eqb c) l.

Definition semicolon : ascii := ";"%char.
Definition dollar : ascii := "$"%char.
(** std::to_string of a number that is not negative. *)
Definition dec (n : nat) : text := list_ascii_of_string (NilEmpty.string_of_uint (Nat.to_uint n)).
(** bitflags.hpp:76. *)
Definition kernel : text := list_ascii_of_string "kernel_".
Definition kid (k : nat) : text := kernel ++ dec k.

(** bitflags.hpp:99-105. *)
Definition decode (f : text) : flags :=
  mkFlags (if has "S"%char f then true else if has "R"%char f then true else false) (has "U"%char f) (has "F"%char f).

(** bitflags.hpp:96-109: the loop.  [l] is flag_string from n+1 on, [acc] what was read of it since
    n+1, backwards; what follows the last ';' is not read. *)
Fixpoint fields (l acc : text) : list flags :=
  match l with
  | [] => []
  | x :: r => if Ascii.eqb x semicolon then decode (rev acc) :: fields r [] else fields r (x :: acc)
  end.

(** bitflags.hpp:69-111. *)
Definition extractFlags (cmd : text) (k : nat) : option (list flags) :=
  match cmd with
  | [] => Some [default]
  | _ =>
      match rfind (kid k) cmd with
      | None => None
      | Some s =>
          match find semicolon s with
          | None => None
          | Some s1 =>
              match find semicolon (tl s1) with
              | None => None
              | Some s2 =>
                  match find dollar (tl s2) with
                  | None => None
                  | Some _ =>
                      let body := before dollar (tl s2) in
                      if has semicolon body then Some (fields body []) else None
                  end
              end
          end
      end
  end.

(** rprkernels.hpp:550-561, for a command that is not empty: the name of the device.  The tables
    String2Target and kernel2node are left out. *)
Definition getDevice (cmd : text) (k : nat) : option text :=
  match rfind (kid k) cmd with
  | None => None
  | Some s =>
      match find semicolon s with
      | None => None
      | Some s1 => match find semicolon (tl s1) with None => None | Some _ => Some (before semicolon (tl s1)) end
      end
  end.
