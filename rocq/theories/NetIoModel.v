(** ff/distributed/ff_network.hpp:83-139: readn, readvn, writen, writevn.

    The operating system is an arbitrary list of replies, one per system call.  A read of at most
    [k] bytes is answered by an error, end of file, or between 1 and [k] bytes; a write by an error
    or the number of bytes accepted (between 0 and [k]).  Memory maps addresses to bytes.  If the
    replies run out the call is still blocked. *)
From Coq Require Import List Arith Bool ZArith.
From Verif Require Import Base.
Import ListNotations.

Definition byte := nat.
Definition mem := nat -> byte.
(** Copy bytes to consecutive addresses of a list. *)
Fixpoint poke (m : mem) (addrs : list nat) (b : list byte) : mem :=
  match addrs, b with
  | a :: addrs', x :: b' => poke (fupd m a x) addrs' b'
  | _, _ => m
  end.

Inductive rreply := RErr | REof | RGot (b : list byte).
Inductive wreply := WErr | WSent (k : nat).

Inductive res (X : Type) := Ret (z : Z) (x : X) | Blocked (x : X).
Arguments Ret {X}. Arguments Blocked {X}.

(** Lines 83-96.  [n] requested, [nleft] remaining, [ptr] current address. *)
Fixpoint readn_loop (n nleft ptr : nat) (m : mem) (os : list rreply) : res mem :=
  if nleft =? 0 then Ret (Z.of_nat (n - nleft)) m
  else match os with
       | [] => Blocked m
       | RErr :: _ => if nleft =? n then Ret (-1) m else Ret (Z.of_nat (n - nleft)) m
       | REof :: _ => Ret (Z.of_nat (n - nleft)) m
       | RGot b :: os' => readn_loop n (nleft - length b) (ptr + length b) (poke m (seq ptr nleft) b) os'
       end.
Definition readn (ptr n : nat) (m : mem) (os : list rreply) : res mem := readn_loop n n ptr m os.

(** Lines 112-125; [out]: bytes handed to the operating system so far. *)
Fixpoint writen_loop (n nleft ptr : nat) (m : mem) (out : list byte) (os : list wreply) : res (list byte) :=
  if nleft =? 0 then Ret (Z.of_nat (n - nleft)) out
  else match os with
       | [] => Blocked out
       | WErr :: _ => if nleft =? n then Ret (-1) out else Ret (Z.of_nat (n - nleft)) out
       | WSent 0 :: _ => Ret (Z.of_nat (n - nleft)) out
       | WSent k :: os' => writen_loop n (nleft - k) (ptr + k) m (out ++ map m (seq ptr k)) os'
       end.
Definition writen (ptr n : nat) (m : mem) (os : list wreply) : res (list byte) := writen_loop n n ptr m [] os.

(** struct iovec: base address and length. *)
Definition iovec := list (nat * nat).
Definition addrs (v : iovec) : list nat := flat_map (fun s => seq (fst s) (snd s)) v.
Definition total (v : iovec) : nat := length (addrs v).

(** Lines 103-107 and 132-136: skip the full segments, shorten the first partial one; the
    result is the remaining v[cur..], empty when cur == count. *)
Fixpoint advance (r : nat) (v : iovec) : iovec :=
  match v with
  | [] => []
  | (b, l) :: v' => if l <=? r then advance (r - l) v' else (b + r, l - r) :: v'
  end.

(** Lines 98-110. *)
Fixpoint readvn (v : iovec) (m : mem) (os : list rreply) : res mem :=
  match os with
  | [] => Blocked m
  | RErr :: _ => Ret (-1) m
  | REof :: _ => Ret 0 m
  | RGot b :: os' =>
      match advance (length b) v with
      | [] => Ret 1 (poke m (addrs v) b)
      | v' => readvn v' (poke m (addrs v) b) os'
      end
  end.

(** Lines 127-139. *)
Fixpoint writevn (v : iovec) (m : mem) (out : list byte) (os : list wreply) : res (list byte) :=
  match os with
  | [] => Blocked out
  | WErr :: _ => Ret (-1) out
  | WSent k :: os' =>
      match advance k v with
      | [] => Ret 1 (out ++ map m (firstn k (addrs v)))
      | v' => writevn v' m (out ++ map m (firstn k (addrs v))) os'
      end
  end.

(** Replies the operating system may give to successive calls with [k] bytes left. *)
Fixpoint rlegal (k : nat) (os : list rreply) : Prop :=
  match os with
  | RGot b :: os' => 1 <= length b <= k /\ rlegal (k - length b) os'
  | _ => True
  end.
Fixpoint wlegal (k : nat) (os : list wreply) : Prop :=
  match os with
  | WSent j :: os' => j <= k /\ wlegal (k - j) os'
  | _ => True
  end.
(** All bytes delivered before the first error or end of file. *)
Fixpoint delivered (os : list rreply) : list byte :=
  match os with RGot b :: os' => b ++ delivered os' | _ => [] end.
