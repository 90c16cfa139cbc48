(** The channels of an all-to-all (ff_a2a), ff/all2all.hpp:297-317: for each node of the second
    set, for each node of the first set, one channel, appended to the outputs of the first
    (ff_monode::set_output) and to the inputs of the second (ff_minode::set_input).  [L] and [R]
    are the nodes ids of the two sets, [cap] the capacity of the channels (in_buffer_entries or
    the on-demand length when bounded). *)
From Coq Require Import List.
From Verif Require Import NetModel.
Import ListNotations.

Definition a2a_chans (L R : list nat) (cap : option nat) : list chan :=
  flat_map (fun r => map (fun l => mkChan l r cap) L) R.
