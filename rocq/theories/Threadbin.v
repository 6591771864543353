(** Binary zero sharings of parties that run as threads; conventions as in Threadgen.v. *)
Require Import ZArith List.
From Verif Require Import Ring64 Sharing Threadgen.
Import ListNotations.

(** PRZS, binary.py:130-132: the draws are those of [przs_draws] (prev first, then next; generate_kbit_random_tensor takes one draw for 64 bits), xored *)
Definition zero_share_bin (t : thread) : list Z := match drawn t with [(_, current); (_, next)] => zipw Z.lxor current next | _ => [] end.
Section Binary.
  Context {gstate : Type} (unseeded : gstate) (seeded : Z -> gstate) (draw : gstate -> nat -> list Z * gstate) (next_seed local_seed global_seed : nat -> Z).
  (** binary.py:90-93 in every thread, the draws in the order of [s]: all have a zero share, the source xors its tensor into its own *)
  Definition encrypt_bin_threads (s : list nat) (src : nat) (x : list Z) (p : process gstate) : list (list Z) :=
    add_at Z.lxor src x (map zero_share_bin (threads gstate (exec gstate unseeded seeded draw next_seed local_seed global_seed s (begin gstate (przs_draws (length x)) p)))).
End Binary.
