(** Property theorems C104: the error function on shares. *)
Require Import ZArith QArith Qreals List Bool Lia Reals Lra.
From Verif Require Import Approx Approx_claims Approxfn_claims Approxlog_claims Approxsoft_claims Ring64 Encoder Arith Provider Compare Compare_claims Maximum Regular Regular_proofs Regular_claims Shareapprox Shareapprox_proofs Shareapprox_claims Shareerf Shareerf_claims P_Shareapprox.
Import ListNotations.
Open Scope R_scope.

Section S.
  Variables (n : nat) (pr : provider).
  Hypothesis Hn : (0 < n)%nat.
  Hypothesis HV : valid n pr.
  (** C104: erf of a number from -1 to 1 in the default configuration is what the method gives up to 12 E + 11 units, and from 0 to 1 within 1/100 of the error function besides. *)
  Theorem C104_erf E x st z : (E = 1 \/ E = 2)%Z -> sharing n x -> n_sc x = 65536%Z -> let X := rval x in Rabs X <= 1 -> fst (erfv (pr := pr) 65536 (within E) 8 x st) = Some z ->
    fst (erfv (pr := pr) 65536 no_check 8 x st) = Some z /\ n_sc z = 65536%Z /\ Rabs (rval z - mpc_erf default X) <= erf_noise E /\ forall F, error_function F -> 0 <= X -> Rabs (rval z - F X) <= 1 / 100 + erf_noise E.
  Proof. exact (k_C104_erf n pr Hn HV E x st z). Qed.
  (** C104: with one party no assumption on the truncations is needed. *)
  Theorem C104_one_party x st : n = 1%nat -> sharing n x -> n_sc x = 65536%Z -> let X := rval x in Rabs X <= 1 ->
    exists z, fst (erfv (pr := pr) 65536 no_check 8 x st) = Some z /\ Rabs (rval z - mpc_erf default X) <= 23 / 65536 /\ forall F, error_function F -> 0 <= X -> Rabs (rval z - F X) <= 11 / 1000.
  Proof. exact (k_C104_one_party n pr Hn HV x st). Qed.
End S.
(** C104: the Taylor polynomial that erf follows (C77) is the error function up to its next term, at every degree. *)
Theorem C104_taylor F k x : error_function F -> Rabs x <= 1 -> Rabs (taylor k x - F x) <= 2 / sqrt PI / INR (fact (S k)).
Proof. exact (k_C104_taylor F k x). Qed.
(** C104: on [0, 1] the method of the default configuration is within 1/100 of the error function, in spite of the wrong powers (C77). *)
Theorem C104_method F x : error_function F -> 0 <= x <= 1 -> Rabs (mpc_erf default x - F x) <= 1 / 100.
Proof. exact (k_C104_method F x). Qed.
(** C104 refuted for negative numbers: at -1 the method is above the error function by more than 23/100. *)
Theorem C104_negative_refuted F : error_function F -> F (-1) + 23 / 100 < mpc_erf default (-1).
Proof. exact (k_C104_negative_refuted F). Qed.
(** C104 refuted outside: with one party erf(-1) is given as a number that exceeds the error function by 23/100, erf(2) as -175 and erf(3) as -277837. *)
Theorem C104_far_refuted : exists pr st, valid 1 pr /\
  (exists x z, sharing 1 x /\ n_sc x = 65536%Z /\ rval x = -1 /\ fst (erfv (pr := pr) 65536 no_check 8 x st) = Some z /\ forall F, error_function F -> F (-1) + 23 / 100 < rval z) /\
  (exists x z, sharing 1 x /\ n_sc x = 65536%Z /\ rval x = 2 /\ fst (erfv (pr := pr) 65536 no_check 8 x st) = Some z /\ rval z < -175) /\
  (exists x z, sharing 1 x /\ n_sc x = 65536%Z /\ rval x = 3 /\ fst (erfv (pr := pr) 65536 no_check 8 x st) = Some z /\ rval z < -277000).
Proof. exact k_C104_far_refuted. Qed.
Print Assumptions C104_erf.
Print Assumptions C104_one_party.
Print Assumptions C104_taylor.
Print Assumptions C104_method.
Print Assumptions C104_negative_refuted.
Print Assumptions C104_far_refuted.

(** There is a function as the theorems ask for. *)
Example C104_exists : exists F, error_function F.
Proof. exact error_function_exists. Qed.
(** erf(1) = 0.8427 comes out as 55227 / 65536 = 0.8427 with two parties. *)
Example C104_case : option_map (fun z => open_a (n_sh z)) (fst (erfv (pr := pair) 65536 (within 2) 8 (ex_two 1) tt)) = Some 55227%Z /\ sharing 2 (ex_two 1) /\ rval (ex_two 1) = 1.
Proof.
  split; [vm_compute; reflexivity|]. split; [split; [reflexivity|split; [|reflexivity]]; repeat apply Forall_cons; try apply Forall_nil; split; vm_compute; (reflexivity || discriminate)|].
  unfold rval. change (open_a (n_sh (ex_two 1))) with 65536%Z. cbn [ex_two n_sc]. lra.
Qed.
