(** Property theorems C107: reciprocal on shares by both methods. *)
Require Import ZArith QArith Qreals List Bool Lia Reals Lra.
From Verif Require Import Approx Ring64 Encoder Arith Provider Compare Compare_claims Maximum Regular Regular_proofs Regular_claims Shareapprox Shareapprox_proofs Shareapprox_claims Sharelog Sharelog_claims Sharerecip Sharerecip_claims Sharesettings_claims P_Shareapprox.
Import ListNotations.
Open Scope R_scope.

Section S.
  Variables (n : nat) (pr : provider).
  Hypothesis Hn : (0 < n)%nat.
  Hypothesis HV : valid n pr.
  (** C107: reciprocal of a positive or negative number, by either method. *)
  Theorem C107_reciprocal me E x st z : sharing n x -> n_sc x = 65536%Z -> let X := Rabs (rval x) in recip_range me E X -> fst (recipv (pr := pr) 65536 (within E) (usual me false) false x st) = Some z ->
    fst (recipv (pr := pr) 65536 no_check (usual me false) false x st) = Some z /\ n_sc z = 65536%Z /\ Rabs (1 - rval x * rval z) <= recip_error me E X.
  Proof. exact (k_C107_reciprocal n pr Hn HV me E x st z). Qed.
  (** C107: with all_pos, for positive numbers, the same. *)
  Theorem C107_all_pos me E x st z : sharing n x -> n_sc x = 65536%Z -> recip_range me E (rval x) -> fst (recipv (pr := pr) 65536 (within E) (usual me true) false x st) = Some z ->
    fst (recipv (pr := pr) 65536 no_check (usual me true) false x st) = Some z /\ n_sc z = 65536%Z /\ Rabs (1 - rval x * rval z) <= recip_error me E (rval x).
  Proof. exact (k_C107_all_pos n pr Hn HV me E x st z). Qed.
  (** C107: with input_in_01 the error is that of 64 x. *)
  Theorem C107_in_01 me p E x st z : sharing n x -> n_sc x = 65536%Z -> let X := 64 * rval x in recip_range me E X -> fst (recipv (pr := pr) 65536 (within E) (usual me p) true x st) = Some z ->
    fst (recipv (pr := pr) 65536 no_check (usual me p) true x st) = Some z /\ n_sc z = 65536%Z /\ Rabs (1 - rval x * rval z) <= recip_error me E X.
  Proof. exact (k_C107_in_01 n pr Hn HV me p E x st z). Qed.
  (** C107: with one party no assumption on the truncations is needed. *)
  Theorem C107_one_party me x st : n = 1%nat -> sharing n x -> n_sc x = 65536%Z ->
    (recip_range me 1 (Rabs (rval x)) -> exists z, fst (recipv (pr := pr) 65536 no_check (usual me false) false x st) = Some z /\ Rabs (1 - rval x * rval z) <= recip_error me 1 (Rabs (rval x))) /\
    (recip_range me 1 (64 * rval x) -> forall p, exists z, fst (recipv (pr := pr) 65536 no_check (usual me p) true x st) = Some z /\ Rabs (1 - rval x * rval z) <= recip_error me 1 (64 * rval x)).
  Proof. exact (k_C107_one_party n pr Hn HV me x st). Qed.
End S.
(** C107 refuted outside: with one party the reciprocal of 256 by the log method is about -1.8 thousand million, that of 1/65536 only 12760 instead of 65536; 1/0 is 14512; and all_pos with a negative number, or input_in_01 with a number as large as 4, give numbers of no meaning. *)
Theorem C107_far_refuted : exists pr st, valid 1 pr /\
  (exists x z, sharing 1 x /\ n_sc x = 65536%Z /\ rval x = 256 /\ fst (recipv (pr := pr) 65536 no_check (usual ByLog false) false x st) = Some z /\ rval z < - 1700000000) /\
  (exists x z, sharing 1 x /\ n_sc x = 65536%Z /\ rval x = 1 / 65536 /\ fst (recipv (pr := pr) 65536 no_check (usual ByLog false) false x st) = Some z /\ rval x * rval z < 1 / 5) /\
  (exists x z, sharing 1 x /\ n_sc x = 65536%Z /\ rval x = 0 /\ fst (recipv (pr := pr) 65536 no_check (usual ByLog false) false x st) = Some z /\ 14512 < rval z < 14513) /\
  (exists x z, sharing 1 x /\ n_sc x = 65536%Z /\ rval x = -1 /\ fst (recipv (pr := pr) 65536 no_check (usual ByLog true) false x st) = Some z /\ rval z < - 260000000) /\
  (exists x z, sharing 1 x /\ n_sc x = 65536%Z /\ rval x = 4 /\ fst (recipv (pr := pr) 65536 no_check (usual ByNewton false) true x st) = Some z /\ rval z < - 15000000000000).
Proof. exact k_C107_far_refuted. Qed.
(** C107: reciprocal reads the settings of its own method only, and of log's those that log reads. *)
Theorem C107_settings {pr : provider} D chk c c' b x st : same_reciprocal c c' -> recipv (pr := pr) D chk c b x st = recipv (pr := pr) D chk c' b x st.
Proof. exact (k_C107_settings (pr := pr) D chk c c' b x st). Qed.
Print Assumptions C107_reciprocal.
Print Assumptions C107_all_pos.
Print Assumptions C107_in_01.
Print Assumptions C107_one_party.
Print Assumptions C107_far_refuted.
Print Assumptions C107_settings.

(** The conditions are met; with two parties the relative error is at most 1/350 at 4 by Newton's method and 7 per cent at 1 by the log method. *)
Example C107_ranges : recip_range ByLog 2 4 /\ recip_range ByNewton 2 4 /\ recip_range ByLog 1 (1 / 1000) /\ recip_error ByNewton 2 4 <= 1 / 350 /\ recip_error ByLog 2 1 <= 7 / 100.
Proof.
  split; [right; split; [reflexivity|lra]|]. split; [split; [lia|lra]|]. split; [left; split; [reflexivity|lra]|]. split; [cbn [recip_error]; unfold recip_newton_error; lra|].
  cbn [recip_error]. unfold recip_log_error, log_error, log_noise. rewrite ln_1, Rabs_R0. lra.
Qed.
(** -1/4 comes out as -16372 / 65536 by the log method and -16388 / 65536 by Newton's method with two parties; 1 as 65472 / 65536 by the log method with input_in_01. *)
Example C107_case : option_map (fun z => open_a (n_sh z)) (fst (recipv (pr := pair) 65536 (within 2) (usual ByLog false) false (ex_two (-4)) tt)) = Some (-16372)%Z /\
  option_map (fun z => open_a (n_sh z)) (fst (recipv (pr := pair) 65536 (within 2) (usual ByNewton false) false (ex_two (-4)) tt)) = Some (-16388)%Z /\
  option_map (fun z => open_a (n_sh z)) (fst (recipv (pr := pair) 65536 (within 2) (usual ByLog false) true (ex_two 1) tt)) = Some 65472%Z /\ sharing 2 (ex_two (-4)) /\ rval (ex_two (-4)) = -4.
Proof.
  split; [vm_compute; reflexivity|]. split; [vm_compute; reflexivity|]. split; [vm_compute; reflexivity|]. split; [split; [reflexivity|split; [|reflexivity]]; repeat apply Forall_cons; try apply Forall_nil; split; vm_compute; (reflexivity || discriminate)|].
  unfold rval. change (open_a (n_sh (ex_two (-4)))) with (-262144)%Z. cbn [ex_two n_sc]. lra.
Qed.
(** Two configurations which differ in settings that are not read; the log method with no Householder steps. *)
Example C107_settings_case : let c := mkRconfig ByLog true 8 10 0 8 8 in let c' := mkRconfig ByLog true 8 3 0 2 1 in same_reciprocal c c' /\
  option_map (fun z => open_a (n_sh z)) (fst (recipv (pr := pair) 65536 (within 2) c false (ex_two 2) tt)) = Some 3562%Z /\ option_map (fun z => open_a (n_sh z)) (fst (recipv (pr := pair) 65536 (within 2) c' false (ex_two 2) tt)) = Some 3562%Z.
Proof. cbv zeta. split; [|split; vm_compute; reflexivity]. split; [reflexivity|]. split; [reflexivity|]. split; [reflexivity|]. split; [discriminate|]. intros _. split; [reflexivity|]. split; [intros K; now destruct K|now left]. Qed.
