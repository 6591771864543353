(** Property theorems C116: integer powers with negative exponents, on shares. *)
Require Import ZArith QArith Qabs Qreals List Bool Lia Reals Lra.
From Verif Require Import Approx Ring64 Encoder Arith Provider Compare Compare_claims Maximum Regular Regular_proofs Regular_claims Shareapprox Shareapprox_proofs Shareapprox_claims Sharelog Sharelog_claims Sharerecip Sharerecip_claims Sharepow Sharepow_claims P_Shareapprox.
Import ListNotations.
Open Scope R_scope.

Section S.
  Variables (n : nat) (pr : provider).
  Hypothesis Hn : (0 < n)%nat.
  Hypothesis HV : valid n pr.
  (** C116: [pow(-p)] for p > 1 is the inverse of a q-th power, with q = p exactly when p is 2^k or 3*2^k, and q > p otherwise. *)
  Theorem C116_negative p : (1 < p)%Z -> exists q, (p <= q)%Z /\ (q = p <-> exists k, 0 <= k /\ (p = 2 ^ k \/ p = 3 * 2 ^ k))%Z /\
    forall me E x, sharing n x -> n_sc x = 65536%Z -> let X := Rabs (rval x) in let err := compound (recip_error me E X) (Z.to_nat q) / X ^ Z.to_nat q + IZR (q - 1) * IZR E / 65536 in recip_range me E X -> below_one me E X ->
      (forall st z, fst (powerv (pr := pr) 65536 (within E) (usual me false) x (- p) st) = Some z ->
        fst (powerv (pr := pr) 65536 no_check (usual me false) x (- p) st) = Some z /\ n_sc z = 65536%Z /\ Rabs (rval z - / rval x ^ Z.to_nat q) <= err) /\
      (forall st, n = 1%nat -> E = 1%Z -> exists z, fst (powerv (pr := pr) 65536 no_check (usual me false) x (- p) st) = Some z /\ Rabs (rval z - / rval x ^ Z.to_nat q) <= err).
  Proof. exact (k_C116_negative n pr Hn HV p). Qed.
  (** C116: [pow(-2)] over the whole range of the reciprocal. *)
  Theorem C116_inverse_square me E x : sharing n x -> n_sc x = 65536%Z -> let X := Rabs (rval x) in let err := compound (recip_error me E X) 2 + X ^ 2 * (IZR E / 65536) in recip_range me E X ->
    (forall st z, fst (powerv (pr := pr) 65536 (within E) (usual me false) x (-2) st) = Some z ->
      fst (powerv (pr := pr) 65536 no_check (usual me false) x (-2) st) = Some z /\ n_sc z = 65536%Z /\ Rabs (1 - rval x ^ 2 * rval z) <= err) /\
    (forall st, n = 1%nat -> E = 1%Z -> exists z, fst (powerv (pr := pr) 65536 no_check (usual me false) x (-2) st) = Some z /\ Rabs (1 - rval x ^ 2 * rval z) <= err).
  Proof. exact (k_C116_inverse_square n pr Hn HV me E x). Qed.
  (** C116: [pow(-1)] is as accurate as the reciprocal (C107). *)
  Theorem C116_inverse me E x st z : sharing n x -> n_sc x = 65536%Z -> let X := Rabs (rval x) in recip_range me E X -> fst (powerv (pr := pr) 65536 (within E) (usual me false) x (-1) st) = Some z ->
    n_sc z = 65536%Z /\ Rabs (1 - rval x * rval z) <= recip_error me E X.
  Proof. exact (k_C116_inverse n pr Hn HV me E x st z). Qed.
  (** C116: exponents from 0 need no reciprocal, so the method and the range do not matter. *)
  Theorem C116_other D : (0 < D < H63)%Z -> (forall c x st, exists z, fst (powerv (pr := pr) D no_check c x 0 st) = Some z /\ qval z == 1)%Q /\
    forall p, (0 < p)%Z -> exists q, (p <= q)%Z /\ (q = p <-> exists k, 0 <= k /\ (p = 2 ^ k \/ p = 3 * 2 ^ k))%Z /\
      forall c x st, sharing n x -> n_sc x = 1%Z -> exists z, fst (powerv (pr := pr) D no_check c x p st) = Some z /\ open_a (n_sh z) = wrap (open_a (n_sh x) ^ q) /\ n_sc z = 1%Z.
  Proof. exact (k_C116_other n pr Hn HV D). Qed.
End S.
(** C116 refuted: with one party the inverse of 2^5 comes out as 1024/65536, that of 2^6, not as 2048/65536. *)
Theorem C116_refuted : exists pr st x z, valid 1 pr /\ sharing 1 x /\ n_sc x = 65536%Z /\ rval x = 2 /\ fst (powerv (pr := pr) 65536 no_check (usual ByNewton false) x (-5) st) = Some z /\ Rabs (rval z - / 2 ^ 5) >= 1 / 65.
Proof. exact k_C116_refuted. Qed.
Print Assumptions C116_negative.
Print Assumptions C116_inverse_square.
Print Assumptions C116_inverse.
Print Assumptions C116_other.
Print Assumptions C116_refuted.

(** The conditions are met: with two parties pow(-3) of -4 by Newton's method is within 1/4000 of -1/64, and pow(-2) of 1/4 within a fifth of 16. *)
Example C116_ranges : recip_range ByNewton 2 4 /\ below_one ByNewton 2 4 /\ compound (recip_error ByNewton 2 4) 3 / 4 ^ 3 + IZR (3 - 1) * 2 / 65536 <= 1 / 4000 /\ recip_range ByNewton 2 (1 / 4) /\ compound (recip_error ByNewton 2 (1 / 4)) 2 <= 1 / 5.
Proof.
  unfold below_one, compound, recip_error, recip_newton_error, recip_range. split; [split; [lia|lra]|]. split; [lra|]. split; [cbn [pow]; rewrite minus_IZR; lra|]. split; [split; [lia|lra]|]. cbn [pow]. lra.
Qed.
(** pow(-3) of -4 and pow(-2) of 4 with two parties, and pow(-2) of 25 with one, where 1/625 is 104.86 / 65536 *)
Example C116_case : option_map (fun z => open_a (n_sh z)) (fst (powerv (pr := pair) 65536 (within 2) (usual ByNewton false) (ex_two (-4)) (-3) tt)) = Some (-1024)%Z /\
  option_map (fun z => open_a (n_sh z)) (fst (powerv (pr := pair) 65536 (within 2) (usual ByLog false) (ex_two 4) (-2) tt)) = Some 4089%Z /\
  option_map (fun z => open_a (n_sh z)) (fst (powerv (pr := alone) 65536 no_check (usual ByNewton false) (number 25) (-2) tt)) = Some 105%Z /\ sharing 2 (ex_two (-4)) /\ rval (ex_two (-4)) = -4.
Proof.
  split; [vm_compute; reflexivity|]. split; [vm_compute; reflexivity|]. split; [vm_compute; reflexivity|]. split; [split; [reflexivity|split; [|reflexivity]]; repeat apply Forall_cons; try apply Forall_nil; split; vm_compute; (reflexivity || discriminate)|].
  unfold rval. change (open_a (n_sh (ex_two (-4)))) with (-262144)%Z. cbn [ex_two n_sc]. lra.
Qed.
