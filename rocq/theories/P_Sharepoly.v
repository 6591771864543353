(** Property theorems C102: polynomials on shares. *)
Require Import ZArith QArith Qreals List Bool Lia Reals Lra.
From Verif Require Import Ring64 Encoder Arith Provider Compare Compare_claims Maximum Regular Regular_proofs Regular_claims Shareapprox Shareapprox_proofs Shareapprox_claims Sharepoly_claims P_Shareapprox.
Import ListNotations.
Open Scope R_scope.

Section S.
  Variables (n : nat) (pr : provider).
  Hypothesis Hn : (0 < n)%nat.
  Hypothesis HV : valid n pr.
  (** C102.  A polynomial at a number of any size: each of the k terms is off by one unit and by the error of the powers, which grows with the largest power M^k. *)
  Theorem C102_polynomial s E M C x cs st z : (1 <= E)%Z -> (1 < s)%Z -> sharing n x -> n_sc x = s -> Rabs (rval x) <= M -> 1 <= M -> 1 <= C -> Forall (fun c => Rabs (Q2R c) <= C) cs -> cs <> [] -> (Z.of_nat (length cs) <= s)%Z ->
    IZR s * IZR s * (2 * C * (M * (1 + IZR E / IZR s)) ^ (2 * length cs)) < 2 ^ 63 -> fst (polynomial (pr := pr) (within E) x (map KFloat cs) st) = Some z ->
    fst (polynomial (pr := pr) no_check x (map KFloat cs) st) = Some z /\ n_sc z = s /\
    Rabs (rval z - horner cs (rval x)) <= INR (length cs) * (IZR E / IZR s + C * (M ^ length cs * ((1 + IZR E / IZR s) ^ length cs - 1))).
  Proof. exact (k_C102_polynomial n pr Hn HV s E M C x cs st z). Qed.
  (** C102.  With one party no assumption on the truncations is needed. *)
  Theorem C102_one_party s M C x cs st : n = 1%nat -> (1 < s)%Z -> sharing n x -> n_sc x = s -> Rabs (rval x) <= M -> 1 <= M -> 1 <= C -> Forall (fun c => Rabs (Q2R c) <= C) cs -> cs <> [] -> (Z.of_nat (length cs) <= s)%Z ->
    IZR s * IZR s * (2 * C * (M * (1 + 1 / IZR s)) ^ (2 * length cs)) < 2 ^ 63 -> exists z, fst (polynomial (pr := pr) no_check x (map KFloat cs) st) = Some z /\ n_sc z = s /\
    Rabs (rval z - horner cs (rval x)) <= INR (length cs) * (1 / IZR s + C * (M ^ length cs * ((1 + 1 / IZR s) ^ length cs - 1))).
  Proof. exact (k_C102_one_party n pr Hn HV s M C x cs st). Qed.
End S.
(** C102 refuted without room for the powers: with one party, at the default precision, the polynomial x^4 is given as 0 at x = 256. *)
Theorem C102_room_refuted : exists pr x z st, valid 1 pr /\ sharing 1 x /\ n_sc x = 65536%Z /\ rval x = 256 /\ fst (polynomial (pr := pr) no_check x (map KFloat [0 # 1; 0 # 1; 0 # 1; 1 # 1]%Q) st) = Some z /\ rval z = 0 /\ horner [0 # 1; 0 # 1; 0 # 1; 1 # 1]%Q (rval x) = 256 ^ 4.
Proof. exact k_C102_room_refuted. Qed.
Print Assumptions C102_polynomial.
Print Assumptions C102_one_party.
Print Assumptions C102_room_refuted.

(** 3/2 x - 1/4 x^2 + 1/8 x^3 at x = 5 is 16.875: 1105920 / 65536. *)
Example C102_case : option_map (fun z => open_a (n_sh z)) (fst (polynomial (pr := pair) (within 2) (ex_two 5) (map KFloat [3 # 2; - 1 # 4; 1 # 8]%Q) tt)) = Some 1105920%Z /\ sharing 2 (ex_two 5) /\ Rabs (rval (ex_two 5)) <= 5 /\
  IZR 65536 * IZR 65536 * (2 * 2 * (5 * (1 + IZR 2 / IZR 65536)) ^ (2 * 3)) < 2 ^ 63.
Proof.
  split; [vm_compute; reflexivity|]. split; [split; [reflexivity|split; [|reflexivity]]; repeat apply Forall_cons; try apply Forall_nil; split; vm_compute; (reflexivity || discriminate)|].
  split; [unfold rval; change (open_a (n_sh (ex_two 5))) with 327680%Z; cbn [ex_two n_sc]; apply Rabs_le; lra|]. cbn [Nat.mul Nat.add pow]. lra.
Qed.
