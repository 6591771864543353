(** Property theorems C106: tanh and sigmoid by Chebyshev polynomials on shares. *)
Require Import ZArith QArith Qreals List Bool Lia Reals Lra.
From Verif Require Import Approx Ring64 Encoder Arith Provider Compare Compare_claims Maximum Regular Regular_proofs Regular_claims Shareapprox Shareapprox_proofs Shareapprox_claims Sharecheb Sharecheb_claims Chebcoef_claims P_Shareapprox.
Import ListNotations.
Open Scope R_scope.

Section S.
  Variables (n : nat) (pr : provider).
  Hypothesis Hn : (0 < n)%nat.
  Hypothesis HV : valid n pr.
  (** C106: tanh by 2N Chebyshev terms of a number from -1 to 1 lies in [-1, 1], within 18 roundings, 3/2 N times the error of the coefficients and 2 / 4^N of tanh. *)
  Theorem C106_tanh s E N g cs x st z : (1 <= E)%Z -> (1 < s)%Z -> (3 <= N)%nat -> cheb_fits s E N g -> coefficients (2 * N) g cs -> sharing n x -> n_sc x = s -> Rabs (rval x) <= 1 ->
    fst (tanh_chebv (pr := pr) s (within E) cs (2 * N) x st) = Some z ->
    fst (tanh_chebv (pr := pr) s no_check cs (2 * N) x st) = Some z /\ n_sc z = s /\ Rabs (rval z) <= 1 /\ Rabs (rval z - tanh (rval x)) <= cheb_error s E N g.
  Proof. exact (k_C106_tanh n pr Hn HV s E N g cs x st z). Qed.
  (** C106: and sigmoid of a number inside [-2, 2] is within half of that and a few roundings of 1 / (1 + exp(-x)). *)
  Theorem C106_sigmoid s E N g cs x st z : (1 <= E)%Z -> (1 < s)%Z -> (3 <= N)%nat -> cheb_fits s E N g -> coefficients (2 * N) g cs -> sharing n x -> n_sc x = s -> Rabs (rval x) <= 2 - 2 * (IZR E / IZR s) ->
    fst (sigmoid_chebv (pr := pr) s (within E) cs (2 * N) x st) = Some z ->
    fst (sigmoid_chebv (pr := pr) s no_check cs (2 * N) x st) = Some z /\ n_sc z = s /\ Rabs (rval z - / (1 + exp (- rval x))) <= cheb_error s E N g / 2 + 3 / 2 * (IZR E / IZR s) + 1 / IZR s.
  Proof. exact (k_C106_sigmoid n pr Hn HV s E N g cs x st z). Qed.
  (** C106: with one party both always return, without any assumption on the truncations. *)
  Theorem C106_one_party s N g cs x st : n = 1%nat -> (1 < s)%Z -> (3 <= N)%nat -> cheb_fits s 1 N g -> coefficients (2 * N) g cs -> sharing n x -> n_sc x = s ->
    (Rabs (rval x) <= 1 -> exists z, fst (tanh_chebv (pr := pr) s no_check cs (2 * N) x st) = Some z /\ n_sc z = s /\ Rabs (rval z - tanh (rval x)) <= cheb_error s 1 N g) /\
    (Rabs (rval x) <= 2 - 2 / IZR s -> exists z, fst (sigmoid_chebv (pr := pr) s no_check cs (2 * N) x st) = Some z /\ n_sc z = s /\ Rabs (rval z - / (1 + exp (- rval x))) <= cheb_error s 1 N g / 2 + 5 / 2 / IZR s).
  Proof. exact (k_C106_one_party n pr Hn HV s N g cs x st). Qed.
  (** C106: an odd number of terms or less than six makes both raise, for every input. *)
  Theorem C106_terms D chk cs terms x st : Nat.odd terms = true \/ (terms < 6)%nat -> fst (tanh_chebv (pr := pr) D chk cs terms x st) = None /\ fst (sigmoid_chebv (pr := pr) D chk cs terms x st) = None.
  Proof. exact (k_C106_terms pr D chk cs terms x st). Qed.
End S.
(** C106: the listed coefficients for 32 terms are the Chebyshev coefficients of tanh up to 2 / 10^9. *)
Theorem C106_coefficients : coefficients 32 (2 / 1000000000) coeffs32.
Proof. exact k_C106_coefficients. Qed.
(** C106: in the default precision with 32 terms and one party, tanh from -1 to 1 is within 43 units of 2^-16 of tanh, and sigmoid inside (-2, 2) within 25 of the logistic function. *)
Theorem C106_default pr x st : valid 1 pr -> sharing 1 x -> n_sc x = 65536%Z ->
  (Rabs (rval x) <= 1 -> exists z, fst (tanh_chebv (pr := pr) 65536 no_check coeffs32 32 x st) = Some z /\ Rabs (rval z - tanh (rval x)) <= 43 / 65536) /\
  (Rabs (rval x) <= 2 - 2 / 65536 -> exists z, fst (sigmoid_chebv (pr := pr) 65536 no_check coeffs32 32 x st) = Some z /\ Rabs (rval z - / (1 + exp (- rval x))) <= 25 / 65536).
Proof. exact (k_C106_default pr x st). Qed.
(** C106 refuted: the result is documented to be truncated to +-1 outside [-1, 1]; with the same settings tanh(8) is given as -1, and sigmoid(16) as 0. *)
Theorem C106_far_refuted : exists pr st, valid 1 pr /\
  (exists x z, sharing 1 x /\ n_sc x = 65536%Z /\ rval x = 8 /\ fst (tanh_chebv (pr := pr) 65536 no_check coeffs32 32 x st) = Some z /\ rval z = -1) /\
  (exists x z, sharing 1 x /\ n_sc x = 65536%Z /\ rval x = 16 /\ fst (sigmoid_chebv (pr := pr) 65536 no_check coeffs32 32 x st) = Some z /\ rval z = 0).
Proof. exact k_C106_far_refuted. Qed.
Print Assumptions C106_tanh.
Print Assumptions C106_sigmoid.
Print Assumptions C106_one_party.
Print Assumptions C106_terms.
Print Assumptions C106_coefficients.
Print Assumptions C106_default.
Print Assumptions C106_far_refuted.

(** The conditions hold with the default precision, 32 terms and the listed coefficients. *)
Example C106_conditions : cheb_fits 65536 1 16 (2 / 1000000000) /\ cheb_fits 65536 2 16 (2 / 1000000000) /\ coefficients (2 * 16) (2 / 1000000000) coeffs32.
Proof. assert (I16 : INR 16 = 16) by (cbn; lra). unfold cheb_fits. rewrite I16. repeat split; try (cbn [pow]; lra); apply C106_coefficients; assumption. Qed.
(** tanh(1) = 0.76159 comes out as 49911 / 65536 = 0.76158 with two parties, and sigmoid(1) = 0.73106 as 47911 / 65536 = 0.73106. *)
Example C106_case : option_map (fun z => open_a (n_sh z)) (fst (tanh_chebv (pr := pair) 65536 (within 2) coeffs32 32 (ex_two 1) tt)) = Some 49911%Z /\ option_map (fun z => open_a (n_sh z)) (fst (sigmoid_chebv (pr := pair) 65536 (within 2) coeffs32 32 (ex_two 1) tt)) = Some 47911%Z /\ sharing 2 (ex_two 1) /\ rval (ex_two 1) = 1.
Proof.
  split; [vm_compute; reflexivity|]. split; [vm_compute; reflexivity|]. split; [split; [reflexivity|split; [|reflexivity]]; repeat apply Forall_cons; try apply Forall_nil; split; vm_compute; (reflexivity || discriminate)|].
  unfold rval. change (open_a (n_sh (ex_two 1))) with 65536%Z. cbn [ex_two n_sc]. lra.
Qed.
(** 7 and 4 terms are refused. *)
Example C106_refused : fst (tanh_chebv (pr := pair) 65536 no_check coeffs32 7 (ex_two 1) tt) = None /\ fst (sigmoid_chebv (pr := pair) 65536 no_check coeffs32 4 (ex_two 1) tt) = None.
Proof. split; apply C106_terms; [left; reflexivity|right; lia]. Qed.
