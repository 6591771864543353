(** Property theorems C115: the RAPPOR loss and its gradient on shares. *)
Require Import ZArith QArith Qreals List Bool Lia Reals Lra.
From Verif Require Import Approx Approx_claims Approxfn_claims.
From Verif Require Import Ring64 Encoder Arith Provider Maximum Maximum_claims Regular Regular_proofs Regular_claims Shareapprox Shareapprox_claims Sharerecip Sharerecip_claims Sharenorm_claims Shareloss Shareloss_claims Sharerappor Sharerappor_claims P_Shareapprox P_Shareloss.
Import ListNotations.
Open Scope R_scope.

Section S.
  Variables (n : nat) (pr : provider).
  Hypothesis Hn : (0 < n)%nat.
  Hypothesis HV : valid n pr.
  (** C115: for alpha in (0, 1] the RAPPOR loss and its gradient are the documented ones within the given errors, and the check of the range changes nothing. *)
  Theorem C115_both E alpha b g xs ys st r : (E = 1 \/ E = 2)%Z -> (0 < alpha <= 1)%Q -> vector n 65536 xs -> vector n 65536 ys -> vector n 65536 [g] -> Rabs (rval g) <= 1000 -> (Z.of_nat (length xs) <= 2 ^ 20)%Z -> Forall2 (rappor_fits E (Q2R alpha)) (map rval xs) (map rval ys) ->
    fst (rappor_bothv (pr := pr) 65536 (within E) 8 8 8 2 alpha (usual ByNewton b) g xs ys st) = Some r -> fst (rappor_bothv (pr := pr) 65536 no_check 8 8 8 2 alpha (usual ByNewton b) g xs ys st) = Some r /\ rappor_near E (Q2R alpha) (rval g) (map rval xs) (map rval ys) r.
  Proof. exact (k_C115_both n pr Hn HV E alpha b g xs ys st r). Qed.
  (** C115: with one party the loss and the gradient always come out, and within one unit. *)
  Theorem C115_one_party alpha b g xs ys st : n = 1%nat -> (0 < alpha <= 1)%Q -> vector n 65536 xs -> vector n 65536 ys -> vector n 65536 [g] -> Rabs (rval g) <= 1000 -> (Z.of_nat (length xs) <= 2 ^ 20)%Z -> Forall2 (rappor_fits 1 (Q2R alpha)) (map rval xs) (map rval ys) ->
    exists r, fst (rappor_bothv (pr := pr) 65536 no_check 8 8 8 2 alpha (usual ByNewton b) g xs ys st) = Some r /\ rappor_near 1 (Q2R alpha) (rval g) (map rval xs) (map rval ys) r.
  Proof. exact (k_C115_one_party n pr Hn HV alpha b g xs ys st). Qed.
  (** C115: with alpha = 0 the loss is the one of the sigmoids themselves and the gradient is its derivative, not those of the documented formula. *)
  Theorem C115_zero E alpha c g xs ys st r : (E = 1 \/ E = 2)%Z -> (alpha == 0)%Q -> vector n 65536 xs -> vector n 65536 ys -> vector n 65536 [g] -> Rabs (rval g) <= 1000 -> (Z.of_nat (length xs) <= 2 ^ 20)%Z -> Forall2 (logits_fit E) (map rval xs) (map rval ys) ->
    fst (rappor_bothv (pr := pr) 65536 (within E) 8 8 8 2 alpha c g xs ys st) = Some r -> fst (rappor_bothv (pr := pr) 65536 no_check 8 8 8 2 alpha c g xs ys st) = Some r /\ logits_near E (rval g) (map rval xs) (map rval ys) r.
  Proof. exact (k_C115_zero n pr Hn HV E alpha c g xs ys st r). Qed.
End S.
(** C115: the slope used here is the derivative of the documented loss of one element. *)
Theorem C115_slope a x y : 0 < report a x < 1 -> derivable_pt_lim (fun t => - likelihood (report a t) y) x (rappor_slope a x y).
Proof. exact (k_C115_slope a x y). Qed.
(** C115: with alpha from 1/20 to 19/20 every logit up to 256 and every target in [0, 1] meet the conditions. *)
Theorem C115_every E a x y : (E = 1 \/ E = 2)%Z -> 1 / 20 <= a <= 19 / 20 -> Rabs x <= 256 -> 0 <= y <= 1 -> rappor_fits E a x y.
Proof. exact (k_C115_every E a x y). Qed.
(** C115: with alpha from 1/4 to 3/4 the error of the loss is at most 28/100, and that of the gradient at most |g| (1/(5N) + 1/4000) + 1/10000, whatever the logits. *)
Theorem C115_bounds E a xs ys : (E = 1 \/ E = 2)%Z -> 1 / 4 <= a <= 3 / 4 -> xs <> [] -> length xs = length ys -> Forall (fun y => 0 <= y <= 1) ys ->
  rappor_error E a xs ys <= 28 / 100 /\ forall N x y g, 1 <= N -> 0 <= y <= 1 -> rappor_slope_error E a N x y g <= Rabs g * (1 / (5 * N) + 1 / 4000) + 1 / 10000.
Proof. exact (k_C115_bounds E a xs ys). Qed.
(** C115 refuted for alpha = 0: with one party the loss of a logit of 2 for the target 1 is given as less than 1/2, where the documented formula gives more than 2. *)
Theorem C115_zero_refuted : exists pr st c, valid 1 pr /\ exists x y g r, vector 1 65536 [x; y; g] /\ rval x = 2 /\ rval y = 1 /\ fst (rappor_bothv (pr := pr) 65536 no_check 8 8 8 2 0 c g [x] [y] st) = Some r /\ rval (fst r) < 1 / 2 /\ rappor (Q2R 0) [rval x] [rval y] >= 2.
Proof. exact k_C115_zero_refuted. Qed.
Print Assumptions C115_both.
Print Assumptions C115_one_party.
Print Assumptions C115_zero.
Print Assumptions C115_slope.
Print Assumptions C115_every.
Print Assumptions C115_bounds.
Print Assumptions C115_zero_refuted.

(** With two parties, logits 2 and -1 for the targets 1 and 0: with alpha = 1/4 the loss is 71731 and the gradient 5522 and -8382 / 65536, exactly 1.0642 and 0.0848, -0.1278. *)
Definition rap (alpha : Q) : option (Z * list Z) := option_map (fun r => (ex_open (fst r), map ex_open (snd r))) (fst (rappor_bothv (pr := pair) 65536 (within 2) 8 8 8 2 alpha (usual ByNewton false) (ex_raw 65536) (map ex_raw [131072; -65536]%Z) ex_y tt)).
Example C115_case : rap (1 # 4) = Some (71731, [5522; -8382])%Z.
Proof. vm_compute. reflexivity. Qed.
(** These meet the conditions for alpha = 1/4. *)
Example C115_conditions : let xs := map ex_raw [131072; -65536]%Z in vector 2 65536 xs /\ vector 2 65536 ex_y /\ vector 2 65536 [ex_raw 65536] /\ Rabs (rval (ex_raw 65536)) <= 1000 /\ Forall2 (rappor_fits 2 (Q2R (1 # 4))) (map rval xs) (map rval ex_y) /\ map rval xs = [2; -1] /\ map rval ex_y = [1; 0].
Proof.
  destruct (C111_raws [131072; -65536]%Z ltac:(discriminate) ltac:(repeat constructor; lia)) as [V E]. destruct (C111_raws [65536; 0]%Z ltac:(discriminate) ltac:(repeat constructor; lia)) as [V' E']. destruct (C111_raws [65536]%Z ltac:(discriminate) ltac:(repeat constructor; lia)) as [V3 E3]. destruct (C111_raw 65536 ltac:(lia)) as (_ & _ & R). cbv zeta.
  unfold ex_y. rewrite E, E', R. cbn [map]. replace (131072 / 65536) with 2 by lra. replace (-65536 / 65536) with (-1) by lra. replace (65536 / 65536) with 1 by lra. replace (0 / 65536) with 0 by lra. assert (A : Q2R (1 # 4) = 1 / 4) by (unfold Q2R; cbn; lra). rewrite A.
  split; [exact V|]. split; [exact V'|]. split; [exact V3|]. split; [apply Rabs_le; lra|]. split; [|split; reflexivity]. constructor; [|constructor; [|constructor]]; (apply C115_every; [now right|lra|apply Rabs_le; lra|lra]).
Qed.
