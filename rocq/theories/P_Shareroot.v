(** Property theorems C101: inv_sqrt and sqrt on shares. *)
Require Import ZArith QArith List Bool Lia Reals Lra.
From Verif Require Import Approx Approx_claims Approxfn_claims Ring64 Encoder Arith Provider Compare Compare_claims Maximum Regular Regular_proofs Regular_claims Shareapprox Shareapprox_proofs Shareapprox_claims Sharesoft_claims Shareroot Shareroot_claims P_Shareapprox.
Import ListNotations.
Open Scope R_scope.

Section S.
  Variables (n : nat) (pr : provider).
  Hypothesis Hn : (0 < n)%nat.
  Hypothesis HV : valid n pr.
  (** C101.  inv_sqrt and sqrt with [d] iterations of exp and [k] of Newton's method on an encrypted number X > 0 of scale s.  If the first estimate (with its rounding) lies between (1 - b) / sqrt(X) and (1 + a) / sqrt(X),
      then the relative error is below what [k] times b |-> b^2 (3 - b) / 2 + 2N makes of b, where N = 3/2 (E/s) (X + 1) is the rounding of one iteration, and the result exceeds the truth by at most N. *)
  Theorem C101_roots s E d k x a b st z w : (1 <= E)%Z -> (1 < s)%Z -> sharing n x -> n_sc x = s -> root_converges s E d (rval x) a b -> (1 <= k)%nat -> let X := rval x in let c := Nat.iter k (shrink (wobble s E X)) b in
    fst (inv_sqrtv (pr := pr) (within E) d k x st) = Some z -> fst (sqrtv (pr := pr) (within E) d k x st) = Some w ->
    fst (inv_sqrtv (pr := pr) no_check d k x st) = Some z /\ fst (sqrtv (pr := pr) no_check d k x st) = Some w /\ n_sc z = s /\ n_sc w = s /\
    - wobble s E X <= 1 - sqrt X * rval z <= c /\ - (sqrt X * wobble s E X + IZR E / IZR s) <= sqrt X - rval w <= sqrt X * c + IZR E / IZR s.
  Proof. exact (k_C101_roots n pr Hn HV s E d k x a b st z w). Qed.
  (** C101.  In the default configuration, from 1/10 to 150: relative error at most 1.3% plus 9/2 (E/65536) (X + 1). *)
  Theorem C101_default E x st : (E = 1 \/ E = 2)%Z -> sharing n x -> n_sc x = 65536%Z -> let X := rval x in let e := 13 / 1000 + 9 / 2 * (IZR E / 65536) * (X + 1) in 1 / 10 <= X <= 150 ->
    (forall z, fst (inv_sqrtv (pr := pr) (within E) 8 3 x st) = Some z -> fst (inv_sqrtv (pr := pr) no_check 8 3 x st) = Some z /\ Rabs (rval z - / sqrt X) <= e / sqrt X) /\
    (forall w, fst (sqrtv (pr := pr) (within E) 8 3 x st) = Some w -> fst (sqrtv (pr := pr) no_check 8 3 x st) = Some w /\ Rabs (rval w - sqrt X) <= e * sqrt X + IZR E / 65536).
  Proof. exact (k_C101_default n pr Hn HV E x st). Qed.
  (** C101.  With one party every run is such a run. *)
  Theorem C101_one_party x st : n = 1%nat -> sharing n x -> n_sc x = 65536%Z -> let X := rval x in let e := 13 / 1000 + 9 / 2 * (1 / 65536) * (X + 1) in 1 / 10 <= X <= 150 ->
    (exists z, fst (inv_sqrtv (pr := pr) no_check 8 3 x st) = Some z /\ Rabs (rval z - / sqrt X) <= e / sqrt X) /\ (exists w, fst (sqrtv (pr := pr) no_check 8 3 x st) = Some w /\ Rabs (rval w - sqrt X) <= e * sqrt X + 1 / 65536).
  Proof. exact (k_C101_one_party n pr Hn HV x st). Qed.
End S.
(** C101.  The rounding does not build up: further iterations only lower the bound of the error. *)
Theorem C101_iterations s E d X a b k : (1 <= E)%Z -> (1 < s)%Z -> root_converges s E d X a b -> let c := Nat.iter k (shrink (wobble s E X)) b in 0 <= c <= b /\ Nat.iter (S k) (shrink (wobble s E X)) b <= c.
Proof. exact (k_C101_iterations s E d X a b k). Qed.
(** C101 refuted outside: with one party sqrt(200) is given as 3.1, sqrt(256) as -16 and sqrt(0.01) as 0.06, and inv_sqrt(256) as -0.06. *)
Theorem C101_far_refuted : exists pr st, valid 1 pr /\
  (exists x z, sharing 1 x /\ n_sc x = 65536%Z /\ rval x = 200 /\ fst (sqrtv (pr := pr) no_check 8 3 x st) = Some z /\ rval z < 4) /\
  (exists x y z, sharing 1 x /\ n_sc x = 65536%Z /\ rval x = 256 /\ fst (inv_sqrtv (pr := pr) no_check 8 3 x st) = Some y /\ rval y < - (1 / 16) /\ fst (sqrtv (pr := pr) no_check 8 3 x st) = Some z /\ rval z < - 16) /\
  (exists x z, sharing 1 x /\ n_sc x = 65536%Z /\ 999 / 100000 <= rval x <= 1 / 100 /\ fst (sqrtv (pr := pr) no_check 8 3 x st) = Some z /\ rval z < 61 / 1000).
Proof. exact k_C101_far_refuted. Qed.
Print Assumptions C101_roots.
Print Assumptions C101_default.
Print Assumptions C101_one_party.
Print Assumptions C101_iterations.
Print Assumptions C101_far_refuted.

(** sqrt(2) = 1.41421 comes out as 92676 / 65536 = 1.41412 with two parties, sqrt(4) as 131076 / 65536. *)
Example C101_case : option_map (fun z => open_a (n_sh z)) (fst (sqrtv (pr := pair) (within 2) 8 3 (ex_two 2) tt)) = Some 92676%Z /\ option_map (fun z => open_a (n_sh z)) (fst (sqrtv (pr := pair) (within 2) 8 3 (ex_two 4) tt)) = Some 131076%Z /\ sharing 2 (ex_two 2) /\ 1 / 10 <= rval (ex_two 2) <= 150.
Proof.
  split; [vm_compute; reflexivity|]. split; [vm_compute; reflexivity|]. split; [split; [reflexivity|split; [|reflexivity]]; repeat apply Forall_cons; try apply Forall_nil; split; vm_compute; (reflexivity || discriminate)|].
  unfold rval. change (open_a (n_sh (ex_two 2))) with 131072%Z. cbn [ex_two n_sc]. lra.
Qed.
Example C101_converges : root_converges 65536 2 8 100 (39 / 100) (45 / 100).
Proof. apply (default_converges 1 (le_n 1) 2 100); [now right|lra]. Qed.
