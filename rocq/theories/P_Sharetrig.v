(** Property theorem C94: cos and sin on shares. *)
Require Import ZArith QArith List Bool Lia Reals Lra.
From Verif Require Import Ring64 Encoder Arith Beaver Trunc Provider Binary Compare Compare_claims Maximum Regular Regular_proofs Shareapprox Shareapprox_claims Sharetrig Sharetrig_claims.
From Verif Require P_Shareapprox.
Import ListNotations.
Open Scope R_scope.

Section Claims.
  Variables (n : nat) (pr : provider).
  Hypothesis Hn : (0 < n)%nat.
  Hypothesis HV : valid n pr.
  (** C94.  [cossin] with k = functions.trig_iterations on an encrypted number x of scale s.  A run in which every truncation is off by less than E units in the last place is a run of the
      default configuration, and the point of its two results lies within r ((1 + E/s)^(3 2^k - 3) - 1) of the point at radius r = (1 + (x/N)^2)^(N/2) and angle N atan(x/N), N = 2^k;
      provided r, grown by that factor, does not overflow when squared. *)
  Theorem C94_cossin : forall s E k x st p, (1 <= E)%Z -> (1 < s)%Z -> (1 <= k)%nat -> sharing n x -> n_sc x = s -> trig_fits s E k (rval x) ->
    fst (cossinv (pr := pr) (within E) k x st) = Some p -> fst (cossinv (pr := pr) no_check k x st) = Some p /\ trig_near s E k (rval x) p.
  Proof. exact (k_C94_cossin n pr Hn HV). Qed.
  Theorem C94_cos_sin : forall s E k x st, (1 <= E)%Z -> (1 < s)%Z -> (1 <= k)%nat -> sharing n x -> n_sc x = s -> trig_fits s E k (rval x) ->
    (forall z, fst (cosv (pr := pr) (within E) k x st) = Some z -> fst (cosv (pr := pr) no_check k x st) = Some z /\ n_sc z = s /\ Rabs (rval z - limit_cos k (rval x)) <= radius k (rval x) * trig_growth s E k) /\
    (forall z, fst (sinv (pr := pr) (within E) k x st) = Some z -> fst (sinv (pr := pr) no_check k x st) = Some z /\ n_sc z = s /\ Rabs (rval z - limit_sin k (rval x)) <= radius k (rval x) * trig_growth s E k).
  Proof. exact (k_C94_cos_sin n pr Hn HV). Qed.
  (** With a single party every run is such a run, with E = 1. *)
  Theorem C94_one_party : forall s k x st, n = 1%nat -> (1 < s)%Z -> (1 <= k)%nat -> sharing n x -> n_sc x = s -> trig_fits s 1 k (rval x) ->
    exists p, fst (cossinv (pr := pr) no_check k x st) = Some p /\ trig_near s 1 k (rval x) p /\ fst (cosv (pr := pr) no_check k x st) = Some (fst p) /\ fst (sinv (pr := pr) no_check k x st) = Some (snd p).
  Proof. exact (k_C94_one_party n pr Hn HV). Qed.
  (** Against the cosine and the sine, for |x| <= 32 at the default scale 65536 and with the default 10 iterations. *)
  Theorem C94_default : forall E x st, (E = 1 \/ E = 2)%Z -> sharing n x -> n_sc x = 65536%Z -> let X := rval x in X * X <= 1024 ->
    let bound := X * X / 1024 + Rabs X * (X * X) / (3 * (1024 * 1024)) + (1 + X * X / 1024) * (IZR E / 20) in
    (forall z, fst (cosv (pr := pr) (within E) 10 x st) = Some z -> fst (cosv (pr := pr) no_check 10 x st) = Some z /\ Rabs (rval z - cos X) <= bound) /\
    (forall z, fst (sinv (pr := pr) (within E) 10 x st) = Some z -> fst (sinv (pr := pr) no_check 10 x st) = Some z /\ Rabs (rval z - sin X) <= bound).
  Proof. exact (k_C94_default n pr Hn HV). Qed.
End Claims.
(** C94 refuted far from 0: one party, default configuration: cos(100) comes out above 84 and sin(100) below -96. *)
Theorem C94_far_refuted : exists pr st x z w, valid 1 pr /\ sharing 1 x /\ n_sc x = 65536%Z /\ rval x = 100 /\ fst (cosv (pr := pr) no_check 10 x st) = Some z /\ rval z > 84 /\ fst (sinv (pr := pr) no_check 10 x st) = Some w /\ rval w < -96.
Proof. exact k_C94_far_refuted. Qed.
Print Assumptions C94_cossin.
Print Assumptions C94_cos_sin.
Print Assumptions C94_one_party.
Print Assumptions C94_default.
Print Assumptions C94_far_refuted.

(** *** The theorems speak about something: two parties with truncations within two units, and one party *)
Example C94_case : sharing 2 (P_Shareapprox.ex_two 2) /\ option_map (fun p => (open_a (n_sh (fst p)), open_a (n_sh (snd p)))) (fst (cossinv (pr := P_Shareapprox.pair) (within 2) 10 (P_Shareapprox.ex_two 2) tt)) = Some (-27362, 59814)%Z /\
  fst (cossinv (pr := P_Shareapprox.pair) (within 1) 10 (P_Shareapprox.ex_two 2) tt) = None.
Proof. split; [split; [reflexivity|repeat constructor; unfold in64, H63; lia]|]. vm_compute. split; reflexivity. Qed.
Example C94_fits_case : trig_fits 65536 2 10 2.
Proof.
  unfold trig_fits. destruct (default_trig_growth 1 ltac:(lia) 2 ltac:(lia)) as [G0 G]. destruct (default_radius 1 ltac:(lia) 2 ltac:(lra)) as [R0 R].
  apply Rle_lt_trans with (65536 * 65536 * (2 * 2)); [|lra]. apply Rmult_le_compat_l; [lra|]. apply Rmult_le_compat; lra.
Qed.
