(** Property theorems C117: powers with any exponent, on shares. *)
Require Import ZArith QArith Qabs Qreals List Bool Lia Reals Lra.
From Verif Require Import Approx Ring64 Encoder Arith Provider Compare Compare_claims Maximum Regular Regular_proofs Regular_claims Shareapprox Shareapprox_proofs Shareapprox_claims Sharelog Sharelog_claims Sharerecip Sharerecip_claims Sharepow Sharepow_claims Sharepospow Sharepospow_claims P_Shareapprox.
Import ListNotations.
Open Scope R_scope.

Section S.
  Variables (n : nat) (pr : provider).
  Hypothesis Hn : (0 < n)%nat.
  Hypothesis HV : valid n pr.
  (** C117: [pos_pow] with an exponent that is a fraction or encrypted. *)
  Theorem C117_pos_pow me E c p x : exponent_is n c p -> fractional c -> sharing n x -> n_sc x = 65536%Z -> power_range E p (rval x) ->
    (forall st z, fst (pos_powv (pr := pr) 65536 (within E) (usual me false) x c st) = Some z ->
      fst (pos_powv (pr := pr) 65536 no_check (usual me false) x c st) = Some z /\ n_sc z = 65536%Z /\ Rabs (rval z - Rpower (rval x) p) <= power_error E p (rval x)) /\
    (forall st, n = 1%nat -> E = 1%Z -> exists z, fst (pos_powv (pr := pr) 65536 no_check (usual me false) x c st) = Some z /\ Rabs (rval z - Rpower (rval x) p) <= power_error E p (rval x)).
  Proof. exact (k_C117_pos_pow n pr Hn HV me E c p x). Qed.
  (** C117: with a whole number known to all, as an int or a float, [pos_pow] is [pow] (C43, C116). *)
  Theorem C117_whole D chk c x p k q st : (p = KInt k \/ p = KFloat q /\ q == inject_Z k)%Q -> pos_powv (pr := pr) D chk c x p st = powerv (pr := pr) D chk c x k st.
  Proof. exact (k_C117_whole pr D chk c x p k q st). Qed.
End S.
(** C117 refuted: with one party 2 to the power 5.0 is given as 64, while an encrypted 5 gives less than 31; and the square root of 256 is given as -5.9 million. *)
Theorem C117_refuted : exists pr st, valid 1 pr /\
  (exists x z, sharing 1 x /\ n_sc x = 65536%Z /\ rval x = 2 /\ fst (pos_powv (pr := pr) 65536 no_check (usual ByNewton false) x (KFloat 5) st) = Some z /\ rval z = 64) /\
  (exists x y z, sharing 1 x /\ n_sc x = 65536%Z /\ rval x = 2 /\ exponent_is 1 (KEnc y) 5 /\ fst (pos_powv (pr := pr) 65536 no_check (usual ByNewton false) x (KEnc y) st) = Some z /\ 30 < rval z < 31) /\
  (exists x z, sharing 1 x /\ n_sc x = 65536%Z /\ rval x = 256 /\ fst (pos_powv (pr := pr) 65536 no_check (usual ByNewton false) x (KFloat (1 # 2)) st) = Some z /\ rval z < - 5900000).
Proof. exact k_C117_refuted. Qed.
Print Assumptions C117_pos_pow.
Print Assumptions C117_whole.
Print Assumptions C117_refuted.

(** The conditions are met: every number from 1/5 to 127 may be taken to a power between -1 and 1, when two parties compute and the truncations are within two units; the square root of 1 has an error of at most a twelfth. *)
Example C117_range p X : Rabs p <= 1 -> 1 / 5 <= X <= 127 -> power_range 2 p X.
Proof.
  intros Hp HX. assert (HR : log_range 2 X) by (right; split; [reflexivity|exact HX]). destruct (ln_7 X ltac:(lra)) as [_ L]. specialize (L ltac:(lra)). destruct (log_error_small 2 X HR) as [D0 _]. pose proof (Rabs_pos p). pose proof (Rabs_pos (ln X)).
  split; [exact HR|]. split; [|rewrite Rabs_mult; nra]. unfold exponent_error. assert (log_error 2 X <= 19 / 100) by (unfold log_error, log_noise; lra). assert (Rabs p * log_error 2 X <= 1 * (19 / 100)) by (apply Rmult_le_compat; lra). lra.
Qed.
Example C117_error : power_range 2 (1 / 2) 1 /\ power_error 2 (1 / 2) 1 <= 1 / 12.
Proof.
  assert (L : Rabs (ln 1) = 0) by (rewrite ln_1; apply Rabs_R0). assert (E1 : log_error 2 1 <= 1 / 30) by (unfold log_error, log_noise; rewrite L; lra). assert (H : Rabs (1 / 2) = 1 / 2) by (apply Rabs_right; lra).
  split; [apply C117_range; [rewrite H; lra|lra]|]. unfold power_error, exponent_error, Rpower. rewrite Rabs_mult, L, H, ln_1, !Rmult_0_r, exp_0. lra.
Qed.
(** 4 to the powers 1/2, -1/2, 3/2, an encrypted 1 and -2 with two parties *)
Example C117_case : map (fun p => option_map (fun z => open_a (n_sh z)) (fst (pos_powv (pr := pair) 65536 (within 2) (usual ByNewton false) (ex_two 4) p tt))) [KFloat (1 # 2); KFloat (-1 # 2); KFloat (3 # 2); KEnc (ex_two 1); KInt (-2)] = map Some [129897; 32757; 513914; 258440; 4097]%Z /\ sharing 2 (ex_two 4) /\ rval (ex_two 4) = 4.
Proof.
  split; [vm_compute; reflexivity|]. split; [split; [reflexivity|split; [|reflexivity]]; repeat apply Forall_cons; try apply Forall_nil; split; vm_compute; (reflexivity || discriminate)|].
  unfold rval. change (open_a (n_sh (ex_two 4))) with 262144%Z. cbn [ex_two n_sc]. lra.
Qed.
