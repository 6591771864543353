(** Property theorems C118: norms with other exponents, on shares. *)
Require Import ZArith QArith Qabs Qreals List Bool Lia Reals Lra.
From Verif Require Import Approx Ring64 Encoder Arith Provider Compare Compare_claims Maximum Maximum_claims Regular Regular_proofs Regular_claims Shareapprox Shareapprox_proofs Shareapprox_claims Sharelog Sharelog_claims Sharerecip Sharerecip_claims Sharenorm_claims Sharepow Sharepow_claims Sharepospow Sharepospow_claims Sharepnorm Sharepnorm_claims P_Shareapprox.
Import ListNotations.
Open Scope R_scope.

Section S.
  Variables (n : nat) (pr : provider).
  Hypothesis Hn : (0 < n)%nat.
  Hypothesis HV : valid n pr.
  (** C118: a norm with a fractional exponent is the root of a number near the sum of the powers. *)
  Theorem C118_norm me E r xs : (1 < r)%Q -> fractional (KFloat r) -> vector n 65536 xs -> Forall (fun x => power_range E (Q2R r) (Rabs (rval x))) xs ->
    let S := sum_over (fun X => Rpower X (Q2R r)) xs in let e := sum_over (power_error E (Q2R r)) xs in (forall s, Rabs (s - S) <= e -> power_range E (/ Q2R r) s) ->
    (forall st z, fst (normpv (pr := pr) 65536 (within E) (usual me false) (KFloat r) xs st) = Some z ->
      fst (normpv (pr := pr) 65536 no_check (usual me false) (KFloat r) xs st) = Some z /\ n_sc z = 65536%Z /\ root_near E (Q2R r) S e z) /\
    (forall st, n = 1%nat -> E = 1%Z -> exists z, fst (normpv (pr := pr) 65536 no_check (usual me false) (KFloat r) xs st) = Some z /\ root_near E (Q2R r) S e z).
  Proof. exact (k_C118_norm n pr Hn HV me E r xs). Qed.
  (** C118: with an int k over 1 the sum is that of q-th powers, q as in C43, and the root the k-th. *)
  Theorem C118_norm_int k : (1 < k)%Z -> exists q, (k <= q)%Z /\ (q = k <-> exists j, 0 <= j /\ (k = 2 ^ j \/ k = 3 * 2 ^ j))%Z /\
    forall me E xs, (E = 1 \/ E = 2)%Z -> vector n 65536 xs -> Forall (fun x => Rabs (rval x) <= 1 - 2 * IZR E / 65536) xs ->
    let S := sum_over (fun X => X ^ Z.to_nat q) xs in let e := sum_over (fun _ => IZR (q - 1) * IZR E / 65536) xs in (forall s, Rabs (s - S) <= e -> power_range E (/ IZR k) s) ->
    (forall st z, fst (normpv (pr := pr) 65536 (within E) (usual me false) (KInt k) xs st) = Some z ->
      fst (normpv (pr := pr) 65536 no_check (usual me false) (KInt k) xs st) = Some z /\ n_sc z = 65536%Z /\ root_near E (IZR k) S e z) /\
    (forall st, n = 1%nat -> E = 1%Z -> exists z, fst (normpv (pr := pr) 65536 no_check (usual me false) (KInt k) xs st) = Some z /\ root_near E (IZR k) S e z).
  Proof. exact (k_C118_norm_int n pr Hn HV k). Qed.
  (** C118: exponents below 1 are refused. *)
  Theorem C118_refused D chk c p r xs st : public_number p = Some r -> (r < 1)%Q -> fst (normpv (pr := pr) D chk c p xs st) = None.
  Proof. exact (k_C118_refused pr D chk c p r xs st). Qed.
End S.
(** C118 refuted: with one party the 5-norm of 2 is given as 2.27, and so more than 1/4 too large; the 3-norm of 8 as 127 million, since the log of 8^3 is out of range; and the 3-norm of 0 as more than 1/50. *)
Theorem C118_refuted : exists pr st, valid 1 pr /\
  (exists x z, sharing 1 x /\ n_sc x = 65536%Z /\ rval x = 2 /\ fst (normpv (pr := pr) 65536 no_check (usual ByNewton false) (KInt 5) [x] st) = Some z /\ 2 + 1 / 4 < rval z) /\
  (exists x z, sharing 1 x /\ n_sc x = 65536%Z /\ rval x = 8 /\ fst (normpv (pr := pr) 65536 no_check (usual ByNewton false) (KInt 3) [x] st) = Some z /\ 127000000 < rval z) /\
  (exists x z, sharing 1 x /\ n_sc x = 65536%Z /\ rval x = 0 /\ fst (normpv (pr := pr) 65536 no_check (usual ByNewton false) (KInt 3) [x] st) = Some z /\ 1 / 50 < rval z).
Proof. exact k_C118_refuted. Qed.
Print Assumptions C118_norm.
Print Assumptions C118_norm_int.
Print Assumptions C118_refused.
Print Assumptions C118_refuted.

(** Roots of degree at least 1 of numbers from 1/5 to 127 are in range. *)
Example C118_root_range p X : Rabs p <= 1 -> 1 / 5 <= X <= 127 -> power_range 1 p X.
Proof.
  intros Hp HX. assert (HR : log_range 1 X) by (left; split; [reflexivity|lra]). destruct (ln_7 X ltac:(lra)) as [_ L]. specialize (L ltac:(lra)). destruct (log_error_small 1 X HR) as [D0 _]. pose proof (Rabs_pos p). pose proof (Rabs_pos (ln X)).
  split; [exact HR|]. split; [|rewrite Rabs_mult; nra]. unfold exponent_error. assert (log_error 1 X <= 19 / 100) by (unfold log_error, log_noise; lra). assert (Rabs p * log_error 1 X <= 1 * (19 / 100)) by (apply Rmult_le_compat; lra). lra.
Qed.
Definition half : num := mkNum [32768%Z] 65536.
(** The conditions are met by the vector (1, -1) and the exponent 3/2, and by (1/2, 1/2) and the exponent 3. *)
Example C118_ranges : (1 < 3 # 2)%Q /\ fractional (KFloat (3 # 2)) /\ vector 1 65536 [number 1; number (-1)] /\ Forall (fun x => power_range 1 (Q2R (3 # 2)) (Rabs (rval x))) [number 1; number (-1)] /\
  (forall s, Rabs (s - sum_over (fun X => Rpower X (Q2R (3 # 2))) [number 1; number (-1)]) <= sum_over (power_error 1 (Q2R (3 # 2))) [number 1; number (-1)] -> power_range 1 (/ Q2R (3 # 2)) s).
Proof.
  destruct (number_ok 1 ltac:(lia)) as (A & B & C). destruct (number_ok (-1) ltac:(lia)) as (A' & B' & C'). assert (Q : Q2R (3 # 2) = 3 / 2) by (unfold Q2R; cbn; lra). assert (L : Rabs (ln 1) = 0) by (rewrite ln_1; apply Rabs_R0).
  assert (R1 : Rabs (rval (number 1)) = 1) by (rewrite C; apply Rabs_R1). assert (R2 : Rabs (rval (number (-1))) = 1) by (rewrite C', Rabs_left by lra; lra).
  assert (H : Rabs (3 / 2) = 3 / 2) by (apply Rabs_right; lra). assert (E1 : exponent_error 1 (3 / 2) 1 <= 1 / 30) by (unfold exponent_error, log_error, log_noise; rewrite L, H; lra). assert (P1 : Rpower 1 (3 / 2) = 1) by (unfold Rpower; rewrite ln_1, Rmult_0_r; apply exp_0).
  assert (W : power_error 1 (3 / 2) 1 <= 1 / 10) by (unfold power_error; rewrite P1, Rabs_mult, L, Rmult_0_r; lra).
  assert (PR : power_range 1 (3 / 2) 1) by (split; [left; split; [reflexivity|lra]|]; split; [lra|rewrite Rabs_mult, L; lra]).
  split; [reflexivity|]. split; [intros k K; unfold Qeq, inject_Z in K; cbn [Qnum Qden] in K; lia|]. split; [split; [discriminate|exact (Forall_cons _ (conj A B) (Forall_cons _ (conj A' B') (Forall_nil _)))]|]. rewrite Q. split; [apply Forall_cons; [rewrite R1; exact PR|apply Forall_cons; [rewrite R2; exact PR|apply Forall_nil]]|].
  intros s Hs. unfold sum_over in Hs. cbn [map sumr fold_right] in Hs. rewrite R1, R2, P1 in Hs. assert (Hs' : Rabs (s - 2) <= 1 / 5) by (replace (s - 2) with (s - (1 + (1 + 0))) by ring; lra). pose proof (Rabs_def2' _ _ Hs'). apply C118_root_range; [rewrite Rabs_right; lra|lra].
Qed.
Example C118_ranges_int : vector 1 65536 [half; half] /\ Forall (fun x => Rabs (rval x) <= 1 - 2 * IZR 1 / 65536) [half; half] /\ (forall s, Rabs (s - sum_over (fun X => X ^ 3) [half; half]) <= sum_over (fun _ => IZR (3 - 1) * IZR 1 / 65536) [half; half] -> power_range 1 (/ IZR 3) s).
Proof.
  assert (R0 : rval half = 1 / 2) by (unfold rval, half; change (open_a (n_sh (mkNum [32768%Z] 65536))) with 32768%Z; cbn [n_sc]; lra). assert (R1 : Rabs (rval half) = 1 / 2) by (rewrite R0; apply Rabs_right; lra).
  split; [split; [discriminate|]; repeat constructor; vm_compute; (reflexivity || discriminate)|]. split; [apply Forall_cons; [rewrite R1; lra|apply Forall_cons; [rewrite R1; lra|apply Forall_nil]]|]. intros s Hs. unfold sum_over in Hs. cbn [map sumr fold_right] in Hs. rewrite R1 in Hs. assert (Hs' : Rabs (s - 1 / 4) <= 1 / 1000) by (replace (s - 1 / 4) with (s - ((1 / 2) ^ 3 + ((1 / 2) ^ 3 + 0))) by (cbn [pow]; lra); rewrite minus_IZR in Hs; lra). pose proof (Rabs_def2' _ _ Hs'). apply C118_root_range; [rewrite Rabs_right; lra|lra].
Qed.
(** the 3/2-norm of (-2, 1), which is 2.446, and the 3-norm of (2, 1), which is 2.080, with one party; 2/3 is refused *)
Example C118_case : map (fun v => option_map (fun z => open_a (n_sh z)) (fst (normpv (pr := alone) 65536 no_check (usual ByNewton false) (fst v) (snd v) tt))) [(KFloat (3 # 2), [number (-2); number 1]); (KInt 3, [number 2; number 1]); (KFloat (2 # 3), [number 1])] = [Some 158487; Some 135182; None]%Z.
Proof. vm_compute. reflexivity. Qed.
