(** Property theorems C79, C80, C81: exp, reciprocal, sigmoid and tanh on shares. *)
Require Import ZArith QArith List Bool Lia Reals Lra.
From Verif Require Import Approx Approx_claims Approxfn_claims.
From Verif Require Import Ring64 Encoder Arith Arith_proofs Beaver Trunc Provider Binary Binary_proofs Compare Compare_proofs Compare_claims Maximum Regular Regular_proofs Regular_claims Shareapprox Shareapprox_proofs Shareapprox_claims.
Import ListNotations.
Open Scope R_scope.

Section Claims.
  Variables (n : nat) (pr : provider).
  Hypothesis Hn : (0 < n)%nat.
  Hypothesis HV : valid n pr.
  (** C79.  [exp] with d = functions.exp_iterations on an encrypted number x of scale s.  A run in which every truncation is off by less than E units in the last place is a run of
      the default configuration, and its result is (1 + x/2^d)^(2^d) with an error of (1 + E/s)^(2^(d+1)-1) - 1, relative when that number is above 1; provided it does not overflow. *)
  Theorem C79_exp : forall s E d x st z, (1 <= E)%Z -> (1 < s)%Z -> (1 <= d)%nat -> sharing n x -> n_sc x = s ->
    IZR s * IZR s * (Rmax 1 (Rabs (limit_exp d (rval x))) * (1 + exp_growth s E d)) < 2 ^ 63 ->
    fst (expv (pr := pr) (within E) d x st) = Some z ->
    fst (expv (pr := pr) no_check d x st) = Some z /\ n_sc z = s /\ Rabs (rval z - limit_exp d (rval x)) <= Rmax 1 (Rabs (limit_exp d (rval x))) * exp_growth s E d.
  Proof. exact (k_C79_exp n pr Hn HV). Qed.
  (** With a single party every run is such a run, with E = 1. *)
  Theorem C79_one_party : forall s d x st, n = 1%nat -> (1 < s)%Z -> (1 <= d)%nat -> sharing n x -> n_sc x = s ->
    IZR s * IZR s * (Rmax 1 (Rabs (limit_exp d (rval x))) * (1 + exp_growth s 1 d)) < 2 ^ 63 ->
    exists z, fst (expv (pr := pr) no_check d x st) = Some z /\ n_sc z = s /\ Rabs (rval z - limit_exp d (rval x)) <= Rmax 1 (Rabs (limit_exp d (rval x))) * exp_growth s 1 d.
  Proof. exact (k_C79_one_party n pr Hn HV). Qed.
  (** Against e^x, at the default scale 65536 and with the default 8 iterations. *)
  Theorem C79_default : forall E x st z, (E = 1 \/ E = 2)%Z -> sharing n x -> n_sc x = 65536%Z -> fst (expv (pr := pr) (within E) 8 x st) = Some z ->
    fst (expv (pr := pr) no_check 8 x st) = Some z /\
    (-256 <= rval x <= 0 -> Rabs (rval z - exp (rval x)) <= 4 / 1000 + 79 / 10000 * IZR E) /\
    (0 <= rval x <= 22 -> Rabs (rval z - exp (rval x)) <= exp (rval x) * (rval x * rval x / 256 + 79 / 10000 * IZR E)).
  Proof. exact (k_C79_default n pr Hn HV). Qed.
  (** C80.  [reciprocal] (Newton's method, d iterations of exp for the first estimate 3 exp(1-2X) + 0.003, then k iterations) on an encrypted number of the default encoder's scale D,
      positive or negative: the relative error q0 of the first estimate becomes q^2 + X(X+1)E/D in each iteration. *)
  Theorem C80_error : forall D, (1 < D)%Z -> forall E d k x st z q0, (1 <= E)%Z -> sharing n x -> n_sc x = D -> let X := Rabs (rval x) in let a := limit_exp d (1 - 2 * X) in 0 < X ->
    IZR D * (2 * X + 1) < 2 ^ 63 -> IZR D * (2 / X) <= 2 ^ 31 -> IZR D * IZR D * ((4 / (X * X) + IZR E / IZR D) * X) < 2 ^ 63 ->
    IZR D * IZR D * (Rmax 1 (Rabs a) * (1 + exp_growth D E d)) < 2 ^ 63 -> IZR D * (1 + Rabs (1 - 2 * X) / 2 ^ d + IZR E / IZR D) < 2 ^ 63 ->
    Rabs (1 - X * (3 * a + 3 / 1000)) + X * (3 * (Rmax 1 (Rabs a) * exp_growth D E d) + / IZR D) <= q0 -> q0 <= 1 -> newton D E X q0 <= q0 ->
    fst (reciprocalv (pr := pr) D (within E) d k x st) = Some z ->
    fst (reciprocalv (pr := pr) D no_check d k x st) = Some z /\ n_sc z = D /\ Rabs (1 - rval x * rval z) <= Nat.iter k (newton D E X) q0.
  Proof. exact (fun D => k_C80_error n pr D Hn HV). Qed.
  (** At the default scale and iterations, between 0.01 and 30 and between -30 and -0.01: relative error at most E X(X+1)/65536 + 1/500. *)
  Theorem C80_default : forall E x st z, (E = 1 \/ E = 2)%Z -> sharing n x -> n_sc x = 65536%Z -> let X := Rabs (rval x) in 1 / 100 <= X <= 30 -> fst (reciprocalv (pr := pr) 65536 (within E) 8 10 x st) = Some z ->
    fst (reciprocalv (pr := pr) 65536 no_check 8 10 x st) = Some z /\ n_sc z = 65536%Z /\ Rabs (1 - rval x * rval z) <= X * (X + 1) * (IZR E / 65536) + 1 / 500.
  Proof. exact (k_C80_default n pr Hn HV). Qed.
  Theorem C80_one_party : forall x st, n = 1%nat -> sharing n x -> n_sc x = 65536%Z -> let X := Rabs (rval x) in 1 / 100 <= X <= 30 ->
    exists z, fst (reciprocalv (pr := pr) 65536 no_check 8 10 x st) = Some z /\ n_sc z = 65536%Z /\ Rabs (1 - rval x * rval z) <= X * (X + 1) / 65536 + 1 / 500.
  Proof. exact (k_C80_one_party n pr Hn HV). Qed.
  (** C81.  [sigmoid] and [tanh] by the reciprocal method. *)
  Theorem C81_sigmoid : forall D, (1 < D)%Z -> forall E d x st z, (1 <= E)%Z -> sharing n x -> n_sc x = D -> (1 <= d)%nat -> (D <= 2 ^ 28)%Z -> (1024 * E <= D)%Z -> exp_growth D E d <= 1 / 8 -> Rabs (rval x) <= 2 ^ d ->
    fst (sigmoidv (pr := pr) D (within E) d x st) = Some z ->
    fst (sigmoidv (pr := pr) D no_check d x st) = Some z /\ n_sc z = D /\ Rabs (rval z - / (1 + exp (- rval x))) <= 1 / 256 + 3 / 2 * (exp_growth D E d + / 2 ^ d) + 16 * (IZR E / IZR D).
  Proof. exact (fun D => k_C81_sigmoid n pr D Hn HV). Qed.
  Theorem C81_tanh : forall D, (1 < D)%Z -> forall E d x st z, (1 <= E)%Z -> sharing n x -> n_sc x = D -> (1 <= d)%nat -> (D <= 2 ^ 28)%Z -> (1024 * E <= D)%Z -> exp_growth D E d <= 1 / 8 -> 2 * Rabs (rval x) <= 2 ^ d ->
    fst (tanhv (pr := pr) D (within E) d x st) = Some z ->
    fst (tanhv (pr := pr) D no_check d x st) = Some z /\ n_sc z = D /\ Rabs (rval z - tanh (rval x)) <= 2 * (1 / 256 + 3 / 2 * (exp_growth D E d + / 2 ^ d) + 16 * (IZR E / IZR D)).
  Proof. exact (fun D => k_C81_tanh n pr D Hn HV). Qed.
  Theorem C81_default : forall E x st z, (E = 1 \/ E = 2)%Z -> sharing n x -> n_sc x = 65536%Z ->
    (fst (sigmoidv (pr := pr) 65536 (within E) 8 x st) = Some z -> Rabs (rval x) <= 256 ->
      fst (sigmoidv (pr := pr) 65536 no_check 8 x st) = Some z /\ Rabs (rval z - / (1 + exp (- rval x))) <= 1 / 100 + IZR E / 80) /\
    (fst (tanhv (pr := pr) 65536 (within E) 8 x st) = Some z -> Rabs (rval x) <= 128 ->
      fst (tanhv (pr := pr) 65536 no_check 8 x st) = Some z /\ Rabs (rval z - tanh (rval x)) <= 1 / 50 + IZR E / 40).
  Proof. exact (k_C81_default n pr Hn HV). Qed.
  Theorem C81_one_party : forall x st, n = 1%nat -> sharing n x -> n_sc x = 65536%Z ->
    (Rabs (rval x) <= 256 -> exists z, fst (sigmoidv (pr := pr) 65536 no_check 8 x st) = Some z /\ n_sc z = 65536%Z /\ Rabs (rval z - / (1 + exp (- rval x))) <= 1 / 40) /\
    (Rabs (rval x) <= 128 -> exists z, fst (tanhv (pr := pr) 65536 no_check 8 x st) = Some z /\ n_sc z = 65536%Z /\ Rabs (rval z - tanh (rval x)) <= 1 / 20).
  Proof. exact (k_C81_one_party n pr Hn HV). Qed.
End Claims.
Print Assumptions C79_exp.
Print Assumptions C79_one_party.
Print Assumptions C79_default.
Print Assumptions C80_error.
Print Assumptions C80_default.
Print Assumptions C80_one_party.
Print Assumptions C81_sigmoid.
Print Assumptions C81_tanh.
Print Assumptions C81_default.
Print Assumptions C81_one_party.
(** C79 refuted from 23 on: the last square overflows; one party, default configuration, exp(23) is below minus six hundred million. *)
Theorem C79_overflow_refuted : exists pr st x z, valid 1 pr /\ sharing 1 x /\ n_sc x = 65536%Z /\ rval x = 23 /\ fst (expv (pr := pr) no_check 8 x st) = Some z /\ rval z < - (600000000).
Proof. exact k_C79_overflow_refuted. Qed.
Print Assumptions C79_overflow_refuted.
(** C80 refuted above that range: the rounding of the two products of an iteration makes the reciprocal of 250 seventy per cent too large, and from 256 on the iterations diverge. *)
Theorem C80_far_refuted : exists pr st, valid 1 pr /\
  (exists x z, sharing 1 x /\ n_sc x = 65536%Z /\ rval x = 250 /\ fst (reciprocalv (pr := pr) 65536 no_check 8 10 x st) = Some z /\ rval x * rval z > 17 / 10) /\
  (exists x z, sharing 1 x /\ n_sc x = 65536%Z /\ rval x = 256 /\ fst (reciprocalv (pr := pr) 65536 no_check 8 10 x st) = Some z /\ rval z < -1000000).
Proof. exact k_C80_far_refuted. Qed.
Print Assumptions C80_far_refuted.
(** C81 refuted: sigmoid(0) is 255/512 and tanh(0) is -1/256, and past 512 the result is no probability. *)
Theorem C81_refuted : exists pr st, valid 1 pr /\
  (exists x z, sharing 1 x /\ n_sc x = 65536%Z /\ rval x = 0 /\ fst (sigmoidv (pr := pr) 65536 no_check 8 x st) = Some z /\ rval z = 255 / 512) /\
  (exists x z, sharing 1 x /\ n_sc x = 65536%Z /\ rval x = 0 /\ fst (tanhv (pr := pr) 65536 no_check 8 x st) = Some z /\ rval z = - (1 / 256)) /\
  (exists x z, sharing 1 x /\ n_sc x = 65536%Z /\ rval x = 513 /\ fst (sigmoidv (pr := pr) 65536 no_check 8 x st) = Some z /\ rval z < -27).
Proof. exact k_C81_refuted. Qed.
Print Assumptions C81_refuted.

(** Concrete cases: two parties whose truncations are within two units but not within one. *)
Open Scope Z_scope.
Definition pair : provider := mkProvider unit
  (fun s => (([13; 6], [9; 4], [Z.lxor (Z.land 11 13) 5; 5]), s)) (fun s => (([12345; -99], [-777; 20], [wmul 12246 (-757) - 8; 8]), s)) (fun s => (([31; 9], [1600 - 77; 77]), s))
  (fun s => (([99; 8], [3; -3]), s)) (fun s => (([-3; 4], [6; 7]), s)) (fun s => ([71; -71], s)) (fun s => ([5; 5], s)).
Example pair_valid : valid 2 pair.
Proof. constructor; intros []; cbn -[H63 wmul Z.lxor Z.land]; repeat split; try (repeat constructor; unfold in64, H63; vm_compute; intuition discriminate); try (vm_compute; reflexivity); right; vm_compute; reflexivity. Qed.
Definition ex_two (v : Z) : num := mkNum [v * 65536 + 777000; -777000] 65536.
Example C79_case : sharing 2 (ex_two (-1)) /\ open_a (n_sh (ex_two (-1))) = -65536 /\
  option_map (fun z => open_a (n_sh z)) (fst (expv (pr := pair) (within 2) 8 (ex_two (-1)) tt)) = Some 23966 /\ fst (expv (pr := pair) (within 1) 8 (ex_two (-1)) tt) = None.
Proof. split; [split; [reflexivity|repeat constructor; unfold in64, H63; lia]|]. split; [reflexivity|]. split; vm_compute; reflexivity. Qed.
Example C80_case : option_map (fun z => open_a (n_sh z)) (fst (reciprocalv (pr := pair) 65536 (within 2) 8 10 (ex_two (-4)) tt)) = Some (-16388).
Proof. vm_compute. reflexivity. Qed.
Example C81_case : option_map (fun z => open_a (n_sh z)) (fst (sigmoidv (pr := pair) 65536 (within 2) 8 (ex_two (-2)) tt)) = Some 7728 /\
  option_map (fun z => open_a (n_sh z)) (fst (tanhv (pr := pair) 65536 (within 2) 8 (ex_two (-2)) tt)) = Some (-63266).
Proof. split; vm_compute; reflexivity. Qed.
Open Scope R_scope.
(** the hypotheses of C80_error: X = 1/2 at the default scale, where the estimate is 1/2 (3 + 0.003), and one iteration *)
Example C80_error_case : let X := 1 / 2 in let a := limit_exp 8 (1 - 2 * X) in Rabs (1 - X * (3 * a + 3 / 1000)) + X * (3 * (Rmax 1 (Rabs a) * exp_growth 65536 2 8) + / IZR 65536) <= 527 / 1000 /\ newton 65536 2 X (527 / 1000) <= 527 / 1000.
Proof.
  cbv zeta. replace (limit_exp 8 (1 - 2 * (1 / 2))) with 1; [|unfold limit_exp; replace (1 - 2 * (1 / 2)) with 0 by field; unfold Rdiv; rewrite Rmult_0_l, Rplus_0_r; symmetry; apply pow1].
  rewrite Rabs_R1, Rmax_left by lra. destruct (default_growth 2 ltac:(lia)) as [G _]. rewrite Rabs_left by lra. unfold newton. split; lra.
Qed.
(** three iterations of exp at scale 65536 meet the hypothesis of C81 on the growth of errors *)
Example C81_growth : exp_growth 65536 3 3 <= 1 / 8 /\ exp_growth 65536 2 8 <= 1 / 8.
Proof. split; [unfold exp_growth, growth; change (2 ^ 4 - 1)%nat with 15%nat; cbn [pow]; lra|destruct (default_growth 2 ltac:(lia)); lra]. Qed.
