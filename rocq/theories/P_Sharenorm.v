(** Property theorems C109: norms, cosine similarity and batch normalisation on shares. *)
Require Import ZArith QArith Qreals List Bool Lia Reals Lra.
From Verif Require Import Ring64 Encoder Arith Provider Binary Compare Compare_claims Maximum Maximum_claims Regular Regular_proofs Regular_claims Shareapprox Shareapprox_proofs Shareapprox_claims Shareroot Sharenorm Sharenorm_claims P_Shareapprox.
Import ListNotations.
Open Scope R_scope.

Section S.
  Variables (n : nat) (pr : provider).
  Hypothesis Hn : (0 < n)%nat.
  Hypothesis HV : valid n pr.
  (** C109: the sum of the absolute values is exact. *)
  Theorem C109_norm1 xs st : vector n 65536 xs -> sumr (map Rabs (map rval xs)) < 2 ^ 47 ->
    exists z, fst (norm1v (pr := pr) 65536 xs st) = Some z /\ n_sc z = 65536%Z /\ rval z = sumr (map Rabs (map rval xs)).
  Proof. exact (k_C109_norm1 n Hn pr HV xs st). Qed.
  (** C109: norm(p=inf) is exact, for every method of the maximum: the greatest of the absolute values. *)
  Theorem C109_norm_inf local_bits log_steps cascade_steps isqrt me xs st :
    (forall st, let u := fst (local_bits st) in length u = n /\ Forall (fun z => 0 <= z < 65536)%Z u) -> (forall m, (2 <= m)%nat -> (1 <= isqrt m < m)%nat) -> vector n 65536 xs -> short n 65536 65536 xs -> Forall (fun x => - 2 ^ 47 < rval x) xs ->
    exists z, fst (norm_infv (pr := pr) 65536 16 local_bits log_steps cascade_steps isqrt me xs st) = Some z /\ n_sc z = 65536%Z /\ In (rval z) (map Rabs (map rval xs)) /\ forall x, In x xs -> Rabs (rval x) <= rval z.
  Proof. exact (k_C109_norm_inf n Hn pr HV local_bits log_steps cascade_steps isqrt me xs st). Qed.
  (** C109: the Euclidean norm (default configuration): as far as the squares sum to between 1/10 and 150, within norm2_error of the true norm. *)
  Theorem C109_norm2 E xs st z : (E = 1 \/ E = 2)%Z -> vector n 65536 xs -> usable (INR (length xs) * unit_error E) (square_sum (map rval xs)) -> fst (norm2v (pr := pr) (within E) 8 3 xs st) = Some z ->
    fst (norm2v (pr := pr) no_check 8 3 xs st) = Some z /\ n_sc z = 65536%Z /\ Rabs (rval z - sqrt (square_sum (map rval xs))) <= norm2_error E (length xs) (square_sum (map rval xs)).
  Proof. exact (k_C109_norm2 n Hn pr HV E xs st z). Qed.
  (** C109: the cosine similarity of vectors of two elements or more (default configuration), when both vectors' squares sum to between 1/10 and 150. *)
  Theorem C109_cosine E xs ys st z : (E = 1 \/ E = 2)%Z -> vector n 65536 xs -> vector n 65536 ys -> (2 <= length xs)%nat -> length ys = length xs ->
    usable (INR (length xs) * unit_error E) (square_sum (map rval xs)) -> usable (INR (length xs) * unit_error E) (square_sum (map rval ys)) -> fst (cosinev (pr := pr) 65536 (within E) 8 3 xs ys st) = Some z ->
    fst (cosinev (pr := pr) 65536 no_check 8 3 xs ys st) = Some z /\ n_sc z = 65536%Z /\ Rabs (rval z - cosine (map rval xs) (map rval ys)) <= cosine_error E (length xs) (square_sum (map rval xs)) (square_sum (map rval ys)).
  Proof. exact (k_C109_cosine n Hn pr HV E xs ys st z). Qed.
  (** C109: the cosine similarity of vectors of one element is 1 or -1, and it is the sign of the product unless that is within the error of one multiplication of 0. *)
  Theorem C109_cosine_one E x y st z : (1 <= E)%Z -> sharing n x -> n_sc x = 65536%Z -> sharing n y -> n_sc y = 65536%Z -> Rabs (rval x * rval y) < 2 ^ 31 -> fst (cosinev (pr := pr) 65536 (within E) 8 3 [x] [y] st) = Some z ->
    fst (cosinev (pr := pr) 65536 no_check 8 3 [x] [y] st) = Some z /\ n_sc z = 1%Z /\ (rval z = 1 \/ rval z = -1) /\ (unit_error E < rval x * rval y -> rval z = 1) /\ (rval x * rval y < - unit_error E -> rval z = -1).
  Proof. exact (k_C109_cosine_one n Hn pr HV E x y st z). Qed.
  (** C109: batch normalisation in evaluation mode (default configuration) is within bn_error of (x - mean) / sqrt(variance + eps) * weight + bias, with eps as encoded, when the variance with eps is between 1/10 and 150. *)
  Theorem C109_batchnorm_eval E eps m v w b xs st zs : (E = 1 \/ E = 2)%Z -> vector n 65536 xs -> sharing n m -> n_sc m = 65536%Z -> Forall (fun x => Rabs (rval x - rval m) <= 10000) xs -> sharing n v -> n_sc v = 65536%Z -> let S := rval v + encoded eps in 1 / 10 <= S <= 150 -> parameter n 10000 w -> parameter n 1000000000 b ->
    fst (bn_evalv (pr := pr) (within E) 8 3 eps m v w b xs st) = Some zs -> fst (bn_evalv (pr := pr) no_check 8 3 eps m v w b xs st) = Some zs /\
    Forall2 (fun x z => n_sc z = 65536%Z /\ Rabs (rval z - ((rval x - rval m) / sqrt S * rval w + rval b)) <= bn_error E 0 0 S (rval x - rval m) (rval w)) xs zs.
  Proof. exact (k_C109_batchnorm_eval n Hn pr HV E eps m v w b xs st zs). Qed.
  (** C109: batch normalisation in training mode (default configuration): the outputs are within bn_error of the normalised batch, the running statistics follow (1 - momentum) * running + momentum * batch. *)
  Theorem C109_batchnorm_train E eps mom r u w b xs st o : (E = 1 \/ E = 2)%Z -> trainable n E eps mom r u w b xs -> fst (bn_trainv (pr := pr) (within E) 8 3 eps mom r u w b xs st) = Some o ->
    fst (bn_trainv (pr := pr) no_check 8 3 eps mom r u w b xs st) = Some o /\ trained E eps mom r u w b xs o.
  Proof. exact (k_C109_batchnorm_train n Hn pr HV E eps mom r u w b xs st o). Qed.
  (** C109: with one party no assumption on the truncations is needed. *)
  Theorem C109_one_party st : n = 1%nat ->
    (forall xs, vector n 65536 xs -> usable (INR (length xs) * unit_error 1) (square_sum (map rval xs)) -> exists z, fst (norm2v (pr := pr) no_check 8 3 xs st) = Some z /\ Rabs (rval z - sqrt (square_sum (map rval xs))) <= norm2_error 1 (length xs) (square_sum (map rval xs))) /\
    (forall xs ys, vector n 65536 xs -> vector n 65536 ys -> (2 <= length xs)%nat -> length ys = length xs -> usable (INR (length xs) * unit_error 1) (square_sum (map rval xs)) -> usable (INR (length xs) * unit_error 1) (square_sum (map rval ys)) ->
    exists z, fst (cosinev (pr := pr) 65536 no_check 8 3 xs ys st) = Some z /\ Rabs (rval z - cosine (map rval xs) (map rval ys)) <= cosine_error 1 (length xs) (square_sum (map rval xs)) (square_sum (map rval ys))) /\
    (forall eps mom r u w b xs, trainable n 1 eps mom r u w b xs -> exists o, fst (bn_trainv (pr := pr) no_check 8 3 eps mom r u w b xs st) = Some o /\ trained 1 eps mom r u w b xs o).
  Proof. exact (k_C109_one_party n Hn pr HV st). Qed.
End S.
(** C109 refuted outside: with one party norm(12, 12) is given as less than -16; the cosine of (1/10, 1/10) and itself as less than 3/5; that of (1/512) and (-1/512), of opposite sign, as 1, and that of (0) and (0) as 1, where PyTorch gives 0. *)
Theorem C109_far_refuted : exists pr st, valid 1 pr /\
  (exists x z, vector 1 65536 [x; x] /\ rval x = 12 /\ fst (norm2v (pr := pr) no_check 8 3 [x; x] st) = Some z /\ rval z < - 16) /\
  (exists x z, vector 1 65536 [x; x] /\ 999 / 10000 <= rval x <= 1 / 10 /\ fst (cosinev (pr := pr) 65536 no_check 8 3 [x; x] [x; x] st) = Some z /\ rval z < 3 / 5) /\
  (exists x y z, sharing 1 x /\ sharing 1 y /\ rval x = 1 / 512 /\ rval y = - (1 / 512) /\ fst (cosinev (pr := pr) 65536 no_check 8 3 [x] [y] st) = Some z /\ rval z = 1) /\
  (exists x z, sharing 1 x /\ rval x = 0 /\ fst (cosinev (pr := pr) 65536 no_check 8 3 [x] [x] st) = Some z /\ rval z = 1).
Proof. exact k_C109_far_refuted. Qed.
(** C109: the default eps, 1e-5, is less than the encoder's unit: it is dropped, so that nothing protects a channel whose variance is 0. *)
Theorem C109_eps_dropped : encoded (1 # 100000) = 0 /\ forall eps, 0 <= Q2R eps < 1 / 65536 -> encoded eps = 0.
Proof. exact k_C109_eps_dropped. Qed.
(** C109 refuted for small variances: a batch (-1/10, 1/10), of standard deviation 1/10, is normalised to less than 61/100 where it should be 1. *)
Theorem C109_small_variance_refuted : exists pr st r u w b x y z z' s, valid 1 pr /\ vector 1 65536 [x; y] /\ 999 / 10000 <= rval x <= 1 / 10 /\ rval y = - rval x /\ vector 1 65536 [r; u; w; b] /\ rval w = 1 /\ rval b = 0 /\
  fst (bn_trainv (pr := pr) no_check 8 3 (1 # 100000) (1 # 10) r u w b [x; y] st) = Some ([z; z'], s) /\ rval z < 61 / 100 /\ (rval x - average [rval x; rval y]) / sqrt (variance [rval x; rval y]) = 1.
Proof. exact k_C109_small_variance_refuted. Qed.
Print Assumptions C109_norm1.
Print Assumptions C109_norm_inf.
Print Assumptions C109_norm2.
Print Assumptions C109_cosine.
Print Assumptions C109_cosine_one.
Print Assumptions C109_batchnorm_eval.
Print Assumptions C109_batchnorm_train.
Print Assumptions C109_one_party.
Print Assumptions C109_far_refuted.
Print Assumptions C109_eps_dropped.
Print Assumptions C109_small_variance_refuted.

(** With two parties: |3| + |-4| is 7 exactly; norm(3, -4) is 327775 / 65536 instead of 5; the cosine of (1, 2) and (2, -1) is 0; the batch (1, 2, 6) with weight 3 and bias 5 is normalised to 2.22, 3.61, 9.17 (exactly 2.222, 3.611, 9.167). *)
Example C109_case : option_map (fun z => open_a (n_sh z)) (fst (norm1v (pr := pair) 65536 [ex_two 3; ex_two (-4)] tt)) = Some 458752%Z /\ option_map (fun z => open_a (n_sh z)) (fst (norm2v (pr := pair) (within 2) 8 3 [ex_two 3; ex_two (-4)] tt)) = Some 327775%Z /\
  option_map (fun z => open_a (n_sh z)) (fst (cosinev (pr := pair) 65536 (within 2) 8 3 [ex_two 1; ex_two 2] [ex_two 2; ex_two (-1)] tt)) = Some 0%Z /\
  option_map (fun o => (map (fun z => open_a (n_sh z)) (fst o), open_a (n_sh (fst (snd o))), open_a (n_sh (snd (snd o))))) (fst (bn_trainv (pr := pair) (within 2) 8 3 (1 # 100000) (1 # 10) (ex_two 0) (ex_two 1) (ex_two 3) (ex_two 5) [ex_two 1; ex_two 2; ex_two 6] tt)) = Some ([145662; 236673; 600710], 89562, 19659)%Z.
Proof. split; [vm_compute; reflexivity|]. split; [vm_compute; reflexivity|]. split; vm_compute; reflexivity. Qed.
(** These vectors meet the conditions, and the errors allowed are small: the norm of (3, -4) is within 0.09 of 5, the cosine within 1/20. *)
Example C109_ex_two v : (Z.abs v <= 1000)%Z -> sharing 2 (ex_two v) /\ n_sc (ex_two v) = 65536%Z /\ rval (ex_two v) = IZR v.
Proof.
  intros B. assert (I : in64 (v * 65536)) by (unfold in64, H63; lia). assert (O : open_a (n_sh (ex_two v)) = (v * 65536)%Z). { unfold open_a, ex_two. cbn [n_sh fold_left]. unfold wadd. rewrite Z.add_0_l, (wrap_id (v * 65536 + 777000)) by (unfold in64, H63; lia). replace (v * 65536 + 777000 + -777000)%Z with (v * 65536)%Z by lia. now apply wrap_id. }
  split; [split; [reflexivity|split; [|reflexivity]]; repeat constructor; unfold in64, H63; lia|]. split; [reflexivity|]. unfold rval. rewrite O, mult_IZR. cbn [ex_two n_sc]. field.
Qed.
Example C109_conditions : vector 2 65536 [ex_two 3; ex_two (-4)] /\ vector 2 65536 [ex_two 1; ex_two 2] /\ vector 2 65536 [ex_two 2; ex_two (-1)] /\
  usable (INR 2 * unit_error 2) (square_sum (map rval [ex_two 3; ex_two (-4)])) /\ norm2_error 2 2 25 <= 9 / 100 /\ usable (INR 2 * unit_error 2) (square_sum (map rval [ex_two 1; ex_two 2])) /\ usable (INR 2 * unit_error 2) (square_sum (map rval [ex_two 2; ex_two (-1)])) /\ cosine_error 2 2 5 5 <= 1 / 20.
Proof.
  assert (V : forall v w, (Z.abs v <= 1000)%Z -> (Z.abs w <= 1000)%Z -> vector 2 65536 [ex_two v; ex_two w] /\ square_sum (map rval [ex_two v; ex_two w]) = IZR v * IZR v + IZR w * IZR w).
  { intros v w A B. destruct (C109_ex_two v A) as (X1 & X2 & X3). destruct (C109_ex_two w B) as (Y1 & Y2 & Y3). split; [split; [discriminate|repeat apply Forall_cons; try apply Forall_nil; split; assumption]|]. unfold square_sum, sumr. cbn [map fold_right]. rewrite X3, Y3. ring. }
  destruct (V 3 (-4) ltac:(lia) ltac:(lia))%Z as [V1 S1]. destruct (V 1 2 ltac:(lia) ltac:(lia))%Z as [V2 S2]. destruct (V 2 (-1) ltac:(lia) ltac:(lia))%Z as [V3 S3]. rewrite S1, S2, S3. clear S1 S2 S3 V. assert (I2 : INR 2 = 2) by (cbn; lra).
  split; [exact V1|]. split; [exact V2|]. split; [exact V3|]. unfold usable, norm2_error, cosine_error, shaky, root_error, unit_error. rewrite I2. replace (sqrt 25) with 5 by (replace 25 with (5 * 5) by lra; symmetry; apply sqrt_square; lra). rewrite sqrt_sqrt by lra. repeat split; lra.
Qed.
(** So does the batch. *)
Example C109_batch : trainable 2 2 (1 # 100000) (1 # 10) (ex_two 0) (ex_two 1) (ex_two 3) (ex_two 5) [ex_two 1; ex_two 2; ex_two 6].
Proof.
  assert (P : forall M v, (Z.abs v <= 1000)%Z -> IZR (Z.abs v) <= M -> parameter 2 M (ex_two v)). { intros M v A B. destruct (C109_ex_two v A) as (X1 & X2 & X3). split; [exact X1|]. split; [exact X2|]. rewrite X3, <- abs_IZR. exact B. }
  destruct (C109_ex_two 1 ltac:(lia)) as (A1 & A2 & A3). destruct (C109_ex_two 2 ltac:(lia)) as (B1 & B2 & B3). destruct (C109_ex_two 6 ltac:(lia)) as (C1 & C2 & C3).
  split; [split; [discriminate|repeat apply Forall_cons; try apply Forall_nil; split; assumption]|]. split; [cbn; lia|]. split; [cbn; lia|]. split; [repeat apply Forall_cons; try apply Forall_nil; rewrite ?A3, ?B3, ?C3; apply Rabs_le; lra|].
  split; [|split; [unfold Q2R; cbn [Qnum Qden]; lra|]; split; [|split; [|split]]; apply P; cbn; (lia || lra)].
  destruct C109_eps_dropped as [-> _]. cbn [map]. rewrite A3, B3, C3. assert (Av : average [1; 2; 6] = 3) by (unfold average, sumr; cbn [fold_right length INR]; lra). assert (Vr : variance [1; 2; 6] = 14 / 3) by (unfold variance, square_sum; rewrite Av; unfold sumr; cbn [map fold_right length INR]; lra). rewrite Vr. unfold usable, unit_error. repeat split; lra.
Qed.
