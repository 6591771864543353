(** Property theorems C43, C44, C45, C46, C47, C62: powers, products, polynomials, means, variances, concatenation, padding, validation mode. *)
Require Import ZArith QArith Qabs Qpower List Lia Lqa Bool.
From Verif Require Import Ring64 Sharing Sharing_proofs Encoder Arith Arith_proofs Beaver Beaver_proofs Trunc Provider Binary Binary_proofs Convert_proofs Compare Compare_proofs Compare_claims Maximum Maximum_proofs Maximum_claims P_Maximum Regular Regular_proofs Regular_num_proofs Regular_claims.
Import ListNotations.
Open Scope Z_scope.

Section Claims.
  Variables (n : nat) (pr : provider) (D : Z).
  Hypothesis Hn : (0 < n)%nat.
  Hypothesis HV : valid n pr.
  Hypothesis HD : 0 < D < H63.
  (** C43.  [pow(p)] for p > 0 computes a q-th power with q = p exactly when p is 2^k or 3*2^k, and q > p otherwise.  At scale 1 the result is exact modulo 2^64 ... *)
  Theorem C43_pow : forall p, 0 < p -> exists q, p <= q /\ (q = p <-> exists k, 0 <= k /\ (p = 2 ^ k \/ p = 3 * 2 ^ k)) /\
    (forall x st, sharing n x -> n_sc x = 1 -> exists z, fst (pow_num (pr := pr) D no_check x p st) = Some z /\ open_a (n_sh z) = wrap (open_a (n_sh x) ^ q) /\ n_sc z = 1) /\
    (* ... and at scale s, a run in which every truncation is off by less than E units in the last place is a run of the default configuration and is accurate to (q-1)*E units *)
    (forall s E x st z, 1 <= E -> 4 * E <= s -> s <= 2 ^ 31 -> sharing n x -> n_sc x = s -> (Qabs (qval x) <= 1 - ulps (2 * E) s)%Q ->
      fst (pow_num (pr := pr) D (within E) x p st) = Some z ->
      fst (pow_num (pr := pr) D no_check x p st) = Some z /\ n_sc z = s /\ (Qabs (qval z - qval x ^ q) <= ulps ((q - 1) * E) s)%Q) /\
    (* with a single party there is no such assumption to make *)
    (forall s x st, n = 1%nat -> 4 <= s -> s <= 2 ^ 31 -> sharing n x -> n_sc x = s -> (Qabs (qval x) <= 1 - ulps 2 s)%Q ->
      exists z, fst (pow_num (pr := pr) D no_check x p st) = Some z /\ n_sc z = s /\ (Qabs (qval z - qval x ^ q) <= ulps (q - 1) s)%Q).
  Proof. exact (k_C43_pow n pr D Hn HV HD). Qed.
  (** [pow(0)] is an encryption of one. *)
  Theorem C43_pow_zero : forall x st, exists z, fst (pow_num (pr := pr) D no_check x 0 st) = Some z /\ (qval z == 1)%Q.
  Proof. exact (k_C43_pow_zero n pr D Hn HV HD). Qed.
  (** C44.  [prod] over a dimension: exact modulo 2^64 at scale 1 ... *)
  Theorem C44_prod_integer : forall xs st, vector n 1 xs -> exists z, fst (prodv (pr := pr) no_check xs st) = Some z /\ open_a (n_sh z) = wrap (fold_right Z.mul 1 (reveals xs)) /\ n_sc z = 1.
  Proof. exact (k_C44_prod_integer n pr D Hn HV HD). Qed.
  (** ... and accurate to (k-1)*E units for k factors below 1 when every truncation is within E units. *)
  Theorem C44_prod_fixed : forall s E xs st z, 1 <= E -> 4 * E <= s -> s <= 2 ^ 31 -> vector n s xs -> Forall (fun x => (Qabs (qval x) <= 1 - ulps (2 * E) s)%Q) xs ->
    fst (prodv (pr := pr) (within E) xs st) = Some z ->
    fst (prodv (pr := pr) no_check xs st) = Some z /\ n_sc z = s /\ (Qabs (qval z - prodQ (map qval xs)) <= ulps ((Z.of_nat (length xs) - 1) * E) s)%Q.
  Proof. exact (k_C44_prod_fixed n pr D Hn HV HD). Qed.
  (** [polynomial(c)] evaluates c_1 x + c_2 x^2 + ... for any number of coefficients: exactly, modulo 2^64, at scale 1 ... *)
  Theorem C44_polynomial_integer : forall x cs st, sharing n x -> n_sc x = 1 -> cs <> [] ->
    Forall (fun c => match c with KEnc y => length (n_sh y) = n /\ Forall in64 (n_sh y) /\ n_sc y = 1 | _ => True end) cs ->
    exists z, fst (polynomial (pr := pr) no_check x cs st) = Some z /\ n_sc z = 1 /\
      open_a (n_sh z) = wrap (fold_right (fun c r => open_a (n_sh x) * (c + r)) 0 (map zcoeff cs)).
  Proof. exact (k_C44_polynomial_integer n pr D Hn HV HD). Qed.
  (** ... and accurate to (1 + (i-1) |c_i|) E units per term when every truncation is within E units. *)
  Theorem C44_polynomial_fixed : forall s E x cs st z, 1 <= E -> 4 * E <= s -> s <= 2 ^ 31 -> sharing n x -> n_sc x = s -> (Qabs (qval x) <= 1 - ulps (2 * E) s)%Q ->
    cs <> [] -> Forall (coefficient n s) cs ->
    (inject_Z s * (Qabs (polyQ (map (qcoeff s) cs) (qval x)) + ulps E s * poly_error 0 (map (qcoeff s) cs)) < inject_Z H63)%Q ->
    fst (polynomial (pr := pr) (within E) x cs st) = Some z ->
    fst (polynomial (pr := pr) no_check x cs st) = Some z /\ n_sc z = s /\
      (Qabs (qval z - polyQ (map (qcoeff s) cs) (qval x)) <= ulps E s * poly_error 0 (map (qcoeff s) cs))%Q.
  Proof. exact (k_C44_polynomial_fixed n pr D Hn HV HD). Qed.
  (** C45.  [mean] along a dimension of size N is the average, to within E units, when every truncation is within E units. *)
  Theorem C45_mean : forall s E N rows st zs, 1 <= E -> 1 <= s -> (0 < N)%nat -> table n s N rows -> Forall (fun r => in64 (zsum (reveals r))) rows ->
    fst (meanv (pr := pr) (within E) rows st) = Some zs ->
    fst (meanv (pr := pr) no_check rows st) = Some zs /\
    Forall2 (fun r z => n_sc z = s /\ (Qabs (qval z - sumQ (map qval r) / inject_Z (Z.of_nat N)) < ulps E s)%Q) rows zs.
  Proof. exact (k_C45_mean n pr D Hn HV HD). Qed.
  (** [var(dim, unbiased)]: the squared deviations from a mean accurate to E units are summed and divided by N when [unbiased] is true and by N - 1 when it is
      false (nothing is divided when that is 0 or 1). *)
  Theorem C45_var : forall s E N B rows unbiased st zs, 1 <= E -> 1 <= s -> (0 < N)%nat -> 0 <= B -> Z.of_nat N * ((2 * B + 2 * E) * (2 * B + 2 * E)) < H63 ->
    table n s N rows -> Forall (Forall (fun x => (Qabs (qval x) <= ulps B s)%Q)) rows ->
    fst (varv (pr := pr) (within E) unbiased rows st) = Some zs ->
    fst (varv (pr := pr) no_check unbiased rows st) = Some zs /\
    let divisor := if unbiased then Z.of_nat N else Z.of_nat N - 1 in
    Forall2 (fun r z => n_sc z = s /\ exists m, (Qabs (m - sumQ (map qval r) / inject_Z (Z.of_nat N)) < ulps E s)%Q /\
      let squares := sumQ (map (fun x => (qval x - m) ^ 2)%Q r) in
      if divisor <=? 1 then (Qabs (qval z - squares) <= ulps (Z.of_nat N * E) s)%Q
      else (Qabs (inject_Z divisor * qval z - squares) <= ulps ((Z.of_nat N + divisor) * E) s)%Q) rows zs.
  Proof. exact (k_C45_var n pr D Hn HV HD). Qed.
  (** C46.  Concatenating encrypted tensors of one scale keeps every operand, in order ... *)
  Theorem C46_cat : forall new s x xs, cat_helper new (map (fun t => TEnc t s) (x :: xs)) = Some (concat (x :: xs), s).
  Proof. exact (k_C46_cat n pr D Hn HV HD). Qed.
  (** ... and a list with a plain tensor or number anywhere in it is always refused, although the code means to encrypt it. *)
  Theorem C46_cat_plain_raises : forall new ts, Exists (fun t => is_enc t = false) ts -> cat_helper new ts = None.
  Proof. exact (k_C46_cat_plain_raises n pr D Hn HV HD). Qed.
  (** C47.  [pad] with a public value reveals that value (encoded) at every new position and leaves the rest; so does a private value. *)
  Theorem C47_pad_public : forall l r v k x, in64 v -> tensor n k x -> reveal_arith (pad_public l r v x) = padded l r v (reveal_arith x).
  Proof. exact (k_C47_pad_public n pr D Hn HV HD). Qed.
  Theorem C47_pad_private : forall l r v k x, length v = n -> Forall in64 v -> tensor n k x -> reveal_arith (pad_private l r v x) = padded l r (open_a v) (reveal_arith x).
  Proof. exact (k_C47_pad_private n pr D Hn HV HD). Qed.
  (** [max_pool2d] instead writes -2^24 into every party's share: what it compares the real elements with is -2^24 times the number of parties, undivided by the scale. *)
  Theorem C47_pool_pad : forall l r k x, Z.of_nat n * 2 ^ 24 < H63 -> tensor n k x -> reveal_arith (pool_pad l r x) = padded l r (- Z.of_nat n * 2 ^ 24) (reveal_arith x).
  Proof. exact (k_C47_pool_pad n pr D Hn HV HD). Qed.
  (** C62.  In validation mode [square] raises unless the square is representable exactly at the scale of the tensor (and so [pow], [var], [norm] raise), ... *)
  Theorem C62_square_validation : forall s x st, 0 < s -> sharing n x -> n_sc x = s -> in64 (open_a (n_sh x) * open_a (n_sh x)) -> ~ (s | open_a (n_sh x) * open_a (n_sh x)) ->
    fst (squarev (pr := pr) validation_mode x st) = None.
  Proof. exact (k_C62_square_validation n pr D Hn HV HD). Qed.
  (** ... while multiplying a tensor by itself is accepted whenever the truncation is off by less than one unit, as it always is with a single party. *)
  Theorem C62_mul_validation : forall s x y st, n = 1%nat -> 1 < s -> sharing n x -> n_sc x = s -> sharing n y -> n_sc y = s -> in64 (open_a (n_sh x) * open_a (n_sh y)) ->
    exists z, fst (mulv (pr := pr) validation_mode x y st) = Some z /\ fst (mulv (pr := pr) no_check x y st) = Some z /\ n_sc z = s /\
      Z.abs (open_a (n_sh z) * s - open_a (n_sh x) * open_a (n_sh y)) < s.
  Proof. exact (k_C62_mul_validation n pr D Hn HV HD). Qed.
End Claims.
Print Assumptions C43_pow.
Print Assumptions C43_pow_zero.
Print Assumptions C44_prod_integer.
Print Assumptions C44_prod_fixed.
Print Assumptions C44_polynomial_integer.
Print Assumptions C44_polynomial_fixed.
Print Assumptions C45_mean.
Print Assumptions C45_var.
Print Assumptions C46_cat.
Print Assumptions C46_cat_plain_raises.
Print Assumptions C47_pad_public.
Print Assumptions C47_pad_private.
Print Assumptions C47_pool_pad.
Print Assumptions C62_square_validation.
Print Assumptions C62_mul_validation.

(** Concrete cases: three parties, correlated randomness that is always the same. *)
Definition ex_int : num := mkNum [H63 - 1; - H63; -2] 1.
Definition ex_fix : num := mkNum [H63 - 40000; - H63; 69000] 65536.
Example C43_case_hyps : sharing 3 ex_int /\ sharing 3 ex_fix /\ open_a (n_sh ex_int) = -3 /\ open_a (n_sh ex_fix) = 29000 /\ (Qabs (qval ex_fix) <= 1 - ulps (2 * 3) 65536)%Q.
Proof.
  split; [|split; [|split; [reflexivity|split; [reflexivity|unfold Qle; vm_compute; discriminate]]]]; (split; [reflexivity|split; [repeat constructor; unfold in64, H63; cbn; lia|cbn; lia]]).
Qed.
(** pow(4) and pow(6) are what they say; pow(5) is the sixth and pow(7) the ninth power *)
Example C43_case : map (fun p => option_map (fun z => open_a (n_sh z)) (fst (pow_num (pr := light) 65536 no_check ex_int p tt))) [1; 2; 3; 4; 5; 6; 7] = map Some [-3; 9; -27; 81; 729; 729; -19683].
Proof. vm_compute. reflexivity. Qed.
Example C43_fixed_case : exists z, fst (pow_num (pr := light) 65536 (within 3) ex_fix 6 tt) = Some z /\ open_a (n_sh z) = 493. (* 65536 * (29000/65536)^6 = 490.98 *)
Proof. eexists. split; [vm_compute; reflexivity|vm_compute; reflexivity]. Qed.
Example C44_prod_case : option_map (fun z => open_a (n_sh z)) (fst (prodv (pr := light) no_check [ex_int; ex_int; mkNum [1; 2; 4] 1; ex_int; mkNum [0; 2; 0] 1] tt)) = Some (-378).
Proof. vm_compute. reflexivity. Qed.
Example C44_prod_fixed_case : exists z, fst (prodv (pr := light) (within 3) [ex_fix; ex_fix; ex_fix] tt) = Some z /\ open_a (n_sh z) = 5678. (* 5678.5 *)
Proof. eexists. split; [vm_compute; reflexivity|vm_compute; reflexivity]. Qed.
Example C44_polynomial_case : option_map (fun z => open_a (n_sh z)) (fst (polynomial (pr := light) no_check ex_int [KInt 1; KInt (-5); KFloat (7 # 2); KEnc ex_int; KInt 2] tt)) = Some (-3 - 45 - 81 - 243 - 486).
Proof. vm_compute. reflexivity. Qed.
Example C44_polynomial_fixed_case : exists z, fst (polynomial (pr := light) (within 3) ex_fix [KInt 1; KFloat (1 # 2); KEnc ex_fix] tt) = Some z /\ open_a (n_sh z) = 37927. (* 37929.0 *)
Proof. eexists. split; [vm_compute; reflexivity|vm_compute; reflexivity]. Qed.
Definition ex_table : list (list num) := [[mkNum [65536; 7; -7] 65536; mkNum [0; 5 * 65536; 0] 65536]; [mkNum [65536; 7; -7] 65536; mkNum [131072; 0; 0] 65536]].
Example C45_mean_case : option_map reveals (fst (meanv (pr := light) (within 3) ex_table tt)) = Some [196608; 98304].
Proof. vm_compute. reflexivity. Qed.
Example C45_case_hyps : table 3 65536 2 ex_table /\ Forall (Forall (fun x => (Qabs (qval x) <= ulps (5 * 65536) 65536)%Q)) ex_table /\ Z.of_nat 2 * ((2 * (5 * 65536) + 2 * 3) * (2 * (5 * 65536) + 2 * 3)) < H63.
Proof.
  split; [|split; [repeat constructor; unfold Qle; vm_compute; discriminate|reflexivity]]. split; [discriminate|].
  repeat (constructor; [split; [reflexivity|repeat (constructor; [split; [split; [reflexivity|split; [repeat constructor; unfold in64, H63; cbn; lia|cbn; lia]]|reflexivity]|]); constructor]|]). constructor.
Qed.
(** the variance of (1, 5) along the second dimension: about 8 (with N - 1) for unbiased = False and 4 (with N) for unbiased = True *)
Example C45_var_case : option_map reveals (fst (varv (pr := light) (within 3) false ex_table tt)) = Some [524286; 32766] /\ option_map reveals (fst (varv (pr := light) (within 3) true ex_table tt)) = Some [262144; 16384].
Proof. vm_compute. split; reflexivity. Qed.

(** The documented meaning of the flag (an unbiased estimate divides by N - 1) is refuted: for (1, 5) the unbiased variance is 8, var(1, unbiased=True) returns less than 5 ... *)
Theorem C45_unbiased_refuted : exists rows z, table 3 65536 2 rows /\ fst (varv (pr := light) no_check true rows tt) = Some [z] /\
  (sumQ (map (fun x => (qval x - 3) ^ 2) (concat rows)) == 8 /\ qval z < 5)%Q.
Proof.
  exists [hd [] ex_table]. eexists. split; [|split; [vm_compute; reflexivity|split; vm_compute; reflexivity]]. destruct C45_case_hyps as [[_ F] _]. split; [discriminate|]. constructor; [exact (Forall_inv F)|constructor].
Qed.
(** ... and naming the dimension by keyword, var(dim=1), returns one number whatever the shape. *)
Theorem C45_keyword_dim_refuted : exists rows, table 3 65536 2 rows /\ length rows = 2%nat /\ exists zs, fst (varv_keywords (pr := light) no_check false rows tt) = Some zs /\ length zs = 1%nat.
Proof. exists ex_table. split; [apply C45_case_hyps|]. split; [reflexivity|]. eexists. split; [vm_compute; reflexivity|reflexivity]. Qed.
Example C46_case : cat_helper (fun _ => TEnc [] 1) [TEnc [[1; 2]; [3; 4]] 65536; TEnc [[5; 6]] 65536; TEnc [] 65536] = Some ([[1; 2]; [3; 4]; [5; 6]], 65536)
  /\ cat_helper (fun v => TEnc (map (fun a => [a; 0]) v) 65536) [TEnc [[1; 2]; [3; 4]] 65536; TPlain [9]; TPlain [8]] = None.
Proof. split; reflexivity. Qed.
(** Operands of different scales are concatenated without rescaling: the second one (the number 3 at scale 1) becomes 3/65536. *)
Theorem C46_mixed_scale_refuted : exists x y r, n_sc x <> n_sc y /\ cat_helper (fun _ => TEnc [] 1) [TEnc [n_sh x] (n_sc x); TEnc [n_sh y] (n_sc y)] = Some (map n_sh r, 65536) /\
  Forall (fun z => n_sc z = 65536) r /\ ~ (nth 1 (map qval r) 0 == qval y)%Q.
Proof. exists ex_fix, (mkNum [1; 1; 1] 1), [ex_fix; mkNum [1; 1; 1] 65536]. split; [discriminate|]. split; [reflexivity|]. split; [repeat constructor|]. vm_compute. discriminate. Qed.
Example C47_case : reveal_arith (pad_public 1 2 (5 * 65536) [[1; 2]; [3; 4]; [H63 - 1; - H63]]) = [327680; - H63 + 3; - H63 + 6; 327680; 327680]
  /\ reveal_arith (pad_private 1 2 [1; 2; 3] [[1; 2]; [3; 4]; [H63 - 1; - H63]]) = [6; - H63 + 3; - H63 + 6; 6; 6] /\ reveal_arith (pool_pad 1 0 [[1; 2]; [3; 4]; [0; 5]]) = [-50331648; 4; 11].
Proof. vm_compute. repeat split; reflexivity. Qed.
(** So a window whose elements are all below -256 n (at the default scale) has its padding as maximum: here -1000 loses to -768. *)
Theorem C47_pool_pad_refuted : exists x, tensor 3 1 x /\ reveal_arith x = [-1000 * 65536] /\ exists p, In p (reveal_arith (pool_pad 1 0 x)) /\ nth 0 (reveal_arith x) 0 < p.
Proof. exists [[-1000 * 65536]; [0]; [0]]. split; [split; [reflexivity|repeat constructor]|]. split; [reflexivity|]. exists (-50331648). split; [vm_compute; auto|reflexivity]. Qed.
(** 0.3 (19660 at scale 2^16) squared in validation mode *)
Example C62_case : fst (squarev (pr := light) validation_mode (mkNum [19660; 1; -1] 65536) tt) = None /\ fst (squarev (pr := light) no_check (mkNum [19660; 1; -1] 65536) tt) <> None.
Proof. split; vm_compute; [reflexivity|discriminate]. Qed.
Example C62_case_hyps : in64 (19660 * 19660) /\ ~ (65536 | 19660 * 19660).
Proof. split; [unfold in64, H63; lia|]. intros [k H]. lia. Qed.
Print Assumptions C45_unbiased_refuted.
Print Assumptions C45_keyword_dim_refuted.
Print Assumptions C46_mixed_scale_refuted.
Print Assumptions C47_pool_pad_refuted.
