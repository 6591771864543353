(** Property theorems C11, C12, C15, C16, C17, C18, C19, C20. *)
Require Import ZArith List Lia QArith Qabs.
From Verif Require Import Ring64 Sharing Arith Arith_proofs Beaver Beaver_proofs Trunc Trunc_proofs.
Import ListNotations.
Open Scope Z_scope.

(** C16: the count is the exact number of wraps of the integer sum, plus one for every step that adds -2^63 to a
    running value -2^63 ([wraps_of] and [corners] are the specification, Trunc_proofs.v). *)
Theorem C16_count_wraps : forall l, l <> [] -> Forall in64 l -> 4 * Z.of_nat (length l) < H63 ->
  zsum l = wrap (zsum l) + (count_wraps l - corners l) * M64.
Proof. exact (fun l H1 H2 H3 => ltac:(rewrite (count_wraps_exact l H1 H2 H3); replace (wraps_of l + corners l - corners l) with (wraps_of l) by ring; exact (wraps_of_eq l))). Qed.
Print Assumptions C16_count_wraps.
Example C16_case : count_wraps [H63 - 1; 5; H63 - 1; -20] = 1 /\ corners [H63 - 1; 5; H63 - 1; -20] = 0.
Proof. split; reflexivity. Qed.
Theorem C16_naive_refuted : exists l, Forall in64 l /\ zsum l <> wrap (zsum l) + count_wraps l * M64.
Proof. exists [- H63; - H63]. split; [repeat constructor; unfold in64, H63; lia|]. vm_compute. discriminate. Qed.
Print Assumptions C16_naive_refuted.

(** C17: the protocol reveals the wraps of x's shares, plus the overflow of [x + r], plus the corner terms of the three
    wrap counts it uses. *)
Theorem C17_wrap_protocol : forall r theta_r x, x <> [] -> length r = length x -> length theta_r = length x ->
  Forall in64 x -> Forall in64 r -> open_a theta_r == count_wraps r ->
  open_a (wraps r theta_r x) = wrap (wraps_of x + wraps_of [open_a x; open_a r] + (corners (zipw wadd x r) + pair_corners x r - corners r)).
Proof. exact (fun r th x H1 H2 H3 H4 H5 H6 => eq_trans (open_a_eq _) (eqm_wrap_eq _ _ (proj2 (wraps_ok r th x H1 H2 H3 H4 H5 H6)))). Qed.
Print Assumptions C17_wrap_protocol.
(** The overflow term is zero exactly when the plaintext sum fits. *)
Theorem C17_eta : forall x r, in64 (x + r) <-> wraps_of [x; r] = 0.
Proof. exact eta_zero. Qed.
Print Assumptions C17_eta.
Example C17_case : open_a (wraps [7; -100; H63 - 5] [1; -1; 0] [H63 - 1; H63 - 1; 12]) = 1 /\ wraps_of [H63 - 1; H63 - 1; 12] = 1 /\ open_a [1; -1; 0] == count_wraps [7; -100; H63 - 5].
Proof. repeat split; reflexivity. Qed.

(** C18: three or more parties (the statement holds for any number).  [y*result] is within
    [n*(y-1) + 4*|wraps|*(2^62 mod y)] of [x]; with [y] dividing 2^62 (every power of two) the second term is 0. *)
Theorem C18_truncate : forall r theta_r x y, x <> [] -> length r = length x -> length theta_r = length x -> Forall in64 x -> Forall in64 r ->
  open_a theta_r == count_wraps r -> 0 < y -> in64 (open_a x + open_a r) ->
  corners (zipw wadd x r) = 0 -> pair_corners x r = 0 -> corners r = 0 -> Z.of_nat (length x) <= 2 ^ 32 ->
  Z.abs (y * open_a (truncate r theta_r x y) - open_a x) <= Z.of_nat (length x) * (y - 1) + 4 * Z.abs (wraps_of x) * (2 ^ 62 mod y).
Proof. exact truncate_close. Qed.
Print Assumptions C18_truncate.
(** The number of wraps is at most half the number of parties. *)
Theorem C18_wraps_bound : forall x, Forall in64 x -> 2 * Z.abs (wraps_of x) <= Z.of_nat (length x) + 1.
Proof. exact wraps_of_bound. Qed.
Print Assumptions C18_wraps_bound.
(** Without those side conditions, the exact effect of a mask overflow. *)
Theorem C18_truncate_general : forall r theta_r x y, x <> [] -> length r = length x -> length theta_r = length x -> Forall in64 x -> Forall in64 r ->
  open_a theta_r == count_wraps r -> 0 < y ->
  let eta := wraps_of [open_a x; open_a r] + (corners (zipw wadd x r) + pair_corners x r - corners r) in
  exists D, length (truncate r theta_r x y) = length x /\ open_a (truncate r theta_r x y) = wrap (D - eta * (4 * (2 ^ 62 / y))) /\
    Z.abs (y * D - open_a x) <= Z.of_nat (length x) * (y - 1) + 4 * Z.abs (wraps_of x) * (2 ^ 62 mod y).
Proof. exact truncate_ok. Qed.
Print Assumptions C18_truncate_general.
Definition c18_x := [H63 - 1; H63 - 1; 65538].
Definition c18_r := [7; -100; 3000].
Example C18_case : open_a (truncate c18_r [0; 0; 0] c18_x 65536) = -1 /\ open_a c18_x = 65536.
Proof. split; reflexivity. Qed.
Example C18_case_hyps : open_a [0; 0; 0] == count_wraps c18_r /\ in64 (open_a c18_x + open_a c18_r) /\ corners (zipw wadd c18_x c18_r) = 0 /\ pair_corners c18_x c18_r = 0 /\ corners c18_r = 0 /\ wraps_of c18_x = 1.
Proof. vm_compute. repeat split; discriminate. Qed.
(** The mask overflow matters: same secret, a mask that makes [x + r] overflow, wildly wrong quotient. *)
Theorem C18_overflow_refuted : exists r theta_r x, open_a theta_r == count_wraps r /\ open_a x = 65536 /\ open_a (truncate r theta_r x 65536) = 1 - 2 ^ 48.
Proof. exists [H63 - 1; 0; 0], [0; 0; 0], [65536; 0; 0]. repeat split; vm_compute; reflexivity. Qed.
Print Assumptions C18_overflow_refuted.

(** C15: one party. *)
Theorem C15_one_party : forall r th x y, 0 < y -> in64 x -> open_a (div_ r th [x] y) = Z.quot x y.
Proof. exact (fun r th x y => div_local_one x y). Qed.
Print Assumptions C15_one_party.
(** C15: two parties, shares that do not wrap: within 1 of the truncated quotient. *)
Theorem C15_two_parties : forall r th a b y, 0 < y -> in64 a -> in64 b -> in64 (a + b) ->
  Z.abs (open_a (div_ r th [a; b] y) - Z.quot (open_a [a; b]) y) <= 1.
Proof. exact (fun r th => div_local_two_nowrap). Qed.
Print Assumptions C15_two_parties.
(** C15: two parties, shares that wrap: the quotient of [x +- 2^64], i.e. off by about [2^64/y]. *)
Theorem C15_two_parties_wrapped : forall r th a b y, 2 <= y -> in64 a -> in64 b -> ~ in64 (a + b) ->
  exists w, (w = 1 \/ w = -1) /\ a + b = open_a [a; b] + w * M64 /\
  Z.abs (open_a (div_ r th [a; b] y) - Z.quot (open_a [a; b] + w * M64) y) <= 1.
Proof. exact (fun r th => div_local_two_wrapped). Qed.
Print Assumptions C15_two_parties_wrapped.
Example C15_cases : open_a (div_ [] [] [-7] 2) = -3 /\ open_a (div_ [] [] [1000; -1] 10) = 100 /\ Z.quot (open_a [1000; -1]) 10 = 99 /\
  open_a (div_ [] [] [H63 - 1; 11] 10) <> Z.quot (open_a [H63 - 1; 11]) 10.
Proof. vm_compute. repeat split; discriminate. Qed.

(** C11: product of two encrypted numbers of one scale [s]; error in terms of the numbers they stand for. *)
Theorem C11_one_party : forall a b c r th x y s, length a = 1%nat -> length b = 1%nat -> length c = 1%nat -> length x = 1%nat -> length y = 1%nat ->
  open_a c == open_a a * open_a b -> in64 (open_a x * open_a y) -> 1 < s ->
  exists res, mul_fixed a b c r th x y s s = (res, s) /\
  (Qabs (number (open_a res) s - number (open_a x) s * number (open_a y) s) <= number (s - 1) (s * s))%Q.
Proof.
  intros a b c r th x y s La Lb Lc Lx Ly Hv Hf Hs. destruct (fixed_one 1 a b c r th x y s s) as (res & E & B); auto.
  exists res. split; [assumption|]. apply number_product; [lia|assumption].
Qed.
Print Assumptions C11_one_party.
Theorem C11_two_parties : forall a b c r th x y s p0 p1, length a = 2%nat -> length b = 2%nat -> length c = 2%nat -> length x = 2%nat -> length y = 2%nat ->
  open_a c == open_a a * open_a b -> in64 (open_a x * open_a y) -> 1 < s ->
  mul1 a b c x y = [p0; p1] -> in64 (p0 + p1) ->
  exists res, mul_fixed a b c r th x y s s = (res, s) /\
  (Qabs (number (open_a res) s - number (open_a x) s * number (open_a y) s) <= number (2 * s - 1) (s * s))%Q.
Proof.
  intros a b c r th x y s p0 p1 La Lb Lc Lx Ly Hv Hf Hs Hraw Hw. destruct (fixed_two 2 a b c r th x y s s ltac:(lia) La Lb Lc Lx Ly Hv Hf p0 p1) as (res & E & B); auto.
  exists res. split; [assumption|]. apply number_product; [lia|assumption].
Qed.
Print Assumptions C11_two_parties.
Theorem C11_many_parties : forall n a b c r th x y s, (2 < n)%nat -> Z.of_nat n <= 2 ^ 32 ->
  length a = n -> length b = n -> length c = n -> length x = n -> length y = n -> length r = n -> length th = n -> Forall in64 r ->
  open_a c == open_a a * open_a b -> open_a th == count_wraps r -> in64 (open_a x * open_a y) -> 1 < s ->
  in64 (open_a x * open_a y + open_a r) ->
  corners (zipw wadd (mul1 a b c x y) r) = 0 -> pair_corners (mul1 a b c x y) r = 0 -> corners r = 0 ->
  exists res, mul_fixed a b c r th x y s s = (res, s) /\
  (Qabs (number (open_a res) s - number (open_a x) s * number (open_a y) s) <=
     number (Z.of_nat n * (s - 1) + 4 * Z.abs (wraps_of (mul1 a b c x y)) * (2 ^ 62 mod s)) (s * s))%Q.
Proof.
  intros n a b c r th x y s Hn Hb La Lb Lc Lx Ly Lr Lt Hr Hv Hth Hf Hs Heta C1 C2 C3.
  destruct (fixed_many n a b c r th x y s s) as (res & E & B); auto; [lia|].
  exists res. split; [assumption|]. apply number_product; [lia|assumption].
Qed.
Print Assumptions C11_many_parties.
Example C11_case : let '(res, s) := mul_fixed [5; 6] [1; -3] [-22; 0] [] [] [65536; 98304] [131072; 0] 65536 65536 in open_a res = 327679 /\ s = 65536.
Proof. vm_compute. split; reflexivity. Qed.
Example C11_case_hyps : exists p0 p1, mul1 [5; 6] [1; -3] [-22; 0] [65536; 98304] [131072; 0] = [p0; p1] /\ in64 (p0 + p1) /\ open_a [-22; 0] == open_a [5; 6] * open_a [1; -3].
Proof. do 2 eexists. split; [vm_compute; reflexivity|]. unfold in64, H63. split; [lia|vm_compute; reflexivity]. Qed.
Example C11_case3 : let '(res, s) := mul_fixed [5; 6; 1] [1; -3; 2] [0; 0; 0] [10; 20; 30] [0; 0; 0] [65536; 98304; 0] [131072; 0; 1] 65536 65536 in open_a res = 327680 /\ s = 65536.
Proof. vm_compute. split; reflexivity. Qed.

(** C12: one scale is 1: exact product, at the other scale. *)
Theorem C12_unit_scale : forall n a b c r th x y sx sy, (0 < n)%nat ->
  length a = n -> length b = n -> length c = n -> length x = n -> length y = n ->
  open_a c == open_a a * open_a b -> in64 (open_a x * open_a y) -> sx = 1 \/ sy = 1 -> 1 <= sx -> 1 <= sy ->
  exists res, mul_fixed a b c r th x y sx sy = (res, sx * sy) /\ (number (open_a res) (sx * sy) == number (open_a x) sx * number (open_a y) sy)%Q.
Proof.
  intros n a b c r th x y sx sy Hn La Lb Lc Lx Ly Hv Hf Hs H1 H2. destruct (fixed_unit n a b c r th x y sx sy) as (res & E & B); auto.
  exists res. split; [assumption|]. rewrite B. unfold number. rewrite !inject_Z_mult. field. split; apply inject_Z_nz; lia.
Qed.
Print Assumptions C12_unit_scale.
(** C12: two scales above 1: the number obtained is [x*y*sy/sx] (up to rounding), one party. *)
Theorem C12_both_scales : forall a b c r th x y sx sy, length a = 1%nat -> length b = 1%nat -> length c = 1%nat -> length x = 1%nat -> length y = 1%nat ->
  open_a c == open_a a * open_a b -> in64 (open_a x * open_a y) -> 1 < sx -> 1 < sy ->
  exists res, mul_fixed a b c r th x y sx sy = (res, sx) /\
  (Qabs (number (open_a res) sx - number (open_a x) sx * number (open_a y) sy * (inject_Z sy / inject_Z sx)) <= number (sx - 1) (sx * sx))%Q.
Proof.
  intros a b c r th x y sx sy La Lb Lc Lx Ly Hv Hf Hs Hs2. destruct (fixed_one 1 a b c r th x y sx sy) as (res & E & B); auto.
  exists res. split; [assumption|]. apply number_product_scales; [lia|lia|assumption].
Qed.
Print Assumptions C12_both_scales.
(** Hence 1 * 1 is not 1 for any two different scales above 1. *)
Theorem C12_one_times_one_refuted : forall sx sy, 1 < sx -> 1 < sy -> sx <> sy -> in64 sx -> in64 sy -> in64 (sx * sy) ->
  exists res, mul_fixed [0] [0] [0] [] [] [sx] [sy] sx sy = (res, sx) /\
   (number sx sx == 1)%Q /\ (number sy sy == 1)%Q /\ ~ (number (open_a res) sx == 1)%Q.
Proof.
  intros sx sy Hx Hy Hne Ix Iy If. destruct (fixed_one 1 [0] [0] [0] [] [] [sx] [sy] sx sy) as (res & E & B); auto.
  - reflexivity.
  - rewrite !open_a_eq. cbn [zsum fold_right]. rewrite !Z.add_0_r, !wrap_id by assumption. assumption.
  - exists res. split; [assumption|]. rewrite !open_a_eq in B. cbn [zsum fold_right] in B. rewrite !Z.add_0_r, !(wrap_id sx), !(wrap_id sy) in B by assumption.
    rewrite <- open_a_eq in B. assert (open_a res = sy) by nia. rewrite H. unfold number.
    pose proof (inject_Z_nz sx ltac:(lia)). pose proof (inject_Z_nz sy ltac:(lia)). repeat split; try (field; assumption).
    intros G. apply Hne. assert (inject_Z sy == inject_Z sx)%Q by (rewrite <- (Qmult_1_l (inject_Z sx)), <- G; field; assumption).
    unfold Qeq in H2; cbn in H2. lia.
Qed.
Print Assumptions C12_one_times_one_refuted.
Example C12_case : mul_fixed [0] [0] [0] [] [] [65536] [4] 65536 4 = ([4], 65536).
Proof. reflexivity. Qed.

(** C19: replicated protocols with three parties. *)
Theorem C19_replicated_bilinear : forall k x y T, shaped 3 k x -> (exists k', shaped 3 k' y) ->
  exists z, replicated T x y = Some z /\ reveal_arith z = bil T (reveal_arith x) (reveal_arith y).
Proof. exact replicated_ok. Qed.
Print Assumptions C19_replicated_bilinear.
Theorem C19_replicated_square : forall x0 x1 x2, exists z, replicated_square [x0; x1; x2] = Some z /\
  open_a z = wmul (open_a [x0; x1; x2]) (open_a [x0; x1; x2]).
Proof. exact replicated_square_ok. Qed.
Print Assumptions C19_replicated_square.
Theorem C19_replicated_and : forall x0 x1 x2 y0 y1 y2, exists z, replicated_and [x0; x1; x2] [y0; y1; y2] = Some z /\
  open_b z = Z.land (open_b [x0; x1; x2]) (open_b [y0; y1; y2]).
Proof. exact replicated_and_ok. Qed.
Print Assumptions C19_replicated_and.
Theorem C19_too_few : forall T x y, (length x < 3)%nat -> replicated T x y = None.
Proof. exact (fun T x y H => ltac:(unfold replicated; apply Nat.ltb_lt in H; rewrite H; reflexivity)). Qed.
Print Assumptions C19_too_few.
(** With any number [m+4] of parties there are sharings of 1 and 1 whose product is revealed as 0. *)
Theorem C19_four_or_more_refuted : forall m, let x := 1 :: 0 :: repeat 0 (S (S m)) in let y := 0 :: 0 :: 1 :: repeat 0 (S m) in
  exists z, replicated [[(0%nat, 0%nat)]] (map (fun s => [s]) x) (map (fun s => [s]) y) = Some z /\
   reveal_arith z = [0] /\ open_a x = 1 /\ open_a y = 1.
Proof. exact replicated_four_wrong. Qed.
Print Assumptions C19_four_or_more_refuted.
Example C19_case : option_map reveal_arith (replicated (matmul_table 1 2 1) [[1; 2]; [3; 4]; [H63 - 1; 0]] [[1; 1]; [5; 6]; [0; 7]]) = Some [wrap (- H63 * 6 + 3 * 6 + 6 * 14)].
Proof. vm_compute. reflexivity. Qed.

(** C20 *)
Theorem C20_replicated_truncate : forall z x0 x1 x2 y, length z = 3%nat -> zsum z == 0 -> 0 < y -> in64 x0 -> in64 x1 -> in64 x2 ->
  in64 (x0 + wadd x1 x2) ->
  exists res, replicated_truncate z [x0; x1; x2] y = Some res /\ Z.abs (open_a res - Z.quot (open_a [x0; x1; x2]) y) <= 1.
Proof. exact replicated_truncate_ok. Qed.
Print Assumptions C20_replicated_truncate.
Theorem C20_other_sizes : forall z x y, length x <> 3%nat -> replicated_truncate z x y = None.
Proof. intros z x y H. destruct x as [|? [|? [|? [|? ?]]]]; cbn in *; try reflexivity; congruence. Qed.
Print Assumptions C20_other_sizes.
Example C20_case : option_map open_a (replicated_truncate [5; -9; 4] [1000; H63 - 1; - H63] 10) = Some 100 /\ in64 (1000 + wadd (H63 - 1) (- H63)).
Proof. vm_compute. repeat split; discriminate. Qed.
Theorem C20_wrap_refuted : exists x0 x1 x2, open_a [x0; x1; x2] = 0 /\ option_map open_a (replicated_truncate [0; 0; 0] [x0; x1; x2] 2) = Some (- H63).
Proof. exists (- H63), (- H63), 0. split; vm_compute; reflexivity. Qed.
Print Assumptions C20_wrap_refuted.

(** C18 for the encoder's own scales (powers of two up to 2^62): the remainder term disappears. *)
Theorem C18_truncate_pow2 : forall r theta_r x p, x <> [] -> length r = length x -> length theta_r = length x -> Forall in64 x -> Forall in64 r ->
  open_a theta_r == count_wraps r -> 0 <= p <= 62 -> in64 (open_a x + open_a r) ->
  corners (zipw wadd x r) = 0 -> pair_corners x r = 0 -> corners r = 0 -> Z.of_nat (length x) <= 2 ^ 32 ->
  Z.abs (2 ^ p * open_a (truncate r theta_r x (2 ^ p)) - open_a x) <= Z.of_nat (length x) * (2 ^ p - 1).
Proof.
  intros r th x p H1 H2 H3 H4 H5 H6 Hp H8 C1 C2 C3 Hb. pose proof (Z.pow_pos_nonneg 2 p ltac:(lia) ltac:(lia)).
  pose proof (truncate_close r th x (2 ^ p) H1 H2 H3 H4 H5 H6 ltac:(lia) H8 C1 C2 C3 Hb) as T.
  replace (2 ^ 62 mod 2 ^ p) with 0 in T; [lia|]. symmetry. apply Z.mod_divide; [lia|]. exists (2 ^ (62 - p)). rewrite <- Z.pow_add_r by lia. f_equal; lia.
Qed.
Print Assumptions C18_truncate_pow2.
