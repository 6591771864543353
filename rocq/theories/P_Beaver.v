(** Property theorems C09, C10, C13, C14 (openings). *)
Require Import ZArith List Lia.
From Verif Require Import Ring64 Sharing Encoder Arith Arith_proofs Beaver Beaver_proofs.
Import ListNotations.
Open Scope Z_scope.

(** C09: any bilinear tensor operation, any number of parties, any sharing, any valid triple. *)
Theorem C09_beaver_bilinear : forall n ka kb T a b c x y, (0 < n)%nat ->
  shaped n ka a -> shaped n ka x -> shaped n kb b -> shaped n kb y -> shaped n (length T) c -> valid_triple T a b c ->
  reveal_arith (beaver T a b c x y) = bil T (reveal_arith x) (reveal_arith y).
Proof. exact beaver_reveal. Qed.
Print Assumptions C09_beaver_bilinear.

(** The tables are the operations: elementwise product, matrix product, 1-d convolution with stride and padding. *)
Theorem C09_mul_table : forall n x y i, (i < n)%nat -> nth i (bil (mul_table n) x y) 0 = wmul (nth i x 0) (nth i y 0).
Proof. exact mul_table_spec. Qed.
Print Assumptions C09_mul_table.
Theorem C09_matmul_table : forall n k m x y r c, (r < n)%nat -> (c < m)%nat ->
  nth (r * m + c) (bil (matmul_table n k m) x y) 0 = wrap (zsum (map (fun l => nth (r * k + l) x 0 * nth (l * m + c) y 0) (seq 0 k))).
Proof. exact matmul_table_spec. Qed.
Print Assumptions C09_matmul_table.
Theorem C09_conv1d_table : forall cin len cout kw stride pad x w o p,
  let lout := (S ((len + 2 * pad - kw) / stride))%nat in
  (o < cout)%nat -> (p < lout)%nat ->
  nth (o * lout + p) (bil (conv1d_table cin len cout kw stride pad) x w) 0 =
  wrap (zsum (map (fun c => zsum (map (fun t => padded x len pad c (p * stride + t) * nth ((o * cin + c) * kw + t) w 0) (seq 0 kw))) (seq 0 cin))).
Proof. exact conv1d_spec. Qed.
Print Assumptions C09_conv1d_table.

Definition c09_a := [[5; 7; 1; 2]; [-3; H63 - 1; 4; 4]].
Definition c09_b := [[2; 3; -9; 1]; [100; 0; 6; 6]].
Definition c09_c := [[0; 0; 0; 0]; bil (matmul_table 2 2 2) (reveal_arith c09_a) (reveal_arith c09_b)].
Example C09_case_valid : valid_triple (matmul_table 2 2 2) c09_a c09_b c09_c /\ shaped 2 4 c09_a /\ shaped 2 4 c09_b /\ shaped 2 (length (matmul_table 2 2 2)) c09_c.
Proof.
  repeat split; repeat constructor. intros i Hi. cbn in Hi. do 4 (destruct i as [|i]; [vm_compute; reflexivity|]). lia.
Qed.
Example C09_case : reveal_arith (beaver (matmul_table 2 2 2) c09_a c09_b c09_c [[1; 2; 3; 4]; [0; 0; 0; 0]] [[5; 6; 7; 8]; [1; 1; 1; 1]]) = [22; 25; 50; 57].
Proof. vm_compute. reflexivity. Qed.

(** C10 *)
Theorem C10_square : forall r r2 x, length r = length x -> length r2 = length x -> (0 < length x)%nat ->
  open_a r2 == open_a r * open_a r -> open_a (square r r2 x) = wmul (open_a x) (open_a x).
Proof. exact square_ok. Qed.
Print Assumptions C10_square.
Example C10_case : open_a (square [H63 - 1; 9] [64; 0] [4; 8]) = 144 /\ open_a [64; 0] == open_a [H63 - 1; 9] * open_a [H63 - 1; 9].
Proof. split; vm_compute; reflexivity. Qed.

(** C13: an honest pair of triples passes; any pair passes exactly when the errors cancel. *)
Theorem C13_honest_pass : forall n t a b c f g h, (0 < n)%nat -> length a = n -> length b = n -> length c = n -> length f = n -> length g = n -> length h = n ->
  open_a c == open_a a * open_a b -> open_a h == open_a f * open_a g -> triples_check t a b c f g h = 0.
Proof. exact triples_check_honest. Qed.
Print Assumptions C13_honest_pass.
Theorem C13_pass_iff : forall n t a b c f g h, (0 < n)%nat -> length a = n -> length b = n -> length c = n -> length f = n -> length g = n -> length h = n ->
  (triples_check t a b c f g h = 0 <-> t * (open_a c - open_a a * open_a b) == open_a h - open_a f * open_a g).
Proof. exact triples_check_pass. Qed.
Print Assumptions C13_pass_iff.
(** An error of 2^63 in one triple escapes for every even multiplier. *)
Theorem C13_half_error : forall t, t * 2 ^ 63 == 0 <-> Z.even t = true.
Proof. exact half_error_even. Qed.
Print Assumptions C13_half_error.
(** The multiplier is a float32: for draws [t_raw >= 2^(j+16)] it is a multiple of [2^(j-23)], so forged triples whose error is any
    multiple of [2^(87-j)] always pass (at [j = 46], a quarter of all draws, every multiple of [2^41]). *)
Theorem C13_float_multiplier_blind : forall n j t_raw k a b c f g h,
  (0 < n)%nat -> length a = n -> length b = n -> length c = n -> length f = n -> length g = n -> length h = n ->
  23 <= j <= 87 -> 2 ^ (j + 16) <= t_raw ->
  open_a c == open_a a * open_a b + k * 2 ^ (87 - j) -> open_a h == open_a f * open_a g ->
  triples_check (f32_multiplier t_raw) a b c f g h = 0.
Proof. exact triples_check_blind. Qed.
Print Assumptions C13_float_multiplier_blind.
Example C13_blind_case : 2 ^ (46 + 16) <= 2 ^ 62 + 123456789 < 2 ^ 63 /\
  triples_check (f32_multiplier (2 ^ 62 + 123456789)) [3; 4] [5; 6] [77; 2 ^ 41] [1; 1] [2; 2] [8; 0] = 0 /\
  triples_check 3 [3; 4] [5; 6] [77; 2 ^ 41] [1; 1] [2; 2] [8; 0] <> 0.
Proof. vm_compute. repeat split; discriminate. Qed.
Example C13_honest_case : triples_check 12345 [3; 4] [5; 6] [70; 7] [1; 1] [2; 2] [5; 3] = 0.
Proof. reflexivity. Qed.

(** The same elementwise check applied to honest matrix-product triples rejects them. *)
Theorem C13_matmul_honest_rejected_refuted : exists a b c f g h t,
  valid_triple (matmul_table 2 2 2) a b c /\ valid_triple (matmul_table 2 2 2) f g h /\
  triples_ok (map (fun i => triples_check t (col a i) (col b i) (col c i) (col f i) (col g i) (col h i)) (seq 0 4)) = false.
Proof.
  exists c09_a, c09_b, c09_c, [[1; 2; 3; 4]], [[1; 0; 0; 1]], [[1; 2; 3; 4]], 3. split; [|split].
  - exact (proj1 C09_case_valid).
  - intros i Hi. cbn in Hi. do 4 (destruct i as [|i]; [vm_compute; reflexivity|]). lia.
  - vm_compute. reflexivity.
Qed.
Print Assumptions C13_matmul_honest_rejected_refuted.

(** C14: for every secret and every opened value there is exactly one mask producing it. *)
Theorem C14_unique_mask : forall x e, in64 e -> in64 (wsub x e) /\ wsub x (wsub x e) = e /\ (forall a, in64 a -> wsub x a = e -> a = wsub x e).
Proof.
  exact (fun x e He => conj (wsub_in64 x e) (conj (wsub_invol x e He)
    (fun a Ha H => wsub_inj x a (wsub x e) Ha (wsub_in64 x e) (eq_trans H (eq_sym (wsub_invol x e He)))))).
Qed.
Print Assumptions C14_unique_mask.
(** Masks from the generator are in [-2^63, 2^63-1) (upper bound exclusive): exactly one opening per secret never occurs. *)
Theorem C14_excluded_opening : forall x e, in64 e ->
  ((exists a, - H63 <= a < H63 - 1 /\ wsub x a = e) <-> e <> wsub x (H63 - 1)).
Proof.
  intros x e He. split.
  - intros (a & Ha & <-) E. apply wsub_inj in E; unfold in64, H63 in *; lia.
  - intros Hne. exists (wsub x e). split; [|now apply wsub_invol].
    pose proof (wsub_in64 x e) as H. unfold in64 in H. assert (wsub x e <> H63 - 1); [|lia].
    intros E. apply Hne. rewrite <- E. now rewrite wsub_invol.
Qed.
Print Assumptions C14_excluded_opening.
Example C14_case : wsub 5 (H63 - 1) = - H63 + 6.
Proof. reflexivity. Qed.
