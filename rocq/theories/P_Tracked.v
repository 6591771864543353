(** Property theorems C96: what operations compute when an argument requires a gradient. *)
Require Import ZArith QArith Qabs Qpower List Lia Bool.
From Verif Require Import Ring64 Encoder Arith Beaver Trunc Provider Binary Compare Compare_proofs Compare_claims Maximum Maximum_proofs Maximum_claims P_Maximum Regular Regular_proofs Regular_claims Tracked Tracked_claims.
Import ListNotations.
Open Scope Z_scope.

(** C96. *)
Section Claims.
  Variables (n : nat) (pr : provider) (D : Z).
  Hypothesis Hn : (0 < n)%nat.
  Hypothesis HV : valid n pr.
  Hypothesis HD : 0 < D < H63.
  (** relu of a tensor that requires a gradient is max(x, 0), as without one, except for the least 64-bit integer, which it leaves as it is. *)
  Theorem C96_relu : forall x st, sharing n x -> n_sc x = 1 \/ n_sc x = D ->
    let v := open_a (n_sh x) in let r := fst (relu_tracked (pr := pr) D x st) in
    n_sc r = n_sc x /\ (- H63 < v -> open_a (n_sh r) = Z.max v 0) /\ (v = - H63 -> open_a (n_sh r) = v).
  Proof. exact (k_C96_relu n pr D Hn HV HD). Qed.
  (** hardtanh of a tensor that requires a gradient keeps the numbers inside the interval and gives the integer part of a bound, cut off towards zero, outside. *)
  Theorem C96_hardtanh : forall x lo hi st, sharing n x -> n_sc x = 1 \/ n_sc x = D -> plain lo -> plain hi -> ~ (number lo == number hi)%Q ->
    let s := n_sc x in let v := open_a (n_sh x) in bound s lo < bound s hi -> - H63 < v - bound s lo < H63 -> - H63 < bound s hi - v < H63 ->
    let r := fst (hardtanh_tracked (pr := pr) D x lo hi st) in
    n_sc r = s /\ open_a (n_sh r) = if v <=? bound s lo then wrap (part lo * s) else if bound s hi <=? v then wrap (part hi * s) else v.
  Proof. exact (k_C96_hardtanh n pr D Hn HV HD). Qed.
  (** with integral bounds this is the clamp that hardtanh computes without a gradient. *)
  Theorem C96_hardtanh_integral : forall x lo hi a b st st', sharing n x -> n_sc x = 1 \/ n_sc x = D -> plain lo -> plain hi -> (number lo == inject_Z a)%Q -> (number hi == inject_Z b)%Q -> a < b ->
    let s := n_sc x in let v := open_a (n_sh x) in in64 (a * s) -> in64 (b * s) -> - H63 < v - a * s < H63 -> - H63 < b * s - v < H63 ->
    let r := fst (hardtanh_tracked (pr := pr) D x lo hi st) in let r' := fst (hardtanh (pr := pr) D x lo hi st') in
    n_sc r = s /\ n_sc r' = s /\ open_a (n_sh r) = Z.min (Z.max v (a * s)) (b * s) /\ open_a (n_sh r') = Z.min (Z.max v (a * s)) (b * s).
  Proof. exact (k_C96_hardtanh_integral n pr D Hn HV HD). Qed.
  (** with an upper bound that has a fraction the two disagree on every number that is too large. *)
  Theorem C96_hardtanh_refuted : forall x lo hi st st', sharing n x -> n_sc x = 1 \/ n_sc x = D -> plain lo -> plain hi -> ~ (number lo == number hi)%Q ->
    let s := n_sc x in let v := open_a (n_sh x) in in64 (bound s lo) -> in64 (bound s hi) -> bound s lo < bound s hi -> - H63 < v - bound s lo < H63 -> - H63 < bound s hi - v < H63 ->
    bound s hi <= v -> in64 (part hi * s) -> part hi * s <> bound s hi ->
    open_a (n_sh (fst (hardtanh_tracked (pr := pr) D x lo hi st))) <> open_a (n_sh (fst (hardtanh (pr := pr) D x lo hi st'))).
  Proof. exact (k_C96_hardtanh_refuted n pr D Hn HV HD). Qed.
  (** with equal bounds it is the bound, at the default scale. *)
  Theorem C96_hardtanh_equal : forall x lo hi st, plain lo -> (number lo == number hi)%Q ->
    let r := fst (hardtanh_tracked (pr := pr) D x lo hi st) in n_sc r = D /\ open_a (n_sh r) = wrap (bound D lo).
  Proof. exact (k_C96_hardtanh_equal n pr D Hn HV HD). Qed.
  (** relu6 is the clamp to the interval from 0 to 6. *)
  Theorem C96_relu6 : forall x st, sharing n x -> n_sc x = 1 \/ n_sc x = D -> let s := n_sc x in let v := open_a (n_sh x) in - H63 < v -> - H63 < 6 * s - v < H63 -> in64 (6 * s) ->
    let r := fst (relu6_tracked (pr := pr) D x st) in n_sc r = s /\ open_a (n_sh r) = Z.min (Z.max v 0) (6 * s).
  Proof. exact (k_C96_relu6 n pr D Hn HV HD). Qed.
  (** multiplying by a Python int is no longer exact: it is a fixed-point multiplication, accurate when the truncations are ... *)
  Theorem C96_mul_int : forall s E x k st z, 1 <= E -> 4 * E <= s -> sharing n x -> n_sc x = s -> in64 (open_a (n_sh x) * (s * k)) ->
    fst (mul_int_tracked (pr := pr) (within E) x k st) = Some z ->
    fst (mul_int_tracked (pr := pr) no_check x k st) = Some z /\ n_sc z = s /\ exists v, open_a (n_sh z) = wrap v /\ Z.abs (v - open_a (n_sh x) * k) < E.
  Proof. exact (k_C96_mul_int n pr Hn HV). Qed.
  (** ... and with a single party it gives the product exactly when the product encoded twice still fits, while without a gradient it is enough that the product fits. *)
  Theorem C96_mul_int_one : forall s x k st, n = 1%nat -> 1 < s -> s < H63 -> sharing n x -> n_sc x = s -> in64 (open_a (n_sh x) * k) ->
    (exists z, fst (mul_int_tracked (pr := pr) no_check x k st) = Some z /\ n_sc z = s /\ (open_a (n_sh z) = open_a (n_sh x) * k <-> in64 (open_a (n_sh x) * k * s))) /\
    open_a (n_sh (muli_num k x)) = open_a (n_sh x) * k.
  Proof. exact (k_C96_mul_int_one n pr Hn HV). Qed.
  (** with two parties even multiplying an encryption of 0 by 1 may give something else: here -2^48 units. *)
  Theorem C96_mul_int_refuted : n = 2%nat -> exists x, sharing n x /\ n_sc x = 65536 /\ open_a (n_sh x) = 0 /\ open_a (n_sh (muli_num 1 x)) = 0 /\
    forall st, exists z, fst (mul_int_tracked (pr := pr) no_check x 1 st) = Some z /\ open_a (n_sh z) = - 2 ^ 48.
  Proof. exact (k_C96_mul_int_refuted n pr Hn HV). Qed.
  (** pow with an integer power of at least 2 computes x^q where q >= p, and q = p just when p - 1 is of the form 2^k or 3 * 2^k. *)
  Theorem C96_pow : forall p, 2 <= p -> exists q, p <= q /\ (q = p <-> exists k, 0 <= k /\ (p - 1 = 2 ^ k \/ p - 1 = 3 * 2 ^ k)) /\
    (forall x st, sharing n x -> n_sc x = 1 -> exists z, fst (pow_tracked (pr := pr) D no_check x p st) = Some z /\ open_a (n_sh z) = wrap (open_a (n_sh x) ^ q) /\ n_sc z = 1) /\
    (forall s E x st z, 1 <= E -> 4 * E <= s -> s <= 2 ^ 31 -> sharing n x -> n_sc x = s -> (Qabs (qval x) <= 1 - ulps (2 * E) s)%Q ->
      fst (pow_tracked (pr := pr) D (within E) x p st) = Some z ->
      fst (pow_tracked (pr := pr) D no_check x p st) = Some z /\ n_sc z = s /\ (Qabs (qval z - qval x ^ q) <= ulps ((q - 1) * E) s)%Q) /\
    (forall s x st, n = 1%nat -> 4 <= s -> s <= 2 ^ 31 -> sharing n x -> n_sc x = s -> (Qabs (qval x) <= 1 - ulps 2 s)%Q ->
      exists z, fst (pow_tracked (pr := pr) D no_check x p st) = Some z /\ n_sc z = s /\ (Qabs (qval z - qval x ^ q) <= ulps (q - 1) s)%Q).
  Proof. exact (k_C96_pow n pr D Hn HV HD). Qed.
  (** without a gradient pow computes another power of x from 5 on: the exponents of the two are the same up to 4 and never again. *)
  Theorem C96_pow_differs : forall p, 2 <= p -> exists q q', (q = q' <-> p <= 4) /\
    forall x st st', sharing n x -> n_sc x = 1 -> exists z z', fst (pow_tracked (pr := pr) D no_check x p st) = Some z /\ fst (pow_num (pr := pr) D no_check x p st') = Some z' /\
      open_a (n_sh z) = wrap (open_a (n_sh x) ^ q) /\ open_a (n_sh z') = wrap (open_a (n_sh x) ^ q').
  Proof. exact (k_C96_pow_differs n pr D Hn HV HD). Qed.
End Claims.
Section Extremes.
  Variables (n : nat) (pr : provider) (D : Z) (p : nat) (local_bits : run pr (list Z)) (log_steps cascade_steps isqrt : nat -> nat).
  Hypothesis Hn : (0 < n)%nat.
  Hypothesis HV : valid n pr.
  Hypothesis Hp : (1 <= p <= 62)%nat.
  Hypothesis HD : D = 2 ^ Z.of_nat p.
  (** every party's local draw is one of the 2^p values *)
  Hypothesis Hlocal : forall st, let u := fst (local_bits st) in length u = n /\ Forall (fun z => 0 <= z < D) u.
  (** int(math.sqrt(m)) lies strictly between 0 and m for m >= 2 (nothing else is assumed of it) *)
  Hypothesis Hsqrt : forall m, (2 <= m)%nat -> (1 <= isqrt m < m)%nat.
  Local Notation min_tracked' := (min_tracked D p local_bits log_steps cascade_steps isqrt).
  Local Notation max_tracked' := (max_tracked D p local_bits log_steps cascade_steps isqrt).
  (** min without a dimension of a tensor that requires a gradient is the least element. *)
  Theorem C96_min : forall me xs s st, s = 1 \/ s = D -> vector n s xs -> differences_fit xs -> short n D s xs ->
    let r := fst (min_tracked' true me xs st) in least (open_a (n_sh r)) (reveals xs) /\ n_sc r = s.
  Proof. exact (k_C96_min n pr D p local_bits log_steps cascade_steps isqrt Hn HV Hp HD Hlocal Hsqrt). Qed.
  (** asked for an index instead of indicators, it returns the sum of all elements times the index. *)
  Theorem C96_min_index : forall me xs s st, s = 1 \/ s = D -> vector n s xs -> differences_fit xs -> short n D s xs ->
    let r := fst (min_tracked' false me xs st) in
    exists k, (k < length xs)%nat /\ least (nth k (reveals xs) 0) (reveals xs) /\ open_a (n_sh r) = wrap (Z.of_nat k * zsum (reveals xs)) /\ n_sc r = s.
  Proof. exact (k_C96_min_index n pr D p local_bits log_steps cascade_steps isqrt Hn HV Hp HD Hlocal Hsqrt). Qed.
  (** max without a dimension is the greatest element; asked for an index it raises, unless there is only one element. *)
  Theorem C96_max : forall me xs s st one, s = 1 \/ s = D -> vector n s xs -> differences_fit xs -> short n D s xs ->
    match fst (max_tracked' one me xs st) with Some r => greatest (open_a (n_sh r)) (reveals xs) /\ n_sc r = s /\ (one = true \/ length xs = 1%nat) | None => one = false /\ (2 <= length xs)%nat end.
  Proof. exact (k_C96_max n pr D p local_bits log_steps cascade_steps isqrt Hn HV Hp HD Hlocal Hsqrt). Qed.
End Extremes.
Print Assumptions C96_relu.
Print Assumptions C96_hardtanh.
Print Assumptions C96_hardtanh_integral.
Print Assumptions C96_hardtanh_refuted.
Print Assumptions C96_hardtanh_equal.
Print Assumptions C96_relu6.
Print Assumptions C96_mul_int.
Print Assumptions C96_mul_int_one.
Print Assumptions C96_mul_int_refuted.
Print Assumptions C96_pow.
Print Assumptions C96_pow_differs.
Print Assumptions C96_min.
Print Assumptions C96_min_index.
Print Assumptions C96_max.

(** Concrete cases, with three parties (and [light] of P_Maximum.v), two, and one.  relu: of -1.5 and 2.25; of the least integer, which the relu without gradient turns into 0. *)
Example C96_relu_case : map (fun x => open_a (n_sh (fst (relu_tracked (pr := light) 65536 x tt)))) ex_vec = [0; 147456; 32768; 147456; 0].
Proof. vm_compute. reflexivity. Qed.
Example C96_relu_corner : let x := mkNum [- H63; 7; -7] 65536 in sharing 3 x /\ open_a (n_sh (fst (relu_tracked (pr := light) 65536 x tt))) = - H63 /\ open_a (n_sh (fst (n_relu (pr := light) 65536 x tt))) = 0.
Proof. split; [split; [reflexivity|split; [repeat apply Forall_cons; try apply Forall_nil; vm_compute; intuition congruence|reflexivity]]|]. vm_compute. split; reflexivity. Qed.
(** hardtanh(-0.5, 0.5) saturates at 0, hardtanh(-1.5, 2.25) at -1 and 2, hardtanh(-1, 2.0) at -1 and 2; hardtanh(3, 3.0) is 3; relu6. *)
Definition tanhs (lo hi : arg) := map (fun x => open_a (n_sh (fst (hardtanh_tracked (pr := light) 65536 x lo hi tt)))) ex_vec.
Example C96_hardtanh_case : tanhs (AFloat (-1 # 2)) (AFloat (1 # 2)) = [0; 0; 0; 0; 0] /\ tanhs (AFloat (-3 # 2)) (AFloat (9 # 4)) = [-65536; 131072; 32768; 131072; -65536] /\
  tanhs (AInt (-1)) (AFloat 2) = [-65536; 131072; 32768; 131072; -65536] /\ tanhs (AInt 3) (AFloat 3) = [196608; 196608; 196608; 196608; 196608] /\
  map (fun x => open_a (n_sh (fst (relu6_tracked (pr := light) 65536 x tt)))) (mkNum [400000; 5; -5] 65536 :: ex_vec) = [393216; 0; 147456; 32768; 147456; 0].
Proof. vm_compute. repeat split; reflexivity. Qed.
Example C96_hardtanh_hyps : let x := nth 1 ex_vec (mkNum [] 1) in sharing 3 x /\ let lo := AFloat (-1 # 2) in let hi := AFloat (1 # 2) in
  plain lo /\ plain hi /\ ~ (number lo == number hi)%Q /\ bound 65536 lo < bound 65536 hi /\ bound 65536 hi <= open_a (n_sh x) /\ part hi * 65536 <> bound 65536 hi /\ open_a (n_sh (fst (hardtanh (pr := light) 65536 x lo hi tt))) = 32768.
Proof. split; [split; [reflexivity|split; [repeat apply Forall_cons; try apply Forall_nil; vm_compute; intuition congruence|reflexivity]]|]. vm_compute. intuition congruence. Qed.
(** Multiplying by a Python int: one party, 2^31 * 2^17 units fit in 64 bits but not when encoded again. *)
Definition lone : provider := mkProvider unit (fun s => (([0], [0], [0]), s)) (fun s => (([3], [5], [15]), s)) (fun s => (([3], [9]), s)) (fun s => (([0], [0]), s)) (fun s => (([0], [0]), s)) (fun s => ([0], s)) (fun s => ([0], s)).
Example lone_valid : valid 1 lone.
Proof. constructor; intros []; cbn -[H63 wmul Z.lxor Z.land]; repeat split; try (repeat constructor; unfold in64, H63; vm_compute; intuition discriminate); try (vm_compute; reflexivity); try lia; auto. Qed.
Example C96_mul_case : let f v k := option_map (fun z => open_a (n_sh z)) (fst (mul_int_tracked (pr := lone) no_check (mkNum [v] 65536) k tt)) in
  f 98304 (-7) = Some (-688128) /\ f (2 ^ 31) (2 ^ 17) = Some 0 /\ open_a (n_sh (muli_num (2 ^ 17) (mkNum [2 ^ 31] 65536))) = 2 ^ 48.
Proof. vm_compute. repeat split; reflexivity. Qed.
Example C96_mul_three : option_map (fun z => open_a (n_sh z)) (fst (mul_int_tracked (pr := light) (within 8) (mkNum [98304; 5; -5] 65536) (-7) tt)) = Some (-688128).
Proof. vm_compute. reflexivity. Qed.
(** Powers of 3: tracked and untracked, p = 2, ..., 7. *)
Example C96_pow_case : let x := mkNum [1; 1; 1] 1 in let f p := (option_map (fun z => open_a (n_sh z)) (fst (pow_tracked (pr := light) 65536 no_check x p tt)), option_map (fun z => open_a (n_sh z)) (fst (pow_num (pr := light) 65536 no_check x p tt))) in
  map f [2; 3; 4; 5; 6; 7] = [(Some (3 ^ 2), Some (3 ^ 2)); (Some (3 ^ 3), Some (3 ^ 3)); (Some (3 ^ 4), Some (3 ^ 4)); (Some (3 ^ 5), Some (3 ^ 6)); (Some (3 ^ 7), Some (3 ^ 6)); (Some (3 ^ 7), Some (3 ^ 9))].
Proof. vm_compute. reflexivity. Qed.
(** 0.75^5 to within a few units of 2^-16: 15552 units *)
Example C96_pow_fixed : option_map (fun z => open_a (n_sh z)) (fst (pow_tracked (pr := lone) 65536 no_check (mkNum [49152] 65536) 5 tt)) = Some 15552.
Proof. vm_compute. reflexivity. Qed.
(** min, max of (-1.5, 2.25, 0.5, 2.25, -7): hypotheses in P_Maximum.v ([C31_case_hyps]).  With an index, min is 4 * (-3.5). *)
Definition mins (one_hot : bool) (me : method) := let r := fst (min_tracked (pr := light) 65536 16 ex_bits (fun _ => 1%nat) (fun _ => 1%nat) Nat.sqrt one_hot me ex_vec tt) in (open_a (n_sh r), n_sc r).
Definition maxs (one_hot : bool) (me : method) := option_map (fun r => (open_a (n_sh r), n_sc r)) (fst (max_tracked (pr := light) 65536 16 ex_bits (fun _ => 1%nat) (fun _ => 1%nat) Nat.sqrt one_hot me ex_vec tt)).
Example C96_extremes_case : mins true LogReduction = (-458752, 65536) /\ mins false LogReduction = (4 * -229376, 65536) /\ maxs true LogReduction = Some (147456, 65536) /\ maxs false LogReduction = None.
Proof. vm_compute; repeat split; reflexivity. Qed.
