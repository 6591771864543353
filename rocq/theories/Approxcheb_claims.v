(** C76: Chebyshev polynomials and tanh by Chebyshev interpolation. *)
Require Import List Reals ZArith Lia Lra Arith Bool Psatz.
From Verif Require Import Ring64 Tensor Rtensor Rtensor_proofs Realgrad Realgrad_claims Approx Approx_claims.
Import ListNotations.
Open Scope R_scope.

(** the polynomials of the first kind: T_0 = 1, T_1 = x, T_(n+2) = 2 x T_(n+1) - T_n *)
Fixpoint first_kind (n : nat) (x : R) : R := match n with O => 1 | S m => match m with O => x | S k => 2 * x * first_kind m x - first_kind k x end end.
Lemma first_kind_SS n x : first_kind (S (S n)) x = 2 * x * first_kind (S n) x - first_kind n x. Proof. reflexivity. Qed.
Lemma first_kind_cos a n : first_kind n (cos a) = cos (INR n * a) /\ first_kind (S n) (cos a) = cos (INR (S n) * a).
Proof.
  induction n as [|n [I1 I2]]; [cbn [first_kind INR]; rewrite Rmult_0_l, Rmult_1_l, cos_0; split; reflexivity|]. split; [exact I2|]. rewrite first_kind_SS, I1, I2. rewrite !S_INR. replace ((INR n + 1 + 1) * a) with ((INR n + 1) * a + a) by ring. replace (INR n * a) with ((INR n + 1) * a - a) by ring. rewrite cos_plus, cos_minus. ring.
Qed.
Lemma first_kind_4 n x : first_kind (4 + n) x = (4 * (x * x) - 2) * first_kind (2 + n) x - first_kind n x.
Proof. cbn [Nat.add]. rewrite !first_kind_SS. ring. Qed.
Definition odd_kinds (x : R) (k : nat) : list R := map (fun j => first_kind (2 * j + 1) x) (seq 0 k).
Lemma odd_kinds_S x k : odd_kinds x (S k) = odd_kinds x k ++ [first_kind (2 * k + 1) x]. Proof. unfold odd_kinds. rewrite seq_S, map_app. reflexivity. Qed.
Lemma more_kinds x n : forall k, chebyshev_more (4 * (x * x) - 2) n (rev (odd_kinds x (S (S k)))) = rev (odd_kinds x (S (S k) + n)).
Proof.
  induction n as [|n IH]; intros k; [now rewrite Nat.add_0_r|]. cbn [chebyshev_more]. rewrite !odd_kinds_S, !rev_app_distr. cbn [rev app]. replace (2 * S k + 1)%nat with (2 + (2 * k + 1))%nat by lia. rewrite <- first_kind_4. specialize (IH (S k)). replace (S (S (S k)) + n)%nat with (S (S k) + S n)%nat in IH by lia. rewrite <- IH. f_equal. rewrite !odd_kinds_S, !rev_app_distr. cbn [rev app]. replace (2 * S (S k) + 1)%nat with (4 + (2 * k + 1))%nat by lia. replace (2 * S k + 1)%nat with (2 + (2 * k + 1))%nat by lia. reflexivity.
Qed.
(** C76: for an even number of terms from 6 on, the polynomials are T_1, T_3, ..., T_(terms-1) at every x; any other number raises ValueError. *)
Lemma k_C76_polynomials x terms :
  (forall p, (3 <= p)%nat -> terms = (2 * p)%nat -> chebyshev_polynomials x terms = Some (map (fun j => first_kind (2 * j + 1) x) (seq 0 p))) /\
  (Nat.odd terms = true \/ (terms < 6)%nat -> chebyshev_polynomials x terms = None).
Proof.
  unfold chebyshev_polynomials. split.
  - intros p P ->. assert (E : Nat.even (2 * p) = true) by (apply Nat.even_spec; exists p; reflexivity). rewrite E. replace (Nat.ltb (2 * p) 6) with false by (symmetry; apply Nat.ltb_ge; lia). cbn [negb orb]. f_equal. replace (2 * p / 2)%nat with p by (rewrite Nat.mul_comm, Nat.div_mul; lia). fold (odd_kinds x p).
    assert (B : [(4 * (x * x) - 2 - 1) * x; x] = rev (odd_kinds x 2)) by (unfold odd_kinds; cbn [seq map rev app Nat.mul Nat.add first_kind]; f_equal; ring). rewrite B, more_kinds, rev_involutive. f_equal. lia.
  - intros [H|H]; [now rewrite <- Nat.negb_odd, H|]. apply Nat.ltb_lt in H. rewrite H, orb_true_r. reflexivity.
Qed.
(** C76: such a number of terms makes tanh and sigmoid by Chebyshev fail for every input. *)
Lemma k_C76_terms c x : sigmoid_tanh_method c = Chebyshev -> Nat.odd (sigmoid_tanh_terms c) = true \/ (sigmoid_tanh_terms c < 6)%nat -> mpc_tanh c x = inl ValueError /\ mpc_sigmoid c x = inl ValueError.
Proof.
  intros M H. assert (E : forall v, tanh_chebyshev c v = inl ValueError) by (intros v; unfold tanh_chebyshev; now rewrite (proj2 (k_C76_polynomials v _) H)). unfold mpc_tanh, mpc_sigmoid. rewrite M, !E. split; reflexivity.
Qed.

(** *** Interpolation *)
Definition theta (n k : nat) : R := (INR k + 1 / 2) * PI / INR n.
Lemma cos_sum p a : 2 * sin a * rsumn p (fun j => cos (INR (2 * j + 1) * a)) = sin (INR (2 * p) * a).
Proof.
  induction p as [|p IH]; [cbn [Nat.mul]; unfold rsumn; cbn [seq map rsum fold_right INR]; rewrite Rmult_0_l, sin_0; unfold rsum; cbn [fold_right]; ring|]. rewrite rsumn_S, Rmult_plus_distr_l, IH. replace (INR (2 * S p)) with (INR (2 * p + 1) + 1) by (rewrite plus_INR, !mult_INR, !S_INR; cbn [INR]; ring). replace (INR (2 * p)) with (INR (2 * p + 1) - 1) by (rewrite plus_INR, !mult_INR; cbn [INR]; ring). set (b := INR (2 * p + 1)). replace ((b - 1) * a) with (b * a - a) by ring. replace ((b + 1) * a) with (b * a + a) by ring. rewrite sin_plus, sin_minus. ring.
Qed.
Lemma sin_INR k : sin (INR k * PI) = 0.
Proof. induction k as [|k IH]; [cbn; rewrite Rmult_0_l; apply sin_0|]. rewrite S_INR, Rmult_plus_distr_r, Rmult_1_l, neg_sin, IH. ring. Qed.
Lemma cos_odd_PI j : cos (INR (2 * j + 1) * PI) = -1.
Proof. induction j as [|j IH]; [cbn; rewrite Rmult_1_l; apply cos_PI|]. replace (INR (2 * S j + 1) * PI) with (INR (2 * j + 1) * PI + 2 * INR 1 * PI) by (rewrite !plus_INR, !mult_INR, !S_INR; cbn [INR]; ring). rewrite cos_period. exact IH. Qed.
Lemma sum_zero p d : (0 < p)%nat -> (0 < d < 4 * p)%nat -> d <> (2 * p)%nat -> rsumn p (fun j => cos (INR (2 * j + 1) * (INR d * PI / INR (2 * p)))) = 0.
Proof.
  intros P D N. set (a := INR d * PI / INR (2 * p)). pose proof PI_RGT_0 as PI0. assert (Np : 0 < INR (2 * p)) by (apply lt_0_INR; lia). pose proof (cos_sum p a) as S. replace (INR (2 * p) * a) with (INR d * PI) in S by (unfold a; field; lra). rewrite sin_INR in S.
  assert (Sa : sin a <> 0). { assert (A0 : 0 < a) by (unfold a; apply Rmult_lt_0_compat; [apply Rmult_lt_0_compat; [apply lt_0_INR; lia|lra]|now apply Rinv_0_lt_compat]).
    assert (Ea : a * INR (2 * p) = INR d * PI) by (unfold a; field; lra). destruct (Nat.lt_trichotomy d (2 * p)) as [L|[L|L]]; [|contradiction|].
    - apply Rgt_not_eq, sin_gt_0; [exact A0|]. apply (Rmult_lt_reg_r (INR (2 * p))); [exact Np|]. rewrite Ea. rewrite Rmult_comm. apply Rmult_lt_compat_l; [exact PI0|now apply lt_INR].
    - apply Rlt_not_eq, sin_lt_0; apply (Rmult_lt_reg_r (INR (2 * p))); try exact Np; rewrite Ea.
      + rewrite Rmult_comm. apply Rmult_lt_compat_r; [exact PI0|now apply lt_INR].
      + replace (2 * PI * INR (2 * p)) with (INR (4 * p) * PI) by (rewrite !mult_INR; cbn [INR]; ring). apply Rmult_lt_compat_r; [exact PI0|apply lt_INR; lia]. }
  apply Rmult_integral in S. destruct S as [S|S]; [|exact S]. apply Rmult_integral in S. destruct S; [lra|contradiction].
Qed.
Lemma product_sum p k m : (0 < p)%nat -> (k < 2 * p)%nat -> (m < 2 * p)%nat ->
  rsumn p (fun j => cos (INR (2 * j + 1) * theta (2 * p) m) * cos (INR (2 * j + 1) * theta (2 * p) k)) = (if Nat.eq_dec k m then INR p / 2 else 0) - (if Nat.eq_dec (k + m + 1) (2 * p) then INR p / 2 else 0).
Proof.
  intros P K M. set (n := (2 * p)%nat) in *. assert (Np : 0 < INR n) by (apply lt_0_INR; lia).
  rewrite (rsumn_ext p _ (fun j => 1 / 2 * (cos (INR (2 * j + 1) * Rabs (theta n m - theta n k)) + cos (INR (2 * j + 1) * (theta n m + theta n k))))).
  2: { intros j _. set (b := INR (2 * j + 1)). replace (cos (b * Rabs (theta n m - theta n k))) with (cos (b * theta n m - b * theta n k)). - replace (b * (theta n m + theta n k)) with (b * theta n m + b * theta n k) by ring. rewrite cos_minus, cos_plus. field. - rewrite <- Rmult_minus_distr_l. unfold Rabs. destruct (Rcase_abs _); [|reflexivity]. replace (b * - (theta n m - theta n k)) with (- (b * (theta n m - theta n k))) by ring. now rewrite cos_neg. }
  rewrite rsumn_scale, rsumn_plus.
  assert (S1 : rsumn p (fun j => cos (INR (2 * j + 1) * Rabs (theta n m - theta n k))) = if Nat.eq_dec k m then INR p else 0).
  { destruct (Nat.eq_dec k m) as [->|E]; [rewrite (rsumn_ext p _ (fun _ => 1)) by (intros j _; rewrite Rminus_diag_eq, Rabs_R0, Rmult_0_r, cos_0; reflexivity); rewrite rsumn_const; ring|]. pose proof PI_RGT_0.
    destruct (Nat.lt_trichotomy k m) as [L|[L|L]]; [|contradiction|].
    - replace (Rabs (theta n m - theta n k)) with (INR (m - k) * PI / INR n); [apply sum_zero; unfold n in *; lia|]. rewrite minus_INR by lia. replace (theta n m - theta n k) with ((INR m - INR k) * PI / INR n) by (unfold theta; field; lra). rewrite Rabs_right; [reflexivity|]. apply Rle_ge. apply lt_INR in L. apply Rmult_le_pos; [apply Rmult_le_pos; lra|left; now apply Rinv_0_lt_compat].
    - replace (Rabs (theta n m - theta n k)) with (INR (k - m) * PI / INR n); [apply sum_zero; unfold n in *; lia|]. rewrite minus_INR by lia. rewrite Rabs_minus_sym. replace (theta n k - theta n m) with ((INR k - INR m) * PI / INR n) by (unfold theta; field; lra). rewrite Rabs_right; [reflexivity|]. apply Rle_ge. apply lt_INR in L. apply Rmult_le_pos; [apply Rmult_le_pos; lra|left; now apply Rinv_0_lt_compat]. }
  assert (S2 : rsumn p (fun j => cos (INR (2 * j + 1) * (theta n m + theta n k))) = if Nat.eq_dec (k + m + 1) n then - INR p else 0).
  { assert (A : theta n m + theta n k = INR (k + m + 1) * PI / INR n) by (rewrite !plus_INR; unfold theta; cbn [INR]; field; lra). rewrite A. destruct (Nat.eq_dec (k + m + 1) n) as [E|E]; [|apply sum_zero; unfold n in *; lia]. rewrite E. rewrite (rsumn_ext p _ (fun _ => -1)); [rewrite rsumn_const; ring|]. intros j _. replace (INR n * PI / INR n) with PI by (field; lra). apply cos_odd_PI. }
  rewrite S1, S2. destruct (Nat.eq_dec k m), (Nat.eq_dec (k + m + 1) n); field.
Qed.
Lemma weighted_sum f g p : weighted (map f (seq 0 p)) (map g (seq 0 p)) = rsumn p (fun j => f j * g j).
Proof. unfold rsumn. generalize 0%nat. induction p as [|p IH]; intros a; [reflexivity|]. cbn [seq map weighted]. rewrite IH. unfold rsum. cbn [fold_right]. ring. Qed.
Lemma rsumn_delta n k v : (k < n)%nat -> rsumn n (fun i => if Nat.eq_dec i k then v i else 0) = v k.
Proof. intros H. rewrite (rsumn_one n k); [destruct (Nat.eq_dec k k); [reflexivity|contradiction]|exact H|]. intros i _ N. destruct (Nat.eq_dec i k); [contradiction|reflexivity]. Qed.
Lemma odd_interpolation (f : R -> R) p m : (0 < p)%nat -> (m < 2 * p)%nat -> (forall v, f (- v) = - f v) ->
  rsumn p (fun j => cos (INR (2 * j + 1) * theta (2 * p) m) * chebyshev_coefficient f (2 * p) (2 * j + 1)) = f (node (2 * p) m).
Proof.
  intros P M O. set (n := (2 * p)%nat) in *. assert (Np : 0 < INR n) by (apply lt_0_INR; lia). unfold chebyshev_coefficient.
  rewrite (rsumn_ext p _ (fun j => 2 / INR n * rsumn n (fun k => f (node n k) * (cos (INR (2 * j + 1) * theta n m) * cos (INR (2 * j + 1) * theta n k))))).
  2: { intros j _. rewrite <- Rmult_assoc, (Rmult_comm (cos _)), Rmult_assoc. f_equal. rewrite <- rsumn_scale. apply rsumn_ext. intros k _. replace (INR (2 * j + 1) * (INR k + 1 / 2) * PI / INR n) with (INR (2 * j + 1) * theta n k) by (unfold theta; field; lra). ring. }
  rewrite rsumn_scale, rsumn_swap. rewrite (rsumn_ext n _ (fun k => (if Nat.eq_dec k m then f (node n k) * (INR p / 2) else 0) - (if Nat.eq_dec k (n - 1 - m) then f (node n k) * (INR p / 2) else 0))).
  2: { intros k K. rewrite rsumn_scale, product_sum by (unfold n in *; lia). fold n. destruct (Nat.eq_dec k m), (Nat.eq_dec (k + m + 1) n), (Nat.eq_dec k (n - 1 - m)); try lia; ring. }
  rewrite rsumn_minus, (rsumn_delta n m (fun k => f (node n k) * (INR p / 2))), (rsumn_delta n (n - 1 - m) (fun k => f (node n k) * (INR p / 2))) by (unfold n; lia).
  replace (node n (n - 1 - m)) with (- node n m). - rewrite O. replace (INR n) with (2 * INR p) by (unfold n; rewrite mult_INR; reflexivity). assert (0 < INR p) by (apply lt_0_INR; lia). field. lra.
  - unfold node. rewrite !minus_INR by lia. replace ((INR n - INR 1 - INR m + 1 / 2) * PI / INR n) with (- ((INR m + 1 / 2) * PI / INR n) + PI) by (cbn [INR]; field; lra). rewrite neg_cos, cos_neg. reflexivity.
Qed.
Lemma tanh_opp x : tanh (- x) = - tanh x.
Proof. unfold tanh, sinh, cosh. rewrite Ropp_involutive. pose proof (exp_pos x). pose proof (exp_pos (- x)). field. lra. Qed.
Lemma tanh_bound x : -1 < tanh x < 1.
Proof. unfold tanh, sinh, cosh. pose proof (exp_pos x). pose proof (exp_pos (- x)). set (a := exp x) in *. set (b := exp (- x)) in *. replace ((a - b) / 2 / ((a + b) / 2)) with (1 - 2 * b * / (a + b)) by (field; lra). assert (0 < / (a + b)) by (apply Rinv_0_lt_compat; lra). assert ((a + b) * / (a + b) = 1) by (field; lra). split; nra. Qed.
(** C76: with any valid number of terms, tanh by Chebyshev is exact at each of the [terms] nodes cos((k + 1/2) pi / terms), and so is sigmoid at twice the nodes. *)
Lemma k_C76_nodes c m : sigmoid_tanh_method c = Chebyshev -> Nat.even (sigmoid_tanh_terms c) = true -> (6 <= sigmoid_tanh_terms c)%nat -> (m < sigmoid_tanh_terms c)%nat ->
  let x := cos ((INR m + 1 / 2) * PI / INR (sigmoid_tanh_terms c)) in mpc_tanh c x = inr (tanh x) /\ mpc_sigmoid c (2 * x) = inr (/ (1 + exp (- (2 * x)))).
Proof.
  intros T E L M. cbv zeta. apply Nat.even_spec in E. destruct E as [p E]. assert (G : tanh_chebyshev c (cos ((INR m + 1 / 2) * PI / INR (sigmoid_tanh_terms c))) = inr (tanh (cos ((INR m + 1 / 2) * PI / INR (sigmoid_tanh_terms c))))).
  { unfold tanh_chebyshev. rewrite E in *. set (x := cos _). rewrite (proj1 (k_C76_polynomials x (2 * p)) p ltac:(lia) eq_refl). f_equal. replace (2 * p / 2)%nat with p by (rewrite Nat.mul_comm, Nat.div_mul; lia). rewrite weighted_sum.
    rewrite (rsumn_ext p _ (fun j => cos (INR (2 * j + 1) * theta (2 * p) m) * chebyshev_coefficient tanh (2 * p) (2 * j + 1))) by (intros j _; unfold x; rewrite (proj1 (first_kind_cos _ (2 * j + 1))); reflexivity).
    rewrite odd_interpolation by (try lia; apply tanh_opp). change (node (2 * p) m) with x. unfold hardtanh. pose proof (tanh_bound x). rewrite Rmin_right, Rmax_right; lra. }
  set (x := cos _) in *. unfold mpc_tanh, mpc_sigmoid. rewrite T, G. split; [reflexivity|]. replace (2 * x / 2) with x by field. rewrite G. cbn [after bind]. f_equal. unfold tanh, sinh, cosh. replace (- (2 * x)) with (- x + - x) by ring. rewrite exp_plus, exp_Ropp. pose proof (exp_pos x). set (e := exp x) in *. field. repeat split; nra.
Qed.
