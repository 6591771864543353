(** C105: how close tanh and sigmoid by Chebyshev interpolation come to tanh and to the logistic function. *)
Require Import List Reals ZArith Lia Lra Arith Bool Psatz.
From Verif Require Import Ring64 Tensor Rtensor Rtensor_proofs Realgrad Realgrad_claims Approx Approx_claims Approxcheb_claims.
Import ListNotations.
Open Scope R_scope.

(** *** A function with n + 1 zeros has an n-th derivative with a zero *)
Definition smooth (D : nat -> R -> R) : Prop := forall k x, derivable_pt_lim (D k) x (D (S k) x).
Lemma choose n (P : nat -> R -> Prop) : (forall i, (i < n)%nat -> exists w, P i w) -> exists w : nat -> R, forall i, (i < n)%nat -> P i (w i).
Proof.
  induction n as [|n IH]; intros H; [exists (fun _ => 0); intros i Hi; lia|]. destruct IH as [w W]; [intros i Hi; apply H; lia|]. destruct (H n ltac:(lia)) as [v V].
  exists (fun i => if Nat.eq_dec i n then v else w i). intros i Hi. destruct (Nat.eq_dec i n) as [->|N]; [exact V|apply W; lia].
Qed.
Lemma rolle n : forall D (z : nat -> R), smooth D -> (forall i, (i < n)%nat -> z i < z (S i)) -> (forall i, (i <= n)%nat -> D 0%nat (z i) = 0) -> exists y, D n y = 0.
Proof.
  induction n as [|n IH]; intros D z HD Z V; [exists (z 0%nat); apply V; lia|].
  destruct (choose (S n) (fun i w => z i < w < z (S i) /\ D 1%nat w = 0)) as [w W].
  { intros i Hi. destruct (MVT_cor2 (D 0%nat) (D 1%nat) (z i) (z (S i)) (Z i Hi) (fun c _ => HD 0%nat c)) as [w [E B]]. exists w. split; [exact B|].
    rewrite !V in E by lia. rewrite Rminus_0_r in E. symmetry in E. apply Rmult_integral in E. destruct E as [E|E]; [exact E|]. specialize (Z i Hi). lra. }
  destruct (IH (fun k => D (S k)) w) as [y Y].
  - intros k x. apply HD.
  - intros i Hi. pose proof (W i ltac:(lia)). pose proof (W (S i) ltac:(lia)). lra.
  - intros i Hi. apply W. lia.
  - exists y. exact Y.
Qed.
(** the same, with the zeros being n increasing numbers and one more *)
Lemma place n (u : nat -> R) x : (forall i, (S i < n)%nat -> u i < u (S i)) -> (forall i, (i < n)%nat -> u i <> x) -> exists j, (j <= n)%nat /\ (forall i, (i < j)%nat -> u i < x) /\ (forall i, (j <= i < n)%nat -> x < u i).
Proof.
  induction n as [|n IH]; intros U N; [exists 0%nat; repeat split; intros; lia|]. destruct IH as [j [J [A B]]]; [intros; apply U; lia|intros; apply N; lia|].
  destruct (Nat.eq_dec j n) as [->|E].
  - destruct (Rtotal_order (u n) x) as [L|[L|L]]; [|exfalso; apply (N n); [lia|exact L]|].
    + exists (S n). split; [lia|]. split; [|intros; lia]. intros i Hi. destruct (Nat.eq_dec i n) as [->|]; [exact L|apply A; lia].
    + exists n. split; [lia|]. split; [exact A|]. intros i Hi. replace i with n by lia. exact L.
  - exists j. split; [lia|]. split; [exact A|]. intros i Hi. destruct (Nat.eq_dec i n) as [->|]; [|apply B; lia]. apply Rlt_trans with (u (n - 1)%nat); [apply B; lia|]. replace n with (S (n - 1)) at 2 by lia. apply U. lia.
Qed.
Lemma rolle_more n D (u : nat -> R) x : smooth D -> (forall i, (S i < n)%nat -> u i < u (S i)) -> (forall i, (i < n)%nat -> u i <> x) -> (forall i, (i < n)%nat -> D 0%nat (u i) = 0) -> D 0%nat x = 0 -> exists y, D n y = 0.
Proof.
  intros HD U N V X. destruct (place n u x U N) as [j [J [A B]]].
  apply (rolle n D (fun i => if Nat.ltb i j then u i else if Nat.eqb i j then x else u (i - 1)%nat) HD).
  - intros i Hi. destruct (Nat.ltb_spec i j) as [L|L].
    + destruct (Nat.ltb_spec (S i) j); [apply U; lia|]. replace (Nat.eqb (S i) j) with true by (symmetry; apply Nat.eqb_eq; lia). apply A. lia.
    + replace (Nat.ltb (S i) j) with false by (symmetry; apply Nat.ltb_ge; lia). replace (Nat.eqb (S i) j) with false by (symmetry; apply Nat.eqb_neq; lia). cbn [Nat.sub]. rewrite Nat.sub_0_r. destruct (Nat.eqb_spec i j) as [->|]; [apply B; lia|]. replace i with (S (i - 1)) at 2 by lia. apply U. lia.
  - intros i Hi. destruct (Nat.ltb_spec i j); [apply V; lia|]. destruct (Nat.eqb_spec i j); [exact X|apply V; lia].
Qed.

(** *** The derivatives of the polynomials *)
(** derivative k of T_n *)
Fixpoint kind_d (n k : nat) (x : R) : R :=
  match n with
  | O => match k with O => 1 | _ => 0 end
  | S m => match m with
           | O => match k with O => x | 1%nat => 1 | _ => 0 end
           | S l => 2 * (x * kind_d m k x + INR k * kind_d m (k - 1) x) - kind_d l k x
           end
  end.
Lemma kind_d_SS n k x : kind_d (S (S n)) k x = 2 * (x * kind_d (S n) k x + INR k * kind_d (S n) (k - 1) x) - kind_d n k x. Proof. reflexivity. Qed.
Lemma two_steps (P : nat -> Prop) : P 0%nat -> P 1%nat -> (forall n, P n -> P (S n) -> P (S (S n))) -> forall n, P n.
Proof. intros H0 H1 H n. enough (P n /\ P (S n)) by tauto. induction n as [|n [I1 I2]]; split; auto. Qed.
Lemma kind_d_0 n x : kind_d n 0 x = first_kind n x.
Proof. revert n. apply two_steps; [reflexivity|reflexivity|]. intros n I1 I2. rewrite kind_d_SS, first_kind_SS, I1, I2. cbn [INR]. ring. Qed.
Lemma lim_ext f g x l l' : (forall y, f y = g y) -> l = l' -> derivable_pt_lim g x l -> derivable_pt_lim f x l'.
Proof. intros E <- H eps He. destruct (H eps He) as [d Hd]. exists d. intros h H0 H1. rewrite !E. now apply Hd. Qed.
Lemma kind_smooth n : smooth (kind_d n).
Proof.
  revert n. apply two_steps.
  - intros k x. destruct k as [|k]; [apply (lim_ext _ (fct_cte 1) x 0); try reflexivity; apply derivable_pt_lim_const|apply (lim_ext _ (fct_cte 0) x 0); try reflexivity; apply derivable_pt_lim_const].
  - intros k x. destruct k as [|[|k]]; [apply (lim_ext _ id x 1); try reflexivity; apply derivable_pt_lim_id|apply (lim_ext _ (fct_cte 1) x 0); try reflexivity; apply derivable_pt_lim_const|apply (lim_ext _ (fct_cte 0) x 0); try reflexivity; apply derivable_pt_lim_const].
  - intros n I1 I2 k x. apply (lim_ext _ (fun y => 2 * (y * kind_d (S n) k y + INR k * kind_d (S n) (k - 1) y) - kind_d n k y) x (2 * ((1 * kind_d (S n) k x + x * kind_d (S n) (S k) x) + INR k * kind_d (S n) k x) - kind_d n (S k) x)).
    + reflexivity.
    + rewrite kind_d_SS, S_INR. replace (S k - 1)%nat with k by lia. ring.
    + apply (derivable_pt_lim_minus (fun y => 2 * (y * kind_d (S n) k y + INR k * kind_d (S n) (k - 1) y)) (kind_d n k)); [|apply I1].
      apply (derivable_pt_lim_scal (fun y => y * kind_d (S n) k y + INR k * kind_d (S n) (k - 1) y) 2).
      apply (derivable_pt_lim_plus (fun y => y * kind_d (S n) k y) (fun y => INR k * kind_d (S n) (k - 1) y)).
      * apply (derivable_pt_lim_mult id (kind_d (S n) k)); [apply derivable_pt_lim_id|apply I2].
      * destruct k as [|k]; [apply (lim_ext _ (fct_cte 0) x 0); [intros y; cbn [INR]; rewrite Rmult_0_l; reflexivity|cbn [INR]; ring|apply derivable_pt_lim_const]|].
        apply (derivable_pt_lim_scal (kind_d (S n) (S k - 1)) (INR (S k))). replace (S k - 1)%nat with k by lia. apply I2.
Qed.
Lemma kind_top n : forall k x, (n < k)%nat -> kind_d n k x = 0.
Proof.
  pattern n. apply two_steps; clear n; [intros [|k] x H; [lia|reflexivity]|intros [|[|k]] x H; [lia|lia|reflexivity]|]. intros n I1 I2 k x H. rewrite kind_d_SS, I2, I2, I1 by lia. ring.
Qed.
Lemma kind_lead n x : kind_d (S n) (S n) x = 2 ^ n * INR (fact (S n)).
Proof.
  induction n as [|n IH]; [cbn; ring|]. rewrite kind_d_SS. rewrite (kind_top (S n) (S (S n))), (kind_top n) by lia. replace (S (S n) - 1)%nat with (S n) by lia. rewrite IH. rewrite (fact_simpl (S n)), mult_INR. cbn [pow]. ring.
Qed.

(** *** The derivatives of tanh *)
(** derivative n of tanh over n! is [coef n], from tanh' = 1 - tanh^2 *)
Fixpoint table (n : nat) : nat -> R -> R :=
  match n with
  | O => fun _ => tanh
  | S m => fun k x => if Nat.leb k m then table m k x else ((match m with O => 1 | _ => 0 end) - rsumn (S m) (fun i => table m i x * table m (m - i) x)) / INR (S m)
  end.
Definition coef (n : nat) : R -> R := table n n.
Lemma table_low n : forall k x, (k <= n)%nat -> table n k x = coef k x.
Proof.
  induction n as [|n IH]; intros k x H; [replace k with 0%nat by lia; reflexivity|]. destruct (Nat.eq_dec k (S n)) as [->|N]; [reflexivity|]. cbn [table]. replace (Nat.leb k n) with true by (symmetry; apply Nat.leb_le; lia). apply IH. lia.
Qed.
Lemma coef_S n x : coef (S n) x = ((match n with O => 1 | _ => 0 end) - rsumn (S n) (fun i => coef i x * coef (n - i) x)) / INR (S n).
Proof.
  unfold coef at 1. cbn [table]. replace (Nat.leb (S n) n) with false by (symmetry; apply Nat.leb_gt; lia). do 2 f_equal. apply rsumn_ext. intros i Hi. rewrite !table_low by lia. reflexivity.
Qed.
Lemma tanh_lim x : derivable_pt_lim tanh x (1 - tanh x * tanh x).
Proof.
  pose proof (exp_pos x) as P. pose proof (exp_pos (- x)) as Q.
  assert (C : cosh x <> 0) by (unfold cosh; lra).
  apply (lim_ext _ (sinh / cosh)%F x ((cosh x * cosh x - sinh x * sinh x) / Rsqr (cosh x))); [reflexivity|unfold tanh, Rsqr; field; exact C|].
  apply derivable_pt_lim_div; [apply derivable_pt_lim_sinh|apply derivable_pt_lim_cosh|exact C].
Qed.
Lemma sum_lim n (f g : nat -> R -> R) x : (forall i, (i < n)%nat -> derivable_pt_lim (f i) x (g i x)) -> derivable_pt_lim (fun y => rsumn n (fun i => f i y)) x (rsumn n (fun i => g i x)).
Proof.
  induction n as [|n IH]; intros H; [apply (lim_ext _ (fct_cte 0) x 0); try reflexivity; apply derivable_pt_lim_const|]. rewrite rsumn_S.
  apply (lim_ext _ (fun y => rsumn n (fun i => f i y) + f n y) x (rsumn n (fun i => g i x) + g n x)); [intros y; apply rsumn_S|reflexivity|].
  apply (derivable_pt_lim_plus (fun y => rsumn n (fun i => f i y)) (f n)); [apply IH; intros; apply H; lia|apply H; lia].
Qed.
Lemma rsumn_first n f : rsumn (S n) f = f 0%nat + rsumn n (fun i => f (S i)).
Proof. unfold rsumn. cbn [seq map]. rewrite <- seq_shift, map_map. reflexivity. Qed.
Lemma coef_lim n : forall x, derivable_pt_lim (coef n) x (INR (S n) * coef (S n) x).
Proof.
  induction n as [n IH] using lt_wf_ind. intros x. destruct n as [|n].
  - apply (lim_ext _ tanh x (1 - tanh x * tanh x)); [reflexivity| |apply tanh_lim]. rewrite coef_S. unfold rsumn, rsum. cbn [seq map fold_right Nat.sub]. change (coef 0 x) with (tanh x). cbn [INR]. field.
  - assert (N : INR (S n) <> 0) by (apply not_0_INR; lia). assert (N2 : INR (S (S n)) <> 0) by (apply not_0_INR; lia).
    apply (lim_ext _ (fun y => / INR (S n) * ((match n with O => 1 | _ => 0 end) - rsumn (S n) (fun i => coef i y * coef (n - i) y))) x
      (/ INR (S n) * (0 - rsumn (S n) (fun i => INR (S i) * coef (S i) x * coef (n - i) x + coef i x * (INR (S (n - i)) * coef (S (n - i)) x))))).
    + intros y. rewrite coef_S. unfold Rdiv. ring.
    + rewrite (coef_S (S n)). rewrite rsumn_plus.
      assert (A : rsumn (S n) (fun i => INR (S i) * coef (S i) x * coef (n - i) x) = rsumn (S (S n)) (fun j => INR j * (coef j x * coef (S n - j) x))).
      { rewrite (rsumn_first (S n)). change (INR 0) with 0. cbv beta. rewrite Rmult_0_l, Rplus_0_l. apply rsumn_ext. intros i Hi. cbn [Nat.sub]. ring. }
      assert (B : rsumn (S n) (fun i => coef i x * (INR (S (n - i)) * coef (S (n - i)) x)) = rsumn (S (S n)) (fun j => INR (S n - j) * (coef j x * coef (S n - j) x))).
      { rewrite (rsumn_S (S n)). replace (S n - S n)%nat with 0%nat by lia. change (INR 0) with 0. rewrite Rmult_0_l, Rplus_0_r. apply rsumn_ext. intros i Hi. replace (S n - i)%nat with (S (n - i)) by lia. ring. }
      rewrite A, B, <- rsumn_plus. rewrite (rsumn_ext (S (S n)) _ (fun j => INR (S n) * (coef j x * coef (S n - j) x))).
      2: { intros j Hj. rewrite minus_INR by lia. ring. }
      rewrite rsumn_scale. field. split; assumption.
    + apply (derivable_pt_lim_scal (fun y => (match n with O => 1 | _ => 0 end) - rsumn (S n) (fun i => coef i y * coef (n - i) y)) (/ INR (S n))).
      apply (derivable_pt_lim_minus (fct_cte (match n with O => 1 | _ => 0 end)) (fun y => rsumn (S n) (fun i => coef i y * coef (n - i) y))); [apply derivable_pt_lim_const|].
      apply (sum_lim (S n) (fun i y => coef i y * coef (n - i) y) (fun i y => INR (S i) * coef (S i) y * coef (n - i) y + coef i y * (INR (S (n - i)) * coef (S (n - i)) y))).
      intros i Hi. apply (derivable_pt_lim_mult (coef i) (coef (n - i))); apply IH; lia.
Qed.
Lemma rsumn_bound n f M : (forall i, (i < n)%nat -> Rabs (f i) <= M) -> Rabs (rsumn n f) <= INR n * M.
Proof.
  induction n as [|n IH]; intros H; [unfold rsumn, rsum; cbn [seq map fold_right INR]; rewrite Rabs_R0; lra|]. rewrite rsumn_S, S_INR. apply Rle_trans with (1 := Rabs_triang _ _). pose proof (IH ltac:(intros; apply H; lia)). pose proof (H n ltac:(lia)). lra.
Qed.
Lemma coef_bound n : forall x, Rabs (coef n x) <= 1.
Proof.
  induction n as [n IH] using lt_wf_ind. intros x. destruct n as [|[|n]].
  - change (coef 0 x) with (tanh x). pose proof (tanh_bound x). apply Rabs_le. lra.
  - rewrite coef_S. unfold rsumn, rsum. cbn [seq map fold_right Nat.sub]. change (coef 0 x) with (tanh x). cbn [INR]. pose proof (tanh_bound x). apply Rabs_le. split; nra.
  - rewrite coef_S. assert (0 < INR (S (S n))) by (apply lt_0_INR; lia). unfold Rdiv. rewrite Rabs_mult, (Rabs_right (/ _)) by (apply Rle_ge; left; now apply Rinv_0_lt_compat).
    apply (Rmult_le_reg_r (INR (S (S n)))); [assumption|]. rewrite Rmult_assoc, Rinv_l, Rmult_1_r, Rmult_1_l by lra. rewrite Rminus_0_l, Rabs_Ropp. rewrite <- (Rmult_1_r (INR (S (S n)))). apply rsumn_bound.
    intros i Hi. rewrite Rabs_mult. pose proof (IH i ltac:(lia) x). pose proof (IH (S n - i)%nat ltac:(lia) x). pose proof (Rabs_pos (coef i x)). pose proof (Rabs_pos (coef (S n - i) x)). nra.
Qed.
Definition tanh_d (k : nat) (x : R) : R := INR (fact k) * coef k x.
Lemma tanh_smooth : smooth tanh_d.
Proof.
  intros k x. unfold tanh_d. apply (lim_ext _ (fun y => INR (fact k) * coef k y) x (INR (fact k) * (INR (S k) * coef (S k) x))); [reflexivity|rewrite fact_simpl, mult_INR; ring|].
  apply (derivable_pt_lim_scal (coef k) (INR (fact k))). apply coef_lim.
Qed.

(** *** The interpolation error *)
Lemma node_less n i : (S i < n)%nat -> node n (n - 1 - i) < node n (n - 1 - S i).
Proof.
  intros H. assert (Np : 0 < INR n) by (apply lt_0_INR; lia). pose proof PI_RGT_0 as P. unfold node.
  assert (B : forall k, (k < n)%nat -> 0 <= (INR k + 1 / 2) * PI / INR n <= PI).
  { intros k K. pose proof (pos_INR k). assert (INR k + 1 <= INR n) by (rewrite <- S_INR; apply le_INR; lia). split; [apply Rmult_le_pos; [nra|left; now apply Rinv_0_lt_compat]|]. apply (Rmult_le_reg_r (INR n)); [exact Np|]. unfold Rdiv. rewrite Rmult_assoc, Rinv_l, Rmult_1_r by lra. nra. }
  apply cos_decreasing_1; try (apply B; lia). unfold Rdiv. apply Rmult_lt_compat_r; [now apply Rinv_0_lt_compat|]. apply Rmult_lt_compat_r; [exact P|]. apply Rplus_lt_compat_r, lt_INR. lia.
Qed.
Lemma node_root n k : (0 < n)%nat -> first_kind n (node n k) = 0.
Proof.
  intros H. unfold node. rewrite (proj1 (first_kind_cos _ n)). assert (Np : 0 < INR n) by (apply lt_0_INR; lia). replace (INR n * ((INR k + 1 / 2) * PI / INR n)) with (PI / 2 + INR k * PI) by (field; lra). rewrite cos_plus, cos_PI2, sin_INR. ring.
Qed.
Definition interpolant (p : nat) (x : R) : R := rsumn p (fun j => first_kind (2 * j + 1) x * chebyshev_coefficient tanh (2 * p) (2 * j + 1)).
Lemma interpolant_node p k : (0 < p)%nat -> (k < 2 * p)%nat -> interpolant p (node (2 * p) k) = tanh (node (2 * p) k).
Proof.
  intros P K. rewrite <- (odd_interpolation tanh p k P K tanh_opp). unfold interpolant. apply rsumn_ext. intros j _. f_equal. unfold node. apply (proj1 (first_kind_cos _ (2 * j + 1))).
Qed.
Lemma error p x : (0 < p)%nat -> Rabs (interpolant p x - tanh x) <= 2 * Rabs (first_kind (2 * p) x) / 2 ^ (2 * p).
Proof.
  intros P. set (n := (2 * p)%nat). assert (Hn : (0 < n)%nat) by (unfold n; lia). assert (P2 : 0 < 2 ^ n) by (apply pow_lt; lra).
  set (u := fun i => node n (n - 1 - i)). assert (U : forall i, (S i < n)%nat -> u i < u (S i)) by (intros i Hi; apply node_less; exact Hi).
  assert (Cn : forall k, (forall i, (i < k)%nat -> u i <> x) \/ exists i, (i < k)%nat /\ u i = x).
  { induction k as [|l [L|[i [L1 L2]]]]; [left; intros; lia| |right; exists i; split; [lia|exact L2]]. destruct (Req_EM_T (u l) x) as [E|E]; [right; exists l; split; [lia|exact E]|left]. intros i Hi. destruct (Nat.eq_dec i l) as [->|]; [exact E|apply L; lia]. }
  destruct (Cn n) as [Cn'|[i [Hi E]]].
  2: { rewrite <- E. unfold u. unfold n at 1. rewrite interpolant_node by (unfold n in *; lia). fold n. rewrite Rminus_diag_eq, Rabs_R0 by reflexivity. apply Rmult_le_pos; [|left; now apply Rinv_0_lt_compat]. pose proof (Rabs_pos (first_kind n (node n (n - 1 - i)))). lra. }
  assert (F0 : 0 < INR (fact n)) by apply INR_fact_lt_0.
  assert (Top : forall y, kind_d n n y = 2 ^ n / 2 * INR (fact n)).
  { intros y. replace n with (S (n - 1)) by lia. rewrite kind_lead. cbn [pow]. field. }
  assert (T0 : first_kind n x <> 0).
  { intros Z. destruct (rolle_more n (kind_d n) u x (kind_smooth n) U Cn') as [y Y].
    - intros i Hi. rewrite kind_d_0. now apply node_root.
    - now rewrite kind_d_0.
    - rewrite Top in Y. assert (0 < 2 ^ n / 2 * INR (fact n)) by (apply Rmult_lt_0_compat; lra). lra. }
  set (l := (interpolant p x - tanh x) / first_kind n x).
  set (D := fun k y => rsumn p (fun j => kind_d (2 * j + 1) k y * chebyshev_coefficient tanh n (2 * j + 1)) - tanh_d k y - l * kind_d n k y).
  assert (D0 : forall y, D 0%nat y = interpolant p y - tanh y - l * first_kind n y).
  { intros y. unfold D, interpolant. rewrite kind_d_0. fold n. f_equal. f_equal; [apply rsumn_ext; intros j _; now rewrite kind_d_0|]. unfold tanh_d. cbn [fact INR]. change (coef 0 y) with (tanh y). ring. }
  destruct (rolle_more n D u x) as [y Y].
  - intros k y. unfold D. apply (derivable_pt_lim_minus (fun z => rsumn p (fun j => kind_d (2 * j + 1) k z * chebyshev_coefficient tanh n (2 * j + 1)) - tanh_d k z) (fun z => l * kind_d n k z)); [|apply (derivable_pt_lim_scal (kind_d n k) l); apply kind_smooth].
    apply (derivable_pt_lim_minus (fun z => rsumn p (fun j => kind_d (2 * j + 1) k z * chebyshev_coefficient tanh n (2 * j + 1))) (tanh_d k)); [|apply tanh_smooth].
    apply (sum_lim p (fun j z => kind_d (2 * j + 1) k z * chebyshev_coefficient tanh n (2 * j + 1)) (fun j z => kind_d (2 * j + 1) (S k) z * chebyshev_coefficient tanh n (2 * j + 1))). intros j _.
    apply (lim_ext _ (fun z => chebyshev_coefficient tanh n (2 * j + 1) * kind_d (2 * j + 1) k z) y (chebyshev_coefficient tanh n (2 * j + 1) * kind_d (2 * j + 1) (S k) y)); [intros z; ring|ring|]. apply (derivable_pt_lim_scal (kind_d (2 * j + 1) k)). apply kind_smooth.
  - exact U.
  - exact Cn'.
  - intros i Hi. rewrite D0. unfold u. rewrite node_root by exact Hn. unfold n at 1. rewrite interpolant_node by (unfold n in *; lia). fold n. ring.
  - rewrite D0. unfold l. field. exact T0.
  - unfold D in Y. rewrite Top in Y. rewrite (rsumn_ext p _ (fun _ => 0)) in Y by (intros j Hj; rewrite kind_top by (unfold n; lia); ring). rewrite rsumn_const in Y. unfold tanh_d in Y.
    assert (L : l * 2 ^ n / 2 = - coef n y). { apply (Rmult_eq_reg_r (INR (fact n))); [|lra]. lra. }
    assert (L' : l = - coef n y * (2 / 2 ^ n)) by (rewrite <- L; field; lra).
    replace (interpolant p x - tanh x) with (l * first_kind n x) by (unfold l; field; exact T0). rewrite L', !Rabs_mult, Rabs_Ropp. rewrite (Rabs_right (2 / 2 ^ n)) by (apply Rle_ge, Rmult_le_pos; [lra|left; now apply Rinv_0_lt_compat]).
    pose proof (coef_bound n y) as B. pose proof (Rabs_pos (first_kind n x)) as F. assert (I : 0 < / 2 ^ n) by now apply Rinv_0_lt_compat. unfold Rdiv. replace (2 * Rabs (first_kind n x) * / 2 ^ n) with (1 * (2 * / 2 ^ n) * Rabs (first_kind n x)) by ring.
    apply Rmult_le_compat_r; [exact F|]. apply Rmult_le_compat_r; [lra|exact B].
Qed.

(** *** The properties *)
Lemma chebyshev_value c p x : sigmoid_tanh_terms c = (2 * p)%nat -> (3 <= p)%nat -> tanh_chebyshev c x = inr (hardtanh (interpolant p x)).
Proof.
  intros E P. unfold tanh_chebyshev. rewrite E, (proj1 (k_C76_polynomials x (2 * p)) p P eq_refl). replace (2 * p / 2)%nat with p by (rewrite Nat.mul_comm, Nat.div_mul; lia). rewrite weighted_sum. reflexivity.
Qed.
Lemma clamp_closer a b : -1 <= b <= 1 -> Rabs (hardtanh a - b) <= Rabs (a - b).
Proof. intros B. unfold hardtanh, Rmax, Rmin. destruct (Rle_dec 1 a); destruct (Rle_dec (-1) _); unfold Rabs; repeat destruct (Rcase_abs _); lra. Qed.
Lemma first_kind_small n x : -1 <= x <= 1 -> Rabs (first_kind n x) <= 1.
Proof. intros H. rewrite <- (cos_acos x H), (proj1 (first_kind_cos _ n)). apply Rabs_le, COS_bound. Qed.
(** C105: tanh by Chebyshev differs from tanh by at most 2 |T_terms(x)| / 2^terms, at every x. *)
Lemma k_C105_everywhere c x : sigmoid_tanh_method c = Chebyshev -> Nat.even (sigmoid_tanh_terms c) = true -> (6 <= sigmoid_tanh_terms c)%nat ->
  exists v, mpc_tanh c x = inr v /\ Rabs (v - tanh x) <= 2 * Rabs (first_kind (sigmoid_tanh_terms c) x) / 2 ^ sigmoid_tanh_terms c.
Proof.
  intros M E L. apply Nat.even_spec in E. destruct E as [p E]. exists (hardtanh (interpolant p x)). split; [unfold mpc_tanh; rewrite M; apply chebyshev_value; [exact E|lia]|].
  rewrite E. apply Rle_trans with (Rabs (interpolant p x - tanh x)); [apply clamp_closer; pose proof (tanh_bound x); lra|apply error; lia].
Qed.
(** C105: so it is within 2 / 2^terms of tanh on [-1, 1]. *)
Lemma k_C105_tanh c x : sigmoid_tanh_method c = Chebyshev -> Nat.even (sigmoid_tanh_terms c) = true -> (6 <= sigmoid_tanh_terms c)%nat -> -1 <= x <= 1 ->
  exists v, mpc_tanh c x = inr v /\ Rabs (v - tanh x) <= 2 / 2 ^ sigmoid_tanh_terms c.
Proof.
  intros M E L X. destruct (k_C105_everywhere c x M E L) as [v [V B]]. exists v. split; [exact V|]. apply Rle_trans with (1 := B). assert (0 < / 2 ^ sigmoid_tanh_terms c) by (apply Rinv_0_lt_compat, pow_lt; lra). pose proof (first_kind_small (sigmoid_tanh_terms c) x X). unfold Rdiv. apply Rmult_le_compat_r; lra.
Qed.
Lemma logistic_tanh x : / (1 + exp (- x)) = tanh (x / 2) / 2 + 1 / 2.
Proof.
  unfold tanh, sinh, cosh. replace (- x) with (- (x / 2) + - (x / 2)) by field. rewrite exp_plus, exp_Ropp. pose proof (exp_pos (x / 2)). set (e := exp (x / 2)) in *. field. repeat split; nra.
Qed.
(** C105: and sigmoid by Chebyshev is within 1 / 2^terms of 1 / (1 + exp(-x)) on [-2, 2]. *)
Lemma k_C105_sigmoid c x : sigmoid_tanh_method c = Chebyshev -> Nat.even (sigmoid_tanh_terms c) = true -> (6 <= sigmoid_tanh_terms c)%nat -> -2 <= x <= 2 ->
  exists v, mpc_sigmoid c x = inr v /\ Rabs (v - / (1 + exp (- x))) <= 1 / 2 ^ sigmoid_tanh_terms c.
Proof.
  intros M E L X. destruct (k_C105_tanh c (x / 2) M E L ltac:(lra)) as [v [V B]]. unfold mpc_tanh in V. rewrite M in V. exists (v / 2 + 1 / 2). split; [unfold mpc_sigmoid; rewrite M, V; reflexivity|].
  rewrite logistic_tanh. replace (v / 2 + 1 / 2 - (tanh (x / 2) / 2 + 1 / 2)) with ((v - tanh (x / 2)) * / 2) by field. rewrite Rabs_mult, (Rabs_right (/ 2)) by lra. unfold Rdiv in *. lra.
Qed.
Lemma first_kind_outside n : first_kind n (41 / 40) = ((5 / 4) ^ n + (4 / 5) ^ n) / 2.
Proof. pattern n. apply two_steps; clear n; [cbn; lra|cbn; lra|]. intros n I1 I2. rewrite first_kind_SS, I1, I2. cbn [pow]. field. Qed.
(** C105: it is documented to be truncated to 1 and -1 outside [-1, 1]; but at 41/40 it is less than 1 with every valid number of terms. *)
Lemma k_C105_truncated_refuted c : sigmoid_tanh_method c = Chebyshev -> Nat.even (sigmoid_tanh_terms c) = true -> (6 <= sigmoid_tanh_terms c)%nat -> exists v, mpc_tanh c (41 / 40) = inr v /\ v < 1.
Proof.
  intros M E L. destruct (k_C105_everywhere c (41 / 40) M E L) as [v [V B]]. exists v. split; [exact V|]. set (n := sigmoid_tanh_terms c) in *. rewrite first_kind_outside in B.
  assert (P2 : 0 < 2 ^ n) by (apply pow_lt; lra). assert (A1 : 0 < (5 / 4) ^ n) by (apply pow_lt; lra). assert (A2 : 0 < (4 / 5) ^ n) by (apply pow_lt; lra). rewrite (Rabs_right (((5 / 4) ^ n + (4 / 5) ^ n) / 2)) in B by lra.
  assert (Q : 2 * (((5 / 4) ^ n + (4 / 5) ^ n) / 2) / 2 ^ n = (5 / 8) ^ n + (2 / 5) ^ n).
  { replace (5 / 8) with (5 / 4 * / 2) by field. replace (2 / 5) with (4 / 5 * / 2) by field. rewrite !Rpow_mult_distr, !pow_inv. field. lra. }
  rewrite Q in B. clear Q.
  assert (G : forall r, 0 < r < 1 -> r ^ n <= r ^ 6).
  { intros r R. replace n with (6 + (n - 6))%nat by lia. rewrite pow_add. assert (0 < r ^ 6) by (apply pow_lt; lra). assert (K : forall k, r ^ k <= 1). { induction k as [|k IK]; [cbn; lra|]. cbn [pow]. assert (0 < r ^ k) by (apply pow_lt; lra). nra. } specialize (K (n - 6)%nat). assert (0 < r ^ (n - 6)) by (apply pow_lt; lra). nra. }
  pose proof (G (5 / 8) ltac:(lra)) as G1. pose proof (G (2 / 5) ltac:(lra)) as G2.
  assert (T : tanh (41 / 40) <= 26 / 28).
  { assert (Ex : exp (41 / 20) <= 27). { apply Rle_trans with (exp 3); [left; apply exp_increasing; lra|]. replace 3 with (1 + 1 + 1) at 1 by ring. rewrite !exp_plus. pose proof exp_le_3. pose proof (exp_pos 1). nra. }
    replace (41 / 20) with (41 / 40 + 41 / 40) in Ex by field. rewrite exp_plus in Ex. unfold tanh, sinh, cosh. rewrite exp_Ropp. pose proof (exp_pos (41 / 40)). set (e := exp (41 / 40)) in *.
    replace ((e - / e) / 2 / ((e + / e) / 2)) with (1 - 2 / (e * e + 1)) by (field; split; nra). assert (1 / 28 <= / (e * e + 1)) by (unfold Rdiv; rewrite Rmult_1_l; apply Rinv_le_contravar; nra). unfold Rdiv in *. lra. }
  pose proof (Rle_abs (v - tanh (41 / 40))). cbn [pow] in G1, G2. lra.
Qed.
