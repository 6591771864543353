(** Proofs of C109: norms, cosine similarity and batch normalisation on shares. *)
Require Import ZArith QArith Qreals List Bool Lia Reals Lra.
From Verif Require Import Approx Approx_claims Approxfn_claims Approxlog_claims Approxsoft_claims.
From Verif Require Import Ring64 Encoder Arith Arith_proofs Beaver Trunc Provider Binary Binary_proofs Compare Compare_proofs Compare_claims Maximum Maximum_proofs Maximum_claims Regular Regular_proofs Regular_claims Shareapprox Shareapprox_proofs Shareapprox_claims Sharesoft Sharesoft_claims Shareroot Shareroot_claims Sharepoly_claims Sharecheb_claims Sharenorm.
Import ListNotations.
Open Scope R_scope.

(** ** What is to be computed *)
Definition sumr (l : list R) : R := fold_right Rplus 0 l.
Definition square_sum (l : list R) : R := sumr (map (fun x => x * x) l).
Definition scalar (l m : list R) : R := sumr (map (fun p => fst p * snd p) (combine l m)).
Definition cosine (l m : list R) : R := scalar l m / (sqrt (square_sum l) * sqrt (square_sum m)).
Definition average (l : list R) : R := sumr l / INR (length l).
Definition variance (l : list R) : R := square_sum (map (fun x => x - average l) l) / INR (length l).

(** ** How far the results are from it, in the default configuration: the relative error of inv_sqrt (C101); of inv_sqrt of a number known up to t *)
Definition unit_error (E : Z) : R := IZR E / 65536.
Definition root_error (E : Z) (X : R) : R := 13 / 1000 + 9 / 2 * unit_error E * (X + 1).
Definition shaky (E : Z) (t A : R) : R := let e := root_error E (A + t) in e + t / A + e * (t / A).
Definition usable (t A : R) : Prop := 1 / 10 + t <= A <= 150 - t /\ 2 * t <= A.
Definition norm2_error (E : Z) (m : nat) (A : R) : R := let t := INR m * unit_error E in root_error E (A + t) * (sqrt A + t / sqrt A) + t / sqrt A + unit_error E.
Definition cosine_error (E : Z) (m : nat) (A B : R) : R :=
  let t := INR m * unit_error E in let u := (1 + shaky E t A) * (1 + shaky E t B) in u - 1 + t * u / (sqrt A * sqrt B) + (sqrt A * sqrt B + t + 1) * unit_error E.
(** batch normalisation: the mean is known up to h, the variance S up to t; c = x - mean, w the weight *)
Definition bn_error (E : Z) (h t S c w : R) : R := let e := shaky E t S in Rabs w * ((Rabs c * e + h * (1 + e)) / sqrt S + unit_error E) + unit_error E.
Definition running_error (E : Z) (r c : R) : R := 2 * unit_error E + (Rabs r + Rabs c) / 65536.

(** ** Sums of real numbers *)
Lemma sumr_cons a l : sumr (a :: l) = a + sumr l. Proof. reflexivity. Qed.
Lemma square_sum_cons a l : square_sum (a :: l) = a * a + square_sum l. Proof. reflexivity. Qed.
Lemma scalar_cons a l b m : scalar (a :: l) (b :: m) = a * b + scalar l m. Proof. reflexivity. Qed.
Lemma square_sum_pos l : 0 <= square_sum l.
Proof. induction l as [|a l IH]; [cbn; lra|]. rewrite square_sum_cons. nra. Qed.
Lemma square_sum_in a l : In a l -> a * a <= square_sum l.
Proof. induction l as [|b l IH]; intros H; [destruct H|]. rewrite square_sum_cons. destruct H as [-> | H]; [pose proof (square_sum_pos l); lra|specialize (IH H); nra]. Qed.
Lemma below_13 a : a * a <= 150 -> Rabs a <= 13. Proof. intros H. apply Rabs_le. nra. Qed.
Lemma mid a b : a * b <= (a * a + b * b) / 2. Proof. pose proof (Rle_0_sqr (a - b)) as H. unfold Rsqr in H. lra. Qed.
Lemma cauchy l : forall m, Rabs (scalar l m) <= sqrt (square_sum l) * sqrt (square_sum m).
Proof.
  assert (Z0 : forall a b, 0 <= sqrt a * sqrt b) by (intros a b; apply Rmult_le_pos; apply sqrt_pos).
  induction l as [|a l IH]; intros [|b m]; try (unfold scalar; cbn [combine map sumr fold_right]; rewrite Rabs_R0; apply Z0).
  rewrite scalar_cons, !square_sum_cons. specialize (IH m). set (A := square_sum l) in *. set (B := square_sum m) in *. assert (HA : 0 <= A) by apply square_sum_pos. assert (HB : 0 <= B) by apply square_sum_pos.
  rewrite <- sqrt_mult by nra. apply Rle_trans with (Rabs a * Rabs b + sqrt A * sqrt B).
  { eapply Rle_trans; [apply Rabs_triang|]. rewrite Rabs_mult. lra. }
  pose proof (Rabs_pos a) as P1. pose proof (Rabs_pos b) as P2. pose proof (sqrt_pos A) as Q1. pose proof (sqrt_pos B) as Q2. assert (QA : sqrt A * sqrt A = A) by (now apply sqrt_sqrt). assert (QB : sqrt B * sqrt B = B) by (now apply sqrt_sqrt).
  assert (SA : Rabs a * Rabs a = a * a) by (unfold Rabs; destruct (Rcase_abs a); ring). assert (SB : Rabs b * Rabs b = b * b) by (unfold Rabs; destruct (Rcase_abs b); ring).
  rewrite <- (sqrt_Rsqr (Rabs a * Rabs b + sqrt A * sqrt B)); [|assert (0 <= Rabs a * Rabs b) by nra; assert (0 <= sqrt A * sqrt B) by nra; lra]. apply sqrt_le_1_alt. unfold Rsqr.
  set (p := Rabs a) in *. set (q := Rabs b) in *. set (r := sqrt A) in *. set (t := sqrt B) in *. rewrite <- SA, <- SB, <- QA, <- QB. assert (0 <= (p * t - q * r) * (p * t - q * r)) by (apply Rle_0_sqr). nra.
Qed.
Lemma sqrt_near X A t : 0 < A -> 0 <= X -> Rabs (X - A) <= t -> Rabs (sqrt X - sqrt A) <= t / sqrt A.
Proof.
  intros HA HX H. pose proof (sqrt_lt_R0 A HA) as P. pose proof (sqrt_pos X) as Q. assert (EA : sqrt A * sqrt A = A) by (apply sqrt_sqrt; lra). assert (EX : sqrt X * sqrt X = X) by (now apply sqrt_sqrt).
  apply (Rmult_le_reg_r (sqrt A)); [exact P|]. replace (t / sqrt A * sqrt A) with t by (field; lra). eapply Rle_trans; [|exact H]. replace (X - A) with ((sqrt X - sqrt A) * (sqrt X + sqrt A)) by (transitivity (sqrt X * sqrt X - sqrt A * sqrt A); [ring|now rewrite EA, EX]).
  rewrite Rabs_mult. apply Rmult_le_compat_l; [apply Rabs_pos|]. rewrite Rabs_right; lra.
Qed.
(** the inverse root of a number known up to a part of it *)
Lemma inverse_near X A t : 0 < A -> 2 * t <= A -> Rabs (X - A) <= t -> Rabs (sqrt A / sqrt X - 1) <= t / A.
Proof.
  intros HA Ht H. assert (T0 : 0 <= t) by (eapply Rle_trans; [apply Rabs_pos|exact H]). apply Rabs_def2' in H. assert (HX : 0 < X) by lra. pose proof (sqrt_lt_R0 A HA) as P. pose proof (sqrt_lt_R0 X HX) as Q.
  assert (EA : sqrt A * sqrt A = A) by (apply sqrt_sqrt; lra). assert (EX : sqrt X * sqrt X = X) by (apply sqrt_sqrt; lra). set (u := t / A). assert (U : u * A = t) by (unfold u; field; lra). assert (U0 : 0 <= u <= 1 / 2) by (split; apply (Rmult_le_reg_r A); lra).
  set (r := sqrt A / sqrt X). assert (Hr : 0 < r) by (apply Rdiv_lt_0_compat; assumption). assert (R2 : r * r * X = A) by (unfold r; transitivity (sqrt A * sqrt A * (X / (sqrt X * sqrt X))); [field; lra|rewrite EA, EX; field; lra]).
  apply Rabs_le. split.
  - destruct (Rle_dec (1 - u) r) as [G|G]; [lra|exfalso]. assert (r < 1 - u) by lra. assert (r * r < (1 - u) * (1 - u)) by nra. assert (K1 : A < (1 - u) * (1 - u) * (A + t)) by (rewrite <- R2 at 1; assert (0 < r * r) by nra; nra). assert ((1 - u) * (1 - u) * (A + t) = (1 - u) * (1 - u) * (1 + u) * A) by (rewrite <- U; ring). assert ((1 - u) * (1 - u) * (1 + u) <= 1) by nra. nra.
  - destruct (Rle_dec r (1 + u)) as [G|G]; [lra|exfalso]. assert (1 + u < r) by lra. assert ((1 + u) * (1 + u) < r * r) by nra. assert (K1 : (1 + u) * (1 + u) * (A - t) < A) by (rewrite <- R2 at 2; nra). assert ((1 + u) * (1 + u) * (A - t) = (1 + u) * (1 + u) * (1 - u) * A) by (rewrite <- U; ring). assert (1 <= (1 + u) * (1 + u) * (1 - u)) by nra. nra.
Qed.
Lemma variance_shift l c : l <> [] -> square_sum (map (fun x => x - c) l) / INR (length l) = variance l + (c - average l) * (c - average l).
Proof.
  intros N. assert (L : 0 < INR (length l)) by (apply lt_0_INR; destruct l; [congruence|cbn; lia]).
  assert (X : forall c, square_sum (map (fun x => x - c) l) = square_sum l - 2 * c * sumr l + INR (length l) * (c * c)).
  { clear. intros c. induction l as [|a l IH]; [cbn; ring|]. cbn [map length]. rewrite !square_sum_cons, sumr_cons, IH, S_INR. ring. }
  unfold variance. rewrite !X. unfold average. field. lra.
Qed.
Lemma Forall2_sum {A} (f : A -> R) h l m : Forall2 (fun a b => Rabs (b - f a) <= h) l m -> Rabs (sumr m - sumr (map f l)) <= INR (length l) * h.
Proof.
  induction 1 as [|a b l m H _ IH]; [cbn; rewrite Rminus_0_r, Rabs_R0; lra|]. cbn [map]. rewrite !sumr_cons. cbn [length]. rewrite S_INR. replace (b + sumr m - (f a + sumr (map f l))) with ((b - f a) + (sumr m - sumr (map f l))) by ring.
  eapply Rle_trans; [apply Rabs_triang|]. lra.
Qed.

(** ** On shares *)
Section Shares.
  Variable n : nat.
  Hypothesis Hn : (0 < n)%nat.
  Variable pr : provider.
  Hypothesis HV : valid n pr.
  Section Any.
  Variables (s E : Z) (T : bool).
  Hypothesis HE : (1 <= E)%Z.
  Hypothesis Hs : (1 < s)%Z.
  Hypothesis HT : T = true -> n = 1%nat.
  Local Notation real := (real s).
  Local Notation eta := (eta s E).
  Local Notation holds := (holds n s).
  Lemma real_zsum vs : real (zsum vs) = sumr (map real vs).
  Proof using Hs.
    clear - Hs. pose proof (s_pos s Hs). induction vs as [|v vs IH]; [unfold Shareapprox_proofs.real; cbn; field; lra|]. rewrite zsum_cons. cbn [map]. rewrite sumr_cons, <- IH. unfold Shareapprox_proofs.real. rewrite plus_IZR. field. lra.
  Qed.
  (** the sum of numbers each of which is off by one rounding *)
  Lemma sum_real {A} (f : A -> R) (vs : list A) zs M : vs <> [] -> Forall2 (fun v z => exists q, holds q z /\ Rabs (real q - f v) <= eta) vs zs -> Rabs (sumr (map f vs)) + INR (length vs) * eta <= M -> IZR s * M < IZR H63 ->
    exists q, holds q (sum_num zs) /\ Rabs (real q - sumr (map f vs)) <= INR (length vs) * eta.
  Proof using Hs Hn HT.
    intros N F B S. assert (X : exists qs, Forall2 (fun v q => Rabs (q - f v) <= eta) vs (map real qs) /\ Forall2 (fun q z => nshare n q s z) qs zs).
    { clear N B S. induction F as [|v z vs zs (q & [Hq _] & Bq) _ (qs & G1 & G2)]; [exists []; split; constructor|]. exists (q :: qs). split; constructor; assumption. }
    destruct X as (qs & G1 & G2). pose proof (Forall2_sum f eta vs (map real qs) G1) as G. rewrite <- real_zsum in G. exists (zsum qs). split; [|exact G].
    assert (Nq : qs <> []). { intros ->. inversion G1; subst. congruence. }
    eapply (holds_bound n Hn s T Hs HT); [apply (sum_num_ok n s qs zs Nq G2)| |exact S]. eapply Rle_trans; [|exact B]. replace (real (zsum qs)) with ((real (zsum qs) - sumr (map f vs)) + sumr (map f vs)) by ring. eapply Rle_trans; [apply Rabs_triang|]. lra.
  Qed.
  Lemma in64_product v w M : Rabs (real v * real w) <= M -> IZR s * IZR s * M < IZR H63 -> in64 (v * w).
  Proof using Hs.
    clear - Hs. intros B S. pose proof (s_pos s Hs) as Sp. assert (X : IZR s * IZR s * (real v * real w) = IZR (v * w)) by (unfold Shareapprox_proofs.real; rewrite mult_IZR; field; lra). apply Rabs_def2' in B. assert (0 < IZR s * IZR s) by nra.
    assert (IZR (v * w) <= IZR s * IZR s * M) by (rewrite <- X; apply Rmult_le_compat_l; lra). assert (IZR s * IZR s * - M <= IZR (v * w)) by (rewrite <- X; apply Rmult_le_compat_l; lra).
    unfold in64. split; apply le_IZR || apply lt_IZR; rewrite ?opp_IZR; lra.
  Qed.
  Lemma square_sum_real vs xs M : vs <> [] -> Forall2 holds vs xs -> square_sum (map real vs) + INR (length vs) * eta <= M -> IZR s * IZR s * M < IZR H63 ->
    yo T (square_sumv (pr := pr) (within E) xs) (fun z => exists q, holds q z /\ Rabs (real q - square_sum (map real vs)) <= INR (length vs) * eta).
  Proof using HE Hs HT Hn HV.
    intros N F B S. pose proof (s_pos s Hs) as Sp. pose proof (eta_pos s E HE Hs) as Ep. assert (S2 : 2 <= IZR s) by (apply (IZR_le 2); lia). pose proof (pos_INR (length vs)) as Lp. pose proof (square_sum_pos (map real vs)) as Qp.
    assert (M0 : 0 <= M) by (assert (0 <= INR (length vs) * eta) by (apply Rmult_le_pos; lra); lra). unfold square_sumv. eapply yo_bind.
    - apply (yo_map T _ (fun v x => holds v x /\ in64 (v * v)) (fun v z => exists q, holds q z /\ Rabs (real q - real v * real v) <= eta) vs xs).
      + assert (G : Forall (fun v => in64 (v * v)) vs).
        { apply Forall_forall. intros v Iv. apply (in64_product v v M); [|exact S]. rewrite Rabs_right by (apply Rle_ge, Rle_0_sqr). eapply Rle_trans; [apply (square_sum_in (real v) (map real vs)); now apply in_map|]. assert (0 <= INR (length vs) * eta) by (apply Rmult_le_pos; lra). lra. }
        clear - F G. induction F; [constructor|]. inversion G; subst. constructor; [split; assumption|auto].
      + intros v x [Hx I]. apply (square_real n Hn pr HV s E T HE Hs HT v x Hx I).
    - intros zs Hz. apply yo_ok. replace (square_sum (map real vs)) with (sumr (map (fun v => real v * real v) vs)) in * by (unfold square_sum; now rewrite map_map).
      apply (sum_real (fun v => real v * real v) vs zs M N Hz); [rewrite Rabs_right by lra; exact B|]. eapply Rle_lt_trans; [|exact S]. apply Rmult_le_compat_r; [exact M0|]. nra.
  Qed.
  Lemma prodv_two chk x y st : prodv (pr := pr) chk [x; y] st = mulv (pr := pr) chk x y st.
  Proof using.
    unfold prodv. cbn [length prodv_loop Nat.ltb Nat.leb]. unfold prodv_round. change (halves [x; y]) with ([x], [y], @nil num). cbv iota beta. cbn [zipO]. unfold bindo, okr, bind, ret.
    destruct (mulv chk x y st) as [[z|] st']; reflexivity.
  Qed.
  End Any.

  Section Default.
  Variables (E : Z) (T : bool).
  Hypothesis HE : (E = 1 \/ E = 2)%Z.
  Hypothesis HT : T = true -> n = 1%nat.
  Local Notation real := (real 65536).
  Local Notation eta := (unit_error E).
  Local Notation holds := (holds n 65536).
  Lemma unit_small : 0 < eta <= 2 / 65536. Proof using HE. unfold unit_error. destruct HE as [-> | ->]; lra. Qed.
  Lemma E_pos : (1 <= E)%Z. Proof using HE. clear - HE. destruct HE; lia. Qed.
  Lemma root_error_small X : 0 <= X <= 150 -> 0 <= root_error E X <= 34 / 1000.
  Proof using HE. intros H. pose proof unit_small. unfold root_error. split; [assert (0 <= 9 / 2 * eta * (X + 1)) by (apply Rmult_le_pos; lra); lra|]. assert (9 / 2 * eta * (X + 1) <= 9 / 2 * (2 / 65536) * 151) by (apply Rmult_le_compat; lra). lra. Qed.
  Lemma root_error_mono X Y : X <= Y -> root_error E X <= root_error E Y.
  Proof using HE. intros H. pose proof unit_small. unfold root_error. assert (9 / 2 * eta * (X + 1) <= 9 / 2 * eta * (Y + 1)) by (apply Rmult_le_compat_l; lra). lra. Qed.
  Lemma roots_default v x : holds v x -> 1 / 10 <= real v <= 150 ->
    yo T (inv_sqrtv (pr := pr) (within E) 8 3 x) (fun z => exists q, holds q z /\ Rabs (real q * sqrt (real v) - 1) <= root_error E (real v)) /\
    yo T (sqrtv (pr := pr) (within E) 8 3 x) (fun z => exists q, holds q z /\ Rabs (real q - sqrt (real v)) <= root_error E (real v) * sqrt (real v) + eta).
  Proof using Hn HV HE HT.
    intros Hx B. destruct (default_converges n Hn E (real v) HE B) as ((C1 & C2 & C3 & C4 & C5 & C6 & C7 & C8 & C9 & C10 & C11 & C12 & C13 & C14) & I & N0). assert (R63 : 2 ^ 63 = IZR H63) by (change (IZR H63) with (IZR 9223372036854775808); lra). rewrite R63 in *. rewrite growth_factor in C8.
    set (c := Nat.iter 3 _ _) in I. assert (Ee : 13 / 1000 + 3 * wobble 65536 E (real v) = root_error E (real v)) by (unfold root_error, wobble, unit_error; lra). destruct (sqrt_mid (real v) ltac:(lra)) as (SP & _).
    assert (Fit : fits_root 65536 E (real v)) by (split; [exact C1|split; assumption]). split.
    - eapply yo_weaken; [apply (inv_sqrt_real n Hn pr HV 65536 E T E_pos ltac:(lia) HT 8 3 v x (39 / 100) (45 / 100)); try assumption; try lra; lia|]. fold c. intros z (q & Hq & L & U). exists q. split; [exact Hq|]. apply Rabs_le. lra.
    - eapply yo_weaken; [apply (sqrt_real n Hn pr HV 65536 E T E_pos ltac:(lia) HT 8 3 v x (39 / 100) (45 / 100)); try assumption; try lra; lia|]. fold c. intros z (q & Hq & L & U). exists q. split; [exact Hq|]. change (Shareapprox_proofs.eta 65536 E) with eta in *.
      assert (sqrt (real v) * wobble 65536 E (real v) <= sqrt (real v) * root_error E (real v)) by (apply Rmult_le_compat_l; lra). assert (sqrt (real v) * c <= sqrt (real v) * root_error E (real v)) by (apply Rmult_le_compat_l; lra). apply Rabs_le. lra.
  Qed.
  Lemma usable_facts t A : 0 <= t -> usable t A -> 1 / 10 <= A <= 150 /\ 0 < sqrt A /\ sqrt A * sqrt A = A /\ / sqrt A <= 11 / 2 /\ 0 <= t / A <= 1 / 2 /\ 0 <= shaky E t A <= 56 / 100.
  Proof using HE.
    intros T0 [[U1 U2] U3]. assert (HA : 0 < A) by lra. destruct (sqrt_mid A HA) as (P & Q & _ & I). assert (IA : / A <= 10) by (rewrite <- (Rinv_inv 10); apply Rinv_le_contravar; lra).
    assert (Ta : 0 <= t / A <= 1 / 2). { assert (t / A * A = t) by (field; lra). split; apply (Rmult_le_reg_r A); lra. }
    pose proof (root_error_small (A + t) ltac:(lra)) as R. split; [lra|]. split; [exact P|]. split; [exact Q|]. split; [lra|]. split; [exact Ta|]. unfold shaky. nra.
  Qed.
  Lemma inv_near v x A t : holds v x -> Rabs (real v - A) <= t -> usable t A ->
    yo T (inv_sqrtv (pr := pr) (within E) 8 3 x) (fun z => exists q, holds q z /\ Rabs (real q * sqrt A - 1) <= shaky E t A /\ Rabs (real q) <= 9).
  Proof using Hn HV HE HT.
    intros Hx B U. assert (T0 : 0 <= t) by (eapply Rle_trans; [apply Rabs_pos|exact B]). destruct (usable_facts t A T0 U) as (A1 & P & PP & PI & Ta & Sh). destruct U as [[U1 U2] U3]. pose proof (Rabs_def2' _ _ B) as B'.
    eapply yo_weaken; [apply (roots_default v x Hx); lra|]. intros z (q & Hq & Bq). exists q. split; [exact Hq|]. set (X := real v) in *. pose proof (sqrt_lt_R0 X ltac:(lra)) as PX.
    assert (G : Rabs (real q * sqrt A - 1) <= shaky E t A).
    { pose proof (inverse_near X A t ltac:(lra) U3 B) as Bi. assert (Re : root_error E X <= root_error E (A + t)) by (apply root_error_mono; lra).
      replace (real q * sqrt A - 1) with ((real q * sqrt X - 1) + (sqrt A / sqrt X - 1) + (real q * sqrt X - 1) * (sqrt A / sqrt X - 1)) by (field; lra).
      unfold shaky. eapply Rle_trans; [apply Rabs_triang|]. apply Rplus_le_compat; [eapply Rle_trans; [apply Rabs_triang|]; lra|]. rewrite Rabs_mult. apply Rmult_le_compat; try apply Rabs_pos; lra. }
    split; [exact G|]. apply Rabs_def2' in G. replace (real q) with (real q * sqrt A * / sqrt A) by (field; lra). rewrite Rabs_mult. assert (I0 : 0 < / sqrt A) by (now apply Rinv_0_lt_compat). rewrite (Rabs_right (/ sqrt A)) by lra. apply Rle_trans with (156 / 100 * (11 / 2)); [|lra]. apply Rmult_le_compat; try lra; [apply Rabs_pos|]. apply Rabs_le. lra.
  Qed.
  Lemma R63' : IZR H63 = 9223372036854775808. Proof using. reflexivity. Qed.
  Lemma norm2_real vs xs : let A := square_sum (map real vs) in let t := INR (length vs) * eta in vs <> [] -> Forall2 holds vs xs -> usable t A ->
    yo T (norm2v (pr := pr) (within E) 8 3 xs) (fun z => exists q, holds q z /\ Rabs (real q - sqrt A) <= norm2_error E (length vs) A).
  Proof using Hn HV HE HT.
    intros A t N F U. pose proof unit_small as Us. assert (T0 : 0 <= t) by (apply Rmult_le_pos; [apply pos_INR|lra]). pose proof (usable_facts t A T0 U) as (A1 & P & PP & PI & _). destruct U as [[U1 U2] U3]. unfold norm2v.
    eapply yo_bind; [apply (square_sum_real 65536 E T E_pos ltac:(lia) HT vs xs 150 N F); [fold A; change (Shareapprox_proofs.eta 65536 E) with eta; fold t; lra|rewrite R63'; lra]|]. change (Shareapprox_proofs.eta 65536 E) with eta. fold t A. intros y (v & Hv & Bv). pose proof (Rabs_def2' _ _ Bv) as Bv'.
    eapply yo_weaken; [apply (roots_default v y Hv); lra|]. intros z (q & Hq & Bq). exists q. split; [exact Hq|]. set (X := real v) in *. pose proof (sqrt_near X A t ltac:(lra) ltac:(lra) Bv) as Sn. pose proof (Rabs_def2' _ _ Sn) as Sn'. pose proof (sqrt_pos X) as PX.
    assert (Re : root_error E X <= root_error E (A + t)) by (apply root_error_mono; lra). pose proof (root_error_small X ltac:(lra)) as R0.
    replace (real q - sqrt A) with ((real q - sqrt X) + (sqrt X - sqrt A)) by ring. eapply Rle_trans; [apply Rabs_triang|]. unfold norm2_error. fold t. assert (root_error E X * sqrt X <= root_error E (A + t) * (sqrt A + t / sqrt A)) by (apply Rmult_le_compat; lra). lra.
  Qed.
  Lemma scalar_pairs vs ws : scalar (map real vs) (map real ws) = sumr (map (fun p => real (fst p) * real (snd p)) (combine vs ws)).
  Proof using. unfold scalar. revert ws. induction vs as [|v vs IH]; intros [|w ws]; try reflexivity. cbn [map combine]. rewrite !sumr_cons, <- IH. reflexivity. Qed.
  Lemma cosine_real vs xs ws ys : let A := square_sum (map real vs) in let B := square_sum (map real ws) in let t := INR (length vs) * eta in (2 <= length vs)%nat -> length ws = length vs -> Forall2 holds vs xs -> Forall2 holds ws ys ->
    usable t A -> usable t B -> yo T (cosinev (pr := pr) 65536 (within E) 8 3 xs ys) (fun z => exists q, holds q z /\ Rabs (real q - cosine (map real vs) (map real ws)) <= cosine_error E (length vs) A B).
  Proof using Hn HV HE HT.
    intros A B t L2 Lw F G U W. pose proof unit_small as Us. assert (T0 : 0 <= t) by (apply Rmult_le_pos; [apply pos_INR|lra]). pose proof (usable_facts t A T0 U) as (A1 & PA & PPA & PIA & TA & SA). pose proof (usable_facts t B T0 W) as (B1 & PB & PPB & PIB & TB & SB).
    pose proof U as [[U1 U2] U3]. pose proof W as [[W1 W2] W3].
    assert (Ub : forall m (Q : num -> Prop), yo T m Q -> yo T (match xs, ys with [x], [y] => cosine1v (pr := pr) 65536 (within E) x y | _, _ => m end) Q).
    { intros m Q H. destruct F as [|v x vs xs Fx F]; [cbn in L2; lia|]. destruct F as [|v' x' vs xs Fx' F]; [cbn in L2; lia|]. exact H. }
    unfold cosinev. apply Ub. clear Ub.
    eapply yo_bind; [apply (square_sum_real 65536 E T E_pos ltac:(lia) HT vs xs 150); [intros ->; cbn in L2; lia|exact F|fold A; change (Shareapprox_proofs.eta 65536 E) with eta; fold t; lra|rewrite R63'; lra]|]. change (Shareapprox_proofs.eta 65536 E) with eta. fold t A. intros zx (vx & Hvx & Bvx).
    eapply yo_bind; [apply (square_sum_real 65536 E T E_pos ltac:(lia) HT ws ys 150); [intros ->; cbn in Lw; lia|exact G|fold B; rewrite Lw; change (Shareapprox_proofs.eta 65536 E) with eta; fold t; lra|rewrite R63'; lra]|]. rewrite Lw. change (Shareapprox_proofs.eta 65536 E) with eta. fold t B. intros zy (vy & Hvy & Bvy).
    eapply yo_bind; [apply (inv_near vx zx A t Hvx Bvx U)|]. intros zi (ix & Hix & Bix & Mix). eapply yo_bind; [apply (inv_near vy zy B t Hvy Bvy W)|]. intros zj (iy & Hiy & Biy & Miy).
    eapply yo_bind; [intros st; rewrite (prodv_two (within E)); apply (mul_real n Hn pr HV 65536 E T E_pos ltac:(lia) HT ix iy zi zj Hix Hiy); eapply (real_product n Hn 65536 T ltac:(lia) HT); [exact Mix|exact Miy|rewrite R63'; lra]|]. intros zp (p & Hp & Bp). change (Shareapprox_proofs.eta 65536 E) with eta in Bp.
    set (I := scalar (map real vs) (map real ws)). pose proof (cauchy (map real vs) (map real ws)) as Ca. fold I A B in Ca. set (a := sqrt A) in *. set (b := sqrt B) in *.
    assert (AB : a * b <= 150) by (pose proof (mid a b); lra).
    assert (Mem : forall l m, Forall2 holds l m -> square_sum (map real l) <= 150 -> Forall2 (fun v x => holds v x /\ Rabs (real v) <= 13) l m).
    { intros l m H Hq. assert (K : Forall (fun v => Rabs (real v) <= 13) l). { apply Forall_forall. intros v Iv. pose proof (square_sum_in (real v) (map real l) (in_map _ _ _ Iv)). apply below_13. lra. }
      clear Hq. induction H; [constructor|]. inversion K; subst. constructor; auto. }
    eapply yo_bind.
    { intros st. apply (yo_zip T _ (fun v x => holds v x /\ Rabs (real v) <= 13) (fun v x => holds v x /\ Rabs (real v) <= 13) (fun v w z => exists q, holds q z /\ Rabs (real q - real v * real w) <= eta) vs xs ws ys); [apply Mem; [exact F|fold A; lra]|apply Mem; [exact G|fold B; lra]|now symmetry|].
      intros v x w y [Hx Bx] [Hy By] st'. rewrite (prodv_two (within E)). apply (mul_real n Hn pr HV 65536 E T E_pos ltac:(lia) HT v w x y Hx Hy). eapply (real_product n Hn 65536 T ltac:(lia) HT); [exact Bx|exact By|rewrite R63'; lra]. }
    intros ps Hps. assert (Lc : length (combine vs ws) = length vs) by (rewrite combine_length, Lw; apply Nat.min_id).
    destruct (sum_real 65536 E T ltac:(lia) HT (fun p => real (fst p) * real (snd p)) (combine vs ws) ps 300) as (dq & Hd & Bd); [intros Ec; rewrite Ec in Lc; cbn in Lc; lia|exact Hps|rewrite <- scalar_pairs, Lc; fold I; change (Shareapprox_proofs.eta 65536 E) with eta; fold t; lra|rewrite R63'; lra|].
    rewrite <- scalar_pairs, Lc in Bd. fold I in Bd. change (Shareapprox_proofs.eta 65536 E) with eta in Bd. fold t in Bd. pose proof (Rabs_def2' _ _ Bd) as Bd'. pose proof (Rabs_def2' _ _ Ca) as Ca'. pose proof (Rabs_def2' _ _ Bp) as Bp'.
    assert (Pp : Rabs (real p) <= 82). { replace (real p) with ((real p - real ix * real iy) + real ix * real iy) by ring. eapply Rle_trans; [apply Rabs_triang|]. rewrite Rabs_mult. assert (Rabs (real ix) * Rabs (real iy) <= 9 * 9) by (apply Rmult_le_compat; try apply Rabs_pos; assumption). lra. }
    eapply yo_weaken; [apply (mul_real n Hn pr HV 65536 E T E_pos ltac:(lia) HT dq p _ zp Hd Hp); eapply (real_product n Hn 65536 T ltac:(lia) HT); [apply Rabs_le; instantiate (1 := 300); lra|exact Pp|rewrite R63'; lra]|]. intros z (q & Hq & Bq). change (Shareapprox_proofs.eta 65536 E) with eta in Bq. exists q. split; [exact Hq|].
    unfold cosine, cosine_error. fold I A B a b t. set (dA := shaky E t A) in *. set (dB := shaky E t B) in *. set (u := (1 + dA) * (1 + dB)).
    set (al := real ix * a - 1) in *. set (be := real iy * b - 1) in *. assert (Uo : Rabs ((1 + al) * (1 + be) - 1) <= u - 1).
    { replace ((1 + al) * (1 + be) - 1) with (al + be + al * be) by ring. replace (u - 1) with (dA + dB + dA * dB) by (unfold u; ring). eapply Rle_trans; [apply Rabs_triang|]. apply Rplus_le_compat; [eapply Rle_trans; [apply Rabs_triang|]; lra|]. rewrite Rabs_mult. apply Rmult_le_compat; try apply Rabs_pos; assumption. }
    assert (ab0 : 0 < a * b) by (apply Rmult_lt_0_compat; assumption).
    replace (real q - I / (a * b)) with (I / (a * b) * ((1 + al) * (1 + be) - 1) + (real dq - I) * ((1 + al) * (1 + be)) / (a * b) + real dq * (real p - real ix * real iy) + (real q - real dq * real p)) by (unfold al, be; field; lra).
    assert (X1 : Rabs (I / (a * b) * ((1 + al) * (1 + be) - 1)) <= u - 1).
    { rewrite Rabs_mult. rewrite <- (Rmult_1_l (u - 1)). apply Rmult_le_compat; try apply Rabs_pos; [|exact Uo]. unfold Rdiv. rewrite Rabs_mult, (Rabs_right (/ (a * b))) by (left; now apply Rinv_0_lt_compat). apply (Rmult_le_reg_r (a * b)); [exact ab0|]. rewrite Rmult_assoc, Rinv_l by lra. lra. }
    assert (X2 : Rabs ((real dq - I) * ((1 + al) * (1 + be)) / (a * b)) <= t * u / (a * b)).
    { unfold Rdiv. rewrite !Rabs_mult, (Rabs_right (/ (a * b))) by (left; now apply Rinv_0_lt_compat). apply Rmult_le_compat_r; [left; now apply Rinv_0_lt_compat|]. apply Rmult_le_compat; try apply Rabs_pos; [apply Rmult_le_pos; apply Rabs_pos|exact Bd|]. rewrite <- Rabs_mult. replace ((1 + al) * (1 + be)) with (((1 + al) * (1 + be) - 1) + 1) by ring. eapply Rle_trans; [apply Rabs_triang|]. rewrite Rabs_R1. lra. }
    assert (X3 : Rabs (real dq * (real p - real ix * real iy)) <= (a * b + t) * eta) by (rewrite Rabs_mult; apply Rmult_le_compat; try apply Rabs_pos; [apply Rabs_le; lra|exact Bp]).
    eapply Rle_trans; [apply Rabs_triang|]. eapply Rle_trans; [apply Rplus_le_compat; [eapply Rle_trans; [apply Rabs_triang|]; apply Rplus_le_compat; [eapply Rle_trans; [apply Rabs_triang|]; apply Rplus_le_compat; [exact X1|exact X2]|exact X3]|exact Bq]|]. lra.
  Qed.

  (** *** Batch normalisation *)
  Lemma real_minus v w : real (v - w) = real v - real w. Proof using. unfold Shareapprox_proofs.real. rewrite minus_IZR. field. Qed.
  Lemma real_plus v w : real (v + w) = real v + real w. Proof using. unfold Shareapprox_proofs.real. rewrite plus_IZR. field. Qed.
  Lemma bn_output_real v m i w b x zm zi zw zb : holds v x -> holds m zm -> holds i zi -> holds w zw -> holds b zb -> Rabs (real v - real m) <= 10001 -> Rabs (real i) <= 9 -> Rabs (real w) <= 10000 -> Rabs (real b) <= 1000000000 ->
    yo T (bn_outputv (pr := pr) (within E) zm zi zw zb x) (fun z => exists q, holds q z /\ Rabs (real q - ((real v - real m) * real i * real w + real b)) <= Rabs (real w) * eta + eta).
  Proof using Hn HV HE HT.
    intros Hx Hm Hi Hw Hb B1 B2 B3 B4. pose proof unit_small as Us. unfold bn_outputv. rewrite <- real_minus in *.
    assert (Hd : holds (v - m) (sub_num x (AEnc zm))) by (eapply (holds_bound n Hn 65536 T ltac:(lia) HT); [apply (sub_enc_ok n); [apply Hx|apply Hm]|exact B1|rewrite R63'; lra]).
    eapply yo_bind; [apply (mul_real n Hn pr HV 65536 E T E_pos ltac:(lia) HT _ i _ zi Hd Hi); eapply (real_product n Hn 65536 T ltac:(lia) HT); [exact B1|exact B2|rewrite R63'; lra]|]. intros zn (c & Hc & Bc). change (Shareapprox_proofs.eta 65536 E) with eta in Bc.
    assert (Bc' : Rabs (real c) <= 90010). { replace (real c) with ((real c - real (v - m) * real i) + real (v - m) * real i) by ring. eapply Rle_trans; [apply Rabs_triang|]. rewrite Rabs_mult. assert (Rabs (real (v - m)) * Rabs (real i) <= 10001 * 9) by (apply Rmult_le_compat; try apply Rabs_pos; assumption). lra. }
    eapply yo_bind; [apply (mul_real n Hn pr HV 65536 E T E_pos ltac:(lia) HT c w zn zw Hc Hw); eapply (real_product n Hn 65536 T ltac:(lia) HT); [exact Bc'|exact B3|rewrite R63'; lra]|]. intros zp (p & Hp & Bp). change (Shareapprox_proofs.eta 65536 E) with eta in Bp.
    apply yo_ok. exists (p + b)%Z. assert (Bp' : Rabs (real p) <= 900100001). { replace (real p) with ((real p - real c * real w) + real c * real w) by ring. eapply Rle_trans; [apply Rabs_triang|]. rewrite Rabs_mult. assert (Rabs (real c) * Rabs (real w) <= 90010 * 10000) by (apply Rmult_le_compat; try apply Rabs_pos; assumption). lra. }
    split; [eapply (holds_bound n Hn 65536 T ltac:(lia) HT); [apply (add_enc_ok n); [apply Hp|apply Hb]|rewrite real_plus; eapply Rle_trans; [apply Rabs_triang|]; apply Rplus_le_compat; [exact Bp'|exact B4]|rewrite R63'; lra]|].
    rewrite real_plus. replace (real p + real b - (real (v - m) * real i * real w + real b)) with ((real c - real (v - m) * real i) * real w + (real p - real c * real w)) by ring. eapply Rle_trans; [apply Rabs_triang|]. apply Rplus_le_compat; [|exact Bp]. rewrite Rabs_mult, Rmult_comm. apply Rmult_le_compat_l; [apply Rabs_pos|exact Bc].
  Qed.
  (** the mean known up to h, the variance (with eps as encoded) up to t *)
  Lemma bn_near eps mu h S t vs xs m zm u zu w zw b zb : 0 <= h <= 1 -> Forall2 holds vs xs -> holds m zm -> holds u zu -> holds w zw -> holds b zb -> Rabs (real m - mu) <= h -> Rabs (real u + real (encodeQ 65536 eps) - S) <= t -> usable t S ->
    Forall (fun v => Rabs (real v - mu) <= 10000) vs -> Rabs (real w) <= 10000 -> Rabs (real b) <= 1000000000 ->
    yo T (bn_evalv (pr := pr) (within E) 8 3 eps zm zu zw zb xs) (Forall2 (fun v z => exists q, holds q z /\ Rabs (real q - ((real v - mu) / sqrt S * real w + real b)) <= bn_error E h t S (real v - mu) (real w)) vs).
  Proof using Hn HV HE HT.
    intros Hh F Hm Hu Hw Hb Bm Bu U Bx Bw Bb. assert (T0 : 0 <= t) by (eapply Rle_trans; [apply Rabs_pos|exact Bu]). pose proof (usable_facts t S T0 U) as (S1 & P & PP & PI & Ta & Sh). pose proof unit_small as Us. unfold bn_evalv, bn_inversev.
    assert (He : holds (u + encodeQ 65536 eps) (add_num zu (AFloat eps))).
    { eapply (holds_bound n Hn 65536 T ltac:(lia) HT); [apply (add_public n Hn _ _ _ (AFloat eps) Logic.I), Hu|rewrite real_plus; apply Rabs_def2' in Bu; destruct U as [[U1 U2] U3]; apply Rabs_le; instantiate (1 := 300); lra|rewrite R63'; lra]. }
    rewrite <- real_plus in Bu. eapply yo_bind; [apply (inv_near _ _ S t He Bu U)|]. intros zi (i & Hi & Bi & Mi).
    apply (yo_map T _ (fun v x => holds v x /\ Rabs (real v - mu) <= 10000)); [clear - F Bx; induction F; [constructor|]; inversion Bx; subst; constructor; auto|].
    intros v x [Hx Bv]. eapply yo_weaken; [apply (bn_output_real v m i w b x zm zi zw zb); try assumption; replace (real v - real m) with ((real v - mu) - (real m - mu)) by ring; unfold Rminus at 1; eapply Rle_trans; [apply Rabs_triang|]; rewrite Rabs_Ropp; lra|].
    intros z (q & Hq & Bq). exists q. split; [exact Hq|]. unfold bn_error. set (e := shaky E t S) in *. set (c := real v - mu) in *. set (r := real i * sqrt S - 1) in *.
    replace (real q - (c / sqrt S * real w + real b)) with ((real q - ((real v - real m) * real i * real w + real b)) + real w * ((c * r - (real m - mu) * (1 + r)) / sqrt S)) by (unfold r, c; field; lra).
    eapply Rle_trans; [apply Rabs_triang|]. change (unit_error E) with eta. rewrite (Rmult_plus_distr_l (Rabs (real w)) _ eta). assert (X : Rabs (real w * ((c * r - (real m - mu) * (1 + r)) / sqrt S)) <= Rabs (real w) * ((Rabs c * e + h * (1 + e)) / sqrt S)); [|lra].
    rewrite Rabs_mult. apply Rmult_le_compat_l; [apply Rabs_pos|]. unfold Rdiv. rewrite Rabs_mult, (Rabs_right (/ sqrt S)) by (left; now apply Rinv_0_lt_compat). apply Rmult_le_compat_r; [left; now apply Rinv_0_lt_compat|].
    unfold Rminus at 1. eapply Rle_trans; [apply Rabs_triang|]. rewrite Rabs_Ropp, !Rabs_mult. apply Rplus_le_compat; [apply Rmult_le_compat_l; [apply Rabs_pos|exact Bi]|]. apply Rmult_le_compat; try apply Rabs_pos; [exact Bm|]. eapply Rle_trans; [apply Rabs_triang|]. rewrite Rabs_R1. lra.
  Qed.
  Lemma average_bound l K : l <> [] -> Forall (fun x => Rabs x <= K) l -> Rabs (sumr l) <= INR (length l) * K /\ Rabs (average l) <= K.
  Proof using Hn HT.
    intros N F. assert (L : 0 < INR (length l)) by (apply lt_0_INR; destruct l; [congruence|cbn; lia]). assert (X : Rabs (sumr l) <= INR (length l) * K).
    { clear N L. induction F as [|a l Ha _ IH]; [cbn; rewrite Rabs_R0; lra|]. rewrite sumr_cons. cbn [length]. rewrite S_INR. eapply Rle_trans; [apply Rabs_triang|]. lra. }
    split; [exact X|]. unfold average, Rdiv. rewrite Rabs_mult, (Rabs_right (/ _)) by (left; now apply Rinv_0_lt_compat). apply (Rmult_le_reg_r (INR (length l))); [exact L|]. rewrite Rmult_assoc, Rinv_l by lra. lra.
  Qed.
  Definition batch (vs : list Z) (xs : list num) : Prop := (2 <= length vs)%nat /\ (Z.of_nat (length vs) <= 1000000)%Z /\ Forall2 holds vs xs /\ Forall (fun v => Rabs (real v) <= 5000) vs.
  Lemma batch_facts vs xs : batch vs xs -> vs <> [] /\ 2 <= INR (length vs) <= 1000000 /\ length xs = length vs /\ Forall (fun x => Rabs x <= 5000) (map real vs) /\ Rabs (sumr (map real vs)) <= 5000000000 /\ Rabs (average (map real vs)) <= 5000.
  Proof using Hn HT.
    intros (L & L' & F & B). assert (N : vs <> []) by (intros ->; cbn in L; lia). assert (I : 2 <= INR (length vs) <= 1000000) by (rewrite INR_IZR_INZ; split; apply IZR_le; lia). assert (B' : Forall (fun x => Rabs x <= 5000) (map real vs)) by (apply Forall_map; exact B).
    destruct (average_bound (map real vs) 5000) as [S A]; [now destruct vs|exact B'|]. rewrite map_length in S. split; [exact N|]. split; [exact I|]. split; [clear - F; induction F; cbn; congruence|]. split; [exact B'|]. split; [|exact A]. eapply Rle_trans; [exact S|]. nra.
  Qed.
  Lemma mean_real vs xs : batch vs xs -> yo T (meanv (pr := pr) (within E) [xs]) (fun zs => exists z q, zs = [z] /\ holds q z /\ Rabs (real q - average (map real vs)) <= eta).
  Proof using Hn HV HE HT.
    intros Hb. destruct (batch_facts vs xs Hb) as (N & I & Lx & _ & Sm & _). destruct Hb as (L & L' & F & _). unfold meanv. cbn [map length Nat.eqb mapO]. unfold nelement. cbn [concat]. rewrite app_nil_r, Nat.div_1_r, Lx.
    assert (Hsum : holds (zsum vs) (sum_num xs)). { eapply (holds_bound n Hn 65536 T ltac:(lia) HT); [apply (sum_num_ok n 65536 vs xs N); clear - F; induction F as [|v x vs xs [H _] F IH]; constructor; assumption|rewrite (real_zsum 65536) by lia; exact Sm|rewrite R63'; lra]. }
    eapply yo_bind; [apply (div_real n Hn pr HV 65536 E T E_pos ltac:(lia) HT (zsum vs) _ (Z.of_nat (length vs)) ltac:(lia) Hsum)|]. intros z (q & Hq & Bq). cbn [mapO]. eapply yo_bind; [apply (yo_ok T (@nil num) (fun l => l = [])); reflexivity|]. intros l ->. apply yo_ok. exists z, q. split; [reflexivity|]. split; [exact Hq|].
    rewrite (real_zsum 65536), <- INR_IZR_INZ in Bq by lia. unfold average. rewrite map_length. exact Bq.
  Qed.
  Lemma var_real vs xs : batch vs xs -> yo T (varv (pr := pr) (within E) true [xs]) (fun zs => exists z q, zs = [z] /\ holds q z /\ Rabs (real q - variance (map real vs)) <= 2 * eta + eta * eta).
  Proof using Hn HV HE HT.
    intros Hb. destruct (batch_facts vs xs Hb) as (N & I & Lx & Bl & _ & Av). pose proof Hb as (L & L' & F & Bv). pose proof unit_small as Us. unfold varv.
    eapply yo_bind; [apply (mean_real vs xs Hb)|]. intros ms (zm & m & -> & Hm & Bm). set (mu := average (map real vs)) in *. pose proof (Rabs_def2' _ _ Bm) as Bm'. pose proof (Rabs_def2' _ _ Av) as Av'. cbn [zipO].
    assert (Dv : forall v, In v vs -> Rabs (real v - real m) <= 10001). { intros v Iv. rewrite Forall_forall in Bv. specialize (Bv v Iv). apply Rabs_def2' in Bv. apply Rabs_le. lra. }
    eapply yo_bind.
    { eapply yo_bind; [|intros r Hr; eapply yo_bind; [apply (yo_ok T (@nil (list num)) (fun l => l = [])); reflexivity|]; intros l ->; apply (yo_ok T [r] (fun l => exists r, l = [r] /\ Forall2 (fun v z => exists q, holds q z /\ Rabs (real q - (real v - real m) * (real v - real m)) <= eta) vs r)); eexists; split; [reflexivity|exact Hr]].
      apply (yo_map T _ (fun v x => holds v x /\ Rabs (real v - real m) <= 10001)).
      - clear - F Dv. induction F as [|v x vs xs H F IH]; constructor; [split; [exact H|apply Dv; now left]|apply IH; intros w Iw; apply Dv; now right].
      - intros v x [Hx Bx]. rewrite <- real_minus in *. assert (Hd : holds (v - m) (sub_num x (AEnc zm))) by (eapply (holds_bound n Hn 65536 T ltac:(lia) HT); [apply (sub_enc_ok n); [apply Hx|apply Hm]|exact Bx|rewrite R63'; lra]).
        apply (square_real n Hn pr HV 65536 E T E_pos ltac:(lia) HT _ _ Hd). eapply (real_product n Hn 65536 T ltac:(lia) HT); [exact Bx|exact Bx|rewrite R63'; lra]. }
    intros sq (r & -> & Hr). cbv zeta. cbn [map length]. unfold nelement. cbn [concat]. rewrite app_nil_r, Nat.div_1_r, Lx.
    replace ((Z.of_nat (length vs) =? 0) || (Z.of_nat (length vs) =? 1))%Z with false by (symmetry; apply orb_false_iff; split; apply Z.eqb_neq; lia).
    set (f := fun v => (real v - real m) * (real v - real m)) in *. assert (Sf : sumr (map f vs) = square_sum (map (fun x => x - real m) (map real vs))) by (unfold square_sum; rewrite !map_map; reflexivity).
    assert (Nl : map real vs <> []) by (now destruct vs). pose proof (variance_shift (map real vs) (real m) Nl) as Vs. rewrite map_length in Vs. fold mu in Vs. rewrite <- Sf in Vs. set (W := sumr (map f vs)) in *.
    assert (W0 : 0 <= W) by (rewrite Sf; apply square_sum_pos). assert (W1 : W <= INR (length vs) * 100020001).
    { subst W. clear - Dv. induction vs as [|v vs IH]; [cbn; lra|]. cbn [map length]. rewrite sumr_cons, S_INR. specialize (IH (fun w Hw => Dv w (or_intror Hw))). pose proof (Dv v (or_introl eq_refl)) as Bd. apply Rabs_def2' in Bd. assert (f v <= 100020001) by (unfold f; nra). lra. }
    destruct (sum_real 65536 E T ltac:(lia) HT f vs r (INR (length vs) * 100020002)) as (sm & Hsm & Bsm); [exact N|exact Hr|fold W; change (Shareapprox_proofs.eta 65536 E) with eta; rewrite Rabs_right by lra; nra|rewrite R63'; nra|]. fold W in Bsm. change (Shareapprox_proofs.eta 65536 E) with eta in Bsm.
    cbn [mapO]. eapply yo_bind; [apply (div_real n Hn pr HV 65536 E T E_pos ltac:(lia) HT sm _ (Z.of_nat (length vs)) ltac:(lia) Hsm)|]. intros z (q & Hq & Bq). cbn [mapO]. eapply yo_bind; [apply (yo_ok T (@nil num) (fun l => l = [])); reflexivity|]. intros l ->. apply yo_ok. exists z, q. split; [reflexivity|]. split; [exact Hq|].
    rewrite <- INR_IZR_INZ in Bq. change (Shareapprox_proofs.eta 65536 E) with eta in Bq. set (K := INR (length vs)) in *. assert (K0 : 0 < K) by lra.
    assert (X : Rabs (real sm / K - W / K) <= eta). { replace (real sm / K - W / K) with ((real sm - W) / K) by (field; lra). unfold Rdiv. rewrite Rabs_mult, (Rabs_right (/ K)) by (left; now apply Rinv_0_lt_compat). apply (Rmult_le_reg_r K); [exact K0|]. rewrite Rmult_assoc, Rinv_l by lra. lra. }
    assert (Y : (real m - mu) * (real m - mu) <= eta * eta) by nra. assert (0 <= (real m - mu) * (real m - mu)) by apply Rle_0_sqr. apply Rabs_def2' in Bq, X. apply Rabs_le. lra.
  Qed.
  Lemma running_real mom r zr c zc : holds r zr -> holds c zc -> 0 <= Q2R mom <= 1 -> Rabs (real r) <= 1000000000 -> Rabs (real c) <= 1000000000 ->
    yo T (bn_runningv (pr := pr) (within E) mom zr zc) (fun z => exists q, holds q z /\ Rabs (real q - ((1 - Q2R mom) * real r + Q2R mom * real c)) <= running_error E (real r) (real c)).
  Proof using Hn HV HE HT.
    intros Hr Hc M Br Bc. pose proof unit_small as Us. unfold bn_runningv. rewrite (proj2 (proj1 Hr)), (proj2 (proj1 Hc)).
    pose proof (float_any 65536 ltac:(lia) mom) as F1. pose proof (float_any 65536 ltac:(lia) (1 - mom)) as F2. unfold Qminus in F2. rewrite Q2R_plus, Q2R_opp in F2. replace (Q2R 1) with 1 in F2 by (unfold Q2R; cbn; lra). fold (1 - mom)%Q in F2.
    set (k1 := encodeQ 65536 mom) in *. set (k2 := encodeQ 65536 (1 - mom)) in *. apply Rabs_def2' in F1, F2. assert (K1 : Rabs (real k1) <= 2) by (apply Rabs_le; lra). assert (K2 : Rabs (real k2) <= 2) by (apply Rabs_le; lra).
    eapply yo_bind; [apply (mulp_real n Hn pr HV 65536 E T E_pos ltac:(lia) HT r k2 zr Hr); eapply (real_product n Hn 65536 T ltac:(lia) HT); [exact Br|exact K2|rewrite R63'; lra]|]. intros za (a & Ha & Ba).
    eapply yo_bind; [apply (mulp_real n Hn pr HV 65536 E T E_pos ltac:(lia) HT c k1 zc Hc); eapply (real_product n Hn 65536 T ltac:(lia) HT); [exact Bc|exact K1|rewrite R63'; lra]|]. intros zb (b & Hb & Bb).
    change (Shareapprox_proofs.eta 65536 E) with eta in Ba, Bb. apply yo_ok. exists (a + b)%Z.
    assert (G : forall u k e m M, Rabs (real e - real u * real k) <= eta -> Rabs (real u) <= M -> Rabs (real k - m) <= / 65536 -> Rabs (real e - real u * m) <= eta + Rabs (real u) / 65536).
    { intros u k e m M0 A _ B. replace (real e - real u * m) with ((real e - real u * real k) + real u * (real k - m)) by ring. eapply Rle_trans; [apply Rabs_triang|]. apply Rplus_le_compat; [exact A|]. rewrite Rabs_mult. unfold Rdiv. apply Rmult_le_compat_l; [apply Rabs_pos|exact B]. }
    pose proof (G r k2 a (1 - Q2R mom) _ Ba Br ltac:(apply Rabs_le; lra)) as X. pose proof (G c k1 b (Q2R mom) _ Bb Bc ltac:(apply Rabs_le; lra)) as Y. clear G.
    assert (X1 : Rabs (real r * (1 - Q2R mom)) <= 1000000000). { rewrite Rabs_mult, (Rabs_right (1 - Q2R mom)) by lra. pose proof (Rabs_pos (real r)). nra. }
    assert (Y1 : Rabs (real c * Q2R mom) <= 1000000000). { rewrite Rabs_mult, (Rabs_right (Q2R mom)) by lra. pose proof (Rabs_pos (real c)). nra. }
    split.
    - eapply (holds_bound n Hn 65536 T ltac:(lia) HT); [apply (add_enc_ok n); [apply Ha|apply Hb]| |instantiate (1 := 3000000000); rewrite R63'; lra]. rewrite real_plus. apply Rabs_def2' in X, Y, X1, Y1. apply Rabs_le. lra.
    - rewrite real_plus. unfold running_error. apply Rabs_def2' in X, Y. apply Rabs_le. lra.
  Qed.
  Lemma train_real eps mom vs xs w zw b zb r zr u zu : let mu := average (map real vs) in let S := variance (map real vs) + real (encodeQ 65536 eps) in let t := 2 * eta + eta * eta in
    batch vs xs -> holds w zw -> holds b zb -> holds r zr -> holds u zu -> usable t S -> 0 <= Q2R mom <= 1 -> Rabs (real w) <= 10000 -> Rabs (real b) <= 1000000000 -> Rabs (real r) <= 1000000000 -> Rabs (real u) <= 1000000000 ->
    yo T (bn_trainv (pr := pr) (within E) 8 3 eps mom zr zu zw zb xs) (fun o =>
      Forall2 (fun v z => exists q, holds q z /\ Rabs (real q - ((real v - mu) / sqrt S * real w + real b)) <= bn_error E eta t S (real v - mu) (real w)) vs (fst o) /\
      (exists q, holds q (fst (snd o)) /\ Rabs (real q - ((1 - Q2R mom) * real u + Q2R mom * variance (map real vs))) <= running_error E (real u) (variance (map real vs)) + 3 * eta) /\
      (exists q, holds q (snd (snd o)) /\ Rabs (real q - ((1 - Q2R mom) * real r + Q2R mom * mu)) <= running_error E (real r) mu + 2 * eta)).
  Proof using Hn HV HE HT.
    intros mu S t Hb Hw Hbb Hr Hu U M Bw Bb Br Bu. pose proof unit_small as Us. destruct (batch_facts vs xs Hb) as (N & I & Lx & Bl & _ & Av). fold mu in Av. pose proof Hb as (L & L' & F & Bv). unfold bn_trainv, bn_statsv.
    eapply (yo_bind _ _ _ (fun st => exists m q, holds m (fst st) /\ Rabs (real m - mu) <= eta /\ holds q (snd st) /\ Rabs (real q - variance (map real vs)) <= t)).
    { eapply yo_bind; [apply (mean_real vs xs Hb)|]. intros ms (zm & m & -> & Hm & Bm). eapply yo_bind; [apply (var_real vs xs Hb)|]. intros ws (zv & q & -> & Hq & Bq). apply yo_ok. exists m, q. cbn [hd fst snd]. auto. }
    intros [zm zv] (m & q & Hm & Bm & Hq & Bq). cbn [fst snd] in *. set (V := variance (map real vs)) in *. assert (T0 : 0 <= t <= 3 * eta) by (unfold t; nra).
    assert (V0 : 0 <= V). { unfold V, variance, Rdiv. apply Rmult_le_pos; [apply square_sum_pos|left; apply Rinv_0_lt_compat; rewrite map_length; lra]. }
    assert (V1 : V <= 100000000).
    { unfold V, variance. fold mu. rewrite map_length. apply (Rmult_le_reg_r (INR (length vs))); [lra|]. replace (square_sum (map (fun x => x - mu) (map real vs)) / INR (length vs) * INR (length vs)) with (square_sum (map (fun x => x - mu) (map real vs))) by (field; lra).
      rewrite <- (map_length real vs). apply Rabs_def2' in Av. clear - Bl Av. clearbody mu. induction Bl as [|x l Hx _ IH]; [cbn; lra|]. cbn [map length]. unfold square_sum in *. cbn [map]. rewrite sumr_cons, S_INR. apply Rabs_def2' in Hx. assert ((x - mu) * (x - mu) <= 100000000) by nra. lra. }
    pose proof (Rabs_def2' _ _ Bm) as Bm'. pose proof (Rabs_def2' _ _ Bq) as Bq'. pose proof (Rabs_def2' _ _ Av) as Av'. assert (Bq1 : Rabs (real q) <= 1000000000) by (apply Rabs_le; lra). assert (Bm1 : Rabs (real m) <= 1000000000) by (apply Rabs_le; lra).
    assert (Near : forall c a e, Rabs (real c - a) <= e -> 0 <= e <= 1 -> forall g h r, Rabs (g - ((1 - Q2R mom) * r + Q2R mom * real c)) <= running_error E r (real c) -> e + e / 65536 <= h -> Rabs (g - ((1 - Q2R mom) * r + Q2R mom * a)) <= running_error E r a + h).
    { intros c a e He E1 g h r0 Hg Hh. unfold running_error in *. assert (A1 : Rabs (real c) <= Rabs a + e). { replace (real c) with (a + (real c - a)) by ring. eapply Rle_trans; [apply Rabs_triang|]. lra. }
      replace (g - ((1 - Q2R mom) * r0 + Q2R mom * a)) with ((g - ((1 - Q2R mom) * r0 + Q2R mom * real c)) + Q2R mom * (real c - a)) by ring. eapply Rle_trans; [apply Rabs_triang|]. rewrite (Rabs_mult (Q2R mom)), (Rabs_right (Q2R mom)) by lra. pose proof (Rabs_pos (real c - a)). assert (Q2R mom * Rabs (real c - a) <= e) by nra. lra. }
    eapply yo_bind; [apply (running_real mom u zu q zv Hu Hq M Bu Bq1)|]. intros rv (nv & Hnv & Bnv). eapply yo_bind; [apply (running_real mom r zr m zm Hr Hm M Br Bm1)|]. intros rm (nm & Hnm & Bnm).
    eapply yo_bind; [apply (bn_near eps mu eta S t vs xs m zm q zv w zw b zb); try assumption; [lra| |]|].
    - unfold S. replace (real q + real (encodeQ 65536 eps) - (V + real (encodeQ 65536 eps))) with (real q - V) by ring. exact Bq.
    - clear - Bv Av'. eapply Forall_impl; [|exact Bv]. cbv beta. intros v Hv. apply Rabs_def2' in Hv. apply Rabs_le. lra.
    - intros out Ho. apply yo_ok. cbn [fst snd]. split; [exact Ho|]. split.
      + exists nv. split; [exact Hnv|]. apply (Near q V t Bq ltac:(lra) _ (3 * eta) _ Bnv). unfold t. nra.
      + exists nm. split; [exact Hnm|]. apply (Near m mu eta Bm ltac:(lra) _ (2 * eta) _ Bnm). lra.
  Qed.
  End Default.

  (** ** Without the check the same results are given *)
  Lemma norm2v_weak chk d k xs : weaker (norm2v (pr := pr) chk d k xs) (norm2v no_check d k xs).
  Proof using. apply weaker_bind; [apply weaker_bind; [apply weaker_map; intros; apply squarev_weak|intros; apply weaker_refl]|]. intros. apply sqrtv_weak. Qed.
  Lemma cosinev_weak chk d k xs ys : weaker (cosinev (pr := pr) 65536 chk d k xs ys) (cosinev 65536 no_check d k xs ys).
  Proof using.
    assert (Q : forall l, weaker (square_sumv (pr := pr) chk l) (square_sumv no_check l)) by (intros; apply weaker_bind; [apply weaker_map; intros; apply squarev_weak|intros; apply weaker_refl]).
    unfold cosinev. assert (G : weaker (qx <~ square_sumv (pr := pr) chk xs ;; qy <~ square_sumv chk ys ;; ix <~ inv_sqrtv chk d k qx ;; iy <~ inv_sqrtv chk d k qy ;; inv <~ prodv chk [ix; iy] ;; ps <~ zipO (fun x y => prodv chk [x; y]) xs ys ;; mulv chk (sum_num ps) inv)
      (qx <~ square_sumv (pr := pr) no_check xs ;; qy <~ square_sumv no_check ys ;; ix <~ inv_sqrtv no_check d k qx ;; iy <~ inv_sqrtv no_check d k qy ;; inv <~ prodv no_check [ix; iy] ;; ps <~ zipO (fun x y => prodv no_check [x; y]) xs ys ;; mulv no_check (sum_num ps) inv)).
    { apply weaker_bind; [apply Q|]. intros. apply weaker_bind; [apply Q|]. intros. apply weaker_bind; [apply inv_sqrtv_weak|]. intros. apply weaker_bind; [apply inv_sqrtv_weak|]. intros. apply weaker_bind; [apply prodv_weak|]. intros. apply weaker_bind; [apply weaker_zip; intros; apply prodv_weak|]. intros. apply mulv_weak. }
    destruct xs as [|x [|x' xs]]; [exact G| |exact G]. destruct ys as [|y [|y' ys]]; [exact G| |exact G]. apply weaker_bind; [apply mulv_weak|]. intros. apply weaker_refl.
  Qed.
  Lemma bn_evalv_weak chk d k eps m v w b xs : weaker (bn_evalv (pr := pr) chk d k eps m v w b xs) (bn_evalv no_check d k eps m v w b xs).
  Proof using. apply weaker_bind; [apply inv_sqrtv_weak|]. intros. apply weaker_map. intros. apply weaker_bind; [apply mulv_weak|]. intros. apply weaker_bind; [apply mulv_weak|]. intros. apply weaker_refl. Qed.
  Lemma bn_trainv_weak chk d k eps mom r v w b xs : weaker (bn_trainv (pr := pr) chk d k eps mom r v w b xs) (bn_trainv no_check d k eps mom r v w b xs).
  Proof using.
    assert (W : forall x y, weaker (bn_runningv (pr := pr) chk mom x y) (bn_runningv no_check mom x y)) by (intros; apply weaker_bind; [apply mulpv_weak|]; intros; apply weaker_bind; [apply mulpv_weak|]; intros; apply weaker_refl).
    apply weaker_bind; [apply weaker_bind; [apply meanv_weak|]; intros; apply weaker_bind; [apply varv_weak|]; intros; apply weaker_refl|]. intros. apply weaker_bind; [apply W|]. intros. apply weaker_bind; [apply W|]. intros. apply weaker_bind; [apply bn_evalv_weak|]. intros. apply weaker_refl.
  Qed.

  (** ** The claims *)
  Lemma vector_real xs : vector n 65536 xs -> xs <> [] /\ reveals xs <> [] /\ length (reveals xs) = length xs /\ Forall2 (Shareapprox_proofs.holds n 65536) (reveals xs) xs /\ map (Shareapprox_proofs.real 65536) (reveals xs) = map rval xs.
  Proof using.
    intros [Ne F]. split; [exact Ne|]. split; [now destruct xs|]. split; [apply map_length|]. clear Ne. unfold reveals. induction F as [|x xs [Hx Sx] F IH]; [split; [constructor|reflexivity]|]. destruct (holds_rval n 65536 x Hx Sx) as [H R]. destruct IH as [I1 I2]. cbn [map]. rewrite R, I2. split; [constructor; assumption|reflexivity].
  Qed.
  Lemma result_real q z (P : R -> Prop) : Shareapprox_proofs.holds n 65536 q z -> P (Shareapprox_proofs.real 65536 q) -> n_sc z = 65536%Z /\ P (rval z).
  Proof using Hn. intros H K. destruct (rval_holds n Hn 65536 q z ltac:(lia) H) as [S R]. rewrite R. auto. Qed.
  Lemma results_real xs zs (P : R -> R -> Prop) : vector n 65536 xs -> Forall2 (fun v z => exists q, Shareapprox_proofs.holds n 65536 q z /\ P (Shareapprox_proofs.real 65536 v) (Shareapprox_proofs.real 65536 q)) (reveals xs) zs -> Forall2 (fun x z => n_sc z = 65536%Z /\ P (rval x) (rval z)) xs zs.
  Proof using Hn.
    intros [_ F]. revert zs. induction F as [|x xs [Hx Sx] F IH]; intros zs H; cbn [reveals map] in H; inversion H as [|? z ? zs' (q & Hq & Pq) H']; subst; constructor; [|apply IH; exact H']. destruct (holds_rval n 65536 x Hx Sx) as [_ R]. rewrite R in Pq. now apply (result_real q z (P (rval x))).
  Qed.
  Lemma abs_yo T xs : vector n 65536 xs -> yo T (mapO (fun x => lift (n_abs (pr := pr) 65536 x)) xs) (Forall2 (fun v z => nshare n (Z.abs v) 65536 z) (reveals xs)).
  Proof using Hn HV.
    intros V. destruct (vector_real xs V) as (_ & _ & _ & F & _). apply (yo_map T _ (Shareapprox_proofs.holds n 65536)); [exact F|]. intros v x [Hx Iv]. apply yo_lifted. apply (n_abs_ok n Hn pr HV 65536 v 65536 x ltac:(lia) eq_refl Iv Hx).
  Qed.

  (** C109: the sum of the absolute values is exact. *)
  Lemma k_C109_norm1 xs st : vector n 65536 xs -> sumr (map Rabs (map rval xs)) < 2 ^ 47 ->
    exists z, fst (norm1v (pr := pr) 65536 xs st) = Some z /\ n_sc z = 65536%Z /\ rval z = sumr (map Rabs (map rval xs)).
  Proof using Hn HV.
    intros V B. destruct (vector_real xs V) as (_ & Ne & _ & _ & Er).
    assert (Y : yo true (norm1v (pr := pr) 65536 xs) (fun z => nshare n (zsum (map Z.abs (reveals xs))) 65536 z)).
    { unfold norm1v. eapply yo_bind; [apply (abs_yo true xs V)|]. intros a Ha. apply yo_ok. apply (sum_num_ok n); [now destruct (reveals xs)|]. clear - Ha. induction Ha; cbn [map]; constructor; assumption. }
    destruct (yo_true _ _ st Y) as (z & Ez & Hz). exists z. split; [exact Ez|].
    assert (Es : real 65536 (zsum (map Z.abs (reveals xs))) = sumr (map Rabs (map rval xs))). { rewrite (real_zsum 65536) by lia. rewrite <- Er, !map_map. f_equal. apply map_ext. intros v. apply (real_abs 65536). lia. }
    assert (H : Shareapprox_proofs.holds n 65536 (zsum (map Z.abs (reveals xs))) z). { split; [exact Hz|]. apply (bound64 n 65536 Hn ltac:(lia) _ (sumr (map Rabs (map rval xs)))); [rewrite Es; right; apply Rabs_right, Rle_ge; clear; induction (map rval xs) as [|a l IH]; [cbn; lra|]; cbn [map]; rewrite sumr_cons; pose proof (Rabs_pos a); lra|]. lra. }
    apply (result_real _ z (fun r => r = _) H). exact Es.
  Qed.
  (** C109: norm(p=inf) is exact, for every method of the maximum: the greatest of the absolute values. *)
  Lemma k_C109_norm_inf local_bits log_steps cascade_steps isqrt me xs st :
    (forall st, let u := fst (local_bits st) in length u = n /\ Forall (fun z => 0 <= z < 65536)%Z u) -> (forall m, (2 <= m)%nat -> (1 <= isqrt m < m)%nat) -> vector n 65536 xs -> short n 65536 65536 xs -> Forall (fun x => - 2 ^ 47 < rval x) xs ->
    exists z, fst (norm_infv (pr := pr) 65536 16 local_bits log_steps cascade_steps isqrt me xs st) = Some z /\ n_sc z = 65536%Z /\ In (rval z) (map Rabs (map rval xs)) /\ forall x, In x xs -> Rabs (rval x) <= rval z.
  Proof using Hn HV.
    intros Hl Hq V Sh B. destruct (vector_real xs V) as (_ & Ne & Le & F & Er). set (ws := map Z.abs (reveals xs)).
    assert (W : forall w, In w ws -> (0 <= w < H63)%Z).
    { intros w Iw. unfold ws, reveals in Iw. rewrite map_map in Iw. apply in_map_iff in Iw. destruct Iw as (x & <- & Ix). destruct V as [_ V]. rewrite Forall_forall in V, B. destruct (V x Ix) as [Hx Sx]. destruct (holds_rval n 65536 x Hx Sx) as [[_ Iv] Rx]. specialize (B x Ix). rewrite <- Rx in B. unfold Shareapprox_proofs.real in B.
      assert (H : - IZR H63 < IZR (open_a (n_sh x))) by (rewrite R63'; lra). rewrite <- opp_IZR in H. apply lt_IZR in H. unfold in64 in Iv. lia. }
    assert (Df : forall a b, In a ws -> In b ws -> in64 (a - b)) by (intros a b Ia Ib; apply W in Ia, Ib; unfold in64; lia).
    assert (Hloc : yields local_bits (fun u => length u = n /\ Forall (fun z => 0 <= z < 65536)%Z u /\ True)) by (intros st0; destruct (Hl st0); auto).
    assert (Nw : ws <> []) by (unfold ws; now destruct (reveals xs)). assert (Lw : length ws = length xs) by (unfold ws; now rewrite map_length).
    assert (Y : yo true (norm_infv (pr := pr) 65536 16 local_bits log_steps cascade_steps isqrt me xs) (fun z => exists w, In w ws /\ (forall u, In u ws -> (u <= w)%Z) /\ nshare n w 65536 z)).
    { unfold norm_infv. eapply yo_bind; [apply (abs_yo true xs V)|]. intros a Ha. assert (Ha' : Forall2 (rep n 65536 ws) ws a). { assert (G : forall l a, Forall2 (fun v z => nshare n (Z.abs v) 65536 z) l a -> incl (map Z.abs l) ws -> Forall2 (rep n 65536 ws) (map Z.abs l) a). { induction 1 as [|v z l a0 Hz _ IH]; intros I; cbn [map]; constructor; [split; [apply I; now left|exact Hz]|apply IH; intros y Y; apply I; now right]. } apply G; [exact Ha|apply incl_refl]. }
      eapply yo_lift; [unfold short in Sh; rewrite <- Lw in Sh; apply (max_dim_ok n Hn pr HV 65536 ltac:(lia) 16 ltac:(lia) eq_refl local_bits (fun _ => True) Hloc 65536 (or_intror eq_refl) ws Df isqrt Hq log_steps cascade_steps me ws a Ha' Nw Sh)|]. intros r (k & Hk & [Im Gm] & Hv & _). apply yo_ok. exists (nth k ws 0%Z). auto. }
    destruct (yo_true _ _ st Y) as (z & Ez & w & Iw & Gw & Hz). exists z. split; [exact Ez|].
    assert (H : Shareapprox_proofs.holds n 65536 w z) by (split; [exact Hz|]; apply W in Iw; unfold in64; lia). destruct (rval_holds n Hn 65536 w z ltac:(lia) H) as [S R]. split; [exact S|].
    assert (Aw : map Rabs (map rval xs) = map (real 65536) ws) by (rewrite <- Er; unfold ws; rewrite !map_map; apply map_ext; intros v; symmetry; apply (real_abs 65536); lia). rewrite R. split; [rewrite Aw; apply in_map, Iw|].
    intros x Ix. assert (Ir : In (Rabs (rval x)) (map (real 65536) ws)) by (rewrite <- Aw; apply in_map, in_map, Ix). apply in_map_iff in Ir. destruct Ir as (u & <- & Iu). unfold Shareapprox_proofs.real. apply Rmult_le_compat_r; [lra|]. apply IZR_le, Gw, Iu.
  Qed.

  Lemma norm2_yo T E xs : (E = 1 \/ E = 2)%Z -> (T = true -> n = 1%nat) -> vector n 65536 xs -> usable (INR (length xs) * unit_error E) (square_sum (map rval xs)) ->
    yo T (norm2v (pr := pr) (within E) 8 3 xs) (fun z => n_sc z = 65536%Z /\ Rabs (rval z - sqrt (square_sum (map rval xs))) <= norm2_error E (length xs) (square_sum (map rval xs))).
  Proof using Hn HV.
    intros HE HT V. destruct (vector_real xs V) as (_ & Ne & Le & F & Er). rewrite <- Er, <- Le. intros U. eapply yo_weaken; [apply (norm2_real E T HE HT _ _ Ne F U)|]. intros z (q & Hq & Bq). now apply (result_real q z (fun r => Rabs (r - _) <= _)).
  Qed.
  (** C109: the Euclidean norm (default configuration): as far as the squares sum to between 1/10 and 150, within norm2_error of the true norm. *)
  Lemma k_C109_norm2 E xs st z : (E = 1 \/ E = 2)%Z -> vector n 65536 xs -> usable (INR (length xs) * unit_error E) (square_sum (map rval xs)) -> fst (norm2v (pr := pr) (within E) 8 3 xs st) = Some z ->
    fst (norm2v (pr := pr) no_check 8 3 xs st) = Some z /\ n_sc z = 65536%Z /\ Rabs (rval z - sqrt (square_sum (map rval xs))) <= norm2_error E (length xs) (square_sum (map rval xs)).
  Proof using Hn HV. intros HE V U Hz. split; [eapply weaker_fst; [apply norm2v_weak|exact Hz]|]. exact (yo_some _ _ _ _ _ (norm2_yo false E xs HE ltac:(discriminate) V U) Hz). Qed.

  Lemma cosine_yo T E xs ys : (E = 1 \/ E = 2)%Z -> (T = true -> n = 1%nat) -> vector n 65536 xs -> vector n 65536 ys -> (2 <= length xs)%nat -> length ys = length xs -> usable (INR (length xs) * unit_error E) (square_sum (map rval xs)) -> usable (INR (length xs) * unit_error E) (square_sum (map rval ys)) ->
    yo T (cosinev (pr := pr) 65536 (within E) 8 3 xs ys) (fun z => n_sc z = 65536%Z /\ Rabs (rval z - cosine (map rval xs) (map rval ys)) <= cosine_error E (length xs) (square_sum (map rval xs)) (square_sum (map rval ys))).
  Proof using Hn HV.
    intros HE HT V W. destruct (vector_real xs V) as (_ & Ne & Le & F & Er). destruct (vector_real ys W) as (_ & Ny & Ly & G & Ey). rewrite <- Er, <- Ey, <- Le, <- Ly. intros L L' U U'. eapply yo_weaken; [apply (cosine_real E T HE HT _ _ _ _ L L' F G U U')|]. intros z (q & Hq & Bq). now apply (result_real q z (fun r => Rabs (r - _) <= _)).
  Qed.
  (** C109: the cosine similarity of vectors of two elements or more (default configuration), when both vectors' squares sum to between 1/10 and 150. *)
  Lemma k_C109_cosine E xs ys st z : (E = 1 \/ E = 2)%Z -> vector n 65536 xs -> vector n 65536 ys -> (2 <= length xs)%nat -> length ys = length xs ->
    usable (INR (length xs) * unit_error E) (square_sum (map rval xs)) -> usable (INR (length xs) * unit_error E) (square_sum (map rval ys)) -> fst (cosinev (pr := pr) 65536 (within E) 8 3 xs ys st) = Some z ->
    fst (cosinev (pr := pr) 65536 no_check 8 3 xs ys st) = Some z /\ n_sc z = 65536%Z /\ Rabs (rval z - cosine (map rval xs) (map rval ys)) <= cosine_error E (length xs) (square_sum (map rval xs)) (square_sum (map rval ys)).
  Proof using Hn HV. intros HE V W L L' U U' Hz. split; [eapply weaker_fst; [apply cosinev_weak|exact Hz]|]. exact (yo_some _ _ _ _ _ (cosine_yo false E xs ys HE ltac:(discriminate) V W L L' U U') Hz). Qed.
  Lemma cosine_one_yo T E x y : (1 <= E)%Z -> (T = true -> n = 1%nat) -> sharing n x -> n_sc x = 65536%Z -> sharing n y -> n_sc y = 65536%Z -> Rabs (rval x * rval y) < 2 ^ 31 ->
    yo T (cosinev (pr := pr) 65536 (within E) 8 3 [x] [y]) (fun z => n_sc z = 1%Z /\ (rval z = 1 \/ rval z = -1) /\ (unit_error E < rval x * rval y -> rval z = 1) /\ (rval x * rval y < - unit_error E -> rval z = -1)).
  Proof using Hn HV.
    intros HE HT Hx Sx Hy Sy. destruct (holds_rval n 65536 x Hx Sx) as [Ix Rx]. destruct (holds_rval n 65536 y Hy Sy) as [Iy Ry]. rewrite <- Rx, <- Ry. set (v := open_a (n_sh x)) in *. set (w := open_a (n_sh y)) in *. intros B. cbn [cosinev]. unfold cosine1v.
    assert (I : in64 (v * w)). { unfold Shareapprox_proofs.real in B. replace (IZR v / IZR 65536 * (IZR w / IZR 65536)) with (IZR (v * w) / 4294967296) in B by (rewrite mult_IZR; field). apply Rabs_def2 in B. assert (- IZR H63 < IZR (v * w) < IZR H63) as [L U] by (rewrite R63'; lra). rewrite <- opp_IZR in L. apply lt_IZR in L, U. unfold in64. lia. }
    eapply yo_bind; [apply (mul_real n Hn pr HV 65536 E T HE ltac:(lia) HT v w x y Ix Iy I)|]. intros p (q & [Hq Iq] & Bq). change (eta 65536 E) with (unit_error E) in Bq.
    eapply yo_weaken; [apply yo_lifted; apply (n_sign_ok n Hn pr HV 65536 q 65536 p eq_refl Iq Hq)|]. intros z Hz. assert (Rz : rval z = IZR (if (q <? 0)%Z then -1 else 1)). { destruct Hz as [Hz Sz]. unfold rval. rewrite Sz, (ashare_open n _ _ Hz). rewrite wrap_id by (destruct (q <? 0)%Z; unfold in64, H63; lia). field. }
    split; [apply Hz|]. rewrite Rz. apply Rabs_def2' in Bq. assert (Q : IZR q = real 65536 q * 65536) by (unfold Shareapprox_proofs.real; field).
    destruct (q <? 0)%Z eqn:C; [apply Z.ltb_lt in C; apply IZR_lt in C|apply Z.ltb_ge in C; apply IZR_le in C]; (split; [auto|split; intros K; try reflexivity; lra]).
  Qed.
  (** C109: the cosine similarity of vectors of one element is 1 or -1, and it is the sign of the product unless that is within the error of one multiplication of 0. *)
  Lemma k_C109_cosine_one E x y st z : (1 <= E)%Z -> sharing n x -> n_sc x = 65536%Z -> sharing n y -> n_sc y = 65536%Z -> Rabs (rval x * rval y) < 2 ^ 31 -> fst (cosinev (pr := pr) 65536 (within E) 8 3 [x] [y] st) = Some z ->
    fst (cosinev (pr := pr) 65536 no_check 8 3 [x] [y] st) = Some z /\ n_sc z = 1%Z /\ (rval z = 1 \/ rval z = -1) /\ (unit_error E < rval x * rval y -> rval z = 1) /\ (rval x * rval y < - unit_error E -> rval z = -1).
  Proof using Hn HV. intros HE Hx Sx Hy Sy B Hz. split; [eapply weaker_fst; [apply cosinev_weak|exact Hz]|]. exact (yo_some _ _ _ _ _ (cosine_one_yo false E x y HE ltac:(discriminate) Hx Sx Hy Sy B) Hz). Qed.

  (** a channel's parameter: an encrypted number no greater than M *)
  Definition parameter (M : R) (x : num) : Prop := sharing n x /\ n_sc x = 65536%Z /\ Rabs (rval x) <= M.
  Definition encoded (eps : Q) : R := IZR (encodeQ 65536 eps) / 65536.
  Lemma bn_eval_yo T E eps m v w b xs : (E = 1 \/ E = 2)%Z -> (T = true -> n = 1%nat) -> vector n 65536 xs -> sharing n m -> n_sc m = 65536%Z -> Forall (fun x => Rabs (rval x - rval m) <= 10000) xs -> sharing n v -> n_sc v = 65536%Z -> 1 / 10 <= rval v + encoded eps <= 150 -> parameter 10000 w -> parameter 1000000000 b ->
    yo T (bn_evalv (pr := pr) (within E) 8 3 eps m v w b xs) (Forall2 (fun x z => n_sc z = 65536%Z /\ Rabs (rval z - ((rval x - rval m) / sqrt (rval v + encoded eps) * rval w + rval b)) <= bn_error E 0 0 (rval v + encoded eps) (rval x - rval m) (rval w)) xs).
  Proof using Hn HV.
    intros HE HT V Hm Sm Bx Hv Sv Bv (Hw & Sw & Bw) (Hb & Sb & Bb). destruct (vector_real xs V) as (_ & Ne & Le & F & Er). destruct (holds_rval n 65536 m Hm Sm) as [Im Rm]. destruct (holds_rval n 65536 v Hv Sv) as [Iv Rv]. destruct (holds_rval n 65536 w Hw Sw) as [Iw Rw]. destruct (holds_rval n 65536 b Hb Sb) as [Ib Rb].
    eapply yo_weaken; [apply (bn_near E T HE HT eps (rval m) 0 (rval v + encoded eps) 0 (reveals xs) xs (open_a (n_sh m)) m (open_a (n_sh v)) v (open_a (n_sh w)) w (open_a (n_sh b)) b); try eassumption; try (rewrite ?Rw, ?Rb; assumption); try lra|].
    - rewrite Rm, Rminus_diag_eq, Rabs_R0 by reflexivity. lra.
    - rewrite Rv. change (real 65536 (encodeQ 65536 eps)) with (encoded eps). rewrite Rminus_diag_eq, Rabs_R0 by reflexivity. lra.
    - unfold usable. lra.
    - apply (proj1 (Forall_map (real 65536) (fun r => Rabs (r - rval m) <= 10000) (reveals xs))). rewrite Er. apply Forall_map. exact Bx.
    - intros zs Hz. rewrite Rw, Rb in Hz. apply (results_real xs zs (fun x z => Rabs (z - ((x - rval m) / sqrt (rval v + encoded eps) * rval w + rval b)) <= bn_error E 0 0 (rval v + encoded eps) (x - rval m) (rval w)) V). exact Hz.
  Qed.
  (** C109: batch normalisation in evaluation mode (default configuration) is within bn_error of (x - mean) / sqrt(variance + eps) * weight + bias, with eps as encoded, when the variance with eps is between 1/10 and 150. *)
  Lemma k_C109_batchnorm_eval E eps m v w b xs st zs : (E = 1 \/ E = 2)%Z -> vector n 65536 xs -> sharing n m -> n_sc m = 65536%Z -> Forall (fun x => Rabs (rval x - rval m) <= 10000) xs -> sharing n v -> n_sc v = 65536%Z -> let S := rval v + encoded eps in 1 / 10 <= S <= 150 -> parameter 10000 w -> parameter 1000000000 b ->
    fst (bn_evalv (pr := pr) (within E) 8 3 eps m v w b xs st) = Some zs -> fst (bn_evalv (pr := pr) no_check 8 3 eps m v w b xs st) = Some zs /\
    Forall2 (fun x z => n_sc z = 65536%Z /\ Rabs (rval z - ((rval x - rval m) / sqrt S * rval w + rval b)) <= bn_error E 0 0 S (rval x - rval m) (rval w)) xs zs.
  Proof using Hn HV. intros HE V Hm Sm Bx Hv Sv S BS Hw Hb Hz. split; [eapply weaker_fst; [apply bn_evalv_weak|exact Hz]|]. exact (yo_some _ _ _ _ _ (bn_eval_yo false E eps m v w b xs HE ltac:(discriminate) V Hm Sm Bx Hv Sv BS Hw Hb) Hz). Qed.

  Definition trained (E : Z) (eps mom : Q) (r u w b : num) (xs : list num) (o : list num * (num * num)) : Prop :=
    let mu := average (map rval xs) in let V := variance (map rval xs) in let S := V + encoded eps in let h := unit_error E in let t := 2 * h + h * h in
    Forall2 (fun x z => n_sc z = 65536%Z /\ Rabs (rval z - ((rval x - mu) / sqrt S * rval w + rval b)) <= bn_error E h t S (rval x - mu) (rval w)) xs (fst o) /\
    (n_sc (fst (snd o)) = 65536%Z /\ Rabs (rval (fst (snd o)) - ((1 - Q2R mom) * rval u + Q2R mom * V)) <= running_error E (rval u) V + 3 * h) /\
    (n_sc (snd (snd o)) = 65536%Z /\ Rabs (rval (snd (snd o)) - ((1 - Q2R mom) * rval r + Q2R mom * mu)) <= running_error E (rval r) mu + 2 * h).
  Definition trainable (E : Z) (eps mom : Q) (r u w b : num) (xs : list num) : Prop :=
    vector n 65536 xs /\ (2 <= length xs)%nat /\ (Z.of_nat (length xs) <= 1000000)%Z /\ Forall (fun x => Rabs (rval x) <= 5000) xs /\ usable (2 * unit_error E + unit_error E * unit_error E) (variance (map rval xs) + encoded eps) /\ 0 <= Q2R mom <= 1 /\
    parameter 10000 w /\ parameter 1000000000 b /\ parameter 1000000000 r /\ parameter 1000000000 u.
  Lemma bn_train_yo T E eps mom r u w b xs : (E = 1 \/ E = 2)%Z -> (T = true -> n = 1%nat) -> trainable E eps mom r u w b xs -> yo T (bn_trainv (pr := pr) (within E) 8 3 eps mom r u w b xs) (trained E eps mom r u w b xs).
  Proof using Hn HV.
    intros HE HT (V & L & L' & Bx & U & M & (Hw & Sw & Bw) & (Hb & Sb & Bb) & (Hr & Sr & Br) & (Hu & Su & Bu)). destruct (vector_real xs V) as (_ & Ne & Le & F & Er).
    destruct (holds_rval n 65536 r Hr Sr) as [Ir Rr]. destruct (holds_rval n 65536 u Hu Su) as [Iu Ru]. destruct (holds_rval n 65536 w Hw Sw) as [Iw Rw]. destruct (holds_rval n 65536 b Hb Sb) as [Ib Rb].
    assert (Ba : batch (reveals xs) xs). { split; [now rewrite Le|]. split; [now rewrite Le|]. split; [exact F|]. apply (proj1 (Forall_map (real 65536) (fun r => Rabs r <= 5000) (reveals xs))). rewrite Er. apply Forall_map. exact Bx. }
    pose proof (train_real E T HE HT eps mom (reveals xs) xs (open_a (n_sh w)) w (open_a (n_sh b)) b (open_a (n_sh r)) r (open_a (n_sh u)) u) as X. cbv zeta in X. rewrite Er in X. specialize (X Ba Iw Ib Ir Iu U M). rewrite Rw, Rb, Rr, Ru in X. specialize (X Bw Bb Br Bu).
    eapply yo_weaken; [exact X|]. intros [zs [rv rm]] (A & (q & Hq & Bq) & (q' & Hq' & Bq')). cbn [fst snd] in *. unfold trained. cbn [fst snd]. cbv zeta. split; [|split].
    - apply (results_real xs zs (fun x z => Rabs (z - ((x - average (map rval xs)) / sqrt (variance (map rval xs) + encoded eps) * rval w + rval b)) <= bn_error E (unit_error E) (2 * unit_error E + unit_error E * unit_error E) (variance (map rval xs) + encoded eps) (x - average (map rval xs)) (rval w)) V). exact A.
    - now apply (result_real q rv (fun r => Rabs (r - _) <= _)).
    - now apply (result_real q' rm (fun r => Rabs (r - _) <= _)).
  Qed.
  (** C109: batch normalisation in training mode (default configuration): the outputs are within bn_error of the normalised batch, the running statistics follow (1 - momentum) * running + momentum * batch. *)
  Lemma k_C109_batchnorm_train E eps mom r u w b xs st o : (E = 1 \/ E = 2)%Z -> trainable E eps mom r u w b xs -> fst (bn_trainv (pr := pr) (within E) 8 3 eps mom r u w b xs st) = Some o ->
    fst (bn_trainv (pr := pr) no_check 8 3 eps mom r u w b xs st) = Some o /\ trained E eps mom r u w b xs o.
  Proof using Hn HV. intros HE H Hz. split; [eapply weaker_fst; [apply bn_trainv_weak|exact Hz]|]. exact (yo_some _ _ _ _ _ (bn_train_yo false E eps mom r u w b xs HE ltac:(discriminate) H) Hz). Qed.
  (** C109: with one party no assumption on the truncations is needed. *)
  Lemma k_C109_one_party st : n = 1%nat ->
    (forall xs, vector n 65536 xs -> usable (INR (length xs) * unit_error 1) (square_sum (map rval xs)) -> exists z, fst (norm2v (pr := pr) no_check 8 3 xs st) = Some z /\ Rabs (rval z - sqrt (square_sum (map rval xs))) <= norm2_error 1 (length xs) (square_sum (map rval xs))) /\
    (forall xs ys, vector n 65536 xs -> vector n 65536 ys -> (2 <= length xs)%nat -> length ys = length xs -> usable (INR (length xs) * unit_error 1) (square_sum (map rval xs)) -> usable (INR (length xs) * unit_error 1) (square_sum (map rval ys)) ->
      exists z, fst (cosinev (pr := pr) 65536 no_check 8 3 xs ys st) = Some z /\ Rabs (rval z - cosine (map rval xs) (map rval ys)) <= cosine_error 1 (length xs) (square_sum (map rval xs)) (square_sum (map rval ys))) /\
    (forall eps mom r u w b xs, trainable 1 eps mom r u w b xs -> exists o, fst (bn_trainv (pr := pr) no_check 8 3 eps mom r u w b xs st) = Some o /\ trained 1 eps mom r u w b xs o).
  Proof using Hn HV.
    intros N1. split; [|split].
    - intros xs V U. destruct (yo_true _ _ st (norm2_yo true 1 xs (or_introl eq_refl) (fun _ => N1) V U)) as (z & Ez & _ & Bz). exists z. split; [eapply weaker_fst; [apply norm2v_weak|exact Ez]|exact Bz].
    - intros xs ys V W L L' U U'. destruct (yo_true _ _ st (cosine_yo true 1 xs ys (or_introl eq_refl) (fun _ => N1) V W L L' U U')) as (z & Ez & _ & Bz). exists z. split; [eapply weaker_fst; [apply cosinev_weak|exact Ez]|exact Bz].
    - intros eps mom r u w b xs H. destruct (yo_true _ _ st (bn_train_yo true 1 eps mom r u w b xs (or_introl eq_refl) (fun _ => N1) H)) as (o & Eo & Bo). exists o. split; [eapply weaker_fst; [apply bn_trainv_weak|exact Eo]|exact Bo].
  Qed.
End Shares.

(** ** Outside of the conditions *)
Definition cell (v : Z) : num := mkNum [v] 65536.
Lemma cell_ok v : in64 v -> sharing 1 (cell v) /\ n_sc (cell v) = 65536%Z /\ rval (cell v) = IZR v / 65536.
Proof. intros I. split; [split; [reflexivity|split; [constructor; [exact I|constructor]|reflexivity]]|]. split; [reflexivity|]. unfold rval, cell. cbn [n_sh n_sc]. unfold open_a. cbn [fold_left]. unfold wadd. rewrite Z.add_0_l, wrap_id by exact I. reflexivity. Qed.
Lemma cells_ok l : l <> [] -> Forall in64 l -> vector 1 65536 (map cell l) /\ map rval (map cell l) = map (fun v => IZR v / 65536) l.
Proof.
  intros N F. split; [split; [now destruct l|]|].
  - clear N. induction F as [|v l I F IH]; [constructor|]. cbn [map]. constructor; [destruct (cell_ok v I) as (A & B & _); split; assumption|exact IH].
  - clear N. rewrite map_map. induction F as [|v l I F IH]; [reflexivity|]. cbn [map]. rewrite IH. f_equal. apply (cell_ok v I).
Qed.
Lemma gives_cell (m : runo alone num) a s : option_map (fun z => (open_a (n_sh z), n_sc z)) (fst (m tt)) = Some (a, s) -> exists z, fst (m tt) = Some z /\ n_sc z = s /\ rval z = IZR a / IZR s.
Proof. destruct (fst (m tt)) as [z|]; [|discriminate]. cbn [option_map]. intros H. assert (A : (open_a (n_sh z), n_sc z) = (a, s)) by congruence. exists z. split; [reflexivity|]. unfold rval. split; congruence. Qed.
(** C109 refuted outside: with one party norm(12, 12) is given as less than -16; the cosine of (1/10, 1/10) and itself as less than 3/5; that of (1/512) and (-1/512), of opposite sign, as 1, and that of (0) and (0) as 1, where PyTorch gives 0. *)
Lemma k_C109_far_refuted : exists pr st, valid 1 pr /\
  (exists x z, vector 1 65536 [x; x] /\ rval x = 12 /\ fst (norm2v (pr := pr) no_check 8 3 [x; x] st) = Some z /\ rval z < - 16) /\
  (exists x z, vector 1 65536 [x; x] /\ 999 / 10000 <= rval x <= 1 / 10 /\ fst (cosinev (pr := pr) 65536 no_check 8 3 [x; x] [x; x] st) = Some z /\ rval z < 3 / 5) /\
  (exists x y z, sharing 1 x /\ sharing 1 y /\ rval x = 1 / 512 /\ rval y = - (1 / 512) /\ fst (cosinev (pr := pr) 65536 no_check 8 3 [x] [y] st) = Some z /\ rval z = 1) /\
  (exists x z, sharing 1 x /\ rval x = 0 /\ fst (cosinev (pr := pr) 65536 no_check 8 3 [x] [x] st) = Some z /\ rval z = 1).
Proof.
  assert (I : forall v, (Z.abs v <= 1000000)%Z -> in64 v) by (intros; unfold in64, H63; lia).
  exists alone, tt. split; [exact alone_valid|]. split; [|split; [|split]].
  - destruct (gives_cell (norm2v (pr := alone) no_check 8 3 [cell 786432; cell 786432]) (-1103328) 65536 ltac:(vm_compute; reflexivity)) as (z & Z1 & _ & Z2). exists (cell 786432), z. rewrite Z2. split; [apply (cells_ok [786432; 786432]%Z); [discriminate|repeat constructor; apply I; lia]|]. destruct (cell_ok 786432 ltac:(apply I; lia)) as (_ & _ & R). rewrite R. split; [lra|]. split; [exact Z1|lra].
  - destruct (gives_cell (cosinev (pr := alone) 65536 no_check 8 3 [cell 6553; cell 6553] [cell 6553; cell 6553]) 39190 65536 ltac:(vm_compute; reflexivity)) as (z & Z1 & _ & Z2). exists (cell 6553), z. rewrite Z2. split; [apply (cells_ok [6553; 6553]%Z); [discriminate|repeat constructor; apply I; lia]|]. destruct (cell_ok 6553 ltac:(apply I; lia)) as (_ & _ & R). rewrite R. split; [lra|]. split; [exact Z1|lra].
  - destruct (gives_cell (cosinev (pr := alone) 65536 no_check 8 3 [cell 128] [cell (-128)]) 1 1 ltac:(vm_compute; reflexivity)) as (z & Z1 & _ & Z2). exists (cell 128), (cell (-128)), z. rewrite Z2. destruct (cell_ok 128 ltac:(apply I; lia)) as (A & _ & R). destruct (cell_ok (-128) ltac:(apply I; lia)) as (A' & _ & R'). rewrite R, R'. split; [exact A|]. split; [exact A'|]. split; [lra|]. split; [lra|]. split; [exact Z1|lra].
  - destruct (gives_cell (cosinev (pr := alone) 65536 no_check 8 3 [cell 0] [cell 0]) 1 1 ltac:(vm_compute; reflexivity)) as (z & Z1 & _ & Z2). exists (cell 0), z. rewrite Z2. destruct (cell_ok 0 ltac:(apply I; lia)) as (A & _ & R). rewrite R. split; [exact A|]. split; [lra|]. split; [exact Z1|lra].
Qed.
(** C109: the default eps, 1e-5, is less than the encoder's unit: it is dropped, so that nothing protects a channel whose variance is 0. *)
Lemma k_C109_eps_dropped : encoded (1 # 100000) = 0 /\ forall eps, 0 <= Q2R eps < 1 / 65536 -> encoded eps = 0.
Proof.
  assert (G : forall eps, 0 <= Q2R eps < 1 / 65536 -> encoded eps = 0).
  { intros [a b] [H0 H1]. unfold Q2R in H0, H1. cbn [Qnum Qden] in H0, H1. assert (P : 0 < IZR (Zpos b)) by (apply (IZR_lt 0); lia).
    assert (A0 : 0 <= IZR a) by (apply (Rmult_le_reg_r (/ IZR (Zpos b))); [now apply Rinv_0_lt_compat|lra]). assert (A1 : IZR a * 65536 < IZR (Zpos b)). { apply (Rmult_lt_compat_r (IZR (Zpos b))) in H1; [|exact P]. rewrite Rmult_assoc, Rinv_l in H1 by lra. lra. }
    apply le_IZR in A0. rewrite <- (mult_IZR a 65536) in A1. apply lt_IZR in A1. unfold encoded, encodeQ. cbn [Qnum Qden]. rewrite Z.quot_small by lia. lra. }
  split; [|exact G]. apply G. unfold Q2R. cbn [Qnum Qden]. lra.
Qed.
(** C109 refuted for small variances: a batch (-1/10, 1/10), of standard deviation 1/10, is normalised to less than 61/100 where it should be 1. *)
Lemma k_C109_small_variance_refuted : exists pr st r u w b x y z z' s, valid 1 pr /\ vector 1 65536 [x; y] /\ 999 / 10000 <= rval x <= 1 / 10 /\ rval y = - rval x /\ vector 1 65536 [r; u; w; b] /\ rval w = 1 /\ rval b = 0 /\
  fst (bn_trainv (pr := pr) no_check 8 3 (1 # 100000) (1 # 10) r u w b [x; y] st) = Some ([z; z'], s) /\ rval z < 61 / 100 /\ (rval x - average [rval x; rval y]) / sqrt (variance [rval x; rval y]) = 1.
Proof.
  assert (I : forall v, (Z.abs v <= 1000000)%Z -> in64 v) by (intros; unfold in64, H63; lia).
  assert (X : exists z z' s, fst (bn_trainv (pr := alone) no_check 8 3 (1 # 100000) (1 # 10) (cell 0) (cell 65536) (cell 65536) (cell 0) [cell 6553; cell (-6553)] tt) = Some ([z; z'], s) /\ rval z = 39650 / 65536).
  { assert (K : option_map (fun o => map (fun z => (open_a (n_sh z), n_sc z)) (fst o)) (fst (bn_trainv (pr := alone) no_check 8 3 (1 # 100000) (1 # 10) (cell 0) (cell 65536) (cell 65536) (cell 0) [cell 6553; cell (-6553)] tt)) = Some [(39650, 65536); (-39650, 65536)]%Z) by (vm_compute; reflexivity).
    destruct (fst (bn_trainv _ _ _ _ _ _ _ _ _ _ _)) as [[[|z [|z' [|]]] s]|]; try discriminate. cbn [option_map map fst] in K. exists z, z', s. split; [reflexivity|]. unfold rval. replace (open_a (n_sh z)) with 39650%Z by congruence. replace (n_sc z) with 65536%Z by congruence. reflexivity. }
  destruct X as (z & z' & s & E1 & E2). exists alone, tt, (cell 0), (cell 65536), (cell 65536), (cell 0), (cell 6553), (cell (-6553)), z, z', s. rewrite E2.
  destruct (cell_ok 6553 ltac:(apply I; lia)) as (_ & _ & R1). destruct (cell_ok (-6553) ltac:(apply I; lia)) as (_ & _ & R2). destruct (cell_ok 65536 ltac:(apply I; lia)) as (_ & _ & R3). destruct (cell_ok 0 ltac:(apply I; lia)) as (_ & _ & R4). rewrite R1, R2, R3, R4.
  split; [exact alone_valid|]. split; [apply (cells_ok [6553; -6553]%Z); [discriminate|repeat constructor; apply I; lia]|]. split; [lra|]. split; [lra|]. split; [apply (cells_ok [0; 65536; 65536; 0]%Z); [discriminate|repeat constructor; apply I; lia]|]. split; [lra|]. split; [lra|]. split; [exact E1|]. split; [lra|].
  replace (average [6553 / 65536; -6553 / 65536]) with 0 by (unfold average, sumr; cbn [fold_right length INR]; lra).
  replace (variance [6553 / 65536; -6553 / 65536]) with (6553 / 65536 * (6553 / 65536)) by (unfold variance, square_sum; replace (average [6553 / 65536; -6553 / 65536]) with 0 by (unfold average, sumr; cbn [fold_right length INR]; lra); unfold sumr; cbn [map fold_right length INR]; lra).
  rewrite sqrt_square by lra. lra.
Qed.
