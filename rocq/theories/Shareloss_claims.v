(** Proofs of C111: classification losses and their gradients on shares. *)
Require Import ZArith QArith Qreals List Bool Lia Reals Lra.
From Verif Require Import Rtensor_proofs Realgrad_claims Approx Approx_claims Approxfn_claims Enclose Approxlog_claims Approxsoft_claims.
From Verif Require Import Ring64 Encoder Arith Arith_proofs Beaver Trunc Provider Binary Binary_proofs Convert_proofs Compare Compare_proofs Compare_claims Maximum Maximum_proofs Maximum_claims Regular Regular_proofs Regular_claims Shareapprox Shareapprox_proofs Shareapprox_claims Sharesoft Sharesoft_claims Shareroot_claims Sharepoly_claims Sharecheb_claims Sharelog Sharelog_claims Sharerecip Sharerecip_claims Sharenorm Sharenorm_claims Shareloss.
Import ListNotations.
Open Scope R_scope.

(** ** Newton's reciprocal up to 64, which input_in_01 needs *)
(** the range of each method and its relative error *)
Definition wide_range (me : rmethod) (E : Z) (X : R) : Prop := match me with ByNewton => (E = 1 \/ E = 2)%Z /\ 1 / 100 <= X <= 64 | ByLog => log_range E X | ByOther => False end.
Definition wide_error (me : rmethod) (E : Z) (X : R) : R := match me with ByNewton => X * (X + 1) * (IZR E / 65536) + (if Rle_dec X 30 then 1 / 500 else 3 / 50) | _ => recip_log_error E X end.
(** ** What is to be computed *)
Definition pairwise {A B} (f : A -> A -> B) (l m : list A) : list B := map (fun v => f (fst v) (snd v)) (combine l m).
Definition l1_loss (xs ys : list R) : R := average (pairwise (fun x y => Rabs (x - y)) xs ys).
Definition likelihood (p y : R) : R := y * ln p + (1 - y) * ln (1 - p).
Definition bce_loss (ps ys : list R) : R := - average (pairwise likelihood ps ys).
(** derivative of - likelihood *)
Definition bce_slope (p y : R) : R := (1 - y) / (1 - p) - y / p.
Definition row_loss (xs ys : list R) : R := - sumr (pairwise (fun x y => y * ln (exact_softmax xs x)) xs ys).
Definition cross_entropy (rows targets : list (list R)) : R := average (pairwise row_loss rows targets).

(** ** How far the results are from it *)
(** the error of log with input_in_01 (C103) *)
Definition log01_error (E : Z) (p : R) : R := 2 / 100 * Rabs (ln (100 * p)) + 12 / 10000 + log_noise E (100 * p).
Definition likelihood_error (E : Z) (p y : R) : R := y * log01_error E p + (1 - y) * log01_error E (1 - p) + 2 * unit_error E.
Definition bce_error (E : Z) (ps ys : list R) : R := average (pairwise (likelihood_error E) ps ys) + unit_error E.
(** a target that is not 0 needs the log of p, one that is not 1 that of 1 - p *)
Definition bce_fits (E : Z) (p y : R) : Prop := 0 <= y <= 1 /\ (y = 0 \/ log_range E (100 * p)) /\ (y = 1 \/ log_range E (100 * (1 - p))).
Definition slope_fits (me : rmethod) (E : Z) (p y : R) : Prop := me <> ByOther /\ 0 <= y <= 1 /\ (y = 0 \/ wide_range me E (64 * p)) /\ (y = 1 \/ wide_range me E (64 * (1 - p))).
Definition slope_error (me : rmethod) (E : Z) (p y : R) : R := (1 - y) * (wide_error me E (64 * (1 - p)) / (1 - p)) + y * (wide_error me E (64 * p) / p) + 2 * unit_error E.
(** a quantity known up to t, divided by N and multiplied by g *)
Definition gradient_error (E : Z) (N t g : R) : R := (t / N + unit_error E) * Rabs g + unit_error E.
(** a probability q that is itself computed, up to d *)
Definition log_shift (d q : R) : R := d / (q - d) + 2002 / 10000.
Definition shift_fits (E : Z) (d q y : R) : Prop := 0 <= y <= 1 /\ (y = 0 \/ log_range E (100 * (q - d))).
Definition sigmoid_shift (E : Z) : R := 1 / 100 + IZR E / 80.
Definition logits_error (E : Z) (xs ys : list R) : R :=
  average (pairwise (fun x y => let q := exact_sigmoid x in let d := sigmoid_shift E in y * log_shift d q + (1 - y) * log_shift d (1 - q) + 2 * unit_error E) xs ys) + unit_error E.
Definition softmax_shift_by (E : Z) (m : nat) : R := (1 / 40 + INR m / 300) * IZR E.
Definition row_error (E : Z) (xs ys : list R) : R := sumr (pairwise (fun x y => y * log_shift (softmax_shift_by E (length xs)) (exact_softmax xs x) + unit_error E) xs ys).
Definition cross_entropy_error (E : Z) (rows targets : list (list R)) : R := average (pairwise (row_error E) rows targets) + unit_error E.


Section Far.
  Variables (E : Z) (X q e : R).
  Hypothesis HE : (E = 1 \/ E = 2)%Z.
  Let a := limit_exp 8 (1 - 2 * X).
  Hypothesis Hq : exp_near 65536 E 8 a q.
  Hypothesis He : Rabs (e - 3 / 1000) <= / IZR 65536.
  Hypothesis HX : 30 <= X <= 64.
  Lemma far_estimate : Rabs (1 - X * (3 * q + e)) <= 1 - 27 / 10000 * X.
  Proof.
    assert (R8 : 2 ^ 8 = 256) by lra. assert (A0 : 0 <= a) by (unfold a; rewrite limit_is, exp_approx_power; apply pow_even_nonneg; lia).
    assert (A1 : a <= 1 / 1000000000000).
    { unfold a. rewrite limit_is. eapply Rle_trans; [apply approx_le_exp; lra|]. pose proof (exp_neg_le 40) as L. replace (INR 40) with 40 in L by (rewrite INR_IZR_INZ; reflexivity). apply Rle_trans with (exp (- (40))); [apply exp_mono; lra|]. eapply Rle_trans; [exact L|]. lra. }
    destruct Hq as [_ B]. specialize (B ltac:(lia)). cbv zeta in B. change (8 - 1)%nat with 7%nat in B. rewrite <- growth_factor in B. destruct (default_growth E HE) as [_ G].
    pose proof (sqrt_pos a) as S0. assert (SS : sqrt a * sqrt a = a) by (now apply sqrt_sqrt). assert (S1 : sqrt a <= 1 / 1000000) by (destruct (Rle_dec (sqrt a) (1 / 1000000)); [assumption|exfalso; nra]).
    assert (T1 : top1 (sqrt a) = 1) by (unfold top1; rewrite Rabs_right by lra; apply Rmax_left; lra). rewrite T1, Rmult_1_l in B.
    assert (G0 : 0 <= exp_growth 65536 E 7) by (rewrite growth_factor; pose proof (factor_ge 65536 E ltac:(lia) ltac:(lia) 7); lra). set (g := exp_growth 65536 E 7) in *. set (r := sqrt a) in *.
    assert (E12 : 1 <= IZR E <= 2) by (destruct HE as [-> | ->]; lra).
    assert (B' : Rabs (q - a) <= 94 / 1000000). { eapply Rle_trans; [exact B|]. apply Rle_trans with (79 / 10000 * (79 / 10000 + 2 * (1 / 1000000)) + 2 / 65536); [|lra]. apply Rplus_le_compat; [apply Rmult_le_compat; lra|unfold eta; lra]. }
    apply Rabs_def2' in B'. apply Rabs_def2' in He. assert (Lo : 27 / 10000 <= 3 * q + e) by lra. assert (Hi : 3 * q + e <= 4 / 1000) by lra.
    assert (X * (27 / 10000) <= X * (3 * q + e)) by (apply Rmult_le_compat_l; lra). assert (X * (3 * q + e) <= X * (4 / 1000)) by (apply Rmult_le_compat_l; lra). apply Rabs_le. lra.
  Qed.
End Far.
Lemma far_chain E X : (E = 1 \/ E = 2)%Z -> 30 <= X <= 64 -> exists c nu, 1 - 27 / 10000 * X <= IZR c / 1000000 /\ 2 * X * (X + 1) / 65536 <= IZR nu / 1000000 /\ (chain nu 9 c <= 244900)%Z /\ (0 <= c <= 1000000)%Z /\ (c * c + 1000000 * nu <= 1000000 * c)%Z.
Proof.
  intros HE HX.
  assert (K : forall lo hi c nu, lo <= X <= hi -> 30 <= lo -> 1 - 27 / 10000 * lo <= IZR c / 1000000 -> 2 * hi * (hi + 1) / 65536 <= IZR nu / 1000000 -> (chain nu 9 c <= 244900)%Z -> (0 <= c <= 1000000)%Z -> (c * c + 1000000 * nu <= 1000000 * c)%Z ->
    exists c nu, 1 - 27 / 10000 * X <= IZR c / 1000000 /\ 2 * X * (X + 1) / 65536 <= IZR nu / 1000000 /\ (chain nu 9 c <= 244900)%Z /\ (0 <= c <= 1000000)%Z /\ (c * c + 1000000 * nu <= 1000000 * c)%Z).
  { intros lo hi c nu Hl H3 Hc Hnu C1 C2 C3. exists c, nu. split; [lra|]. split; [|split; [exact C1|split; assumption]]. eapply Rle_trans; [|exact Hnu]. assert (X * (X + 1) <= hi * (hi + 1)) by (apply Rmult_le_compat; lra). lra. }
  destruct (Rle_dec X 40); [apply (K 30 40 919000%Z 50049%Z); try lra; try lia; vm_compute; discriminate|].
  destruct (Rle_dec X 50); [apply (K 40 50 892000%Z 77820%Z); try lra; try lia; vm_compute; discriminate|].
  destruct (Rle_dec X 56); [apply (K 50 56 865000%Z 97413%Z); try lra; try lia; vm_compute; discriminate|].
  destruct (Rle_dec X 60); [apply (K 56 60 848800%Z 111695%Z); try lra; try lia; vm_compute; discriminate|].
  destruct (Rle_dec X 62); [apply (K 60 62 838000%Z 119202%Z); try lra; try lia; vm_compute; discriminate|].
  apply (K 62 64 832600%Z 126954%Z); try lra; try lia; vm_compute; discriminate.
Qed.

(** ** Runs over two lists *)
Lemma yo_and {pr A} T (m : runo pr A) (P Q : A -> Prop) : yo T m P -> yo T m Q -> yo T m (fun a => P a /\ Q a).
Proof. intros H K st. specialize (H st). specialize (K st). unfold res in *. destruct (fst (m st)); [now split|exact H]. Qed.
Lemma same_length {A B} (P : A -> B -> Prop) l m : Forall2 P l m -> length l = length m. Proof. induction 1; cbn [length]; congruence. Qed.
Lemma yo_each {pr A B} T (f : A -> runo pr B) (P : A -> B -> Prop) xs : Forall (fun x => yo T (f x) (P x)) xs -> yo T (mapO f xs) (fun zs => Forall2 P xs zs).
Proof. induction 1 as [|x xs H _ IH]; cbn [mapO]; [apply yo_ok; constructor|]. eapply yo_bind; [exact H|]. intros b Hb. eapply yo_bind; [exact IH|]. intros bs Hbs. apply yo_ok. now constructor. Qed.
Lemma yo_pairs {pr A B C} T (f : A -> B -> runo pr C) (P : A * B -> C -> Prop) xs ys : Forall2 (fun x y => yo T (f x y) (P (x, y))) xs ys -> yo T (zipO f xs ys) (fun zs => Forall2 P (combine xs ys) zs).
Proof. induction 1 as [|x y xs ys H _ IH]; cbn [zipO combine]; [apply yo_ok; constructor|]. eapply yo_bind; [exact H|]. intros b Hb. eapply yo_bind; [exact IH|]. intros bs Hbs. apply yo_ok. now constructor. Qed.

(** ** Numbers with the default scale *)
Definition num1 (n : nat) (x : num) : Prop := sharing n x /\ n_sc x = 65536%Z.
Section Numbers.
  Variables (n : nat) (pr : provider).
  Hypothesis Hn : (0 < n)%nat.
  Hypothesis HV : valid n pr.
  Local Notation num1 := (num1 n).
  Lemma typed v x : nshare n v 65536 x -> num1 x.
  Proof using Hn. intros [(L & F & _) S]. split; [|exact S]. split; [exact L|]. split; [exact F|lia]. Qed.
  Lemma opened x : num1 x -> holds n 65536 (open_a (n_sh x)) x /\ real 65536 (open_a (n_sh x)) = rval x.
  Proof using Hn. intros [H S]. now apply holds_rval. Qed.
  Lemma valued v x M : nshare n v 65536 x -> Rabs (real 65536 v) <= M -> M <= 2 ^ 46 -> rval x = real 65536 v.
  Proof using Hn.
    intros H B M46. assert (Hh : holds n 65536 v x). { apply (holds_bound n Hn 65536 false ltac:(lia) ltac:(discriminate) _ _ M H B). change (IZR H63) with (IZR 9223372036854775808). lra. }
    apply (rval_holds n Hn 65536 v x ltac:(lia) Hh).
  Qed.
  Lemma holds_num q z : holds n 65536 q z -> num1 z /\ rval z = real 65536 q.
  Proof using Hn. intros H. split; [apply (typed q), H|]. apply (rval_holds n Hn 65536 q z ltac:(lia) H). Qed.
  (** without rounding *)
  Lemma neg_num1 x : num1 x -> num1 (neg_num x). Proof using Hn. intros H. destruct (opened x H) as [[Hx _] _]. eapply typed, (neg_num_ok n), Hx. Qed.
  Lemma neg_rval x M : num1 x -> Rabs (rval x) <= M -> M <= 2 ^ 46 -> rval (neg_num x) = - rval x.
  Proof using Hn. intros H B M46. destruct (opened x H) as [[Hx _] Rx]. assert (A : real 65536 (- open_a (n_sh x)) = - rval x) by (rewrite <- Rx; unfold real; rewrite opp_IZR; field). rewrite <- A. apply (valued _ _ M); [now apply (neg_num_ok n)|rewrite A, Rabs_Ropp; exact B|exact M46]. Qed.
  Lemma one_minus_num1 x : num1 x -> num1 (one_minus x). Proof using Hn. intros H. destruct (opened x H) as [[Hx _] _]. eapply typed, (one_minus_ok n Hn), Hx. Qed.
  Lemma one_minus_rval x M : num1 x -> Rabs (rval x) <= M -> M <= 2 ^ 45 -> rval (one_minus x) = 1 - rval x.
  Proof using Hn. intros H B M45. destruct (opened x H) as [[Hx _] Rx]. assert (A : real 65536 (65536 - open_a (n_sh x)) = 1 - rval x) by (rewrite <- Rx; unfold real; rewrite minus_IZR; field). rewrite <- A. apply (valued _ _ (M + 1)); [now apply (one_minus_ok n Hn)|rewrite A; apply Rabs_def2' in B; apply Rabs_le; lra|lra]. Qed.
  Lemma add_num1 x y : num1 x -> num1 y -> num1 (add_num x (AEnc y)). Proof using Hn. intros H K. destruct (opened x H) as [[Hx _] _]. destruct (opened y K) as [[Hy _] _]. eapply typed, (add_enc_ok n); eassumption. Qed.
  Lemma add_rval x y M : num1 x -> num1 y -> Rabs (rval x + rval y) <= M -> M <= 2 ^ 46 -> rval (add_num x (AEnc y)) = rval x + rval y.
  Proof using Hn. intros H K B M46. destruct (opened x H) as [[Hx _] Rx]. destruct (opened y K) as [[Hy _] Ry]. assert (A : real 65536 (open_a (n_sh x) + open_a (n_sh y)) = rval x + rval y) by (rewrite <- Rx, <- Ry; unfold real; rewrite plus_IZR; field). rewrite <- A. apply (valued _ _ M); [now apply (add_enc_ok n)|rewrite A; exact B|exact M46]. Qed.
  Lemma sub_num1 x y : num1 x -> num1 y -> num1 (sub_num x (AEnc y)). Proof using Hn. intros H K. destruct (opened x H) as [[Hx _] _]. destruct (opened y K) as [[Hy _] _]. eapply typed, (sub_enc_ok n); eassumption. Qed.
  Lemma sub_rval x y M : num1 x -> num1 y -> Rabs (rval x - rval y) <= M -> M <= 2 ^ 46 -> rval (sub_num x (AEnc y)) = rval x - rval y.
  Proof using Hn. intros H K B M46. destruct (opened x H) as [[Hx _] Rx]. destruct (opened y K) as [[Hy _] Ry]. assert (A : real 65536 (open_a (n_sh x) - open_a (n_sh y)) = rval x - rval y) by (rewrite <- Rx, <- Ry; unfold real; rewrite minus_IZR; field). rewrite <- A. apply (valued _ _ M); [now apply (sub_enc_ok n)|rewrite A; exact B|exact M46]. Qed.
  Lemma muli_num1 k x : num1 x -> num1 (muli_num k x). Proof using Hn. intros H. destruct (opened x H) as [[Hx _] _]. eapply typed, (muli_num_ok n), Hx. Qed.
  Lemma muli_rval k x M : num1 x -> Rabs (IZR k * rval x) <= M -> M <= 2 ^ 46 -> rval (muli_num k x) = IZR k * rval x.
  Proof using Hn. intros H B M46. destruct (opened x H) as [[Hx _] Rx]. assert (A : real 65536 (open_a (n_sh x) * k) = IZR k * rval x) by (rewrite <- Rx; unfold real; rewrite mult_IZR; field). rewrite <- A. apply (valued _ _ M); [now apply (muli_num_ok n)|rewrite A; exact B|exact M46]. Qed.
  Lemma addp_num1 q x : num1 x -> num1 (add_num x (AFloat q)). Proof using Hn. intros H. destruct (opened x H) as [[Hx _] _]. eapply typed, (add_public n Hn _ _ _ (AFloat q) Logic.I), Hx. Qed.
  Lemma subp_num1 q x : num1 x -> num1 (sub_num x (AFloat q)). Proof using Hn. intros H. destruct (opened x H) as [[Hx _] _]. eapply typed, (sub_public n Hn _ _ _ (AFloat q) Logic.I), Hx. Qed.
  Lemma addi_num1 k x : num1 x -> num1 (add_num x (AInt k)). Proof using Hn. intros H. destruct (opened x H) as [[Hx _] _]. eapply typed, (add_int_ok n Hn), Hx. Qed.
  Lemma sum_values zs : zs <> [] -> Forall num1 zs -> nshare n (zsum (map (fun z => open_a (n_sh z)) zs)) 65536 (sum_num zs) /\ real 65536 (zsum (map (fun z => open_a (n_sh z)) zs)) = sumr (map rval zs).
  Proof using Hn.
    intros Ne F. split.
    - apply (sum_num_ok n); [destruct zs; [congruence|discriminate]|]. clear Ne. induction F as [|z zs H _ IH]; [constructor|]. cbn [map]. constructor; [apply (opened z H)|exact IH].
    - rewrite (real_zsum 65536 ltac:(lia)), map_map. clear Ne. induction F as [|z zs H _ IH]; [reflexivity|]. cbn [map]. rewrite !sumr_cons, IH. f_equal. apply (opened z H).
  Qed.
  Lemma sum_num1 zs : zs <> [] -> Forall num1 zs -> num1 (sum_num zs). Proof using Hn. intros Ne F. eapply typed, (sum_values zs Ne F). Qed.
  Lemma sum_rval zs M : zs <> [] -> Forall num1 zs -> Rabs (sumr (map rval zs)) <= M -> M <= 2 ^ 46 -> rval (sum_num zs) = sumr (map rval zs).
  Proof using Hn. intros Ne F B M46. destruct (sum_values zs Ne F) as [Hs Rs]. rewrite <- Rs. apply (valued _ _ M Hs); [rewrite Rs; exact B|exact M46]. Qed.

  (** with rounding *)
  Variables (E : Z) (T : bool).
  Hypothesis HE : (E = 1 \/ E = 2)%Z.
  Hypothesis HT : T = true -> n = 1%nat.
  Local Notation eta := (IZR E / 65536).
  Lemma E_pos : (1 <= E)%Z. Proof using HE. clear - HE. lia. Qed.
  Lemma div_any x d : (0 < d)%Z -> num1 x -> yo T (divv (pr := pr) (within E) x d) (fun z => num1 z /\ Rabs (rval z - rval x / IZR d) <= eta).
  Proof using Hn HV HE HT.
    intros Hd H. destruct (opened x H) as [Hx Rx]. eapply yo_weaken; [apply (div_real n Hn pr HV 65536 E T E_pos ltac:(lia) HT _ _ d Hd Hx)|]. intros z (q & Hq & B). destruct (holds_num q z Hq) as [Nz Rz]. split; [exact Nz|]. rewrite Rz, <- Rx. exact B.
  Qed.
  Lemma wrapped v x : ashare n v x -> ashare n (wrap v) x /\ in64 (wrap v).
  Proof using. intros H. split; [|apply wrap_in64]. eapply ashare_eqm; [exact H|]. symmetry. apply wrap_eqm. Qed.
  Lemma div_typed v x d : (0 < d)%Z -> ashare n v (n_sh x) -> yo T (divv (pr := pr) (within E) x d) (fun z => length (n_sh z) = n /\ Forall in64 (n_sh z) /\ n_sc z = n_sc x).
  Proof using Hn HV HE HT.
    intros Hd H. destruct (wrapped _ _ H) as [W I]. eapply yo_weaken; [apply (divv_acc n Hn pr HV E T E_pos HT (wrap v) x d Hd I W)|]. intros z (q & [(L & F & _) S] & _). auto.
  Qed.
  Lemma mul_any x y : num1 x -> num1 y -> yo T (mulv (pr := pr) (within E) x y) num1.
  Proof using Hn HV HE HT.
    intros H K. destruct (opened x H) as [[[Hx Sx] _] _]. destruct (opened y K) as [[[Hy Sy] _] _]. unfold mulv. eapply (yo_lift _ _ _ (fun t => let '(a, b, c) := t in _)); [intros st; exact (v_mul n pr HV st)|]. intros [[a b] c] Ht. rewrite Sx, Sy. cbv zeta.
    change (mul_rescale 65536 65536) with (Some 65536%Z, 65536%Z). cbv iota beta.
    eapply yo_weaken; [eapply (div_typed _ (mkNum _ 65536) 65536); [lia|cbn [n_sh]; eapply (mul1_share n Hn); eassumption]|]. intros z (L & F & S). cbn [n_sc] in S. split; [split; [exact L|split; [exact F|lia]]|exact S].
  Qed.
  Lemma square_any x : num1 x -> yo T (squarev (pr := pr) (within E) x) num1.
  Proof using Hn HV HE HT.
    intros H. destruct (opened x H) as [[[Hx Sx] _] _]. unfold squarev. eapply (yo_lift _ _ _ (fun t => let '(r, r2) := t in _)); [intros st; exact (v_square n pr HV st)|]. intros [r r2] Hr. rewrite Sx.
    eapply yo_bind; [eapply (div_typed _ (mkNum _ _) 65536); [lia|cbn [n_sh]; eapply (square_share n Hn); eassumption]|]. intros z (L & F & S). apply yo_ok. split; [split; [exact L|split; [exact F|cbn; lia]]|reflexivity].
  Qed.
  Lemma mulp_any x k : num1 x -> yo T (mulpv (pr := pr) (within E) x k) num1.
  Proof using Hn HV HE HT.
    intros H. destruct (opened x H) as [[[Hx Sx] _] _]. unfold mulpv. cbv zeta. unfold mul_pub_rescale. rewrite Sx. change (1 <? 65536)%Z with true. cbv iota beta.
    eapply yo_weaken; [eapply (div_typed _ (mkNum _ 65536) 65536); [lia|exact (proj1 (muli_num_ok n k _ 65536 x (conj Hx Sx)))]|]. intros z (L & F & S). cbn [n_sc] in S. split; [split; [exact L|split; [exact F|lia]]|lia].
  Qed.
  Lemma mul_rval x y : num1 x -> num1 y -> Rabs (rval x * rval y) <= 2 ^ 30 -> yo T (mulv (pr := pr) (within E) x y) (fun z => num1 z /\ Rabs (rval z - rval x * rval y) <= eta).
  Proof using Hn HV HE HT.
    intros H K B. destruct (opened x H) as [Hx Rx]. destruct (opened y K) as [Hy Ry]. eapply yo_weaken; [apply (mul_real n Hn pr HV 65536 E T E_pos ltac:(lia) HT _ _ _ _ Hx Hy)|].
    - apply (in64_product 65536 ltac:(lia) _ _ (2 ^ 30)); [rewrite Rx, Ry; exact B|change (IZR H63) with (IZR 9223372036854775808); lra].
    - intros z (q & Hq & Bq). destruct (holds_num q z Hq) as [Nz Rz]. split; [exact Nz|]. rewrite Rz, <- Rx, <- Ry. exact Bq.
  Qed.
  Lemma repeat_any {A} (P : A -> Prop) (f : A -> runo pr A) k : (forall x, P x -> yo T (f x) P) -> forall x, P x -> yo T (repeatv k f x) P.
  Proof using. intros K. induction k as [|k IH]; intros x H; cbn [repeatv]; [now apply yo_ok|]. eapply yo_bind; [apply K, H|]. intros y Y. apply IH, Y. Qed.
  Lemma exp_any d x : num1 x -> yo T (expv (pr := pr) (within E) d x) num1.
  Proof using Hn HV HE HT. intros H. unfold expv. eapply yo_bind; [apply (div_any x (2 ^ Z.of_nat d)); [apply Z.pow_pos_nonneg; [lia|apply Nat2Z.is_nonneg]|exact H]|]. intros q [Q _]. apply repeat_any; [intros y Y; apply square_any, Y|]. now apply addi_num1. Qed.
  Lemma mulc_any x c : (exists q, c = KFloat q) -> num1 x -> yo T (mulc (pr := pr) (within E) x c) num1.
  Proof using Hn HV HE HT. intros [q ->] H. cbn [mulc]. apply mulp_any, H. Qed.
  Lemma grow_any fuel k ts : ts <> [] -> Forall num1 ts -> yo T (grow (pr := pr) (within E) fuel k ts) (fun us => us <> [] /\ Forall num1 us).
  Proof using Hn HV HE HT.
    revert ts. induction fuel as [|fuel IH]; intros ts Ne F; cbn [grow]; [now apply yo_ok|]. destruct (Nat.ltb _ _); [|now apply yo_ok]. cbv zeta.
    assert (L : num1 (last ts nil_num)). { clear IH. induction F as [|t ts Ht F IHF]; [congruence|]. destruct ts as [|u ts]; [exact Ht|]. change (last (t :: u :: ts) nil_num) with (last (u :: ts) nil_num). apply IHF. discriminate. }
    eapply yo_bind; [apply (yo_each T _ (fun _ z => num1 z)); eapply Forall_impl; [|exact F]; intros t Ht; apply mul_any; assumption|]. intros new Hnew. apply IH; [destruct ts; [congruence|discriminate]|].
    apply Forall_app. split; [exact F|]. clear - Hnew. induction Hnew; constructor; assumption.
  Qed.
  Lemma polynomial_any x cs : cs <> [] -> Forall (fun c => exists q, c = KFloat q) cs -> num1 x -> yo T (polynomial (pr := pr) (within E) x cs) num1.
  Proof using Hn HV HE HT.
    intros Ne F H. destruct cs as [|c [|c' cs]]; [congruence|apply mulc_any; [now inversion F|exact H]|]. set (l := c :: c' :: cs) in *. unfold polynomial. change (match l with [c0] => _ | _ => ?m end) with m.
    eapply yo_bind; [apply square_any, H|]. intros x2 H2. eapply yo_bind; [apply (grow_any (length l) (length l) [x; x2]); [discriminate|repeat constructor; try apply H; try apply H2]|]. intros ts [Nt Ft].
    eapply (yo_bind _ _ _ (fun ys => ys <> [] /\ Forall num1 ys)).
    - assert (Nf : firstn (length l) ts <> []) by (destruct ts; [congruence|discriminate]). assert (Ff : Forall num1 (firstn (length l) ts)) by (rewrite <- (firstn_skipn (length l) ts) in Ft; apply Forall_app in Ft; apply Ft).
      assert (Nl : l <> []) by discriminate. revert F Nf Ff Nl. generalize (firstn (length l) ts) as us. clear Ne. clearbody l. intros us. revert l. clear Nt Ft ts x2 H2 H x c c' cs. induction us as [|u us IH]; intros l F Nf Ff Nl; [congruence|]. destruct l as [|k l]; [congruence|]. cbn [zipO].
      apply Forall_inv in F as Fk. apply Forall_inv_tail in F. apply Forall_inv in Ff as Fu. apply Forall_inv_tail in Ff. eapply yo_bind; [apply (mulc_any u k Fk Fu)|]. intros z Hz.
      destruct us as [|u' us]; [|destruct l as [|k' l]]; [cbn [zipO]; apply yo_ok; split; [discriminate|now constructor]|cbn [zipO]; apply yo_ok; split; [discriminate|now constructor]|].
      eapply yo_bind; [apply (IH (k' :: l)); [exact F|discriminate|exact Ff|discriminate]|]. intros zs [_ Fz]. apply yo_ok. split; [discriminate|now constructor].
    - intros ys [Ny Fy]. apply yo_ok. now apply sum_num1.
  Qed.
  Lemma householder_float order : (1 <= order)%nat -> householder order <> [] /\ Forall (fun c => exists q, c = KFloat q) (householder order).
  Proof using. clear. intros H. unfold householder. split; [destruct order; [lia|discriminate]|]. apply Forall_map, Forall_forall. intros i _. now eexists. Qed.
  Lemma log_any d d' order iters x : (1 <= order)%nat -> num1 x -> yo T (logv (pr := pr) (within E) d d' order iters x) num1.
  Proof using Hn HV HE HT.
    intros Ho H. unfold logv, log_initialv. eapply (yo_bind _ _ _ num1).
    - eapply yo_bind; [apply (div_any x 120 ltac:(lia) H)|]. intros t [Ht _]. eapply yo_bind; [apply exp_any, neg_num1, addp_num1, muli_num1, H|]. intros e He. apply yo_ok. now apply addp_num1, sub_num1, muli_num1.
    - intros y Hy. apply repeat_any; [|exact Hy]. clear y Hy. intros y Hy. unfold log_stepv. eapply yo_bind; [apply exp_any, neg_num1, Hy|]. intros e He. eapply yo_bind; [apply mul_any; [exact H|exact He]|]. intros p Hp.
      destruct (householder_float order Ho) as [N F]. eapply yo_bind; [apply (polynomial_any _ _ N F), one_minus_num1, Hp|]. intros q Hq. apply yo_ok. now apply sub_num1.
  Qed.
  Lemma log01_any d d' order iters x : (1 <= order)%nat -> num1 x -> yo T (log01v (pr := pr) (within E) d d' order iters x) num1.
  Proof using Hn HV HE HT. intros Ho H. unfold log01v. eapply yo_bind; [apply (log_any _ _ _ _ _ Ho), muli_num1, H|]. intros y Hy. apply yo_ok. now apply subp_num1. Qed.
  Lemma recip_pos_any d k x : num1 x -> yo T (reciprocal_posv (pr := pr) (within E) d k x) num1.
  Proof using Hn HV HE HT.
    intros H. unfold reciprocal_posv, nr_initialv. eapply (yo_bind _ _ _ num1).
    - eapply yo_bind; [apply exp_any, one_minus_num1, muli_num1, H|]. intros e He. apply yo_ok. now apply addp_num1, muli_num1.
    - intros r Hr. apply repeat_any; [|exact Hr]. clear r Hr. intros r Hr. unfold nr_stepv. eapply yo_bind; [apply square_any, Hr|]. intros q Hq. eapply yo_bind; [apply mul_any; [exact Hq|exact H]|]. intros p Hp. apply yo_ok. now apply add_num1, sub_num1.
  Qed.
  Lemma recip01_any me p x : me <> ByOther -> num1 x -> yo T (recipv (pr := pr) 65536 (within E) (usual me p) true x) num1.
  Proof using Hn HV HE HT.
    intros Hm H. unfold recipv, recip_signedv. cbn [usual with_positive r_all_pos]. eapply (yo_bind _ _ _ num1); [|intros r Hr; apply yo_ok; now apply muli_num1]. unfold recip_positivev. cbn [r_method r_exp_iterations r_nr_iters]. destruct me; [apply recip_pos_any, muli_num1, H| |congruence].
    unfold recip_logv. cbn [r_exp_iterations r_log_exp_iterations r_log_order r_log_iterations]. eapply yo_bind; [apply log_any; [apply Nat.lt_0_succ|now apply muli_num1]|]. intros l Hl. now apply exp_any, neg_num1.
  Qed.

  (** *** log and reciprocal of numbers between 0 and 1 *)
  Lemma log01_yo x : num1 x -> log_range E (100 * rval x) -> yo T (log01v (pr := pr) (within E) 8 8 8 2 x) (fun z => num1 z /\ Rabs (rval z - ln (rval x)) <= log01_error E (rval x)).
  Proof using Hn HV HE HT.
    intros H HX. set (X := 100 * rval x) in *. destruct (range_E E X HX) as [_ B]. assert (B' : Rabs X <= 127) by (apply Rabs_le; lra). pose proof (muli_num1 100 x H) as Nm. pose proof (muli_rval 100 x 127 H B' ltac:(lra)) as Rm. change (IZR 100 * rval x) with X in Rm.
    destruct (opened _ Nm) as [Hm Om]. rewrite Rm in Om. unfold log01v. rewrite <- Om in HX. eapply yo_bind; [apply (log_near n pr Hn HV T E _ _ HT Hm HX)|]. rewrite Om in HX |- *. intros y (q & Hq & Bq). apply yo_ok. set (k := encodeQ 65536 (460517 # 100000)).
    pose proof (sub_public n Hn _ _ _ (AFloat (460517 # 100000)) Logic.I (proj1 Hq)) as Hz. change (aval (AFloat (460517 # 100000)) 65536) with k in Hz. set (z := sub_num y (AFloat (460517 # 100000))) in *. split; [exact (typed _ _ Hz)|].
    pose proof (float_any 65536 ltac:(lia) (460517 # 100000)) as F. fold k in F. unfold Q2R in F. cbn [Qnum Qden] in F. assert (Rs : real 65536 (q - k) = real 65536 q - real 65536 k) by (unfold real; rewrite minus_IZR; field).
    pose proof (k_C74_range X ltac:(lra)) as C. pose proof ln_100 as L. assert (Lm : ln X = ln 100 + ln (rval x)) by (unfold X; apply ln_mult; [lra|unfold X in B; lra]). destruct (ln_7 X B) as [Ln _]. assert (N : log_noise E X <= 1) by (unfold log_noise; destruct HE as [-> | ->]; lra).
    apply Rabs_def2' in Bq, C, L, F. pose proof (Rabs_def2' _ _ Ln) as Ln'. rewrite (valued (q - k) z 20 Hz); [|rewrite Rs; apply Rabs_le; pose proof (Rabs_pos (ln X)); lra|lra]. rewrite Rs. unfold log01_error. fold X. apply Rabs_le. lra.
  Qed.
  Lemma recip_far v x : holds n 65536 v x -> let X := real 65536 v in 30 <= X <= 64 ->
    yo T (reciprocal_posv (pr := pr) (within E) 8 10 x) (fun z => exists u, holds n 65536 u z /\ Rabs (1 - X * real 65536 u) <= X * (X + 1) * (IZR E / 65536) + 3 / 50).
  Proof using Hn HV HE HT.
    intros Hx X HX. destruct (far_chain E X HE HX) as (c & nu & Hc & Hnu & C1 & C2 & C3). pose proof E_pos as HE'. assert (E12 : 1 <= IZR E <= 2) by (destruct HE as [-> | ->]; lra). destruct (default_growth E HE) as [G8 _]. rewrite growth_factor in G8. pose proof (factor_ge 65536 E HE' ltac:(lia) 8) as F1.
    assert (R8 : 2 ^ 8 = 256) by lra. assert (IX : / X <= 1 / 30). { replace (1 / 30) with (/ 30) by field. apply Rinv_le_contravar; lra. } assert (IX0 : 0 < / X) by (apply Rinv_0_lt_compat; lra).
    assert (C01 : 0 <= IZR c <= 1000000) by (split; [apply (IZR_le 0)|apply (IZR_le _ 1000000)]; apply C2). assert (R63 : IZR H63 = 9223372036854775808) by reflexivity.
    assert (RW : real 65536 (65536 - v * 2) = 1 - 2 * X) by (unfold X, real; rewrite minus_IZR, mult_IZR; field).
    assert (LM : Rabs (limit_exp 8 (1 - 2 * X)) <= 3).
    { rewrite limit_is. assert (0 <= exp_approx 8 (1 - 2 * X)) by (rewrite exp_approx_power; apply pow_even_nonneg; lia). rewrite Rabs_right by lra. pose proof (approx_le_exp 8 (1 - 2 * X) ltac:(lra)). pose proof exp_le_3. assert (exp (1 - 2 * X) <= exp 1) by (apply exp_mono; lra). lra. }
    assert (XX : 0 < X * (X + 1)) by nra. assert (N0 : 0 <= X * (X + 1) * (IZR E / 65536)) by nra. assert (N1 : X * (X + 1) * (IZR E / 65536) <= IZR nu / 1000000) by nra.
    eapply yo_weaken; [apply (reciprocal_pos_real n Hn pr HV 65536 E T HE' ltac:(lia) HT 8 10 v x (IZR c / 1000000) Hx)|].
    - apply (bound64 n 65536 Hn ltac:(lia) _ 128); [rewrite RW; apply Rabs_le; lra|lra].
    - split.
      + unfold exact_exp. rewrite RW, <- limit_is, R63. apply Rle_lt_trans with (65536 * 65536 * (3 * 2)); [|lra]. apply Rmult_le_compat_l; [lra|]. unfold top1. apply Rmult_le_compat; [eapply Rle_trans; [|apply Rmax_l]; lra|lra|apply Rmax_lub; lra|lra].
      + rewrite RW, R8, R63. assert (Rabs (1 - 2 * X) <= 128) by (apply Rabs_le; lra). unfold Shareapprox_proofs.eta. lra.
    - fold X. split; [lra|]. split; [unfold Rdiv; lra|]. rewrite R63. unfold Shareapprox_proofs.eta. replace ((4 / (X * X) + IZR E / 65536) * X) with (4 * / X + IZR E / 65536 * X) by (field; lra). assert (IZR E / 65536 * X <= 2 / 65536 * 64) by (apply Rmult_le_compat; lra). lra.
    - fold X. intros q e Hq He. rewrite <- limit_is in Hq. eapply Rle_trans; [apply (far_estimate E X q e HE Hq He HX)|exact Hc].
    - lra.
    - fold X. unfold refine, noise, Shareapprox_proofs.eta. apply IZR_le in C3. rewrite plus_IZR, !mult_IZR in C3. nra.
    - fold X. intros z (u & Hu & B). exists u. split; [exact Hu|]. eapply Rle_trans; [exact B|]. change (refine 65536 E X) with (newton 65536 E X). assert (Q0 : 0 <= IZR c / 1000000 <= IZR c / 1000000) by lra.
      pose proof (chain_bound E X _ c nu 9 Q0 N1 N0) as C. apply IZR_le in C1. change (Nat.iter 10 (newton 65536 E X) (IZR c / 1000000)) with (newton 65536 E X (Nat.iter 9 (newton 65536 E X) (IZR c / 1000000))). set (t := Nat.iter 9 _ _) in *. unfold newton. assert (t * t <= 2449 / 10000 * (2449 / 10000)) by (apply Rmult_le_compat; lra). lra.
  Qed.
  Lemma recip_wide me p v x : holds n 65536 v x -> wide_range me E (real 65536 v) ->
    yo T (recip_positivev (pr := pr) (within E) (usual me p) x) (fun z => exists u, holds n 65536 u z /\ Rabs (1 - real 65536 v * real 65536 u) <= wide_error me E (real 65536 v)).
  Proof using Hn HV HE HT.
    intros Hx HX. destruct me; cbn [wide_range] in HX; [| |contradiction].
    - destruct HX as [_ HX]. unfold wide_error. destruct (Rle_dec (real 65536 v) 30) as [L|L]; [apply (recip_pos n pr Hn HV T E v x HE HT Hx); lra|]. apply (recip_far v x Hx). lra.
    - apply (recip_positive n pr Hn HV T ByLog p E v x HT Hx HX).
  Qed.
  Lemma wide_pos me X : wide_range me E X -> 1 / 1000 <= X <= 127 /\ 0 <= wide_error me E X <= 1.
  Proof using HE.
    clear HT. intros H. destruct me; cbn [wide_range wide_error] in *; [|split; [destruct H as [[_ B]|[_ B]]; lra|now apply recip_log_error_small]|contradiction].
    destruct H as [_ B]. split; [lra|]. assert (1 <= IZR E <= 2) by (destruct HE as [-> | ->]; lra). assert (0 <= X * (X + 1) <= 64 * 65) by (split; [nra|apply Rmult_le_compat; lra]). assert (0 <= X * (X + 1) * (IZR E / 65536) <= 4160 * (2 / 65536)) by (split; [nra|apply Rmult_le_compat; lra]). destruct (Rle_dec X 30); lra.
  Qed.
  Lemma recip01_wide me p x : num1 x -> wide_range me E (64 * rval x) ->
    yo T (recipv (pr := pr) 65536 (within E) (usual me p) true x) (fun z => num1 z /\ Rabs (rval z) <= 128000 /\ Rabs (rval z - / rval x) <= wide_error me E (64 * rval x) / rval x).
  Proof using Hn HV HE HT.
    intros H HX. set (X := 64 * rval x) in *. destruct (wide_pos me X HX) as [B Be]. assert (B' : Rabs X <= 127) by (apply Rabs_le; lra). pose proof (muli_num1 64 x H) as Nm. pose proof (muli_rval 64 x 127 H B' ltac:(lra)) as Rm. change (IZR 64 * rval x) with X in Rm.
    destruct (opened _ Nm) as [Hm Om]. rewrite Rm in Om. unfold recipv, recip_signedv. cbn [with_positive r_all_pos]. change (mkRconfig _ _ _ _ _ _ _) with (usual me true). rewrite <- Om in HX. eapply yo_bind; [apply (recip_wide me true _ _ Hm HX)|]. rewrite Om in HX |- *.
    intros r (u & Hu & Bu). apply yo_ok. destruct (holds_num u r Hu) as [Nr Rr]. rewrite <- Rr in Bu. pose proof (near_1000 X (rval r) ltac:(lra) ltac:(lra)) as B2. assert (B3 : Rabs (IZR 64 * rval r) <= 128000) by (rewrite Rabs_mult, (Rabs_right (IZR 64)) by lra; lra).
    split; [now apply muli_num1|]. rewrite (muli_rval 64 r 128000 Nr B3 ltac:(lra)). split; [exact B3|]. assert (x0 : 0 < rval x) by (unfold X in B; lra).
    replace (IZR 64 * rval r - / rval x) with (- ((1 - X * rval r) * / rval x)) by (unfold X; field; lra). rewrite Rabs_Ropp, Rabs_mult, (Rabs_right (/ rval x)) by (left; now apply Rinv_0_lt_compat). apply Rmult_le_compat_r; [left; now apply Rinv_0_lt_compat|exact Bu].
  Qed.

  (** *** Sums and means of numbers known up to an error *)
  Definition around {A} (f h : A -> R) (a : A) (z : num) : Prop := num1 z /\ Rabs (rval z - f a) <= h a.
  Lemma around_num1 {A} (f h : A -> R) l zs : Forall2 (around f h) l zs -> Forall num1 zs.
  Proof using. clear. induction 1 as [|a z l zs [H _] _ IH]; constructor; assumption. Qed.
  Lemma around_sum {A} (f h : A -> R) l zs : Forall2 (around f h) l zs -> Rabs (sumr (map rval zs) - sumr (map f l)) <= sumr (map h l).
  Proof using.
    clear. induction 1 as [|a z l zs [_ H] _ IH]; [cbn; rewrite Rminus_0_r, Rabs_R0; lra|]. cbn [map]. rewrite !sumr_cons. replace (rval z + sumr (map rval zs) - (f a + sumr (map f l))) with ((rval z - f a) + (sumr (map rval zs) - sumr (map f l))) by ring. eapply Rle_trans; [apply Rabs_triang|]. lra.
  Qed.
  Lemma around_length {A} (f h : A -> R) l zs : Forall2 (around f h) l zs -> length zs = length l.
  Proof using. clear. induction 1; cbn [length]; congruence. Qed.
  Lemma around_bound {A} (f h : A -> R) l zs M : Forall2 (around f h) l zs -> Forall (fun a => Rabs (f a) + h a <= M) l -> Rabs (sumr (map rval zs)) <= INR (length l) * M.
  Proof using.
    clear. intros H F. induction H as [|a z l zs [_ H] _ IH]; [cbn; rewrite Rabs_R0; lra|]. inversion F; subst. cbn [map length]. rewrite sumr_cons, S_INR. specialize (IH ltac:(assumption)). eapply Rle_trans; [apply Rabs_triang|].
    assert (Rabs (rval z) <= M) by (replace (rval z) with ((rval z - f a) + f a) by ring; eapply Rle_trans; [apply Rabs_triang|]; lra). lra.
  Qed.
  Lemma short_list (k : nat) : (Z.of_nat k <= 2 ^ 20)%Z -> INR k <= 2 ^ 20.
  Proof using. clear. intros H. rewrite INR_IZR_INZ. apply IZR_le in H. lra. Qed.
  Lemma mean_yo {A} (f h : A -> R) l zs : l <> [] -> (Z.of_nat (length l) <= 2 ^ 20)%Z -> Forall2 (around f h) l zs -> Forall (fun a => Rabs (f a) + h a <= 2 ^ 20) l ->
    yo T (mean_allv (pr := pr) (within E) zs) (fun m => num1 m /\ Rabs (rval m - average (map f l)) <= average (map h l) + eta).
  Proof using Hn HV HE HT.
    intros Ne Ls F B. apply short_list in Ls. pose proof (around_bound f h l zs _ F B) as Bs. pose proof (around_sum f h l zs F) as Ss. pose proof (around_length f h l zs F) as Lz. pose proof (around_num1 f h l zs F) as Nz.
    assert (Nz' : zs <> []) by (intros ->; destruct l; [congruence|discriminate Lz]). assert (L0 : 0 < INR (length l)) by (apply lt_0_INR; destruct l; [congruence|apply Nat.lt_0_succ]).
    assert (B40 : INR (length l) * 2 ^ 20 <= 2 ^ 46) by lra. pose proof (sum_rval zs _ Nz' Nz Bs B40) as Rs. unfold mean_allv, meanv. cbn [map length Nat.eqb mapO]. change (nelement [zs]) with (length (zs ++ [])). rewrite app_nil_r, Nat.div_1_r, Lz.
    eapply (yo_bind _ _ _ (fun ms => exists m, ms = [m] /\ num1 m /\ Rabs (rval m - average (map f l)) <= average (map h l) + eta)); [|intros ms (m & -> & H); apply yo_ok; exact H].
    eapply yo_bind; [apply (div_any (sum_num zs) (Z.of_nat (length l))); [destruct l; [congruence|reflexivity]|now apply sum_num1]|]. rewrite <- INR_IZR_INZ, Rs. intros m [Nm Bm]. apply yo_ok. exists m. split; [reflexivity|]. split; [exact Nm|].
    unfold average. rewrite !map_length. set (N := INR (length l)) in *. set (S := sumr (map rval zs)) in *. replace (rval m - sumr (map f l) / N) with ((rval m - S / N) + (S - sumr (map f l)) / N) by (field; lra). eapply Rle_trans; [apply Rabs_triang|].
    assert (Rabs ((S - sumr (map f l)) / N) <= sumr (map h l) / N). { unfold Rdiv. rewrite Rabs_mult, (Rabs_right (/ N)) by (left; now apply Rinv_0_lt_compat). apply Rmult_le_compat_r; [left; now apply Rinv_0_lt_compat|exact Ss]. } lra.
  Qed.

  (** *** The losses *)
  Lemma l1_yo xs ys : xs <> [] -> (Z.of_nat (length xs) <= 2 ^ 20)%Z -> Forall2 (fun x y => num1 x /\ num1 y /\ Rabs (rval x) <= 2 ^ 18 /\ Rabs (rval y) <= 2 ^ 18) xs ys ->
    yo T (l1v (pr := pr) 65536 (within E) xs ys) (fun z => num1 z /\ Rabs (rval z - average (map (fun v => Rabs (rval (fst v) - rval (snd v))) (combine xs ys))) <= eta).
  Proof using Hn HV HE HT.
    intros Ne Ls F. unfold l1v. eapply (yo_bind _ _ _ (Forall2 (around (fun v => Rabs (rval (fst v) - rval (snd v))) (fun _ => 0)) (combine xs ys))).
    - apply yo_pairs. eapply related; [|exact F]. intros x y (Hx & Hy & Bx & By). assert (B : Rabs (rval x - rval y) <= 2 ^ 19) by (unfold Rminus; eapply Rle_trans; [apply Rabs_triang|]; rewrite Rabs_Ropp; lra).
      pose proof (sub_num1 x y Hx Hy) as Nd. pose proof (sub_rval x y (2 ^ 19) Hx Hy B ltac:(lra)) as Rd. set (dd := sub_num x (AEnc y)) in *. destruct (opened dd Nd) as [[Hd Id] Od]. set (v := open_a (n_sh dd)) in *.
      eapply yo_weaken; [apply yo_lifted, (n_abs_ok n Hn pr HV 65536 v 65536 dd ltac:(lia) (ratio_D n Hn 65536 ltac:(lia)) Id Hd)|]. intros z Hz. unfold around. cbn [fst snd]. split; [exact (typed _ _ Hz)|].
      assert (A : real 65536 (Z.abs v) = Rabs (rval x - rval y)) by (rewrite (real_abs 65536 ltac:(lia)), Od, Rd; reflexivity). rewrite (valued _ z (2 ^ 19) Hz); [rewrite A, Rminus_diag_eq, Rabs_R0 by reflexivity; lra|rewrite A, Rabs_Rabsolu; exact B|lra].
    - intros a Ha. assert (Lc : length (combine xs ys) = length xs) by (rewrite combine_length, <- (same_length _ _ _ F), Nat.min_id; reflexivity). assert (Nc : combine xs ys <> []) by (destruct F; [congruence|discriminate]).
      eapply yo_weaken; [apply (mean_yo _ _ _ a Nc ltac:(rewrite Lc; exact Ls) Ha)|].
      + clear - F. induction F as [|x y xs ys (_ & _ & Bx & By) _ IH]; [constructor|]. cbn [combine]. constructor; [|exact IH]. cbn [fst snd]. rewrite Rabs_Rabsolu. unfold Rminus. pose proof (Rabs_triang (rval x) (- rval y)) as Tr. rewrite Rabs_Ropp in Tr. lra.
      + intros m [Nm Bm]. split; [exact Nm|]. replace (average (map (fun _ => 0) (combine xs ys))) with 0 in Bm; [lra|]. unfold average. replace (sumr (map (fun _ => 0) (combine xs ys))) with 0; [unfold Rdiv; ring|]. clear. induction (combine xs ys) as [|a l IH]; [reflexivity|]. cbn [map]. rewrite sumr_cons, <- IH. ring.
  Qed.
  Lemma log01_small p : log_range E (100 * p) -> 0 <= log01_error E p <= 2002 / 10000 /\ Rabs (ln p) <= 12.
  Proof using HE.
    clear HT. intros H. pose proof (log_error_small E _ H) as S. pose proof (range_E E _ H) as [_ B]. destruct (ln_7 _ B) as [L _]. unfold log_error in S. split; [unfold log01_error; lra|].
    assert (Lm : ln (100 * p) = ln 100 + ln p) by (apply ln_mult; lra). pose proof ln_100 as L1. apply Rabs_def2' in L1, L. apply Rabs_le. lra.
  Qed.
  (** the product of a weight and a number that matters only if the weight is not 0 *)
  Lemma weighted y z w r t : num1 y -> num1 z -> rval y = w -> 0 <= w <= 1 -> (w = 0 \/ (Rabs (rval z - r) <= t /\ Rabs (rval z) <= 2 ^ 20)) ->
    yo T (mulv (pr := pr) (within E) y z) (fun u => num1 u /\ Rabs (rval u - w * r) <= w * t + eta /\ Rabs (rval u) <= 2 ^ 21).
  Proof using Hn HV HE HT.
    intros Hy Hz <- W C. assert (E12 : 1 <= IZR E <= 2) by (destruct HE as [-> | ->]; lra).
    assert (P : Rabs (rval y * rval z) <= 2 ^ 20). { rewrite Rabs_mult, (Rabs_right (rval y)) by lra. pose proof (Rabs_pos (rval z)). destruct C as [-> | [_ C]]; [rewrite Rmult_0_l; lra|]. apply Rle_trans with (1 * Rabs (rval z)); [apply Rmult_le_compat_r; lra|lra]. }
    eapply yo_weaken; [apply (mul_rval y z Hy Hz); lra|]. intros u [Nu Bu]. split; [exact Nu|]. split.
    - replace (rval u - rval y * r) with ((rval u - rval y * rval z) + rval y * (rval z - r)) by ring. eapply Rle_trans; [apply Rabs_triang|]. rewrite (Rabs_mult (rval y)), (Rabs_right (rval y)) by lra. destruct C as [C | [C _]]; [rewrite C in *; rewrite !Rmult_0_l in *; lra|]. assert (rval y * Rabs (rval z - r) <= rval y * t) by (apply Rmult_le_compat_l; lra). lra.
    - replace (rval u) with ((rval u - rval y * rval z) + rval y * rval z) by ring. eapply Rle_trans; [apply Rabs_triang|]. lra.
  Qed.
  Lemma small_yo y z w : num1 y -> num1 z -> rval y = w -> 0 <= w <= 1 -> (w = 0 \/ Rabs (rval z) <= 128000) -> yo T (mulv (pr := pr) (within E) z y) (fun u => Rabs (rval u) <= 129000).
  Proof using Hn HV HE HT.
    intros Hy Hz <- W C. assert (E12 : 1 <= IZR E <= 2) by (destruct HE as [-> | ->]; lra).
    assert (P : Rabs (rval z * rval y) <= 128000). { rewrite (Rmult_comm (rval z)), Rabs_mult, (Rabs_right (rval y)) by lra. pose proof (Rabs_pos (rval z)). destruct C as [-> | C]; [rewrite Rmult_0_l; lra|]. apply Rle_trans with (1 * Rabs (rval z)); [apply Rmult_le_compat_r; lra|lra]. }
    eapply yo_weaken; [apply (mul_rval z y Hz Hy); lra|]. intros u [Nu Bu]. replace (rval u) with ((rval u - rval z * rval y) + rval z * rval y) by ring. eapply Rle_trans; [apply Rabs_triang|]. lra.
  Qed.
  Lemma weighted' y z w r t : num1 y -> num1 z -> rval y = w -> 0 <= w <= 1 -> (w = 0 \/ (Rabs (rval z - r) <= t /\ Rabs (rval z) <= 2 ^ 20)) ->
    yo T (mulv (pr := pr) (within E) z y) (fun u => num1 u /\ Rabs (rval u - w * r) <= w * t + eta /\ Rabs (rval u) <= 2 ^ 21).
  Proof using Hn HV HE HT.
    intros Hy Hz <- W C. assert (E12 : 1 <= IZR E <= 2) by (destruct HE as [-> | ->]; lra).
    assert (P : Rabs (rval z * rval y) <= 2 ^ 20). { rewrite (Rmult_comm (rval z)), Rabs_mult, (Rabs_right (rval y)) by lra. pose proof (Rabs_pos (rval z)). destruct C as [-> | [_ C]]; [rewrite Rmult_0_l; lra|]. apply Rle_trans with (1 * Rabs (rval z)); [apply Rmult_le_compat_r; lra|lra]. }
    eapply yo_weaken; [apply (mul_rval z y Hz Hy); lra|]. intros u [Nu Bu]. split; [exact Nu|]. split.
    - replace (rval u - rval y * r) with ((rval u - rval z * rval y) + rval y * (rval z - r)) by ring. eapply Rle_trans; [apply Rabs_triang|]. rewrite (Rabs_mult (rval y)), (Rabs_right (rval y)) by lra. destruct C as [C | [C _]]; [rewrite C in *; rewrite !Rmult_0_l in *; lra|]. assert (rval y * Rabs (rval z - r) <= rval y * t) by (apply Rmult_le_compat_l; lra). lra.
    - replace (rval u) with ((rval u - rval z * rval y) + rval z * rval y) by ring. eapply Rle_trans; [apply Rabs_triang|]. lra.
  Qed.

  Lemma item_yo p y a b ta tb : num1 p -> num1 y -> 0 <= rval y <= 1 -> Rabs (rval p) <= 2 -> (rval y = 0 \/ (log_range E (100 * rval p) /\ log01_error E (rval p) + Rabs (ln (rval p) - a) <= ta)) ->
    (rval y = 1 \/ (log_range E (100 * (1 - rval p)) /\ log01_error E (1 - rval p) + Rabs (ln (1 - rval p) - b) <= tb)) ->
    yo T (bce_itemv (pr := pr) (within E) 8 8 8 2 p y) (fun z => num1 z /\ Rabs (rval z - (rval y * a + (1 - rval y) * b)) <= rval y * ta + (1 - rval y) * tb + 2 * eta).
  Proof using Hn HV HE HT.
    intros Hp Hy Y Bp Ca Cb. pose proof (one_minus_num1 p Hp) as Hp'. pose proof (one_minus_rval p 2 Hp Bp ltac:(lra)) as Rp'. assert (BY : Rabs (rval y) <= 1) by (apply Rabs_le; lra). pose proof (one_minus_num1 y Hy) as Hy'. pose proof (one_minus_rval y 1 Hy BY ltac:(lra)) as Ry'.
    assert (L : forall x c t w, num1 x -> (w = 0 \/ (log_range E (100 * rval x) /\ log01_error E (rval x) + Rabs (ln (rval x) - c) <= t)) -> yo T (log01v (pr := pr) (within E) 8 8 8 2 x) (fun z => num1 z /\ (w = 0 \/ (Rabs (rval z - c) <= t /\ Rabs (rval z) <= 2 ^ 20)))).
    { intros x c t w Hx [W|[W1 W2]]; [eapply yo_weaken; [apply log01_any; [lia|exact Hx]|]; intros z Hz; split; [exact Hz|now left]|]. eapply yo_weaken; [apply (log01_yo x Hx W1)|]. intros z [Hz Bz]. split; [exact Hz|]. right. destruct (log01_small (rval x) W1) as [S1 S2]. split.
      - replace (rval z - c) with ((rval z - ln (rval x)) + (ln (rval x) - c)) by ring. eapply Rle_trans; [apply Rabs_triang|]. lra.
      - replace (rval z) with ((rval z - ln (rval x)) + ln (rval x)) by ring. eapply Rle_trans; [apply Rabs_triang|]. lra. }
    unfold bce_itemv. eapply yo_bind; [apply (L p a ta (rval y) Hp Ca)|]. intros lp [Hlp Clp]. eapply yo_bind; [apply (L (one_minus p) b tb (1 - rval y) Hp'); rewrite Rp'; destruct Cb as [->|Cb]; [left; ring|right; exact Cb]|]. intros lq [Hlq Clq].
    eapply yo_bind; [apply (weighted y lp (rval y) a ta Hy Hlp eq_refl Y Clp)|]. intros u (Hu & Bu & Su). eapply yo_bind; [apply (weighted (one_minus y) lq (1 - rval y) b tb Hy' Hlq Ry' ltac:(lra) Clq)|]. intros w (Hw & Bw & Sw). apply yo_ok. split; [now apply add_num1|].
    rewrite (add_rval u w (2 ^ 22) Hu Hw); [|eapply Rle_trans; [apply Rabs_triang|]; lra|lra]. replace (rval u + rval w - (rval y * a + (1 - rval y) * b)) with ((rval u - rval y * a) + (rval w - (1 - rval y) * b)) by ring. eapply Rle_trans; [apply Rabs_triang|]. lra.
  Qed.
  Lemma bce_mean {A} (f h : A -> R) l ps ys : yo T (zipO (bce_itemv (pr := pr) (within E) 8 8 8 2) ps ys) (fun zs => Forall2 (around f h) l zs) -> l <> [] -> (Z.of_nat (length l) <= 2 ^ 20)%Z -> Forall (fun a => Rabs (f a) + h a <= 2 ^ 20) l ->
    yo T (bcev (pr := pr) (within E) 8 8 8 2 ps ys) (fun z => num1 z /\ Rabs (rval z - - average (map f l)) <= average (map h l) + eta).
  Proof using Hn HV HE HT.
    intros Hz Ne Ls B. unfold bcev. eapply yo_bind; [exact Hz|]. intros zs Fz. eapply yo_bind; [apply (mean_yo f h l zs Ne Ls Fz B)|]. intros m [Nm Bm]. apply yo_ok. split; [now apply neg_num1|].
    assert (K : Rabs (rval m) <= 2 ^ 30).
    { assert (L0 : 0 < INR (length l)) by (apply lt_0_INR; destruct l; [congruence|apply Nat.lt_0_succ]). assert (E12 : 1 <= IZR E <= 2) by (destruct HE as [-> | ->]; lra).
      assert (AB : Rabs (average (map f l)) + average (map h l) <= 2 ^ 20).
      { unfold average. rewrite !map_length. unfold Rdiv. rewrite Rabs_mult, (Rabs_right (/ _)) by (left; now apply Rinv_0_lt_compat). rewrite <- Rmult_plus_distr_r. apply (Rmult_le_reg_r (INR (length l))); [exact L0|]. rewrite Rmult_assoc, Rinv_l by lra. rewrite Rmult_1_r.
        clear - B. induction B as [|a l H _ IH]; [cbn; rewrite Rabs_R0; lra|]. cbn [map length]. rewrite !sumr_cons, S_INR. pose proof (Rabs_triang (f a) (sumr (map f l))). lra. }
      replace (rval m) with ((rval m - average (map f l)) + average (map f l)) by ring. eapply Rle_trans; [apply Rabs_triang|]. lra. }
    rewrite (neg_rval m (2 ^ 30) Nm K ltac:(lra)). replace (- rval m - - average (map f l)) with (- (rval m - average (map f l))) by ring. rewrite Rabs_Ropp. exact Bm.
  Qed.
  Definition fitting (P : R -> R -> Prop) (x y : num) : Prop := num1 x /\ num1 y /\ P (rval x) (rval y).
  Lemma combine_facts {A B} (P : A -> B -> Prop) l m : l <> [] -> Forall2 P l m -> combine l m <> [] /\ length (combine l m) = length l /\ Forall (fun v => P (fst v) (snd v)) (combine l m).
  Proof using.
    clear. intros Ne F. split; [destruct F; [congruence|discriminate]|]. split; [rewrite combine_length, <- (same_length _ _ _ F), Nat.min_id; reflexivity|]. clear Ne. induction F; [constructor|]. cbn [combine]. constructor; assumption.
  Qed.
  Lemma unit_pos : 0 < IZR E / 65536 <= 1 / 1000. Proof using HE. clear HT. destruct HE as [-> | ->]; lra. Qed.
  Lemma bce_yo ps ys : ps <> [] -> (Z.of_nat (length ps) <= 2 ^ 20)%Z -> Forall2 (fitting (bce_fits E)) ps ys ->
    yo T (bcev (pr := pr) (within E) 8 8 8 2 ps ys) (fun z => num1 z /\ Rabs (rval z - - average (map (fun v => likelihood (rval (fst v)) (rval (snd v))) (combine ps ys))) <= average (map (fun v => likelihood_error E (rval (fst v)) (rval (snd v))) (combine ps ys)) + eta).
  Proof using Hn HV HE HT.
    intros Ne Ls F. destruct (combine_facts _ _ _ Ne F) as (Nc & Lc & Fc). apply (bce_mean (fun v => likelihood (rval (fst v)) (rval (snd v))) (fun v => likelihood_error E (rval (fst v)) (rval (snd v)))); [|exact Nc|rewrite Lc; exact Ls|].
    - apply yo_pairs. eapply related; [|exact F]. intros p y (Hp & Hy & Y & Ca & Cb). unfold around, likelihood, likelihood_error. cbn [fst snd]. change (unit_error E) with eta.
      assert (Z0 : forall r, Rabs (r - r) = 0) by (intros r; rewrite Rminus_diag_eq, Rabs_R0 by reflexivity; reflexivity). apply (item_yo p y _ _ _ _ Hp Hy Y).
      + destruct Ca as [Ca|Ca]; [destruct Cb as [Cb|Cb]; [exfalso; lra|]|]; [apply range_E in Cb|apply range_E in Ca]; apply Rabs_le; lra.
      + destruct Ca as [Ca|Ca]; [now left|right]. rewrite Z0. split; [exact Ca|lra].
      + destruct Cb as [Cb|Cb]; [now left|right]. rewrite Z0. split; [exact Cb|lra].
    - eapply Forall_impl; [|exact Fc]. intros [p y] (_ & _ & Y & Ca & Cb). cbn [fst snd] in *. unfold likelihood, likelihood_error. change (unit_error E) with eta. pose proof unit_pos.
      assert (A : Rabs (rval y * ln (rval p)) <= 12 /\ rval y * log01_error E (rval p) <= 1).
      { destruct Ca as [-> |Ca]; [rewrite !Rmult_0_l, Rabs_R0; lra|]. destruct (log01_small _ Ca) as [S1 S2]. rewrite Rabs_mult, (Rabs_right (rval y)) by lra. pose proof (Rabs_pos (ln (rval p))). split; nra. }
      assert (B : Rabs ((1 - rval y) * ln (1 - rval p)) <= 12 /\ (1 - rval y) * log01_error E (1 - rval p) <= 1).
      { destruct Cb as [-> |Cb]; [rewrite Rminus_diag_eq, !Rmult_0_l, Rabs_R0 by reflexivity; lra|]. destruct (log01_small _ Cb) as [S1 S2]. rewrite Rabs_mult, (Rabs_right (1 - rval y)) by lra. pose proof (Rabs_pos (ln (1 - rval p))). split; nra. }
      pose proof (Rabs_triang (rval y * ln (rval p)) ((1 - rval y) * ln (1 - rval p))). lra.
  Qed.

  (** *** Division by the number of elements and multiplication by the incoming gradient *)
  Lemma scaled_yo x g N r t : num1 x -> num1 g -> (0 < N)%Z -> Rabs (rval x - r) <= t -> Rabs (rval x) <= 2 ^ 19 -> Rabs (rval g) <= 1000 ->
    yo T (q <~ divv (pr := pr) (within E) x N ;; mulv (pr := pr) (within E) q g) (fun z => num1 z /\ Rabs (rval z - rval g * (r / IZR N)) <= gradient_error E (IZR N) t (rval g)).
  Proof using Hn HV HE HT.
    intros Hx Hg HN B Sx Sg. pose proof unit_pos as U. assert (N1 : 1 <= IZR N) by (apply (IZR_le 1); lia). assert (I1 : 0 < / IZR N <= 1) by (split; [apply Rinv_0_lt_compat; lra|rewrite <- Rinv_1; apply Rinv_le_contravar; lra]).
    eapply yo_bind; [apply (div_any x N HN Hx)|]. intros q [Nq Bq]. assert (Q1 : Rabs (rval q) <= 2 ^ 19 + 1).
    { replace (rval q) with ((rval q - rval x / IZR N) + rval x / IZR N) by ring. eapply Rle_trans; [apply Rabs_triang|]. assert (Rabs (rval x / IZR N) <= Rabs (rval x)) by (unfold Rdiv; rewrite Rabs_mult, (Rabs_right (/ IZR N)) by lra; pose proof (Rabs_pos (rval x)); nra). lra. }
    eapply yo_weaken; [apply (mul_rval q g Nq Hg)|].
    { rewrite Rabs_mult. apply Rle_trans with ((2 ^ 19 + 1) * 1000); [apply Rmult_le_compat; try apply Rabs_pos; assumption|lra]. }
    intros z [Nz Bz]. split; [exact Nz|]. unfold gradient_error. change (unit_error E) with eta.
    replace (rval z - rval g * (r / IZR N)) with ((rval z - rval q * rval g) + rval g * ((rval q - rval x / IZR N) + (rval x - r) * / IZR N)) by (field; lra). eapply Rle_trans; [apply Rabs_triang|]. rewrite Rabs_mult.
    assert (K : Rabs (rval q - rval x / IZR N + (rval x - r) * / IZR N) <= eta + t / IZR N). { eapply Rle_trans; [apply Rabs_triang|]. rewrite Rabs_mult, (Rabs_right (/ IZR N)) by lra. assert (Rabs (rval x - r) * / IZR N <= t / IZR N) by (apply Rmult_le_compat_r; lra). lra. }
    assert (Rabs (rval g) * Rabs (rval q - rval x / IZR N + (rval x - r) * / IZR N) <= Rabs (rval g) * (eta + t / IZR N)) by (apply Rmult_le_compat_l; [apply Rabs_pos|exact K]). lra.
  Qed.
  Lemma bce_grad_yo me b g ps ys : ps <> [] -> num1 g -> Rabs (rval g) <= 1000 -> Forall2 (fitting (slope_fits me E)) ps ys ->
    yo T (bce_gradv (pr := pr) 65536 (within E) (usual me b) g ps ys) (fun zs => let N := INR (length ys) in Forall2 (fun v z => num1 z /\ Rabs (rval z - rval g * (bce_slope (rval (fst v)) (rval (snd v)) / N)) <= gradient_error E N (slope_error me E (rval (fst v)) (rval (snd v))) (rval g)) (combine ps ys) zs).
  Proof using Hn HV HE HT.
    intros Ne Hg Bg F. unfold bce_gradv. cbv zeta. rewrite INR_IZR_INZ. assert (HN : (0 < Z.of_nat (length ys))%Z) by (destruct F; [congruence|reflexivity]). apply yo_pairs. eapply related; [|exact F]. clear F Ne. set (N := Z.of_nat (length ys)) in *. clearbody N. intros p y (Hp & Hy & Hm & Y & Ca & Cb). cbn [fst snd].
    assert (Bp : Rabs (rval p) <= 3). { destruct Ca as [Ca|Ca]; [destruct Cb as [Cb|Cb]; [exfalso; lra|]|]; [apply wide_pos in Cb|apply wide_pos in Ca]; apply Rabs_le; lra. }
    pose proof (one_minus_num1 p Hp) as Hp'. pose proof (one_minus_rval p 3 Hp Bp ltac:(lra)) as Rp'. assert (BY : Rabs (rval y) <= 1) by (apply Rabs_le; lra). pose proof (one_minus_num1 y Hy) as Hy'. pose proof (one_minus_rval y 1 Hy BY ltac:(lra)) as Ry'.
    assert (L : forall x w, num1 x -> (w = 0 \/ wide_range me E (64 * rval x)) -> yo T (recipv (pr := pr) 65536 (within E) (usual me b) true x) (fun z => num1 z /\ (w = 0 \/ (Rabs (rval z - / rval x) <= wide_error me E (64 * rval x) / rval x /\ Rabs (rval z) <= 128000)))).
    { intros x w Hx [W|W]; [eapply yo_weaken; [apply (recip01_any me b x Hm Hx)|]; intros z Hz; split; [exact Hz|now left]|]. eapply yo_weaken; [apply (recip01_wide me b x Hx W)|]. intros z (Hz & S & Bz). split; [exact Hz|]. right. now split. }
    unfold bce_grad_itemv. eapply yo_bind; [apply (L p (rval y) Hp Ca)|]. intros rp [Hrp Crp]. eapply yo_bind; [apply (L (one_minus p) (1 - rval y) Hp'); rewrite Rp'; destruct Cb as [->|Cb]; [left; ring|right; exact Cb]|]. rewrite Rp'. intros rq [Hrq Crq].
    assert (Wk : forall w z r t, (w = 0 \/ (Rabs (rval z - r) <= t /\ Rabs (rval z) <= 128000)) -> w = 0 \/ (Rabs (rval z - r) <= t /\ Rabs (rval z) <= 2 ^ 20)) by (intros w z r t [W|[W1 W2]]; [now left|right; split; [exact W1|lra]]).
    eapply yo_bind; [apply (yo_and T _ _ _ (weighted' (one_minus y) rq (1 - rval y) _ _ Hy' Hrq Ry' ltac:(lra) (Wk _ _ _ _ Crq)) (small_yo (one_minus y) rq (1 - rval y) Hy' Hrq Ry' ltac:(lra) ltac:(destruct Crq as [C|[_ C]]; [now left|now right])))|]. intros u [(Hu & Bu & _) Su].
    eapply yo_bind; [apply (yo_and T _ _ _ (weighted' y rp (rval y) _ _ Hy Hrp eq_refl Y (Wk _ _ _ _ Crp)) (small_yo y rp (rval y) Hy Hrp eq_refl Y ltac:(destruct Crp as [C|[_ C]]; [now left|now right])))|]. intros w [(Hw & Bw & _) Sw].
    assert (Sd : Rabs (rval u - rval w) <= 2 ^ 19) by (unfold Rminus; eapply Rle_trans; [apply Rabs_triang|]; rewrite Rabs_Ropp; lra). pose proof (sub_rval u w _ Hu Hw Sd ltac:(lra)) as Rd.
    eapply yo_weaken; [apply (scaled_yo _ g N (bce_slope (rval p) (rval y)) (slope_error me E (rval p) (rval y)) (sub_num1 u w Hu Hw) Hg HN); [|rewrite Rd; exact Sd|exact Bg]|].
    - rewrite Rd. unfold bce_slope, slope_error, Rdiv. change (unit_error E) with eta. unfold Rdiv in *. replace (rval u - rval w - ((1 - rval y) * / (1 - rval p) - rval y * / rval p)) with ((rval u - (1 - rval y) * / (1 - rval p)) + - (rval w - rval y * / rval p)) by ring. eapply Rle_trans; [apply Rabs_triang|]. rewrite Rabs_Ropp. lra.
    - intros z Hz. exact Hz.
  Qed.

  (** *** Losses of probabilities computed first *)
  Lemma yo_via {A B C D} (f : B -> C -> runo pr D) (P : A -> B -> Prop) (Q : A -> C -> Prop) (U : A * C -> D -> Prop) xs ss ys : Forall2 P xs ss -> Forall2 Q xs ys -> (forall x s y, P x s -> Q x y -> yo T (f s y) (U (x, y))) -> yo T (zipO f ss ys) (fun zs => Forall2 U (combine xs ys) zs).
  Proof using.
    clear. intros Fs Fy H. revert ys Fy. induction Fs as [|x s xs ss Hs _ IH]; intros ys Fy; inversion Fy; subst; cbn [zipO combine]; [apply yo_ok; constructor|]. eapply yo_bind; [apply H; eassumption|]. intros b Hb. eapply yo_bind; [apply IH; assumption|]. intros bs Hbs. apply yo_ok. now constructor.
  Qed.
  Lemma sigmoid_num x : num1 x -> Rabs (rval x) <= 256 -> yo T (sigmoidv (pr := pr) 65536 (within E) 8 x) (fun z => num1 z /\ Rabs (rval z - exact_sigmoid (rval x)) <= sigmoid_shift E).
  Proof using Hn HV HE HT.
    intros Hx B. destruct (opened x Hx) as [[Nx Ix] Rx]. destruct (default_growth E HE) as [G _]. assert (E12 : 1 <= IZR E <= 2) by (destruct HE as [-> | ->]; lra).
    eapply yo_weaken; [apply (Shareapprox_claims.sigmoid_yo n pr 65536 Hn HV ltac:(lia) T E 8 (open_a (n_sh x)) x); try eassumption; try lia; try lra|].
    - assert (A : (Z.abs (open_a (n_sh x)) <= 256 * 65536)%Z); [|unfold in64, H63; lia]. apply le_IZR. rewrite mult_IZR, abs_IZR. unfold real in Rx. rewrite <- Rx in B. unfold Rdiv in B. rewrite Rabs_mult, (Rabs_right (/ 65536)) in B by lra. lra.
    - rewrite Rx. lra.
    - intros z (u & Hu & Bu & K). split; [now apply (typed u)|]. rewrite (valued u z 2 Hu Bu ltac:(lra)), <- Rx. pose proof (default_error E HE). unfold sigmoid_shift. lra.
  Qed.
  Lemma ln_step a b d : 0 < b - d -> Rabs (a - b) <= d -> Rabs (ln a - ln b) <= d / (b - d).
  Proof using.
    clear. intros H B. assert (D0 : 0 <= d) by (pose proof (Rabs_pos (a - b)); lra). assert (B' : - d <= a - b <= d) by (split; [pose proof (Rle_abs (- (a - b))); rewrite Rabs_Ropp in *; lra|pose proof (Rle_abs (a - b)); lra]).
    assert (K : forall u v, 0 < u -> 0 < v -> b - d <= u -> v - u <= d -> ln v - ln u <= d / (b - d)).
    { intros u v U V W X. replace (ln v - ln u) with (ln (v / u)) by (unfold Rdiv; rewrite ln_mult, ln_Rinv; try lra; apply Rinv_0_lt_compat; lra). apply Rle_trans with (v / u - 1); [apply ln_le'; [now apply Rdiv_lt_0_compat|]; pose proof (exp_ineq1_le (v / u - 1)); lra|]. replace (v / u - 1) with ((v - u) / u) by (field; lra). unfold Rdiv. destruct (Rle_dec 0 (v - u)) as [P|P].
      - apply Rmult_le_compat; [exact P|left; now apply Rinv_0_lt_compat|exact X|now apply Rinv_le_contravar].
      - apply Rle_trans with 0; [|apply Rmult_le_pos; [exact D0|left; now apply Rinv_0_lt_compat]]. assert (0 < / u) by (now apply Rinv_0_lt_compat). nra. }
    apply Rabs_le. split; [|apply K; lra]. pose proof (K a b). lra.
  Qed.
  Lemma log_shifted s q d : Rabs (s - q) <= d -> q <= 1 -> 0 <= d <= 27 / 100 -> log_range E (100 * (q - d)) -> log_range E (100 * s) /\ log01_error E s + Rabs (ln s - ln q) <= log_shift d q /\ Rabs (ln q) <= 12 /\ 0 <= log_shift d q <= 30000.
  Proof using HE.
    clear HT. intros B Q D L. assert (B' : - d <= s - q <= d) by (split; [pose proof (Rle_abs (- (s - q))); rewrite Rabs_Ropp in *; lra|pose proof (Rle_abs (s - q)); lra]). pose proof (proj2 (range_E E _ L)) as R0. assert (Q5 : 1 / 100000 <= q - d) by lra.
    assert (Up : forall u, q - d <= u <= 127 / 100 -> log_range E (100 * u)) by (intros u U; destruct L as [[-> L]|[-> L]]; [left|right]; (split; [reflexivity|lra])).
    assert (Ls : log_range E (100 * s)) by (apply Up; lra). assert (Lq : log_range E (100 * q)) by (apply Up; lra). destruct (log01_small s Ls) as [S1 _]. destruct (log01_small q Lq) as [_ S2]. pose proof (ln_step s q d ltac:(lra) B) as S3. unfold log_shift.
    assert (F : 0 <= d / (q - d) <= 27000). { unfold Rdiv. assert (0 < / (q - d) <= 100000) by (split; [apply Rinv_0_lt_compat; lra|]; replace 100000 with (/ (1 / 100000)) by field; apply Rinv_le_contravar; lra). split; [apply Rmult_le_pos; lra|]. replace 27000 with (27 / 100 * 100000) by field. apply Rmult_le_compat; lra. }
    split; [exact Ls|]. split; [lra|]. split; [exact S2|lra].
  Qed.
  Lemma sigmoid_01 x : 0 < exact_sigmoid x < 1.
  Proof using. clear. unfold exact_sigmoid. pose proof (exp_pos (- x)) as P. split; [apply Rinv_0_lt_compat; lra|]. replace 1 with (/ 1) at 2 by field. apply Rinv_lt_contravar; lra. Qed.
  Definition logits_fit (x y : R) : Prop := Rabs x <= 256 /\ let q := exact_sigmoid x in let d := sigmoid_shift E in shift_fits E d q y /\ shift_fits E d (1 - q) (1 - y).
  Definition logit_item (v : num * num) : R := likelihood (exact_sigmoid (rval (fst v))) (rval (snd v)).
  Definition logit_item_error (v : num * num) : R := let q := exact_sigmoid (rval (fst v)) in let d := sigmoid_shift E in let y := rval (snd v) in y * log_shift d q + (1 - y) * log_shift d (1 - q) + 2 * eta.
  Lemma logits_both g xs ys : xs <> [] -> (Z.of_nat (length xs) <= 2 ^ 20)%Z -> Forall2 (fitting logits_fit) xs ys -> num1 g -> Rabs (rval g) <= 1000 ->
    yo T (bce_logits_bothv (pr := pr) 65536 (within E) 8 8 8 2 g xs ys) (fun z => (num1 (fst z) /\ Rabs (rval (fst z) - - average (map logit_item (combine xs ys))) <= average (map logit_item_error (combine xs ys)) + eta) /\
      let N := INR (length ys) in Forall2 (fun v z => num1 z /\ Rabs (rval z - rval g * ((exact_sigmoid (rval (fst v)) - rval (snd v)) / N)) <= gradient_error E N (sigmoid_shift E) (rval g)) (combine xs ys) (snd z)).
  Proof using Hn HV HE HT.
    intros Ne Ls F Hg Bg. destruct (combine_facts _ _ _ Ne F) as (Nc & Lc & Fc). assert (HN : (0 < Z.of_nat (length ys))%Z) by (destruct F; [congruence|reflexivity]). pose proof unit_pos as U. assert (SD : 0 <= sigmoid_shift E <= 27 / 100) by (unfold sigmoid_shift; destruct HE as [-> | ->]; lra).
    set (Q := fun l => num1 l /\ Rabs (rval l - - average (map logit_item (combine xs ys))) <= average (map logit_item_error (combine xs ys)) + eta).
    unfold bce_logits_bothv, bce_logitsv. eapply (yo_bind _ _ _ (fun r => Forall2 (fun x s => num1 s /\ Rabs (rval s - exact_sigmoid (rval x)) <= sigmoid_shift E) xs (fst r) /\ Q (snd r))).
    - eapply (yo_bind _ _ _ (fun ss => Forall2 (fun x s => num1 s /\ Rabs (rval s - exact_sigmoid (rval x)) <= sigmoid_shift E) xs ss)).
      { apply yo_each. clear - F Hn HV HE HT. induction F as [|x y xs ys (Hx & _ & B & _) _ IH]; constructor; [now apply sigmoid_num|exact IH]. }
      intros ss Fs. eapply (yo_bind _ _ _ Q); [|intros l Hl; apply yo_ok; cbn [fst snd]; split; assumption].
      apply (bce_mean logit_item logit_item_error (combine xs ys)); [|exact Nc|rewrite Lc; exact Ls|].
      + apply (yo_via _ _ _ _ _ _ _ Fs F). intros x s y [Hs Bs] (Hx & Hy & _ & [Y Ca] & [_ Cb]). pose proof (sigmoid_01 (rval x)) as S01. set (q := exact_sigmoid (rval x)) in *. assert (Bs' : Rabs (1 - rval s - (1 - q)) <= sigmoid_shift E) by (replace (1 - rval s - (1 - q)) with (- (rval s - q)) by ring; now rewrite Rabs_Ropp).
        unfold around, logit_item, logit_item_error, likelihood. cbn [fst snd]. fold q. cbv zeta. apply (item_yo s y _ _ _ _ Hs Hy Y).
        * replace (rval s) with ((rval s - q) + q) by ring. eapply Rle_trans; [apply Rabs_triang|]. rewrite (Rabs_right q) by lra. lra.
        * destruct Ca as [Ca|Ca]; [now left|right]. destruct (log_shifted (rval s) q _ Bs ltac:(lra) SD Ca) as (A1 & A2 & _). split; assumption.
        * destruct Cb as [Cb|Cb]; [left; lra|right]. destruct (log_shifted (1 - rval s) (1 - q) _ Bs' ltac:(lra) SD Cb) as (A1 & A2 & _). split; assumption.
      + eapply Forall_impl; [|exact Fc]. intros [x y] (Hx & Hy & _ & [Y Ca] & [_ Cb]). cbn [fst snd] in *. unfold logit_item, logit_item_error, likelihood. cbn [fst snd]. cbv zeta. pose proof (sigmoid_01 (rval x)) as S01. set (q := exact_sigmoid (rval x)) in *.
        assert (Z0 : forall r, Rabs (r - r) <= sigmoid_shift E) by (intros r; rewrite Rminus_diag_eq, Rabs_R0 by reflexivity; lra).
        assert (W : forall w r, 0 <= w <= 1 -> r <= 1 -> (w = 0 \/ log_range E (100 * (r - sigmoid_shift E))) -> Rabs (w * ln r) <= 12 /\ w * log_shift (sigmoid_shift E) r <= 30000).
        { intros w r Hw Hr [-> |C]; [rewrite !Rmult_0_l, Rabs_R0; lra|]. destruct (log_shifted r r _ (Z0 r) Hr SD C) as (_ & _ & A3 & A4). rewrite Rabs_mult, (Rabs_right w) by lra. pose proof (Rabs_pos (ln r)). split; nra. }
        destruct (W (rval y) q Y ltac:(lra) Ca) as [W1 W2], (W (1 - rval y) (1 - q) ltac:(lra) ltac:(lra) Cb) as [W3 W4]. pose proof (Rabs_triang (rval y * ln q) ((1 - rval y) * ln (1 - q))). lra.
    - intros [ss l] [Fs Hl]. cbn [fst snd] in *. eapply yo_bind; [|intros z Hz; apply yo_ok; cbn [fst snd]; split; [exact Hl|exact Hz]].
      unfold logits_gradv, diff_gradv. cbv zeta. rewrite INR_IZR_INZ. apply (yo_via _ _ _ _ _ _ _ Fs F). intros x s y [Hs Bs] (Hx & Hy & _ & [Y _] & _). cbn [fst snd]. pose proof (sigmoid_01 (rval x)) as S01. set (q := exact_sigmoid (rval x)) in *.
      assert (D3 : Rabs (rval s - rval y) <= 3) by (apply Rabs_le; pose proof (Rle_abs (rval s - q)); pose proof (Rle_abs (- (rval s - q))); rewrite Rabs_Ropp in *; lra). pose proof (sub_rval s y 3 Hs Hy D3 ltac:(lra)) as Rd.
      apply (scaled_yo _ g _ (q - rval y) (sigmoid_shift E) (sub_num1 s y Hs Hy) Hg HN); [|rewrite Rd; lra|exact Bg]. rewrite Rd. replace (rval s - rval y - (q - rval y)) with (rval s - q) by ring. exact Bs.
  Qed.

  (** *** Cross entropy *)
  Lemma ce_item_yo s y a t : num1 s -> num1 y -> 0 <= rval y <= 1 -> (rval y = 0 \/ (log_range E (100 * rval s) /\ log01_error E (rval s) + Rabs (ln (rval s) - a) <= t)) ->
    yo T (ce_itemv (pr := pr) (within E) 8 8 8 2 s y) (fun z => num1 z /\ Rabs (rval z - - (rval y * a)) <= rval y * t + eta).
  Proof using Hn HV HE HT.
    intros Hs Hy Y C. unfold ce_itemv. eapply (yo_bind _ _ _ (fun z => num1 z /\ (rval y = 0 \/ (Rabs (rval z - a) <= t /\ Rabs (rval z) <= 2 ^ 20)))).
    { destruct C as [W|[W1 W2]]; [eapply yo_weaken; [apply log01_any; [lia|exact Hs]|]; intros z Hz; split; [exact Hz|now left]|]. eapply yo_weaken; [apply (log01_yo s Hs W1)|]. intros z [Hz Bz]. split; [exact Hz|]. right. destruct (log01_small (rval s) W1) as [S1 S2]. split.
      - replace (rval z - a) with ((rval z - ln (rval s)) + (ln (rval s) - a)) by ring. eapply Rle_trans; [apply Rabs_triang|]. lra.
      - replace (rval z) with ((rval z - ln (rval s)) + ln (rval s)) by ring. eapply Rle_trans; [apply Rabs_triang|]. lra. }
    intros l [Hl Cl]. eapply yo_bind; [apply (weighted' y l (rval y) a t Hy Hl eq_refl Y Cl)|]. intros u (Hu & Bu & Su). apply yo_ok. split; [now apply neg_num1|]. rewrite (neg_rval u _ Hu Su ltac:(lra)). replace (- rval u - - (rval y * a)) with (- (rval u - rval y * a)) by ring. now rewrite Rabs_Ropp.
  Qed.
  Lemma sumr_concat (ls : list (list R)) : sumr (concat ls) = sumr (map sumr ls).
  Proof using. clear. assert (A : forall a b, sumr (a ++ b)%list = sumr a + sumr b) by (induction a as [|x a IH]; intros b; cbn [app]; [unfold sumr; cbn; ring|rewrite !sumr_cons, IH; ring]). induction ls as [|l ls IH]; [reflexivity|]. cbn [concat map]. rewrite A, sumr_cons, IH. reflexivity. Qed.
  Lemma Forall2_concat {A B} (P : A -> B -> Prop) ls ms : Forall2 (Forall2 P) ls ms -> Forall2 P (concat ls) (concat ms).
  Proof using. clear. induction 1; cbn [concat]; [constructor|]. now apply Forall2_app. Qed.
  Lemma softmax_01 xs x : In x xs -> 0 < exact_softmax xs x <= 1.
  Proof using.
    clear. intros I. unfold exact_softmax. assert (G : forall l, (forall w, In w l -> 0 < w) -> 0 <= total l /\ forall w, In w l -> w <= total l).
    { induction l as [|w l IH]; intros H; [cbn; split; [lra|intros ? []]|]. destruct (IH (fun v V => H v (or_intror V))) as [I1 I2]. pose proof (H w (or_introl eq_refl)). cbn [total fold_right]. fold (total l). split; [lra|]. intros v [<- |V]; [lra|]. pose proof (I2 v V). lra. }
    destruct (G (map exp xs)) as [_ G2]; [intros w W; apply in_map_iff in W; destruct W as (v & <- & _); apply exp_pos|]. pose proof (exp_pos x) as P. specialize (G2 (exp x) (in_map exp xs x I)). split; [apply Rdiv_lt_0_compat; lra|]. apply (Rmult_le_reg_r (total (map exp xs))); [lra|]. unfold Rdiv. rewrite Rmult_assoc, Rinv_l; lra.
  Qed.
  Variables (local_bits : run pr (list Z)) (log_steps cascade_steps isqrt : nat -> nat).
  Hypothesis Hlocal : forall st, let u := fst (local_bits st) in length u = n /\ Forall (fun z => 0 <= z < 65536)%Z u.
  Hypothesis Hsqrt : forall m, (2 <= m)%nat -> (1 <= isqrt m < m)%nat.
  Local Notation softmax := (softmaxv (pr := pr) 65536 16 local_bits log_steps cascade_steps isqrt).
  Lemma soft_typed me xs : Forall num1 xs -> (2 <= length xs <= 29)%nat -> (forall x y, In x xs -> In y xs -> rval x - rval y <= 256) -> yo T (softmax me (within E) 8 10 xs) (Forall num1).
  Proof using Hn HV HE HT Hlocal Hsqrt.
    intros F L Df. assert (Ne : xs <> []) by (intros ->; cbn in L; lia).
    assert (Fr : Forall (fun x => holds n 65536 (open_a (n_sh x)) x /\ real 65536 (open_a (n_sh x)) = rval x) xs) by (eapply Forall_impl; [|exact F]; intros x Hx; now apply opened).
    assert (DI : forall a b, In a (reveals xs) -> In b (reveals xs) -> (a - b <= 16777216)%Z).
    { intros a b Ia Ib. unfold reveals in Ia, Ib. apply in_map_iff in Ia, Ib. destruct Ia as (x & <- & Ix), Ib as (y & <- & Iy). rewrite Forall_forall in Fr. destruct (Fr x Ix) as [_ Rx], (Fr y Iy) as [_ Ry]. pose proof (Df x y Ix Iy) as Dxy. rewrite <- Rx, <- Ry in Dxy. unfold real in Dxy. apply le_IZR. rewrite minus_IZR. lra. }
    assert (HF : differences_fit xs). { intros a b Ia Ib. pose proof (DI a b Ia Ib). pose proof (DI b a Ib Ia). unfold in64, H63. lia. }
    assert (SH : short n 65536 65536 xs). { unfold short, H63. destruct (Nat.eqb n 2); [rewrite Z.div_same by lia|]; lia. }
    unfold softmaxv. destruct xs as [|xa [|xb xr]]; [cbn in L; lia|cbn in L; lia|]. set (xs := xa :: xb :: xr) in *. clearbody xs. cbv zeta.
    eapply (yo_lift _ _ _ (fun r => num1 (fst r))).
    { intros st. assert (Hloc : yields local_bits (fun u => length u = n /\ Forall (fun z => 0 <= z < 65536)%Z u /\ True)) by (intros st0; destruct (Hlocal st0); auto).
      unfold short in SH. rewrite <- reveals_len in SH.
      destruct (max_dim_ok n Hn pr HV 65536 ltac:(lia) 16 ltac:(lia) eq_refl local_bits (fun _ => True) Hloc 65536 (or_intror eq_refl) (reveals xs) HF isqrt Hsqrt log_steps cascade_steps me (reveals xs) xs (reps n 65536 xs F _ (incl_refl _)) (reveals_ne xs Ne) SH st) as (k & Hk & M & Hv & _). eapply typed, Hv. }
    intros r Hr. eapply yo_bind; [apply (yo_each _ _ (fun _ z => num1 z))|].
    { apply Forall_forall. intros l Il. apply in_map_iff in Il. destruct Il as (x & <- & Ix). rewrite Forall_forall in F. apply exp_any, sub_num1; [now apply F|exact Hr]. }
    intros ns Fn. assert (Fn' : Forall num1 ns) by (clear - Fn; induction Fn; constructor; assumption). assert (Nn : ns <> []) by (intros ->; inversion Fn; destruct xs; [congruence|discriminate]).
    eapply yo_bind; [apply recip_pos_any, sum_num1; assumption|]. intros inv Hi.
    eapply yo_weaken; [apply (yo_each _ _ (fun _ z => num1 z))|].
    { eapply Forall_impl; [|exact Fn']. intros z Hz. now apply mul_any. }
    intros zs Fz. clear - Fz. induction Fz; constructor; assumption.
  Qed.
  Definition row_fits (xs ys : list R) : Prop := (2 <= length xs <= 29)%nat /\ (forall x y, In x xs -> In y xs -> x - y <= 256) /\ Forall2 (fun x y => shift_fits E (softmax_shift_by E (length xs)) (exact_softmax xs x) y) xs ys.
  Definition row_of (xs ys : list num) : Prop := Forall num1 xs /\ Forall num1 ys /\ row_fits (map rval xs) (map rval ys).
  Definition class_index (v : list num * list num) : list (list num * (num * num)) := map (pair (fst v)) (combine (fst v) (snd v)).
  Definition class_p (xs : list num) (x : num) : R := exact_softmax (map rval xs) (rval x).
  Definition class_loss (v : list num * (num * num)) : R := - (rval (snd (snd v)) * ln (class_p (fst v) (fst (snd v)))).
  Definition class_error (v : list num * (num * num)) : R := rval (snd (snd v)) * log_shift (softmax_shift_by E (length (fst v))) (class_p (fst v) (fst (snd v))) + eta.
  Lemma soft_rows me xs : Forall num1 xs -> (2 <= length xs <= 29)%nat -> (forall x y, In x (map rval xs) -> In y (map rval xs) -> x - y <= 256) ->
    yo T (softmax me (within E) 8 10 xs) (fun zs => Forall2 (fun x z => In x xs /\ num1 z /\ Rabs (rval z - class_p xs x) <= softmax_shift_by E (length xs)) xs zs).
  Proof using Hn HV HE HT Hlocal Hsqrt.
    intros F L Df. assert (Df' : forall x y, In x xs -> In y xs -> rval x - rval y <= 256) by (intros x y Ix Iy; apply Df; now apply in_map). assert (V : vector n 65536 xs) by (split; [intros ->; cbn in L; lia|exact F]).
    eapply yo_weaken; [apply (yo_and T _ _ _ (soft_typed me xs F L Df') (soft_yo n pr Hn HV local_bits log_steps cascade_steps isqrt Hlocal Hsqrt T E me xs HE HT V L Df'))|]. intros zs [Fz [Bz _]]. unfold softmax_shift_by, class_p.
    assert (G : forall l, incl l xs -> forall zs, Forall num1 zs -> Forall2 (fun x z => n_sc z = 65536%Z /\ Rabs (rval z - exact_softmax (map rval xs) (rval x)) <= (1 / 40 + INR (length xs) / 300) * IZR E) l zs -> Forall2 (fun x z => In x xs /\ num1 z /\ Rabs (rval z - exact_softmax (map rval xs) (rval x)) <= (1 / 40 + INR (length xs) / 300) * IZR E) l zs).
    { clear. induction l as [|x l IH]; intros I zs Fz Bz; inversion Bz as [|? z ? zs' [_ B] Bz']; subst; constructor. - split; [apply I; now left|]. split; [now inversion Fz|exact B]. - apply IH; [intros w W; apply I; now right|now inversion Fz|exact Bz']. }
    now apply G; [apply incl_refl| |].
  Qed.
  Lemma shift_range m : (2 <= m <= 29)%nat -> 0 <= softmax_shift_by E m <= 27 / 100.
  Proof using Hn HE. clear HT. intros L. assert (2 <= INR m <= 29) by (split; [apply (le_INR 2)|replace 29 with (INR 29) by (cbn; lra); apply le_INR]; lia). unfold softmax_shift_by. destruct HE as [-> | ->]; lra. Qed.
  Lemma zipped {A B} (P : A -> B -> Prop) (f : num -> A) (g : num -> B) xs ys : Forall2 P (map f xs) (map g ys) -> Forall2 (fun x y => P (f x) (g y)) xs ys.
  Proof using. clear. revert ys. induction xs as [|x xs IH]; intros [|y ys] H; inversion H; subst; constructor; auto. Qed.
  Lemma with_num xs ys (P : num -> num -> Prop) : Forall num1 ys -> Forall2 P xs ys -> Forall2 (fun x y => num1 y /\ P x y) xs ys.
  Proof using. clear. intros F H. induction H as [|x y xs ys H _ IH]; constructor; inversion F; subst; auto. Qed.
  Lemma cross_both me g rows targets : rows <> [] -> Forall2 row_of rows targets -> (Z.of_nat (length (concat rows)) <= 2 ^ 20)%Z -> num1 g -> Rabs (rval g) <= 1000 ->
    let N := INR (first_size targets) in
    yo T (cross_entropy_bothv (pr := pr) 65536 (within E) 8 8 8 2 16 local_bits log_steps cascade_steps isqrt me 10 g rows targets)
      (fun z => (num1 (fst z) /\ Rabs (rval (fst z) - sumr (map (fun v => row_loss (map rval (fst v)) (map rval (snd v))) (combine rows targets)) / N) <= sumr (map (fun v => row_error E (map rval (fst v)) (map rval (snd v))) (combine rows targets)) / N + eta) /\
        Forall2 (fun v zs => Forall2 (fun w z => num1 z /\ Rabs (rval z - rval g * ((class_p (fst v) (fst w) - rval (snd w)) / N)) <= gradient_error E N (softmax_shift_by E (length (fst v))) (rval g)) (combine (fst v) (snd v)) zs) (combine rows targets) (snd z)).
  Proof using Hn HV HE HT Hlocal Hsqrt.
    intros Ne F Ls Hg Bg N. pose proof unit_pos as U. assert (HN : (0 < Z.of_nat (first_size targets))%Z).
    { destruct F as [|xs ys rows targets H F']; [congruence|]. destruct F'; [|reflexivity]. cbn [first_size]. destruct H as (_ & _ & L & _ & H). apply same_length in H. rewrite !map_length in *. lia. }
    assert (N0 : 0 < N) by (unfold N; rewrite INR_IZR_INZ; now apply (IZR_lt 0)).
    unfold cross_entropy_bothv, cross_entropyv. eapply (yo_bind _ _ _ (fun r => Forall2 (fun xs s => Forall2 (fun x z => In x xs /\ num1 z /\ Rabs (rval z - class_p xs x) <= softmax_shift_by E (length xs)) xs s) rows (fst r) /\
      num1 (snd r) /\ Rabs (rval (snd r) - sumr (map (fun v => row_loss (map rval (fst v)) (map rval (snd v))) (combine rows targets)) / N) <= sumr (map (fun v => row_error E (map rval (fst v)) (map rval (snd v))) (combine rows targets)) / N + eta)).
    - eapply (yo_bind _ _ _ (fun ss => Forall2 (fun xs s => Forall2 (fun x z => In x xs /\ num1 z /\ Rabs (rval z - class_p xs x) <= softmax_shift_by E (length xs)) xs s) rows ss)).
      { apply yo_each. clear - F Hn HV HE HT Hlocal Hsqrt. induction F as [|x y xs ys (Hx & _ & L & D & _) _ IH]; [constructor|]. constructor; [|exact IH]. rewrite map_length in L. now apply soft_rows. }
      intros ss Fs. eapply yo_bind.
      { apply (yo_via _ _ _ (fun v zs => Forall2 (fun w z => around class_loss class_error (fst v, w) z) (combine (fst v) (snd v)) zs) _ _ _ Fs F). intros xs s ys Hs (Fx & Fy & L & D & Ft). cbn [fst snd]. rewrite map_length in L, Ft. pose proof (shift_range _ L) as SD.
        apply (yo_via _ _ _ _ _ _ _ Hs (with_num _ _ _ Fy (zipped _ rval rval _ _ Ft))). intros x z y (Ix & Hz & Bz) (Hy & Y & C). unfold around, class_loss, class_error. cbn [fst snd]. apply (ce_item_yo z y _ _ Hz Hy Y).
        destruct C as [C|C]; [now left|right]. fold (class_p xs x) in C. destruct (log_shifted (rval z) (class_p xs x) _ Bz (proj2 (softmax_01 _ _ (in_map rval xs x Ix))) SD C) as (A1 & A2 & _). split; assumption. }
      intros lss Fl. set (l := concat (map class_index (combine rows targets))).
      assert (Fa : Forall2 (around class_loss class_error) l (concat lss)).
      { apply Forall2_concat. clear - Fl. induction Fl as [|v zs vs lss H _ IH]; cbn [map]; constructor; [|exact IH]. unfold class_index. clear - H. induction H; cbn [map]; constructor; assumption. }
      assert (Lc : length l = length (concat rows)).
      { unfold l. clear - F. induction F as [|xs ys rows targets (_ & _ & _ & _ & H) _ IH]; [reflexivity|]. cbn [combine map concat]. rewrite !app_length, IH. unfold class_index. cbn [fst snd]. rewrite map_length, combine_length. apply same_length in H. rewrite !map_length in H. rewrite <- H, Nat.min_id. reflexivity. }
      assert (Lb : Forall (fun a => Rabs (class_loss a) + class_error a <= 2 ^ 20) l).
      { unfold l. clear - F HE U Hn. induction F as [|xs ys rows targets (_ & _ & L & D & H) _ IH]; [constructor|]. cbn [combine map concat]. apply Forall_app. split; [|exact IH]. rewrite map_length in L, H. pose proof (shift_range _ L) as SD. apply zipped in H. unfold class_index. cbn [fst snd]. clear IH.
        assert (G : forall l, incl l xs -> forall m, Forall2 (fun x y => shift_fits E (softmax_shift_by E (length xs)) (exact_softmax (map rval xs) (rval x)) (rval y)) l m -> Forall (fun a => Rabs (class_loss a) + class_error a <= 2 ^ 20) (map (pair xs) (combine l m))); [|exact (G xs (incl_refl _) ys H)].
        induction l as [|x l IH]; intros I m Hm; inversion Hm as [|? y ? m' [Y C] Hm']; subst; cbn [combine map]; constructor; [|apply IH; [intros w W; apply I; now right|exact Hm']].
        unfold class_loss, class_error. cbn [fst snd]. fold (class_p xs x) in C. rewrite Rabs_Ropp. destruct C as [-> |C]; [rewrite !Rmult_0_l, Rabs_R0; lra|].
        assert (Z0 : Rabs (class_p xs x - class_p xs x) <= softmax_shift_by E (length xs)) by (rewrite Rminus_diag_eq, Rabs_R0 by reflexivity; lra). destruct (log_shifted _ _ _ Z0 (proj2 (softmax_01 _ _ (in_map rval xs x (I x (or_introl eq_refl))))) SD C) as (_ & _ & A3 & A4). rewrite Rabs_mult, (Rabs_right (rval y)) by lra. pose proof (Rabs_pos (ln (class_p xs x))). nra. }
      assert (Sl : forall f h, (forall xs ys, sumr (map f (map (pair xs) (combine xs ys))) = h (xs, ys)) -> sumr (map f l) = sumr (map h (combine rows targets))).
      { intros f h H. unfold l. rewrite concat_map, sumr_concat, !map_map. f_equal. apply map_ext. intros [xs ys]. apply H. }
      assert (Pw : forall (A B : Type) (k : R -> R -> B) (f : A -> R) (xs ys : list A), map (fun v => k (f (fst v)) (f (snd v))) (combine xs ys) = pairwise k (map f xs) (map f ys)).
      { clear. intros A B k f xs ys. unfold pairwise. revert ys. induction xs as [|x xs IH]; intros [|y ys]; try reflexivity. cbn [combine map fst snd]. now rewrite IH. }
      assert (Sn : forall m, sumr (map Ropp m) = - sumr m) by (clear; induction m as [|w m IH]; [cbn; ring|cbn [map]; rewrite !sumr_cons, IH; ring]).
      assert (Sf : sumr (map class_loss l) = sumr (map (fun v => row_loss (map rval (fst v)) (map rval (snd v))) (combine rows targets))).
      { apply Sl. intros xs ys. cbn [fst snd]. unfold row_loss. rewrite <- Pw, map_map, <- Sn, map_map. f_equal. }
      assert (Sh : sumr (map class_error l) = sumr (map (fun v => row_error E (map rval (fst v)) (map rval (snd v))) (combine rows targets))).
      { apply Sl. intros xs ys. cbn [fst snd]. unfold row_error. rewrite <- Pw, map_map, map_length. f_equal. }
      assert (Nl : concat lss <> []). { intros K. rewrite K in Fa. apply same_length in Fa. rewrite Lc in Fa. destruct F as [|xs ys ? ? (_ & _ & L & _) _]; [congruence|]. cbn [concat] in Fa. rewrite app_length in Fa. rewrite map_length in L. cbn [length] in Fa. lia. }
      pose proof (around_num1 _ _ _ _ Fa) as F1. pose proof (around_sum _ _ _ _ Fa) as S1. pose proof (around_bound _ _ _ _ _ Fa Lb) as B1. rewrite Lc in B1. pose proof (short_list _ Ls) as K1. assert (B2 : Rabs (sumr (map rval (concat lss))) <= 2 ^ 40) by (assert (INR (length (concat rows)) * 2 ^ 20 <= 2 ^ 20 * 2 ^ 20) by (apply Rmult_le_compat_r; lra); lra).
      eapply yo_bind; [apply (div_any _ _ HN (sum_num1 _ Nl F1))|]. intros q [Nq Bq]. apply yo_ok. rewrite (sum_rval _ _ Nl F1 B2 ltac:(lra)) in Bq. rewrite <- INR_IZR_INZ in Bq. fold N in Bq. rewrite Sf, Sh in S1.
      cbn [fst snd]. split; [exact Fs|]. split; [exact Nq|]. set (SF := sumr (map (fun v => row_loss _ _) _)) in *. set (SH := sumr (map (fun v => row_error _ _ _) _)) in *. set (SZ := sumr (map rval (concat lss))) in *.
      replace (rval q - SF / N) with ((rval q - SZ / N) + (SZ - SF) * / N) by (field; lra). eapply Rle_trans; [apply Rabs_triang|]. assert (IN : 0 < / N) by (now apply Rinv_0_lt_compat). rewrite Rabs_mult, (Rabs_right (/ N)) by lra. assert (Rabs (SZ - SF) * / N <= SH / N) by (apply Rmult_le_compat_r; lra). lra.
    - intros [ss q] [Fs Hq]. cbn [fst snd] in *. eapply yo_bind; [|intros z Hz; apply yo_ok; cbn [fst snd]; split; [exact Hq|exact Hz]].
      unfold ce_gradv. apply (yo_via _ _ _ (fun v zs => Forall2 _ (combine (fst v) (snd v)) zs) _ _ _ Fs F). intros xs s ys Hs (Fx & Fy & L & D & Ft). cbn [fst snd]. rewrite map_length in L, Ft. pose proof (shift_range _ L) as SD. unfold diff_gradv, N. rewrite INR_IZR_INZ.
      apply (yo_via _ _ _ _ _ _ _ Hs (with_num _ _ _ Fy (zipped _ rval rval _ _ Ft))). intros x z y (Ix & Hz & Bz) (Hy & Y & _). cbn [fst snd]. pose proof (softmax_01 _ _ (in_map rval xs x Ix)) as S01. fold (class_p xs x) in S01. set (c := class_p xs x) in *.
      assert (D3 : Rabs (rval z - rval y) <= 3) by (apply Rabs_le; pose proof (Rle_abs (rval z - c)); pose proof (Rle_abs (- (rval z - c))); rewrite Rabs_Ropp in *; lra). pose proof (sub_rval z y 3 Hz Hy D3 ltac:(lra)) as Rd.
      apply (scaled_yo _ g _ (c - rval y) _ (sub_num1 z y Hz Hy) Hg HN); [|rewrite Rd; lra|exact Bg]. rewrite Rd. replace (rval z - rval y - (c - rval y)) with (rval z - c) by ring. exact Bz.
  Qed.
End Numbers.

(** ** Claims *)
Section Weak.
  Variable pr : provider.
  Variable chk : check.
  Lemma mean_allv_weak xs : weaker (mean_allv (pr := pr) chk xs) (mean_allv no_check xs). Proof. apply weaker_bind; [apply meanv_weak|intros; apply weaker_refl]. Qed.
  Lemma l1v_weak D xs ys : weaker (l1v (pr := pr) D chk xs ys) (l1v D no_check xs ys). Proof. apply weaker_bind; [apply weaker_refl|intros; apply mean_allv_weak]. Qed.
  Lemma bce_itemv_weak d d' o k p y : weaker (bce_itemv (pr := pr) chk d d' o k p y) (bce_itemv no_check d d' o k p y).
  Proof. apply weaker_bind; [apply log01v_weak|]. intros a. apply weaker_bind; [apply log01v_weak|]. intros b. apply weaker_bind; [apply mulv_weak|]. intros u. apply weaker_bind; [apply mulv_weak|]. intros. apply weaker_refl. Qed.
  Lemma bcev_weak d d' o k ps ys : weaker (bcev (pr := pr) chk d d' o k ps ys) (bcev no_check d d' o k ps ys).
  Proof. apply weaker_bind; [apply weaker_zip; intros; apply bce_itemv_weak|]. intros a. apply weaker_bind; [apply mean_allv_weak|]. intros. apply weaker_refl. Qed.
  Lemma bce_gradv_weak D c g ps ys : weaker (bce_gradv (pr := pr) D chk c g ps ys) (bce_gradv D no_check c g ps ys).
  Proof.
    apply weaker_zip. intros p y. apply weaker_bind; [apply recipv_weak|]. intros a. apply weaker_bind; [apply recipv_weak|]. intros b. apply weaker_bind; [apply mulv_weak|]. intros u. apply weaker_bind; [apply mulv_weak|]. intros w. apply weaker_bind; [apply divv_weak|]. intros. apply mulv_weak.
  Qed.
  Lemma diff_gradv_weak N g ss ys : weaker (diff_gradv (pr := pr) chk N g ss ys) (diff_gradv no_check N g ss ys). Proof. apply weaker_zip. intros s y. apply weaker_bind; [apply divv_weak|]. intros. apply mulv_weak. Qed.
  Lemma bce_logits_bothv_weak D d d' o k g xs ys : weaker (bce_logits_bothv (pr := pr) D chk d d' o k g xs ys) (bce_logits_bothv D no_check d d' o k g xs ys).
  Proof.
    apply weaker_bind; [|intros r; apply weaker_bind; [apply diff_gradv_weak|intros; apply weaker_refl]]. apply weaker_bind; [apply weaker_map; intros; apply sigmoidv_weak|]. intros ss. apply weaker_bind; [apply bcev_weak|]. intros. apply weaker_refl.
  Qed.
  Lemma cross_entropy_bothv_weak d d' o k lb ls cs sq me r g rows ts : weaker (cross_entropy_bothv (pr := pr) 65536 chk d d' o k 16 lb ls cs sq me r g rows ts) (cross_entropy_bothv 65536 no_check d d' o k 16 lb ls cs sq me r g rows ts).
  Proof.
    apply weaker_bind; [|intros x; apply weaker_bind; [apply weaker_zip; intros; apply diff_gradv_weak|intros; apply weaker_refl]]. apply weaker_bind; [apply weaker_map; intros; apply softmaxv_weak|]. intros ss.
    apply weaker_bind; [|intros; apply weaker_bind; [apply divv_weak|intros; apply weaker_refl]]. apply weaker_zip. intros s y. apply weaker_zip. intros a b. apply weaker_bind; [apply log01v_weak|]. intros. apply weaker_bind; [apply mulv_weak|]. intros. apply weaker_refl.
  Qed.
End Weak.
Lemma pairwise_map {A B} (k : R -> R -> B) (f : A -> R) xs ys : map (fun v => k (f (fst v)) (f (snd v))) (combine xs ys) = pairwise k (map f xs) (map f ys).
Proof. unfold pairwise. revert ys. induction xs as [|x xs IH]; intros [|y ys]; try reflexivity. cbn [combine map fst snd]. now rewrite IH. Qed.
Lemma over_map {A B C} (P : B * B -> C -> Prop) (f : A -> B) xs ys zs : Forall2 (fun v => P (f (fst v), f (snd v))) (combine xs ys) zs -> Forall2 P (combine (map f xs) (map f ys)) zs.
Proof. revert ys zs. induction xs as [|x xs IH]; intros [|y ys] zs H; inversion H; subst; cbn [combine map]; try constructor; auto. Qed.
Lemma fitted n (P : R -> R -> Prop) xs ys : vector n 65536 xs -> vector n 65536 ys -> Forall2 P (map rval xs) (map rval ys) -> Forall2 (fitting n P) xs ys.
Proof. intros [_ Fx] [_ Fy]. revert ys Fy. induction Fx as [|x xs Hx _ IH]; intros [|y ys] Fy H; inversion H; subst; inversion Fy; subst; constructor; [split; [exact Hx|split; assumption]|auto]. Qed.
Section Claims.
  Variables (n : nat) (pr : provider).
  Hypothesis Hn : (0 < n)%nat.
  Hypothesis HV : valid n pr.
  Lemma l1_claim E T xs ys : (E = 1 \/ E = 2)%Z -> (T = true -> n = 1%nat) -> vector n 65536 xs -> vector n 65536 ys -> (Z.of_nat (length xs) <= 2 ^ 20)%Z -> Forall2 (fun x y => Rabs x <= 2 ^ 18 /\ Rabs y <= 2 ^ 18) (map rval xs) (map rval ys) ->
    yo T (l1v (pr := pr) 65536 (within E) xs ys) (fun z => n_sc z = 65536%Z /\ Rabs (rval z - l1_loss (map rval xs) (map rval ys)) <= unit_error E).
  Proof using Hn HV. intros HE HT Vx Vy L F. eapply yo_weaken; [apply (l1_yo n pr Hn HV E T HE HT xs ys (proj1 Vx) L (fitted n _ xs ys Vx Vy F))|]. intros z [[_ Sz] Bz]. split; [exact Sz|]. unfold l1_loss. rewrite <- pairwise_map. exact Bz. Qed.
  (** C111: L1 loss of up to 2^20 elements is the mean absolute difference within one unit of rounding. *)
  Lemma k_C111_l1 E xs ys st z : (E = 1 \/ E = 2)%Z -> vector n 65536 xs -> vector n 65536 ys -> (Z.of_nat (length xs) <= 2 ^ 20)%Z -> Forall2 (fun x y => Rabs x <= 2 ^ 18 /\ Rabs y <= 2 ^ 18) (map rval xs) (map rval ys) ->
    fst (l1v (pr := pr) 65536 (within E) xs ys st) = Some z -> fst (l1v (pr := pr) 65536 no_check xs ys st) = Some z /\ n_sc z = 65536%Z /\ Rabs (rval z - l1_loss (map rval xs) (map rval ys)) <= unit_error E.
  Proof using Hn HV. intros HE Vx Vy L F Hz. split; [eapply weaker_fst; [apply l1v_weak|exact Hz]|]. exact (yo_some _ _ _ _ _ (l1_claim E false xs ys HE ltac:(discriminate) Vx Vy L F) Hz). Qed.
  Lemma bce_claim E T ps ys : (E = 1 \/ E = 2)%Z -> (T = true -> n = 1%nat) -> vector n 65536 ps -> vector n 65536 ys -> (Z.of_nat (length ps) <= 2 ^ 20)%Z -> Forall2 (bce_fits E) (map rval ps) (map rval ys) ->
    yo T (bcev (pr := pr) (within E) 8 8 8 2 ps ys) (fun z => n_sc z = 65536%Z /\ Rabs (rval z - bce_loss (map rval ps) (map rval ys)) <= bce_error E (map rval ps) (map rval ys)).
  Proof using Hn HV. intros HE HT Vx Vy L F. eapply yo_weaken; [apply (bce_yo n pr Hn HV E T HE HT ps ys (proj1 Vx) L (fitted n _ ps ys Vx Vy F))|]. intros z [[_ Sz] Bz]. split; [exact Sz|]. unfold bce_loss, bce_error. rewrite <- !pairwise_map. exact Bz. Qed.
  (** C111: binary cross entropy is the exact one within the errors of the logarithms it needs, weighted by the targets, plus three units. *)
  Lemma k_C111_bce E ps ys st z : (E = 1 \/ E = 2)%Z -> vector n 65536 ps -> vector n 65536 ys -> (Z.of_nat (length ps) <= 2 ^ 20)%Z -> Forall2 (bce_fits E) (map rval ps) (map rval ys) ->
    fst (bcev (pr := pr) (within E) 8 8 8 2 ps ys st) = Some z -> fst (bcev (pr := pr) no_check 8 8 8 2 ps ys st) = Some z /\ n_sc z = 65536%Z /\ Rabs (rval z - bce_loss (map rval ps) (map rval ys)) <= bce_error E (map rval ps) (map rval ys).
  Proof using Hn HV. intros HE Vx Vy L F Hz. split; [eapply weaker_fst; [apply bcev_weak|exact Hz]|]. exact (yo_some _ _ _ _ _ (bce_claim E false ps ys HE ltac:(discriminate) Vx Vy L F) Hz). Qed.
  Definition slopes_near (me : rmethod) (E : Z) (g : R) (ps ys : list R) (zs : list num) : Prop :=
    let N := INR (length ys) in Forall2 (fun v z => n_sc z = 65536%Z /\ Rabs (rval z - g * (bce_slope (fst v) (snd v) / N)) <= gradient_error E N (slope_error me E (fst v) (snd v)) g) (combine ps ys) zs.
  Lemma bce_gradient_claim me b E T g ps ys : (E = 1 \/ E = 2)%Z -> (T = true -> n = 1%nat) -> vector n 65536 ps -> vector n 65536 ys -> vector n 65536 [g] -> Rabs (rval g) <= 1000 -> Forall2 (slope_fits me E) (map rval ps) (map rval ys) ->
    yo T (bce_gradv (pr := pr) 65536 (within E) (usual me b) g ps ys) (slopes_near me E (rval g) (map rval ps) (map rval ys)).
  Proof using Hn HV.
    intros HE HT Vx Vy [_ Vg] Bg F. assert (Hg : num1 n g) by (inversion Vg; assumption). eapply yo_weaken; [apply (bce_grad_yo n pr Hn HV E T HE HT me b g ps ys (proj1 Vx) Hg Bg (fitted n _ ps ys Vx Vy F))|]. intros zs Hz. unfold slopes_near. cbv zeta in *. rewrite map_length. apply over_map. cbn [fst snd]. eapply related; [|exact Hz]. intros v z [[_ Sz] Bz]. split; assumption.
  Qed.
  (** C111: the gradient of binary cross entropy is the exact derivative within the errors of the reciprocals it needs, by both methods. *)
  Lemma k_C111_bce_gradient me b E g ps ys st zs : (E = 1 \/ E = 2)%Z -> vector n 65536 ps -> vector n 65536 ys -> vector n 65536 [g] -> Rabs (rval g) <= 1000 -> Forall2 (slope_fits me E) (map rval ps) (map rval ys) ->
    fst (bce_gradv (pr := pr) 65536 (within E) (usual me b) g ps ys st) = Some zs -> fst (bce_gradv (pr := pr) 65536 no_check (usual me b) g ps ys st) = Some zs /\ slopes_near me E (rval g) (map rval ps) (map rval ys) zs.
  Proof using Hn HV. intros HE Vx Vy Vg Bg F Hz. split; [eapply weaker_fst; [apply bce_gradv_weak|exact Hz]|]. exact (yo_some _ _ _ _ _ (bce_gradient_claim me b E false g ps ys HE ltac:(discriminate) Vx Vy Vg Bg F) Hz). Qed.
  Definition logits_near (E : Z) (g : R) (xs ys : list R) (r : num * list num) : Prop :=
    n_sc (fst r) = 65536%Z /\ Rabs (rval (fst r) - bce_loss (map exact_sigmoid xs) ys) <= logits_error E xs ys /\
    let N := INR (length ys) in Forall2 (fun v z => n_sc z = 65536%Z /\ Rabs (rval z - g * ((exact_sigmoid (fst v) - snd v) / N)) <= gradient_error E N (sigmoid_shift E) g) (combine xs ys) (snd r).
  Lemma logits_claim E T g xs ys : (E = 1 \/ E = 2)%Z -> (T = true -> n = 1%nat) -> vector n 65536 xs -> vector n 65536 ys -> vector n 65536 [g] -> Rabs (rval g) <= 1000 -> (Z.of_nat (length xs) <= 2 ^ 20)%Z -> Forall2 (logits_fit E) (map rval xs) (map rval ys) ->
    yo T (bce_logits_bothv (pr := pr) 65536 (within E) 8 8 8 2 g xs ys) (logits_near E (rval g) (map rval xs) (map rval ys)).
  Proof using Hn HV.
    intros HE HT Vx Vy [_ Vg] Bg L F. assert (Hg : num1 n g) by (inversion Vg; assumption). eapply yo_weaken; [apply (logits_both n pr Hn HV E T HE HT g xs ys (proj1 Vx) L (fitted n _ xs ys Vx Vy F) Hg Bg)|]. intros [l zs] [[[_ Sl] Bl] Hz]. unfold logits_near. cbn [fst snd] in *. split; [exact Sl|]. split.
    - unfold bce_loss, logits_error. assert (A : pairwise likelihood (map exact_sigmoid (map rval xs)) (map rval ys) = map logit_item (combine xs ys)).
      { unfold pairwise, logit_item. clear. revert ys. induction xs as [|x xs IH]; intros [|y ys]; try reflexivity. cbn [combine map fst snd]. now rewrite IH. }
      rewrite A, <- pairwise_map. exact Bl.
    - cbv zeta in *. rewrite map_length. apply over_map. cbn [fst snd]. eapply related; [|exact Hz]. intros v z [[_ Sz] Bz]. split; assumption.
  Qed.
  (** C111: binary cross entropy with logits, forward and backward: the loss of the exact sigmoids and its derivative, within the error of the sigmoid carried through the logarithm. *)
  Lemma k_C111_bce_logits E g xs ys st r : (E = 1 \/ E = 2)%Z -> vector n 65536 xs -> vector n 65536 ys -> vector n 65536 [g] -> Rabs (rval g) <= 1000 -> (Z.of_nat (length xs) <= 2 ^ 20)%Z -> Forall2 (logits_fit E) (map rval xs) (map rval ys) ->
    fst (bce_logits_bothv (pr := pr) 65536 (within E) 8 8 8 2 g xs ys st) = Some r -> fst (bce_logits_bothv (pr := pr) 65536 no_check 8 8 8 2 g xs ys st) = Some r /\ logits_near E (rval g) (map rval xs) (map rval ys) r.
  Proof using Hn HV. intros HE Vx Vy Vg Bg L F Hz. split; [eapply weaker_fst; [apply bce_logits_bothv_weak|exact Hz]|]. exact (yo_some _ _ _ _ _ (logits_claim E false g xs ys HE ltac:(discriminate) Vx Vy Vg Bg L F) Hz). Qed.
  (** C111: with one party no product is out of range, so these losses and gradients always come out, and within one unit. *)
  Lemma k_C111_one_party me b g xs ys st : n = 1%nat -> vector n 65536 xs -> vector n 65536 ys -> vector n 65536 [g] -> Rabs (rval g) <= 1000 -> (Z.of_nat (length xs) <= 2 ^ 20)%Z ->
    (Forall2 (bce_fits 1) (map rval xs) (map rval ys) -> exists z, fst (bcev (pr := pr) no_check 8 8 8 2 xs ys st) = Some z /\ Rabs (rval z - bce_loss (map rval xs) (map rval ys)) <= bce_error 1 (map rval xs) (map rval ys)) /\
    (Forall2 (slope_fits me 1) (map rval xs) (map rval ys) -> exists zs, fst (bce_gradv (pr := pr) 65536 no_check (usual me b) g xs ys st) = Some zs /\ slopes_near me 1 (rval g) (map rval xs) (map rval ys) zs) /\
    (Forall2 (logits_fit 1) (map rval xs) (map rval ys) -> exists r, fst (bce_logits_bothv (pr := pr) 65536 no_check 8 8 8 2 g xs ys st) = Some r /\ logits_near 1 (rval g) (map rval xs) (map rval ys) r).
  Proof using Hn HV.
    intros H1 Vx Vy Vg Bg L. split; [|split]; intros F.
    - destruct (yo_true _ _ st (bce_claim 1 true xs ys (or_introl eq_refl) (fun _ => H1) Vx Vy L F)) as (z & Ez & _ & Bz). exists z. split; [eapply weaker_fst; [apply bcev_weak|exact Ez]|exact Bz].
    - destruct (yo_true _ _ st (bce_gradient_claim me b 1 true g xs ys (or_introl eq_refl) (fun _ => H1) Vx Vy Vg Bg F)) as (z & Ez & Bz). exists z. split; [eapply weaker_fst; [apply bce_gradv_weak|exact Ez]|exact Bz].
    - destruct (yo_true _ _ st (logits_claim 1 true g xs ys (or_introl eq_refl) (fun _ => H1) Vx Vy Vg Bg L F)) as (z & Ez & Bz). exists z. split; [eapply weaker_fst; [apply bce_logits_bothv_weak|exact Ez]|exact Bz].
  Qed.
  Variables (local_bits : run pr (list Z)) (log_steps cascade_steps isqrt : nat -> nat).
  Hypothesis Hlocal : forall st, let u := fst (local_bits st) in length u = n /\ Forall (fun z => 0 <= z < 65536)%Z u.
  Hypothesis Hsqrt : forall m, (2 <= m)%nat -> (1 <= isqrt m < m)%nat.
  Local Notation both me chk := (cross_entropy_bothv (pr := pr) 65536 chk 8 8 8 2 16 local_bits log_steps cascade_steps isqrt me 10).
  Definition rows_fit (E : Z) (rows targets : list (list num)) : Prop :=
    Forall (vector n 65536) rows /\ Forall (vector n 65536) targets /\ Forall2 (row_fits E) (map (map rval) rows) (map (map rval) targets).
  Lemma rows_ok E rows targets : rows_fit E rows targets -> Forall2 (row_of n E) rows targets.
  Proof using. clear. intros (Fx & Fy & H). revert targets Fy H. induction Fx as [|x rows [_ Hx] _ IH]; intros [|y targets] Fy H; inversion H; subst; inversion Fy as [|? ? [_ Hy] Fy']; subst; constructor; [split; [exact Hx|split; assumption]|auto]. Qed.
  Definition class_gradients_near (E : Z) (N g : R) (rows targets : list (list R)) (zss : list (list num)) : Prop :=
    Forall2 (fun v zs => Forall2 (fun w z => n_sc z = 65536%Z /\ Rabs (rval z - g * ((exact_softmax (fst v) (fst w) - snd w) / N)) <= gradient_error E N (softmax_shift_by E (length (fst v))) g) (combine (fst v) (snd v)) zs) (combine rows targets) zss.
  Lemma cross_claim me E T g rows targets : (E = 1 \/ E = 2)%Z -> (T = true -> n = 1%nat) -> rows <> [] -> rows_fit E rows targets -> vector n 65536 [g] -> Rabs (rval g) <= 1000 -> (Z.of_nat (length (concat rows)) <= 2 ^ 20)%Z ->
    let N := INR (first_size targets) in let xss := map (map rval) rows in let yss := map (map rval) targets in
    yo T (both me (within E) g rows targets) (fun r => n_sc (fst r) = 65536%Z /\ Rabs (rval (fst r) - sumr (pairwise row_loss xss yss) / N) <= sumr (pairwise (row_error E) xss yss) / N + unit_error E /\ class_gradients_near E N (rval g) xss yss (snd r)).
  Proof using Hn HV Hlocal Hsqrt.
    intros HE HT Ne F [_ Vg] Bg L N xss yss. assert (Hg : num1 n g) by (inversion Vg; assumption). eapply yo_weaken; [apply (cross_both n pr Hn HV E T HE HT local_bits log_steps cascade_steps isqrt Hlocal Hsqrt me g rows targets Ne (rows_ok _ _ _ F) L Hg Bg)|]. intros [l zss] [[[_ Sl] Bl] Hz]. cbn [fst snd] in *. fold N in Bl, Hz. split; [exact Sl|].
    assert (Pw : forall (k : list R -> list R -> R), map (fun v => k (map rval (fst v)) (map rval (snd v))) (combine rows targets) = pairwise k xss yss).
    { unfold xss, yss, pairwise. intros k. clear. revert targets. induction rows as [|x rows IH]; intros [|y targets]; try reflexivity. cbn [combine map fst snd]. now rewrite IH. }
    split; [rewrite <- !Pw; exact Bl|]. unfold class_gradients_near, xss, yss. apply over_map. cbn [fst snd]. eapply related; [|exact Hz]. intros v zs Hv. apply over_map. cbn [fst snd]. eapply related; [|exact Hv]. intros w z [[_ Sz] Bz]. rewrite map_length. split; assumption.
  Qed.
  Lemma many_rows {A B} (f : list R -> list R -> R) (rows : list A) (targets : list B) (u : A -> list R) (w : B -> list R) : length rows = length targets -> (2 <= length rows)%nat -> forall ts : list (list num), length ts = length targets ->
    sumr (pairwise f (map u rows) (map w targets)) / INR (first_size ts) = average (pairwise f (map u rows) (map w targets)).
  Proof using.
    clear. intros L L2 ts Lt. unfold average. f_equal. f_equal. f_equal. unfold pairwise. rewrite map_length, combine_length, !map_length, <- L, Nat.min_id. destruct ts as [|t [|t' ts]]; cbn [length] in Lt; try lia. cbn [first_size length]. lia.
  Qed.
  (** C111: cross entropy of two or more examples with 2 to 29 classes, forward and backward: the mean of the exact losses and its derivative, within the error of the softmax carried through the logarithm. *)
  Lemma k_C111_cross_entropy me E g rows targets st r : (E = 1 \/ E = 2)%Z -> (2 <= length rows)%nat -> rows_fit E rows targets -> vector n 65536 [g] -> Rabs (rval g) <= 1000 -> (Z.of_nat (length (concat rows)) <= 2 ^ 20)%Z ->
    fst (both me (within E) g rows targets st) = Some r -> let xss := map (map rval) rows in let yss := map (map rval) targets in
    fst (both me no_check g rows targets st) = Some r /\ n_sc (fst r) = 65536%Z /\ Rabs (rval (fst r) - cross_entropy xss yss) <= cross_entropy_error E xss yss /\ class_gradients_near E (INR (length rows)) (rval g) xss yss (snd r).
  Proof using Hn HV Hlocal Hsqrt.
    intros HE L2 F Vg Bg L Hz xss yss. assert (Ll : length rows = length targets) by (destruct F as (_ & _ & F); apply same_length in F; now rewrite !map_length in F). assert (Ne : rows <> []) by (intros ->; cbn in L2; lia).
    split; [eapply weaker_fst; [apply cross_entropy_bothv_weak|exact Hz]|]. destruct (yo_some _ _ _ _ _ (cross_claim me E false g rows targets HE ltac:(discriminate) Ne F Vg Bg L) Hz) as (S & B & G). split; [exact S|]. fold xss yss in B, G. unfold cross_entropy, cross_entropy_error, xss, yss. rewrite <- !(many_rows _ rows targets (map rval) (map rval) Ll L2 targets eq_refl). split; [exact B|].
    assert (FS : first_size targets = length rows) by (rewrite Ll; destruct targets as [|t [|t' ts]]; [reflexivity|cbn in Ll; lia|reflexivity]). rewrite <- FS. exact G.
  Qed.
  (** C111: with one party cross entropy always comes out, and within one unit. *)
  Lemma k_C111_cross_entropy_one_party me g rows targets st : n = 1%nat -> (2 <= length rows)%nat -> rows_fit 1 rows targets -> vector n 65536 [g] -> Rabs (rval g) <= 1000 -> (Z.of_nat (length (concat rows)) <= 2 ^ 20)%Z ->
    let xss := map (map rval) rows in let yss := map (map rval) targets in exists r, fst (both me no_check g rows targets st) = Some r /\ Rabs (rval (fst r) - cross_entropy xss yss) <= cross_entropy_error 1 xss yss /\ class_gradients_near 1 (INR (length rows)) (rval g) xss yss (snd r).
  Proof using Hn HV Hlocal Hsqrt.
    intros H1 L2 F Vg Bg L xss yss. assert (Ne : rows <> []) by (intros ->; cbn in L2; lia). destruct (yo_true _ _ st (cross_claim me 1 true g rows targets (or_introl eq_refl) (fun _ => H1) Ne F Vg Bg L)) as (r & Er & _). exists r.
    assert (Er' : fst (both me (within 1) g rows targets st) = Some r) by exact Er. destruct (k_C111_cross_entropy me 1 g rows targets st r (or_introl eq_refl) L2 F Vg Bg L Er') as (A & _ & B & C). split; [exact A|]. split; assumption.
  Qed.
  (** C111: with a single example squeeze drops the batch dimension, and loss and gradient are divided by the number of classes. *)
  Lemma k_C111_one_example me E g xs ys st r : (E = 1 \/ E = 2)%Z -> rows_fit E [xs] [ys] -> vector n 65536 [g] -> Rabs (rval g) <= 1000 ->
    fst (both me (within E) g [xs] [ys] st) = Some r -> let m := INR (length xs) in let x := map rval xs in let y := map rval ys in
    fst (both me no_check g [xs] [ys] st) = Some r /\ Rabs (rval (fst r) - row_loss x y / m) <= row_error E x y / m + unit_error E /\ class_gradients_near E m (rval g) [x] [y] (snd r).
  Proof using Hn HV Hlocal Hsqrt.
    intros HE F Vg Bg Hz m x y. assert (Ls : length xs = length ys /\ (length xs <= 29)%nat). { destruct F as (_ & _ & F). inversion F as [|? ? ? ? (L & _ & H) _]; subst. apply same_length in H. rewrite !map_length in *. lia. }
    split; [eapply weaker_fst; [apply cross_entropy_bothv_weak|exact Hz]|].
    assert (L : (Z.of_nat (length (concat [xs])) <= 2 ^ 20)%Z) by (cbn [concat]; rewrite app_nil_r; lia).
    destruct (yo_some _ _ _ _ _ (cross_claim me E false g [xs] [ys] HE ltac:(discriminate) ltac:(discriminate) F Vg Bg L) Hz) as (_ & B & G). cbn [first_size map pairwise combine] in B, G. unfold pairwise in B. cbn [combine map] in B. rewrite <- (proj1 Ls) in B, G. unfold sumr in B. cbn [fold_right fst snd] in B. rewrite !Rplus_0_r in B. split; [exact B|exact G].
  Qed.
End Claims.

(** ** Outside of the conditions *)
Lemma gives_pair {A} (m : runo alone (num * A)) a s : option_map (fun z => (open_a (n_sh (fst z)), n_sc (fst z))) (fst (m tt)) = Some (a, s) -> exists r, fst (m tt) = Some r /\ rval (fst r) = IZR a / IZR s.
Proof. destruct (fst (m tt)) as [z|]; [|discriminate]. cbn [option_map]. intros H. assert (K : (open_a (n_sh (fst z)), n_sc (fst z)) = (a, s)) by congruence. exists z. split; [reflexivity|]. unfold rval. congruence. Qed.
(** C111 refuted outside the range: with one party the loss of a logit of 20 for the target 0 is given as less than 12, where the exact one is more than 20; that of a logit of 200 is the same. *)
Lemma k_C111_far_refuted : exists pr st, valid 1 pr /\ exists x x' y g r r', vector 1 65536 [x; x'; y; g] /\ rval x = 20 /\ rval x' = 200 /\ rval y = 0 /\ bce_loss [exact_sigmoid 20] [0] >= 20 /\
  fst (bce_logits_bothv (pr := pr) 65536 no_check 8 8 8 2 g [x] [y] st) = Some r /\ rval (fst r) < 12 /\ fst (bce_logits_bothv (pr := pr) 65536 no_check 8 8 8 2 g [x'] [y] st) = Some r' /\ rval (fst r') = rval (fst r).
Proof.
  assert (I : forall v, (Z.abs v <= 100000000)%Z -> in64 v) by (intros; unfold in64, H63; lia). exists alone, tt. split; [exact alone_valid|]. exists (cell 1310720), (cell 13107200), (cell 0), (cell 65536).
  destruct (gives_pair (bce_logits_bothv (pr := alone) 65536 no_check 8 8 8 2 (cell 65536) [cell 1310720] [cell 0]) 732200 65536 ltac:(vm_compute; reflexivity)) as (r & R1 & R2).
  destruct (gives_pair (bce_logits_bothv (pr := alone) 65536 no_check 8 8 8 2 (cell 65536) [cell 13107200] [cell 0]) 732200 65536 ltac:(vm_compute; reflexivity)) as (r' & R1' & R2'). exists r, r'. rewrite R2, R2'.
  destruct (cells_ok [1310720; 13107200; 0; 65536]%Z ltac:(discriminate) ltac:(repeat (constructor; [apply I; lia|]); constructor)) as [V _]. split; [exact V|].
  destruct (cell_ok 1310720 ltac:(apply I; lia)) as (_ & _ & A1). destruct (cell_ok 13107200 ltac:(apply I; lia)) as (_ & _ & A2). destruct (cell_ok 0 ltac:(apply I; lia)) as (_ & _ & A3). rewrite A1, A2, A3. split; [lra|]. split; [lra|]. split; [lra|]. split; [|split; [exact R1|split; [lra|split; [exact R1'|reflexivity]]]].
  unfold bce_loss, average, pairwise, likelihood. cbn [combine map fst snd length INR]. unfold sumr. cbn [fold_right]. assert (P : 0 < exp (- 20)) by apply exp_pos.
  assert (L : ln (1 - exact_sigmoid 20) <= - 20). { apply ln_le'; [pose proof (sigmoid_01 20); lra|]. unfold exact_sigmoid. replace (- (20)) with (-20) by lra. replace (1 - / (1 + exp (- 20))) with (exp (- 20) * / (1 + exp (- 20))) by (field; lra). assert (/ (1 + exp (- 20)) <= 1) by (rewrite <- Rinv_1; apply Rinv_le_contravar; lra). assert (0 < / (1 + exp (- 20))) by (apply Rinv_0_lt_compat; lra). apply Rle_trans with (exp (- 20) * 1); [apply Rmult_le_compat_l; lra|lra]. }
  lra.
Qed.
(** C111 refuted for one example: with one party the cross entropy of the single example (0, 0) of class 0 is given as less than 2/5, where it is ln 2. *)
Lemma k_C111_one_example_refuted : exists pr st local_bits me g xs ys r, valid 1 pr /\ vector 1 65536 xs /\ map rval xs = [0; 0] /\ vector 1 65536 ys /\ map rval ys = [1; 0] /\
  fst (cross_entropy_bothv (pr := pr) 65536 no_check 8 8 8 2 16 local_bits (fun _ => 1%nat) (fun _ => 1%nat) Nat.sqrt me 10 g [xs] [ys] st) = Some r /\ rval (fst r) < 2 / 5 /\ cross_entropy [map rval xs] [map rval ys] = ln 2 /\ 1 / 2 <= ln 2.
Proof.
  set (lb := (fun s => ([0%Z], s)) : run alone (list Z)). exists alone, tt, lb, Pairwise, (cell 65536), (map cell [0; 0]%Z), (map cell [65536; 0]%Z).
  destruct (gives_pair (cross_entropy_bothv (pr := alone) 65536 no_check 8 8 8 2 16 lb (fun _ => 1%nat) (fun _ => 1%nat) Nat.sqrt Pairwise 10 (cell 65536) [map cell [0; 0]%Z] [map cell [65536; 0]%Z]) 23671 65536 ltac:(vm_compute; reflexivity)) as (r & R1 & R2).
  exists r. split; [exact alone_valid|]. assert (I : forall v, (0 <= v <= 65536)%Z -> in64 v) by (intros; unfold in64, H63; lia).
  destruct (cells_ok [0; 0]%Z ltac:(discriminate) ltac:(repeat (constructor; [apply I; lia|]); constructor)) as [V E]. destruct (cells_ok [65536; 0]%Z ltac:(discriminate) ltac:(repeat (constructor; [apply I; lia|]); constructor)) as [V' E'].
  rewrite E, E'. cbn [map]. replace (0 / 65536) with 0 by lra. replace (65536 / 65536) with 1 by lra. split; [exact V|]. split; [reflexivity|]. split; [exact V'|]. split; [reflexivity|]. split; [exact R1|]. split; [rewrite R2; lra|]. split.
  - unfold cross_entropy, average, row_loss, pairwise, exact_softmax. cbn [combine map fst snd length INR]. unfold sumr, total. cbn [fold_right map]. rewrite exp_0. replace (1 / (1 + (1 + 0))) with (/ 2) by field. rewrite ln_Rinv by lra. field.
  - apply ln_ge; [lra|]. pose proof (exp_ineq1_le (- (1 / 2))) as H. rewrite exp_Ropp in H. pose proof (exp_pos (1 / 2)) as P. apply (Rmult_le_compat_r (exp (1 / 2))) in H; [|now left]. rewrite Rinv_l in H by (apply Rgt_not_eq; exact P). set (e := exp (1 / 2)) in *. clearbody e. lra.
Qed.
