(** Proofs of C112: logistic regression on shares. *)
Require Import ZArith QArith Qreals List Bool Lia Reals Lra.
From Verif Require Import Rtensor_proofs Realgrad_claims Approx Approx_claims Approxfn_claims Enclose Approxlog_claims Approxsoft_claims Logit_proofs.
From Verif Require Import Ring64 Encoder Arith Arith_proofs Beaver Trunc Provider Binary Binary_proofs Convert_proofs Compare Compare_proofs Compare_claims Maximum Maximum_proofs Maximum_claims Regular Regular_proofs Regular_claims Shareapprox Shareapprox_proofs Shareapprox_claims Sharesoft Sharesoft_claims Shareroot_claims Sharepoly_claims Sharecheb_claims Sharelog Sharelog_claims Sharerecip Sharerecip_claims Sharenorm Sharenorm_claims Program Shareloss Shareloss_claims Logit.
Import ListNotations.
Open Scope R_scope.

(** ** What is to be computed: gradient descent on the logistic loss.  Parameters are the bias and the weights; coordinate 0 of an example is the constant 1 *)
Definition feature (x : list R) (j : nat) : R := nth j (1 :: x) 0.
Definition score (th x : list R) : R := sumr (map (fun j => feature x j * nth j th 0) (seq 0 (length th))).
Definition slope (X : list (list R)) (Y th : list R) (j : nat) : R := average (map (fun v => (exact_sigmoid (score th (fst v)) - snd v) * feature (fst v) j) (combine X Y)).
Definition descend (r : R) (X : list (list R)) (Y th : list R) : list R := map (fun j => nth j th 0 - r * slope X Y th j) (seq 0 (length th)).
Definition descent (r : R) (X : list (list R)) (Y : list R) (t : nat) (th : list R) : list R := Nat.iter t (descend r X Y) th.
Definition logistic_loss (X : list (list R)) (Y th : list R) : R := bce_loss (map (fun x => exact_sigmoid (score th x)) X) Y.
Definition distance (u v : list R) : R := sqrt (square_sum (pairwise Rminus u v)).
(** the mean squared length of the examples *)
Definition spread (X : list (list R)) : R := average (map (fun x => 1 + square_sum x) X).
(** the learning rate in fixed point *)
Definition coded (q : Q) : R := IZR (encodeQ 65536 q) / 65536.
Definition parameters (wb : list num * num) : list R := rval (snd wb) :: map rval (fst wb).
(** how far one step can be from the exact one in each parameter; N examples, features up to M *)
Definition step_error (E : Z) (N : nat) (M r : R) : R := r * (M * (sigmoid_shift E + unit_error E / 4 + 2 * unit_error E * INR N) + unit_error E) + unit_error E.

(** ** Shares *)
Section Numbers.
  Variables (n : nat) (pr : provider).
  Hypothesis Hn : (0 < n)%nat.
  Hypothesis HV : valid n pr.
  Local Notation num1 := (num1 n).
  Variables (E : Z) (T : bool).
  Hypothesis HE : (E = 1 \/ E = 2)%Z.
  Hypothesis HT : T = true -> n = 1%nat.
  Local Notation eta := (IZR E / 65536).
  Lemma eta_small : 0 < eta <= 2 / 65536. Proof using HE. clear HT. destruct HE as [-> | ->]; lra. Qed.
  (** *** Matrix products *)
  Definition both1 (xy : num * num) : Prop := num1 (fst xy) /\ num1 (snd xy).
  Definition open2 (xy : num * num) : Z := (open_a (n_sh (fst xy)) * open_a (n_sh (snd xy)))%Z.
  Lemma raws_yo l : Forall both1 l -> yo T (mapO (rawv (pr := pr)) l) (fun zs => Forall2 (fun xy z => nshare n (open2 xy) 65536 z) l zs).
  Proof using Hn HV.
    intros F. apply yo_each. eapply Forall_impl; [|exact F]. intros [x y] [Hx Hy]. cbn [fst snd] in *. destruct (opened n Hn x Hx) as [[[Ax Sx] _] _]. destruct (opened n Hn y Hy) as [[[Ay Sy] _] _].
    unfold rawv. cbn [fst snd]. eapply (yo_lift _ _ _ (fun t => let '(a, b, c) := t in _)); [intros st; exact (v_mul n pr HV st)|]. intros [[a b] c] Ht. apply yo_ok. split; [cbn [n_sh]; eapply (mul1_share n Hn); eassumption|exact Sx].
  Qed.
  Lemma raws_sum l zs : l <> [] -> Forall2 (fun xy z => nshare n (open2 xy) 65536 z) l zs -> nshare n (zsum (map open2 l)) 65536 (sum_num zs).
  Proof using.
    clear. intros Ne F. apply (sum_num_ok n); [destruct l; [congruence|discriminate]|]. clear Ne. induction F; cbn [map]; constructor; assumption.
  Qed.
  Lemma dot_shape l : l <> [] -> Forall both1 l -> dotv (pr := pr) (within E) l = (raws <~ mapO rawv l ;; divv (within E) (mkNum (n_sh (sum_num raws)) 65536) 65536).
  Proof using. clear. intros Ne F. destruct l as [|[x y] l]; [congruence|]. inversion F as [|? ? [[_ Sx] [_ Sy]] _]; subst. cbn [fst snd] in *. unfold dotv. rewrite Sx, Sy. reflexivity. Qed.
  Lemma dot_any l : l <> [] -> Forall both1 l -> yo T (dotv (pr := pr) (within E) l) num1.
  Proof using Hn HV HE HT.
    intros Ne F. rewrite (dot_shape l Ne F). eapply yo_bind; [apply (raws_yo l F)|]. intros zs Fz. destruct (raws_sum l zs Ne Fz) as [Hs _].
    eapply yo_weaken; [eapply (div_typed n pr Hn HV E T HE HT _ (mkNum _ 65536) 65536); [lia|exact Hs]|]. intros z (L & I & S). cbn [n_sc] in S. split; [split; [exact L|split; [exact I|lia]]|exact S].
  Qed.
  Definition product (xy : num * num) : R := rval (fst xy) * rval (snd xy).
  Lemma open2_real l : Forall both1 l -> IZR (zsum (map open2 l)) = 65536 * 65536 * sumr (map product l).
  Proof using Hn HV.
    induction 1 as [|[x y] l [Hx Hy] _ IH]; [cbn; ring|]. cbn [map fst snd] in *. change (zsum (open2 (x, y) :: map open2 l)) with (open2 (x, y) + zsum (map open2 l))%Z. rewrite plus_IZR, IH, sumr_cons. unfold open2, product. cbn [fst snd]. rewrite mult_IZR. destruct (opened n Hn x Hx) as [_ Rx]. destruct (opened n Hn y Hy) as [_ Ry]. rewrite <- Rx, <- Ry. unfold real. field.
  Qed.
  Lemma dot_rval l : l <> [] -> Forall both1 l -> Rabs (sumr (map product l)) <= 2 ^ 30 -> yo T (dotv (pr := pr) (within E) l) (fun z => num1 z /\ Rabs (rval z - sumr (map product l)) <= eta).
  Proof using Hn HV HE HT.
    intros Ne F B. rewrite (dot_shape l Ne F). eapply yo_bind; [apply (raws_yo l F)|]. intros zs Fz. destruct (raws_sum l zs Ne Fz) as [Hs _]. pose proof (open2_real l F) as RV. set (V := zsum (map open2 l)) in *. clearbody V.
    assert (I : in64 V). { assert (A : (Z.abs V <= 2 ^ 62)%Z); [|unfold in64, H63; lia]. apply le_IZR. rewrite abs_IZR, RV, Rabs_mult, (Rabs_right (65536 * 65536)) by lra. change (2 ^ 62)%Z with 4611686018427387904%Z. lra. }
    eapply yo_weaken; [apply (div_real n Hn pr HV 65536 E T (E_pos E HE) ltac:(lia) HT V (mkNum _ 65536) 65536 ltac:(lia)); split; [split; [exact Hs|reflexivity]|exact I]|].
    intros z (q & Hq & Bq). destruct (holds_num n Hn q z Hq) as [Nz Rz]. split; [exact Nz|]. rewrite Rz. replace (sumr (map product l)) with (real 65536 V / IZR 65536) by (unfold real; rewrite RV; field). exact Bq.
  Qed.
  Lemma mulp_rval x k : num1 x -> Rabs (rval x * (IZR k / 65536)) <= 2 ^ 30 -> yo T (mulpv (pr := pr) (within E) x k) (fun z => num1 z /\ Rabs (rval z - rval x * (IZR k / 65536)) <= eta).
  Proof using Hn HV HE HT.
    intros H B. destruct (opened n Hn x H) as [Hx Rx]. eapply yo_weaken; [apply (mulp_real n Hn pr HV 65536 E T (E_pos E HE) ltac:(lia) HT _ k _ Hx)|].
    - apply (in64_product 65536 ltac:(lia) _ _ (2 ^ 30)); [rewrite Rx; exact B|change (IZR H63) with (IZR 9223372036854775808); lra].
    - intros z (q & Hq & Bq). destruct (holds_num n Hn q z Hq) as [Nz Rz]. split; [exact Nz|]. rewrite Rz, <- Rx. exact Bq.
  Qed.
  Lemma ones_yo : yo T (onesv (pr := pr) 65536) (fun z => num1 z /\ rval z = 1).
  Proof using Hn HV.
    clear HE HT. unfold onesv. eapply (yo_lift _ _ _ (fun z => length z = n /\ Forall in64 z /\ open_a z = 0%Z)); [intros st; exact (v_zero n pr HV st)|]. intros z (L & F & O). apply yo_ok. destruct z as [|a r]; [cbn in L; lia|]. unfold on_rank0.
    assert (EO : open_a (wadd a 65536 :: r) = 65536%Z).
    { rewrite open_a_eq in O |- *. cbn [zsum fold_right] in *. fold (zsum r) in *. transitivity (wrap 65536); [apply eqm_wrap_eq; rewrite wadd_eqm; replace (a + 65536 + zsum r)%Z with (a + zsum r + 65536)%Z by ring; rewrite <- (wrap_eqm (a + zsum r)), O; reflexivity|reflexivity]. }
    split; [split; [split; [exact L|split; [|cbn; lia]]|reflexivity]|]. { cbn [n_sh]. inversion F; subst. constructor; [apply wrap_in64|assumption]. }
    unfold rval. cbn [n_sh n_sc]. rewrite EO. field.
  Qed.
  (** *** The loss and its gradient *)
  Lemma bce_any ps ys : ps <> [] -> Forall2 (fun p y => num1 p /\ num1 y) ps ys -> yo T (bcev (pr := pr) (within E) 8 8 8 2 ps ys) num1.
  Proof using Hn HV HE HT.
    intros Ne F. unfold bcev. eapply (yo_bind _ _ _ (fun zs => zs <> [] /\ Forall num1 zs)).
    - eapply yo_weaken; [apply (yo_pairs T _ (fun _ z => num1 z)); eapply related; [|exact F]|].
      + intros p y [Hp Hy]. unfold bce_itemv. eapply yo_bind; [apply (log01_any n pr Hn HV E T HE HT); [lia|exact Hp]|]. intros a Ha. eapply yo_bind; [apply (log01_any n pr Hn HV E T HE HT); [lia|apply (one_minus_num1 n Hn); exact Hp]|]. intros b Hb.
        eapply yo_bind; [apply (mul_any n pr Hn HV E T HE HT y a Hy Ha)|]. intros u Hu. eapply yo_bind; [apply (mul_any n pr Hn HV E T HE HT _ b (one_minus_num1 n Hn y Hy) Hb)|]. intros w Hw. apply yo_ok. now apply (add_num1 n Hn).
      + intros zs Fz. destruct F; [congruence|]. inversion Fz; subst. split; [discriminate|]. clear - Fz. induction Fz; constructor; assumption.
    - intros zs [Nz Fz]. eapply yo_bind; [|intros m Hm; apply yo_ok; apply (neg_num1 n Hn m Hm)]. unfold mean_allv, meanv. cbn [map length Nat.eqb mapO]. change (nelement [zs]) with (length (zs ++ [])). rewrite app_nil_r, Nat.div_1_r.
      eapply (yo_bind _ _ _ (fun ms => exists m, ms = [m] /\ num1 m)); [|intros ms (m & -> & H); apply yo_ok; exact H]. eapply yo_bind; [apply (div_any n pr Hn HV E T HE HT (sum_num zs) (Z.of_nat (length zs))); [destruct zs; [congruence|reflexivity]|now apply (sum_num1 n Hn)]|]. intros m [Hm _]. apply yo_ok. now exists m.
  Qed.
  Lemma forward_yo xs ys : xs <> [] -> Forall2 (fun x y => num1 x /\ num1 y /\ Rabs (rval x) <= 256) xs ys ->
    yo T (bce_logitsv (pr := pr) 65536 (within E) 8 8 8 2 xs ys) (fun r => Forall2 (fun x s => num1 s /\ Rabs (rval s - exact_sigmoid (rval x)) <= sigmoid_shift E) xs (fst r)).
  Proof using Hn HV HE HT.
    intros Ne F. unfold bce_logitsv. eapply (yo_bind _ _ _ (fun ss => Forall2 (fun x s => num1 s /\ Rabs (rval s - exact_sigmoid (rval x)) <= sigmoid_shift E) xs ss)).
    { apply yo_each. clear - F Hn HV HE HT. induction F as [|x y xs ys (Hx & _ & B) _ IH]; constructor; [now apply (sigmoid_num n pr Hn HV E T HE HT)|exact IH]. }
    intros ss Fs. eapply yo_bind; [apply (bce_any ss ys)|intros l _; apply yo_ok; exact Fs]; [destruct Fs; [congruence|discriminate]|].
    clear Ne. revert ys F. induction Fs as [|x s xs ss [Hs _] _ IH]; intros ys F; inversion F; subst; constructor; [tauto|now apply IH].
  Qed.
  Lemma backward_yo one xs ss ys : num1 one -> rval one = 1 -> xs <> [] -> Forall2 (fun x s => num1 s /\ Rabs (rval s - exact_sigmoid (rval x)) <= sigmoid_shift E) xs ss -> Forall2 (fun x y => num1 y /\ 0 <= rval y <= 1) xs ys ->
    yo T (logits_gradv (pr := pr) (within E) one ss ys) (fun gs => let N := INR (length ys) in Forall2 (fun v g => num1 g /\ Rabs (rval g - (exact_sigmoid (rval (fst v)) - rval (snd v)) / N) <= sigmoid_shift E / N + 2 * eta) (combine xs ys) gs).
  Proof using Hn HV HE HT.
    intros H1 R1 Ne Fs F. assert (SD : 0 <= sigmoid_shift E <= 27 / 100) by (unfold sigmoid_shift; clear HT; destruct HE as [-> | ->]; lra). assert (HN : (0 < Z.of_nat (length ys))%Z) by (destruct F; [congruence|reflexivity]).
    unfold logits_gradv, diff_gradv. cbv zeta. rewrite INR_IZR_INZ. set (N := Z.of_nat (length ys)) in *. clearbody N. apply (yo_via _ T _ _ _ _ _ _ _ Fs F). intros x s y [Hs Bs] (Hy & Y). cbn [fst snd]. pose proof (sigmoid_01 (rval x)) as S01. set (q := exact_sigmoid (rval x)) in *.
    assert (D3 : Rabs (rval s - rval y) <= 3) by (apply Rabs_le; pose proof (Rle_abs (rval s - q)); pose proof (Rle_abs (- (rval s - q))); rewrite Rabs_Ropp in *; lra). pose proof (sub_rval n Hn s y 3 Hs Hy D3 ltac:(lra)) as Rd.
    eapply yo_weaken; [apply (scaled_yo n pr Hn HV E T HE HT _ one _ (q - rval y) (sigmoid_shift E) (sub_num1 n Hn s y Hs Hy) H1 HN); [rewrite Rd; replace (rval s - rval y - (q - rval y)) with (rval s - q) by ring; exact Bs|rewrite Rd; lra|rewrite R1, Rabs_R1; lra]|].
    intros z [Nz Bz]. split; [exact Nz|]. unfold gradient_error in Bz. rewrite R1, Rabs_R1 in Bz. rewrite Rmult_1_l in Bz. change (unit_error E) with eta in Bz. lra.
  Qed.
End Numbers.

(** ** Lists and sums *)
Definition nf (th : list R) (j : nat) : R := nth j th 0.
Definition Fx (X : list (list R)) (a j : nat) : R := feature (nth a X []) j.
Lemma su_first k f : su (S k) f = f 0%nat + su k (fun j => f (S j)).
Proof. induction k as [|k IH]; [cbn; ring|]. change (su (S (S k)) f) with (su (S k) f + f (S k)). rewrite IH. cbn [su]. ring. Qed.
Lemma sumr_nth {A} (d : A) f l : sumr (map f l) = su (length l) (fun a => f (nth a l d)).
Proof. induction l as [|a l IH]; [reflexivity|]. cbn [map length]. rewrite sumr_cons, su_first, IH. reflexivity. Qed.
Lemma sumr_seq k f : sumr (map f (seq 0 k)) = su k f.
Proof. rewrite (sumr_nth 0%nat), seq_length. apply su_ext. intros i Hi. now rewrite seq_nth. Qed.
Lemma nth_seq {A} (f : nat -> A) k j d : (j < k)%nat -> nth j (map f (seq 0 k)) d = f j.
Proof. intros H. rewrite (nth_indep _ d (f 0%nat)) by (now rewrite map_length, seq_length). rewrite (map_nth f), seq_nth by exact H. reflexivity. Qed.
Lemma score_sc th X a : score th (nth a X []) = sc (length th) (Fx X) (nf th) a. Proof. apply sumr_seq. Qed.
Lemma slope_gr X Y th j : length X = length Y -> slope X Y th j = gr (length th) (length X) (Fx X) (nf Y) (nf th) j.
Proof.
  intros L. unfold slope, average, gr. rewrite map_length, combine_length, <- L, Nat.min_id, (sumr_nth (@nil R, 0)), combine_length, <- L, Nat.min_id. f_equal. apply su_ext. intros a Ha. rewrite combine_nth by exact L. cbn [fst snd]. now rewrite score_sc.
Qed.
Lemma descend_length r X Y th : length (descend r X Y th) = length th. Proof. unfold descend. now rewrite map_length, seq_length. Qed.
Lemma descend_nth r X Y th j : length X = length Y -> (j < length th)%nat -> nf (descend r X Y th) j = stp (length th) (length X) (Fx X) (nf Y) r (nf th) j.
Proof. intros L J. unfold nf at 1, descend. rewrite nth_seq by exact J. rewrite slope_gr by exact L. reflexivity. Qed.
Lemma descent_length r X Y t th : length (descent r X Y t th) = length th.
Proof. induction t as [|t IH]; [reflexivity|]. change (descent r X Y (S t) th) with (descend r X Y (descent r X Y t th)). now rewrite descend_length. Qed.
Lemma descent_nth r X Y t th : length X = length Y -> forall j, (j < length th)%nat -> nf (descent r X Y t th) j = Nat.iter t (stp (length th) (length X) (Fx X) (nf Y) r) (nf th) j.
Proof.
  intros L. induction t as [|t IH]; intros j J; [reflexivity|]. change (descent r X Y (S t) th) with (descend r X Y (descent r X Y t th)). pose proof (descent_length r X Y t th) as K. rewrite (descend_nth r X Y _ j L) by (now rewrite K). rewrite K. change (Nat.iter (S t) ?f ?x) with (f (Nat.iter t f x)). now apply stp_ext.
Qed.
Lemma square_sum_nth l : square_sum l = su (length l) (fun j => nf l j * nf l j). Proof. apply (sumr_nth 0). Qed.
Lemma distance_d2 u v : length u = length v -> distance u v = sqrt (d2 (length u) (nf u) (nf v)).
Proof.
  intros L. unfold distance. rewrite square_sum_nth. unfold pairwise. rewrite map_length, combine_length, <- L, Nat.min_id. f_equal. apply su_ext. intros j J. unfold nf at 1 2.
  assert (A : nth j (map (fun v0 => fst v0 - snd v0) (combine u v)) 0 = nf u j - nf v j) by (rewrite (nth_indep _ 0 (fst (0, 0) - snd (0, 0))) by (now rewrite map_length, combine_length, <- L, Nat.min_id); rewrite (map_nth (fun v0 => fst v0 - snd v0)), combine_nth by exact L; reflexivity). now rewrite A.
Qed.
Lemma spread_energy k X : Forall (fun x => length x = k) X -> spread X = energy (S k) (length X) (Fx X).
Proof.
  intros F. unfold spread, average, energy. rewrite map_length, (sumr_nth []). f_equal. apply su_ext. intros a Ha. rewrite su_first. unfold Fx at 1 2. unfold feature. cbn [nth]. rewrite Rmult_1_l. f_equal. rewrite square_sum_nth. rewrite Forall_forall in F. rewrite (F _ (nth_In _ _ Ha)). reflexivity.
Qed.
Lemma likelihood_soft z y : likelihood (exact_sigmoid z) y = - (softplus z - y * z).
Proof.
  unfold likelihood, softplus. pose proof (exp_pos z) as P. assert (A : exact_sigmoid z = exp z / (1 + exp z)) by (unfold exact_sigmoid; rewrite exp_Ropp; field; lra). assert (B : 1 - exact_sigmoid z = / (1 + exp z)) by (rewrite A; field; lra). rewrite B, A. unfold Rdiv. rewrite ln_mult, ln_Rinv, ln_exp by (try lra; apply Rinv_0_lt_compat; lra). ring.
Qed.
Lemma logistic_loss_loss X Y th : length X = length Y -> X <> [] -> logistic_loss X Y th = loss (length th) (length X) (Fx X) (nf Y) (nf th).
Proof.
  intros L Ne. unfold logistic_loss, bce_loss, average, loss, pairwise. rewrite map_length, combine_length, map_length, <- L, Nat.min_id. assert (N0 : INR (length X) <> 0) by (apply not_0_INR; destruct X; [congruence|discriminate]).
  rewrite (sumr_nth (exact_sigmoid (score th []), 0)), combine_length, map_length, <- L, Nat.min_id. replace (su (length X) (fun a => softplus (sc (length th) (Fx X) (nf th) a) - nf Y a * sc (length th) (Fx X) (nf th) a)) with (- su (length X) (fun a => likelihood (exact_sigmoid (score th (nth a X []))) (nf Y a))).
  - rewrite <- Ropp_div. unfold Rdiv. f_equal. f_equal. apply su_ext. intros a Ha. rewrite combine_nth by (now rewrite map_length). cbn [fst snd]. now rewrite (map_nth (fun x => exact_sigmoid (score th x))).
  - replace (- su (length X) (fun a => likelihood (exact_sigmoid (score th (nth a X []))) (nf Y a))) with ((-1) * su (length X) (fun a => likelihood (exact_sigmoid (score th (nth a X []))) (nf Y a))) by ring. rewrite <- su_scal. apply su_ext. intros a Ha. rewrite likelihood_soft, <- score_sc. ring.
Qed.
Lemma dot_products x : forall w, length x = length w -> sumr (map product (combine x w)) = su (length x) (fun j => nth j (map rval x) 0 * nth j (map rval w) 0).
Proof. induction x as [|a x IH]; intros [|b w] L; cbn [length] in L; try discriminate; [reflexivity|]. injection L as L. cbn [combine map length]. rewrite sumr_cons, su_first, IH by exact L. reflexivity. Qed.
Lemma score_products b w x : length x = length w -> score (rval b :: map rval w) (map rval x) = rval b + sumr (map product (combine x w)).
Proof. intros L. unfold score. rewrite sumr_seq. cbn [length]. rewrite map_length, su_first, dot_products, L by exact L. unfold feature. cbn [nth]. ring. Qed.
Lemma at_index {A B} (P : A -> B -> Prop) l m d d' : Forall2 P l m -> forall a, (a < length l)%nat -> P (nth a l d) (nth a m d').
Proof. induction 1 as [|x y l m H _ IH]; intros a Ha; [cbn in Ha; lia|]. destruct a as [|a]; [exact H|]. cbn [nth]. apply IH. cbn [length] in Ha. lia. Qed.
Lemma from_index {A B} (P : A -> B -> Prop) d d' l : forall m, length l = length m -> (forall a, (a < length l)%nat -> P (nth a l d) (nth a m d')) -> Forall2 P l m.
Proof. induction l as [|x l IH]; intros [|y m] L H; cbn [length] in L; try discriminate; constructor; [apply (H 0%nat); cbn; lia|apply IH; [lia|]]. intros a Ha. apply (H (S a)). cbn. lia. Qed.

(** ** One epoch *)
(** k features up to M in absolute value, labels between 0 and 1 *)
Definition examples (n k : nat) (M : R) (X : list (list num)) (Y : list num) : Prop :=
  X <> [] /\ length X = length Y /\ (Z.of_nat (length X) <= 2 ^ 20)%Z /\ Forall (fun x => length x = k /\ Forall (num1 n) x /\ Forall (fun v => Rabs (rval v) <= M) x) X /\ Forall (fun y => num1 n y /\ 0 <= rval y <= 1) Y.
Definition linear (n k : nat) (wb : list num * num) : Prop := (1 <= k)%nat /\ length (fst wb) = k /\ Forall (num1 n) (snd wb :: fst wb).
Section Epoch.
  Variables (n : nat) (pr : provider).
  Hypothesis Hn : (0 < n)%nat.
  Hypothesis HV : valid n pr.
  Local Notation num1 := (num1 n).
  Variables (E : Z) (T : bool).
  Hypothesis HE : (E = 1 \/ E = 2)%Z.
  Hypothesis HT : T = true -> n = 1%nat.
  Local Notation eta := (IZR E / 65536).
  Variables (k : nat) (M : R) (rate : Q) (X : list (list num)) (Y : list num).
  Hypothesis HX : examples n k M X Y.
  Hypothesis HM : 1 <= M <= 2 ^ 10.
  Hypothesis Hrate : 0 <= coded rate <= 2 ^ 10.
  Definition Xr : list (list R) := map (map rval) X.
  Definition Yr : list R := map rval Y.
  Definition N : nat := length X.
  Definition delta : R := (sigmoid_shift E + eta / 4) / INR N + 2 * eta.
  Lemma N_ok : 1 <= INR N <= 2 ^ 20.
  Proof using All.
    destruct HX as (Ne & _ & L & _). unfold N. split; [replace 1 with (INR 1) by reflexivity; apply le_INR; destruct X; [congruence|cbn; lia]|now apply short_list].
  Qed.
  Lemma shift_ok : 0 <= sigmoid_shift E <= 27 / 100. Proof using All. clear HT. unfold sigmoid_shift. destruct HE as [-> | ->]; lra. Qed.
  Lemma delta_ok : 0 <= delta /\ INR N * delta = sigmoid_shift E + eta / 4 + 2 * eta * INR N /\ INR N * delta <= 65.
  Proof using All.
    pose proof N_ok as [N1 N2]. pose proof shift_ok as S. pose proof (eta_small E HE) as U. assert (Eq : INR N * delta = sigmoid_shift E + eta / 4 + 2 * eta * INR N) by (unfold delta; field; lra). split; [|split; [exact Eq|]].
    - apply Rmult_le_reg_l with (INR N); [lra|]. rewrite Rmult_0_r, Eq. assert (0 <= eta * INR N) by (apply Rmult_le_pos; lra). lra.
    - rewrite Eq. assert (eta * INR N <= 2 / 65536 * 2 ^ 20) by (apply Rmult_le_compat; lra). lra.
  Qed.
  Section At.
    Variable wb : list num * num.
    Hypothesis HL : linear n k wb.
    Definition th : list R := parameters wb.
    Hypothesis Hs : forall a, (a < N)%nat -> Rabs (score th (nth a Xr [])) <= 255.
    Hypothesis Hp : Forall (fun p => Rabs p <= 2 ^ 21) th.
    (** the label a and its exact derivative *)
    Definition dz (a : nat) : R := (exact_sigmoid (score th (nth a Xr [])) - nth a Yr 0) / INR N.
    Lemma nth_X a : (a < N)%nat -> let x := nth a X [] in length x = k /\ Forall num1 x /\ Forall (fun v => Rabs (rval v) <= M) x /\ nth a Xr [] = map rval x.
    Proof using All.
      intros Ha. destruct HX as (_ & _ & _ & F & _). rewrite Forall_forall in F. destruct (F (nth a X []) (nth_In _ _ Ha)) as (A & B & C). cbv zeta. repeat (split; [assumption|]). unfold Xr. change (@nil R) with (map rval []). apply (map_nth (map rval)).
    Qed.
    Lemma nth_Y a : (a < N)%nat -> num1 (nth a Y nil_num) /\ 0 <= nth a Yr 0 <= 1 /\ rval (nth a Y nil_num) = nth a Yr 0.
    Proof using All.
      intros Ha. destruct HX as (_ & L & _ & _ & F). rewrite Forall_forall in F. unfold N in Ha. rewrite L in Ha. destruct (F (nth a Y nil_num) (nth_In _ _ Ha)) as (A & B). assert (R1 : rval (nth a Y nil_num) = nth a Yr 0) by (unfold Yr; rewrite (nth_indep _ 0 (rval nil_num)) by (now rewrite map_length); symmetry; apply map_nth). rewrite <- R1. tauto.
    Qed.
    Lemma scores_yo : yo T (mapO (scorev (pr := pr) (within E) (fst wb) (snd wb)) X) (fun zs => Forall2 (fun x z => num1 z /\ Rabs (rval z - score th (map rval x)) <= eta) X zs).
    Proof using All.
      apply yo_each. apply Forall_forall. intros x Hx. destruct (In_nth X x [] Hx) as (a & Ha & <-). destruct (nth_X a Ha) as (L & F & _ & Ex). pose proof (Hs a Ha) as S. rewrite Ex in S. set (x := nth a X []) in *. clearbody x. destruct HL as (K1 & Lw & Fp). pose proof (Forall_inv Fp) as Hb. pose proof (Forall_inv_tail Fp) as Hw.
      pose proof (score_products (snd wb) (fst wb) x ltac:(congruence)) as SP. change (rval (snd wb) :: map rval (fst wb)) with th in SP. pose proof (Forall_inv Hp) as Bb. cbv beta in Bb. pose proof (eta_small E HE) as U.
      assert (Bd : Rabs (sumr (map product (combine x (fst wb)))) <= 2 ^ 30). { replace (sumr (map product (combine x (fst wb)))) with (score th (map rval x) + - rval (snd wb)) by (rewrite SP; ring). eapply Rle_trans; [apply Rabs_triang|]. rewrite Rabs_Ropp. lra. }
      unfold scorev. eapply yo_bind; [apply (dot_rval n pr Hn HV E T HE HT (combine x (fst wb)))|].
      - destruct x; [cbn in L; lia|]. destruct (fst wb); [cbn in *; lia|discriminate].
      - clear - F Hw. revert F Hw. generalize (fst wb) as w. induction x as [|p x IH]; intros [|q w] F G; try constructor; inversion F; inversion G; subst; [now split|now apply IH].
      - exact Bd.
      - intros z [Nz Bz]. apply yo_ok. assert (Bz' : Rabs (rval z + rval (snd wb)) <= 256). { replace (rval z + rval (snd wb)) with ((rval z - sumr (map product (combine x (fst wb)))) + score th (map rval x)) by (rewrite SP; ring). eapply Rle_trans; [apply Rabs_triang|]. lra. }
        split; [now apply (add_num1 n Hn)|]. rewrite (add_rval n Hn z (snd wb) 256 Nz Hb Bz' ltac:(lra)), SP. replace (rval z + rval (snd wb) - (rval (snd wb) + sumr (map product (combine x (fst wb))))) with (rval z - sumr (map product (combine x (fst wb)))) by ring. exact Bz.
    Qed.
    Definition grads_near (gs : list num) : Prop := length gs = N /\ Forall num1 gs /\ forall a, (a < N)%nat -> Rabs (rval (nth a gs nil_num) - dz a) <= delta.
    Lemma gradients_ok zs gs : Forall2 (fun x z => num1 z /\ Rabs (rval z - score th (map rval x)) <= eta) X zs ->
      Forall2 (fun v g => num1 g /\ Rabs (rval g - (exact_sigmoid (rval (fst v)) - rval (snd v)) / INR (length Y)) <= sigmoid_shift E / INR (length Y) + 2 * eta) (combine zs Y) gs -> grads_near gs.
    Proof using All.
      intros Fz Fg. pose proof N_ok as [N1 _]. destruct HX as (_ & L & _ & _ & _). rewrite <- L in Fg. fold N in Fg. pose proof (same_length _ _ _ Fz) as Lz. pose proof (same_length _ _ _ Fg) as Lg. rewrite combine_length, <- Lz, <- L, Nat.min_id in Lg. fold N in Lg. split; [now symmetry|]. split.
      - clear - Fg. induction Fg as [|v g l gs [H _] _ IH]; constructor; assumption.
      - intros a Ha. pose proof (at_index _ _ _ [] nil_num Fz a Ha) as [_ Bz]. assert (Ha' : (a < length (combine zs Y))%nat) by (rewrite combine_length, <- Lz, <- L, Nat.min_id; exact Ha).
        pose proof (at_index _ _ _ (nil_num, nil_num) nil_num Fg a Ha') as [_ Bg]. rewrite combine_nth in Bg by congruence. cbn [fst snd] in Bg. destruct (nth_Y a Ha) as (_ & _ & Ry). rewrite Ry in Bg. destruct (nth_X a Ha) as (_ & _ & _ & Ex). rewrite <- Ex in Bz. unfold dz, delta. set (z := rval (nth a zs nil_num)) in *. set (s := score th (nth a Xr [])) in *. set (g := rval (nth a gs nil_num)) in *. clearbody z s g.
        replace (g - (exact_sigmoid s - nth a Yr 0) / INR N) with ((g - (exact_sigmoid z - nth a Yr 0) / INR N) + (exact_sigmoid z - exact_sigmoid s) / INR N) by (field; lra). eapply Rle_trans; [apply Rabs_triang|].
        assert (Rabs ((exact_sigmoid z - exact_sigmoid s) / INR N) <= eta / 4 / INR N). { unfold Rdiv at 1. rewrite Rabs_mult, (Rabs_right (/ INR N)) by (left; apply Rinv_0_lt_compat; lra). apply Rmult_le_compat_r; [left; apply Rinv_0_lt_compat; lra|]. pose proof (sg_near z s). lra. }
        replace ((sigmoid_shift E + eta / 4) / INR N + 2 * eta) with (sigmoid_shift E / INR N + 2 * eta + eta / 4 / INR N) by (field; lra). lra.
    Qed.
    Lemma dz_small a : (a < N)%nat -> Rabs (dz a) <= 1 / INR N.
    Proof using All.
      intros Ha. pose proof N_ok as [N1 _]. destruct (nth_Y a Ha) as (_ & Y01 & _). pose proof (sg_01 (score th (nth a Xr []))) as S. unfold dz, Rdiv. rewrite Rabs_mult, (Rabs_right (/ INR N)) by (left; apply Rinv_0_lt_compat; lra). apply Rmult_le_compat_r; [left; apply Rinv_0_lt_compat; lra|]. apply Rabs_le. lra.
    Qed.
    (** a sum of gradients with weights up to M *)
    Lemma weighted_sum gs f : grads_near gs -> (forall a, (a < N)%nat -> Rabs (f a) <= M) ->
      Rabs (su N (fun a => f a * rval (nth a gs nil_num)) - su N (fun a => f a * dz a)) <= M * (INR N * delta) /\ Rabs (su N (fun a => f a * rval (nth a gs nil_num))) <= 2 ^ 17.
    Proof using All.
      intros (_ & _ & B) Hf. pose proof N_ok as [N1 N2]. destruct delta_ok as (D0 & _ & D2).
      assert (A : Rabs (su N (fun a => f a * rval (nth a gs nil_num)) - su N (fun a => f a * dz a)) <= M * (INR N * delta)).
      { rewrite <- su_minus. eapply Rle_trans; [apply su_abs|]. replace (M * (INR N * delta)) with (INR N * (M * delta)) by ring. rewrite <- su_const. apply su_le. intros a Ha. replace (f a * rval (nth a gs nil_num) - f a * dz a) with (f a * (rval (nth a gs nil_num) - dz a)) by ring. rewrite Rabs_mult. apply Rmult_le_compat; try apply Rabs_pos; [now apply Hf|now apply B]. }
      split; [exact A|]. assert (C : Rabs (su N (fun a => f a * dz a)) <= M).
      { eapply Rle_trans; [apply su_abs|]. replace M with (INR N * (M * (1 / INR N))) by (field; lra). rewrite <- su_const. apply su_le. intros a Ha. rewrite Rabs_mult. apply Rmult_le_compat; try apply Rabs_pos; [now apply Hf|now apply dz_small]. }
      replace (su N (fun a => f a * rval (nth a gs nil_num))) with ((su N (fun a => f a * rval (nth a gs nil_num)) - su N (fun a => f a * dz a)) + su N (fun a => f a * dz a)) by ring. eapply Rle_trans; [apply Rabs_triang|]. assert (M * (INR N * delta) <= 2 ^ 10 * 65) by (apply Rmult_le_compat; try lra; apply Rmult_le_pos; lra). lra.
    Qed.
    Lemma slope_dz j : slope Xr Yr th j = su N (fun a => feature (nth a Xr []) j * dz a).
    Proof using All.
      pose proof N_ok as [N1 _]. destruct HX as (_ & L & _ & _ & _). assert (LX : length Xr = N) by apply map_length. rewrite slope_gr by (unfold Xr, Yr; now rewrite !map_length). unfold gr. rewrite LX. unfold Rdiv. rewrite Rmult_comm, <- su_scal. apply su_ext. intros a Ha. unfold dz. rewrite score_sc. unfold Fx, nf, Rdiv. ring.
    Qed.
    Definition slope_near (j : nat) (z : num) : Prop := num1 z /\ Rabs (rval z - slope Xr Yr th j) <= M * (INR N * delta) + eta /\ Rabs (rval z) <= 2 ^ 18.
    Lemma dw_yo gs : grads_near gs -> yo T (mapO (fun i => dotv (pr := pr) (within E) (combine (column X i) gs)) (seq 0 k)) (fun zs => Forall2 (fun i z => slope_near (S i) z) (seq 0 k) zs).
    Proof using All.
      intros G. apply yo_each. apply Forall_forall. intros i Hi. apply in_seq in Hi. pose proof N_ok as [N1 _]. pose proof (eta_small E HE) as U. destruct G as (Lg & Fg & Bg). assert (G : grads_near gs) by (split; [exact Lg|split; assumption]).
      assert (Lc : length (column X i) = length gs) by (unfold column; rewrite map_length, Lg; reflexivity).
      assert (Ec : forall a, (a < N)%nat -> nth a (column X i) nil_num = nth i (nth a X []) nil_num). { intros a Ha. unfold column. rewrite (nth_indep _ nil_num ((fun x => nth i x nil_num) [])) by (now rewrite map_length). apply (map_nth (fun x => nth i x nil_num)). }
      assert (Fc : forall a, (a < N)%nat -> num1 (nth i (nth a X []) nil_num) /\ rval (nth i (nth a X []) nil_num) = feature (nth a Xr []) (S i) /\ Rabs (feature (nth a Xr []) (S i)) <= M).
      { intros a Ha. destruct (nth_X a Ha) as (Lx & F1 & F2 & Ex). set (x := nth a X []) in *. assert (Ix : In (nth i x nil_num) x) by (apply nth_In; lia). rewrite Forall_forall in F1, F2. assert (R1 : rval (nth i x nil_num) = feature (nth a Xr []) (S i)) by (rewrite Ex; unfold feature; cbn [nth]; rewrite (nth_indep _ 0 (rval nil_num)) by (rewrite map_length; lia); symmetry; apply map_nth). split; [now apply F1|]. split; [exact R1|]. rewrite <- R1. now apply F2. }
      assert (Es : sumr (map product (combine (column X i) gs)) = su N (fun a => feature (nth a Xr []) (S i) * rval (nth a gs nil_num))).
      { rewrite (sumr_nth (nil_num, nil_num)), combine_length, <- Lc, Nat.min_id, Lc, Lg. apply su_ext. intros a Ha. rewrite combine_nth by exact Lc. unfold product. cbn [fst snd]. rewrite Ec by exact Ha. destruct (Fc a Ha) as (_ & -> & _). reflexivity. }
      destruct (weighted_sum gs (fun a => feature (nth a Xr []) (S i)) G (fun a Ha => proj2 (proj2 (Fc a Ha)))) as [W1 W2].
      eapply yo_weaken; [apply (dot_rval n pr Hn HV E T HE HT (combine (column X i) gs))|].
      - intros Z. apply (f_equal (@length _)) in Z. rewrite combine_length, <- Lc, Nat.min_id, Lc, Lg in Z. cbn in Z. rewrite Z in N1. cbn in N1. lra.
      - apply Forall_forall. intros v Hv. destruct (In_nth _ v (nil_num, nil_num) Hv) as (a & Ha & <-). rewrite combine_length, <- Lc, Nat.min_id, Lc, Lg in Ha. rewrite combine_nth by exact Lc. split; cbn [fst snd]; [rewrite Ec by exact Ha; apply Fc, Ha|]. rewrite Forall_forall in Fg. apply Fg, nth_In. now rewrite Lg.
      - rewrite Es. lra.
      - rewrite Es. intros z [Nz Bz]. split; [exact Nz|]. rewrite slope_dz. split.
        + replace (rval z - su N (fun a => feature (nth a Xr []) (S i) * dz a)) with ((rval z - su N (fun a => feature (nth a Xr []) (S i) * rval (nth a gs nil_num))) + (su N (fun a => feature (nth a Xr []) (S i) * rval (nth a gs nil_num)) - su N (fun a => feature (nth a Xr []) (S i) * dz a))) by ring. eapply Rle_trans; [apply Rabs_triang|]. lra.
        + replace (rval z) with ((rval z - su N (fun a => feature (nth a Xr []) (S i) * rval (nth a gs nil_num))) + su N (fun a => feature (nth a Xr []) (S i) * rval (nth a gs nil_num))) by ring. eapply Rle_trans; [apply Rabs_triang|]. lra.
    Qed.
    Lemma db_ok gs : grads_near gs -> slope_near 0 (sum_num gs).
    Proof using All.
      intros G. pose proof N_ok as [N1 _]. pose proof (eta_small E HE) as U. destruct (weighted_sum gs (fun _ => 1) G) as [W1 W2]; [intros; rewrite Rabs_R1; lra|]. destruct G as (Lg & Fg & Bg). assert (Ne : gs <> []) by (intros ->; cbn in Lg; rewrite <- Lg in N1; cbn in N1; lra).
      assert (Es : sumr (map rval gs) = su N (fun a => 1 * rval (nth a gs nil_num))) by (rewrite (sumr_nth nil_num), Lg; apply su_ext; intros; ring).
      assert (Rs : rval (sum_num gs) = su N (fun a => 1 * rval (nth a gs nil_num))) by (rewrite (sum_rval n Hn gs (2 ^ 17) Ne Fg); [exact Es|rewrite Es; exact W2|lra]).
      split; [now apply (sum_num1 n Hn)|]. rewrite Rs, slope_dz. split; [|lra]. rewrite (su_ext N (fun a => feature (nth a Xr []) 0 * dz a) (fun a => 1 * dz a)) by (intros; reflexivity). lra.
    Qed.
    Definition step_near (j : nat) (z : num) : Prop := num1 z /\ Rabs (rval z - (nth j th 0 - coded rate * slope Xr Yr th j)) <= step_error E N M (coded rate).
    Lemma update_yo j p g : num1 p -> rval p = nth j th 0 -> Rabs (rval p) <= 2 ^ 21 -> slope_near j g -> yo T (updatev (pr := pr) 65536 (within E) rate p g) (step_near j).
    Proof using All.
      intros Np Rp Bp (Ng & Bg & Sg). pose proof (eta_small E HE) as U. unfold updatev. fold (coded rate) in *. assert (P : Rabs (rval g * (IZR (encodeQ 65536 rate) / 65536)) <= 2 ^ 28) by (fold (coded rate); rewrite Rabs_mult, (Rabs_right (coded rate)) by lra; replace (2 ^ 28) with (2 ^ 18 * 2 ^ 10) by ring; apply Rmult_le_compat; try lra; apply Rabs_pos).
      eapply yo_bind; [apply (mulp_rval n pr Hn HV E T HE HT g (encodeQ 65536 rate) Ng); lra|]. fold (coded rate) in *. intros u [Nu Bu]. apply yo_ok.
      assert (Bd : Rabs (rval p - rval u) <= 2 ^ 30). { replace (rval p - rval u) with (rval p + - ((rval u - rval g * coded rate) + rval g * coded rate)) by ring. eapply Rle_trans; [apply Rabs_triang|]. rewrite Rabs_Ropp. pose proof (Rabs_triang (rval u - rval g * coded rate) (rval g * coded rate)). lra. }
      split; [now apply (sub_num1 n Hn)|]. rewrite (sub_rval n Hn p u (2 ^ 30) Np Nu Bd ltac:(lra)), Rp. destruct delta_ok as (_ & Dq & _).
      replace (nth j th 0 - rval u - (nth j th 0 - coded rate * slope Xr Yr th j)) with (- ((rval u - rval g * coded rate) + coded rate * (rval g - slope Xr Yr th j))) by ring. rewrite Rabs_Ropp. eapply Rle_trans; [apply Rabs_triang|]. rewrite Rabs_mult, (Rabs_right (coded rate)) by lra.
      assert (coded rate * Rabs (rval g - slope Xr Yr th j) <= coded rate * (M * (INR N * delta) + eta)) by (apply Rmult_le_compat_l; lra). unfold step_error. change (unit_error E) with eta. rewrite <- Dq. lra.
    Qed.
    Lemma epoch_yo : yo T (epochv (pr := pr) 65536 (within E) 8 8 8 2 rate X Y wb) (fun o => linear n k (snd o) /\ forall j, (j <= k)%nat -> Rabs (nth j (parameters (snd o)) 0 - nth j (descend (coded rate) Xr Yr th) 0) <= step_error E N M (coded rate)).
    Proof using All.
      pose proof N_ok as [N1 N2]. pose proof (eta_small E HE) as U. assert (Hl := HL). destruct Hl as (K1 & Lw & Fp). pose proof (Forall_inv Fp) as Hb. pose proof (Forall_inv_tail Fp) as Hw. assert (HXX := HX). destruct HXX as (NeX & LXY & _ & _ & FY). unfold epochv.
      eapply yo_bind; [apply scores_yo|]. intros zs Fz. pose proof (same_length _ _ _ Fz) as Lz. assert (Nz : zs <> []) by (intros Z; apply NeX, length_zero_iff_nil; rewrite Lz, Z; reflexivity).
      assert (FzY : Forall2 (fun z y => num1 z /\ num1 y /\ Rabs (rval z) <= 256) zs Y).
      { apply (from_index _ nil_num nil_num); [congruence|]. intros a Ha. rewrite <- Lz in Ha. pose proof (at_index _ _ _ [] nil_num Fz a Ha) as [A B]. destruct (nth_X a Ha) as (_ & _ & _ & Ex). rewrite <- Ex in B. pose proof (Hs a Ha) as S. split; [exact A|]. split; [apply nth_Y, Ha|]. replace (rval (nth a zs nil_num)) with ((rval (nth a zs nil_num) - score th (nth a Xr [])) + score th (nth a Xr [])) by ring. eapply Rle_trans; [apply Rabs_triang|]. lra. }
      eapply yo_bind; [apply (forward_yo n pr Hn HV E T HE HT zs Y Nz FzY)|]. intros [ss l] Fs. cbn [fst snd] in *.
      eapply yo_bind; [apply (ones_yo n pr Hn HV T)|]. intros one [H1 R1].
      eapply yo_bind; [apply (backward_yo n pr Hn HV E T HE HT one zs ss Y H1 R1 Nz Fs)|].
      { apply (from_index _ nil_num nil_num); [congruence|]. intros a Ha. rewrite <- Lz in Ha. destruct (nth_Y a Ha) as (A & B & C). split; [exact A|]. rewrite C. exact B. }
      cbv zeta. intros gs Fg. pose proof (gradients_ok zs gs Fz Fg) as G. clear Fg.
      eapply (yo_bind _ _ _ (fun _ => True)).
      { eapply yo_weaken; [apply (yo_each T _ (fun _ _ => True))|intros; exact I]. destruct G as (_ & Fg & _). eapply Forall_impl; [|exact Fg]. intros g Hg. eapply yo_weaken; [apply (yo_each T _ (fun _ _ => True))|intros; exact I]. eapply Forall_impl; [|exact Hw]. intros w Hw1. eapply yo_weaken; [apply (dot_any n pr Hn HV E T HE HT [(g, w)]); [discriminate|constructor; [split; assumption|constructor]]|intros; exact I]. }
      intros _ _. rewrite Lw. eapply yo_bind; [apply (dw_yo gs G)|]. intros dw Fd.
      assert (Bp : forall j, (j <= k)%nat -> Rabs (nth j th 0) <= 2 ^ 21). { intros j J. rewrite Forall_forall in Hp. apply Hp, nth_In. unfold th, parameters. cbn [length]. rewrite map_length. lia. }
      assert (Fw : Forall2 (fun i w => num1 w /\ rval w = nth (S i) th 0) (seq 0 k) (fst wb)).
      { apply (from_index _ 0%nat nil_num); [now rewrite seq_length|]. intros a Ha. rewrite seq_length in Ha. rewrite seq_nth by exact Ha. cbn [Nat.add]. split; [rewrite Forall_forall in Hw; apply Hw, nth_In; lia|]. unfold th, parameters. cbn [nth]. rewrite (nth_indep _ 0 (rval nil_num)) by (rewrite map_length; lia). symmetry. apply map_nth. }
      eapply yo_bind; [apply (yo_via pr T _ _ _ (fun v z => step_near (S (fst v)) z) _ _ _ Fw Fd)|].
      { intros i w g [Nw Rw] Sg. cbn [fst]. destruct (le_lt_dec k i) as [Hi|Hi].
        - (* not an index *) apply (update_yo (S i) w g Nw Rw); [rewrite Rw, nth_overflow by (unfold th, parameters; cbn [length]; rewrite map_length; lia); rewrite Rabs_R0; lra|exact Sg].
        - apply (update_yo (S i) w g Nw Rw); [rewrite Rw; apply Bp; lia|exact Sg]. }
      intros w' Fw'. eapply yo_bind; [apply (update_yo 0 (snd wb) (sum_num gs) Hb eq_refl (Bp 0%nat ltac:(lia)) (db_ok gs G))|]. intros b' [Nb Bb]. apply yo_ok. cbn [fst snd].
      assert (Ld : length (combine (seq 0 k) dw) = k) by (rewrite combine_length, <- (same_length _ _ _ Fd), seq_length; apply Nat.min_id). pose proof (same_length _ _ _ Fw') as Lw'. rewrite Ld in Lw'.
      split.
      - split; [exact K1|]. split; [cbn [fst]; congruence|]. cbn [fst snd]. constructor; [exact Nb|]. clear - Fw'. induction Fw' as [|v z l w [H _] _ IH]; constructor; assumption.
      - intros j J. assert (Ld' : (j < length th)%nat) by (unfold th, parameters; cbn [length]; rewrite map_length; lia). unfold descend. rewrite nth_seq by exact Ld'. unfold parameters. cbn [fst snd]. destruct j as [|j]; [cbn [nth]; exact Bb|]. cbn [nth]. rewrite (nth_indep _ 0 (rval nil_num)) by (rewrite map_length; lia). rewrite map_nth.
        pose proof (at_index _ _ _ (0%nat, nil_num) nil_num Fw' j ltac:(lia)) as [_ B]. rewrite combine_nth in B by (now rewrite <- (same_length _ _ _ Fd)). cbn [fst] in B. rewrite seq_nth in B by lia. exact B.
    Qed.
  End At.
End Epoch.

(** ** Training *)
(** the exact descent stays where the sigmoid is accurate and nothing leaves the fixed-point range *)
Definition moderate (r : R) (X : list (list R)) (Y : list R) (t : nat) (th : list R) : Prop :=
  forall s, (s < t)%nat -> Forall (fun x => Rabs (score (descent r X Y s th) x) <= 200) X /\ Forall (fun p => Rabs p <= 2 ^ 20) (descent r X Y s th).
Section Train.
  Variables (n : nat) (pr : provider).
  Hypothesis Hn : (0 < n)%nat.
  Hypothesis HV : valid n pr.
  Variables (E : Z) (T : bool).
  Hypothesis HE : (E = 1 \/ E = 2)%Z.
  Hypothesis HT : T = true -> n = 1%nat.
  Variables (k : nat) (M : R) (rate : Q) (X : list (list num)) (Y : list num).
  Hypothesis HX : examples n k M X Y.
  Hypothesis HM : 1 <= M <= 2 ^ 10.
  Hypothesis Hrate : 0 <= coded rate <= 2 ^ 10.
  Local Notation Xs := (map (map rval) X).
  Local Notation Ys := (map rval Y).
  Local Notation r := (coded rate).
  Local Notation eps := (step_error E (length X) M r).
  Local Notation m := (S k).
  Lemma rows_length : Forall (fun x => length x = k) Xs.
  Proof using HX. destruct HX as (_ & _ & _ & F & _). apply Forall_forall. intros x Hx. apply in_map_iff in Hx. destruct Hx as (x' & <- & Hx). rewrite map_length. rewrite Forall_forall in F. apply (F x' Hx). Qed.
  Lemma same_count : length Xs = length Ys. Proof using HX. destruct HX as (_ & L & _). now rewrite !map_length. Qed.
  Lemma some_count : (0 < length Xs)%nat. Proof using HX. destruct HX as (Ne & _). rewrite map_length. destruct X; [congruence|cbn; clear; lia]. Qed.
  Lemma small_features a j : (a < length Xs)%nat -> (j < m)%nat -> Rabs (Fx Xs a j) <= M.
  Proof using HX HM.
    intros Ha Hj. rewrite map_length in Ha. destruct HX as (_ & _ & _ & F & _). rewrite Forall_forall in F. destruct (F _ (nth_In _ [] Ha)) as (L & _ & B). unfold Fx, feature. change (@nil R) with (map rval []). rewrite (map_nth (map rval)). destruct j as [|j]; cbn [nth]; [rewrite Rabs_R1; lra|].
    rewrite (nth_indep _ 0 (rval nil_num)) by (rewrite map_length, L; clear - Hj; lia). rewrite map_nth. rewrite Forall_forall in B. apply B, nth_In. clear - Hj L. lia.
  Qed.
  Lemma labels a : (a < length Xs)%nat -> 0 <= nf Ys a <= 1.
  Proof using HX. intros Ha. destruct HX as (_ & L & _ & _ & F). rewrite map_length, L in Ha. unfold nf. rewrite (nth_indep _ 0 (rval nil_num)) by (now rewrite map_length). rewrite map_nth. rewrite Forall_forall in F. apply (F _ (nth_In _ nil_num Ha)). Qed.
  Lemma eps_pos : 0 <= eps.
  Proof using HE HM Hrate. unfold step_error. assert (0 < unit_error E) by (unfold unit_error; clear HT; destruct HE as [-> | ->]; lra). assert (0 <= sigmoid_shift E) by (unfold sigmoid_shift; clear HT; destruct HE as [-> | ->]; lra). pose proof (pos_INR (length X)). assert (0 <= 2 * unit_error E * INR (length X)) by (apply Rmult_le_pos; lra). assert (0 <= r * (M * (sigmoid_shift E + unit_error E / 4 + 2 * unit_error E * INR (length X)) + unit_error E)) by (apply Rmult_le_pos; [lra|]; assert (0 <= M * (sigmoid_shift E + unit_error E / 4 + 2 * unit_error E * INR (length X))) by (apply Rmult_le_pos; lra); lra). lra. Qed.
  Lemma linear_length wb : linear n k wb -> length (parameters wb) = m. Proof using. intros (_ & L & _). unfold parameters. cbn [length]. now rewrite map_length, L. Qed.
  Hypothesis Hspread : r * spread Xs <= 8.
  Variables (wb0 : list num * num) (t0 : nat).
  Hypothesis H0 : linear n k wb0.
  Hypothesis Hmod : moderate r Xs Ys t0 (parameters wb0).
  Hypothesis Hclose : M * INR m * INR t0 * eps <= 50.
  Local Notation at_ s := (descent r Xs Ys s (parameters wb0)).
  Definition on_track (s : nat) (wb : list num * num) : Prop := linear n k wb /\ distance (parameters wb) (at_ s) <= INR s * sqrt (INR m) * eps.
  Lemma m_root : 1 <= sqrt (INR m) /\ sqrt (INR m) * sqrt (INR m) = INR m.
  Proof using. split; [|apply sqrt_sqrt, pos_INR]. rewrite <- sqrt_1. apply sqrt_le_1_alt. rewrite S_INR. pose proof (pos_INR k). lra. Qed.
  Lemma drift s : (s <= t0)%nat -> 0 <= INR s * sqrt (INR m) * eps /\ M * sqrt (INR m) * (INR s * sqrt (INR m) * eps) <= 50 /\ INR s * sqrt (INR m) * eps <= 50.
  Proof using HE HM Hrate Hclose.
    intros Hs. apply le_INR in Hs. pose proof eps_pos as P. pose proof (pos_INR s) as Ps. destruct m_root as [R1 R2].
    assert (A : M * sqrt (INR m) * (INR s * sqrt (INR m) * eps) <= 50). { replace (M * sqrt (INR m) * (INR s * sqrt (INR m) * eps)) with (M * (sqrt (INR m) * sqrt (INR m)) * INR s * eps) by ring. rewrite R2. apply Rle_trans with (2 := Hclose). apply Rmult_le_compat_r; [exact P|]. apply Rmult_le_compat_l; [apply Rmult_le_pos; [lra|apply pos_INR]|exact Hs]. }
    assert (B : 0 <= INR s * sqrt (INR m) * eps) by (apply Rmult_le_pos; [apply Rmult_le_pos|]; lra). split; [exact B|]. split; [exact A|].
    apply Rle_trans with (2 := A). rewrite <- (Rmult_1_l (INR s * sqrt (INR m) * eps)) at 1. apply Rmult_le_compat_r; [exact B|]. rewrite <- (Rmult_1_l 1). apply Rmult_le_compat; lra.
  Qed.
  Lemma one_step s wb : (s < t0)%nat -> on_track s wb -> yo T (epochv (pr := pr) 65536 (within E) 8 8 8 2 rate X Y wb) (fun o => on_track (S s) (snd o)).
  Proof using Hn HV HE HT HX HM Hrate Hspread H0 Hmod Hclose.
    intros Hs [HL HD]. pose proof (linear_length wb HL) as Lw. pose proof (linear_length wb0 H0) as L0. pose proof (descent_length r Xs Ys s (parameters wb0)) as Ls. rewrite L0 in Ls. destruct (drift s ltac:(clear - Hs; lia)) as (D0 & D1 & D2). destruct (Hmod s Hs) as [Ms Mp]. pose proof same_count as LXY.
    rewrite (distance_d2 (parameters wb) (at_ s) (eq_trans Lw (eq_sym Ls))), Lw in HD. set (u := parameters wb) in *. set (v := at_ s) in *.
    assert (S1 : forall a, (a < length X)%nat -> Rabs (score u (nth a Xs [])) <= 255).
    { intros a Ha. rewrite Forall_forall in Ms. assert (Ha' : (a < length Xs)%nat) by (now rewrite map_length). pose proof (Ms _ (nth_In _ [] Ha')) as B. cbv beta in B. rewrite score_sc in B |- *. rewrite Lw. rewrite Ls in B. pose proof (sc_step m (Fx Xs) (nf u) (nf v) M a ltac:(lra) (fun j Hj => small_features a j Ha' Hj)) as C.
      assert (M * sqrt (INR m) * sqrt (d2 m (nf u) (nf v)) <= M * sqrt (INR m) * (INR s * sqrt (INR m) * eps)) by (apply Rmult_le_compat_l; [apply Rmult_le_pos; [lra|apply sqrt_pos]|exact HD]).
      replace (sc m (Fx Xs) (nf u) a) with ((sc m (Fx Xs) (nf u) a - sc m (Fx Xs) (nf v) a) + sc m (Fx Xs) (nf v) a) by ring. eapply Rle_trans; [apply Rabs_triang|]. lra. }
    assert (S2 : Forall (fun p => Rabs p <= 2 ^ 21) u).
    { apply Forall_forall. intros p Hp. destruct (In_nth u p 0 Hp) as (j & Hj & <-). rewrite Lw in Hj. pose proof (d2_coordinate m (nf u) (nf v) j Hj) as C. rewrite Forall_forall in Mp. assert (Hj' : (j < length v)%nat) by (now rewrite Ls). pose proof (Mp _ (nth_In _ 0 Hj')) as B. cbv beta in B. fold (nf v j) in B. fold (nf u j). replace (nf u j) with ((nf u j - nf v j) + nf v j) by ring. eapply Rle_trans; [apply Rabs_triang|]. lra. }
    eapply yo_weaken; [apply (epoch_yo n pr Hn HV E T HE HT k M rate X Y HX HM Hrate wb HL S1 S2)|]. unfold Xr, Yr, N, th. fold u. intros [l wb'] [HL' HB]. cbn [snd] in *. split; [exact HL'|]. pose proof (linear_length wb' HL') as Lw'. change (at_ (S s)) with (descend r Xs Ys v).
    rewrite distance_d2 by (rewrite descend_length; congruence). rewrite Lw'. pose proof (descend_length r Xs Ys u) as Lu. destruct m_root as [R1 _].
    assert (A1 : sqrt (d2 m (nf (parameters wb')) (nf (descend r Xs Ys u))) <= sqrt (INR m) * eps) by (apply d2_small; [exact eps_pos|]; intros j Hj; apply HB; clear - Hj; lia).
    assert (A2 : sqrt (d2 m (nf (descend r Xs Ys u)) (nf (descend r Xs Ys v))) <= sqrt (d2 m (nf u) (nf v))).
    { apply sqrt_le_1_alt. pose proof (stp_shrinks m (length Xs) (Fx Xs) (nf Ys) r some_count (proj1 Hrate) (nf u) (nf v)) as K. rewrite <- (spread_energy k Xs rows_length) in K. specialize (K Hspread). apply Rle_trans with (2 := K). right. apply su_ext. intros j Hj. rewrite !descend_nth by (try exact LXY; rewrite ?Lw, ?Ls; exact Hj). now rewrite Lw, Ls. }
    pose proof (d2_triangle m (nf (parameters wb')) (nf (descend r Xs Ys u)) (nf (descend r Xs Ys v))) as Tr. rewrite S_INR. lra.
  Qed.
  Lemma train_from t : forall s wb, (s + t <= t0)%nat -> on_track s wb -> yo T (trainv (pr := pr) 65536 (within E) 8 8 8 2 rate X Y t wb) (fun o => length (fst o) = t /\ on_track (s + t) (snd o)).
  Proof using Hn HV HE HT HX HM Hrate Hspread H0 Hmod Hclose.
    induction t as [|t IH]; intros s wb Hs HW; cbn [trainv]; [apply yo_ok; cbn [fst snd length]; rewrite Nat.add_0_r; now split|].
    eapply yo_bind; [apply (one_step s wb ltac:(clear - Hs; lia) HW)|]. intros [l wb'] H'. cbn [fst snd] in *. eapply yo_bind; [apply (IH (S s) wb' ltac:(clear - Hs; lia) H')|]. intros [ls wb''] [Lq Hq]. apply yo_ok. cbn [fst snd length] in *. split; [now rewrite Lq|]. now replace (s + S t)%nat with (S s + t)%nat by (clear; lia).
  Qed.
  Lemma train_yo : yo T (trainv (pr := pr) 65536 (within E) 8 8 8 2 rate X Y t0 wb0) (fun o => length (fst o) = t0 /\ on_track t0 (snd o)).
  Proof using Hn HV HE HT HX HM Hrate Hspread H0 Hmod Hclose.
    apply (train_from t0 0 wb0 (le_n _)). split; [exact H0|]. change (at_ 0) with (parameters wb0). rewrite distance_d2 by reflexivity. assert (A : d2 (length (parameters wb0)) (nf (parameters wb0)) (nf (parameters wb0)) = 0) by (unfold d2; rewrite (su_ext _ _ (fun _ => 0)) by (intros; ring); rewrite su_const; ring). rewrite A, sqrt_0. cbn [INR]. lra.
  Qed.
  Lemma loss_bound wb v : on_track t0 wb -> (0 < t0)%nat -> 0 < r -> r * spread Xs <= 4 -> length v = m ->
    logistic_loss Xs Ys (parameters wb) <= logistic_loss Xs Ys v + (distance (parameters wb0) v) ^ 2 / (2 * r * INR t0) + M * INR m * INR t0 * eps.
  Proof using HE HX HM Hrate H0.
    intros [HL HD] Ht Hr H4 Lv. pose proof (linear_length wb HL) as Lw. pose proof (linear_length wb0 H0) as L0. pose proof (descent_length r Xs Ys t0 (parameters wb0)) as Ls. rewrite L0 in Ls. pose proof same_count as LXY. assert (Ne : Xs <> []) by (pose proof some_count as H; intros Z; rewrite Z in H; clear - H; cbn in H; lia).
    rewrite (distance_d2 (parameters wb0) v) by congruence. rewrite (distance_d2 (parameters wb) (at_ t0) (eq_trans Lw (eq_sym Ls))), Lw in HD. rewrite !logistic_loss_loss by assumption. rewrite Lw, Lv, L0. set (u := nf (parameters wb)) in *. set (z := nf (at_ t0)) in *.
    pose proof (loss_step m (length Xs) (Fx Xs) (nf Ys) some_count u z M ltac:(lra) small_features labels) as A. pose proof (Rle_abs (loss m (length Xs) (Fx Xs) (nf Ys) u - loss m (length Xs) (Fx Xs) (nf Ys) z)) as A'.
    pose proof (converges m (length Xs) (Fx Xs) (nf Ys) r some_count (proj1 Hrate) (nf (parameters wb0)) (nf v) t0) as C. rewrite <- (spread_energy k Xs rows_length) in C. specialize (C H4). rewrite <- (loss_ext m (length Xs) (Fx Xs) (nf Ys) z) in C by (intros j Hj; unfold z; rewrite descent_nth by (try exact LXY; rewrite L0; exact Hj); now rewrite L0).
    destruct m_root as [R1 R2]. assert (B : M * sqrt (INR m) * sqrt (d2 m u z) <= M * INR m * INR t0 * eps). { replace (M * INR m * INR t0 * eps) with (M * sqrt (INR m) * (INR t0 * sqrt (INR m) * eps)) by (rewrite <- R2 at 3; ring). apply Rmult_le_compat_l; [apply Rmult_le_pos; lra|exact HD]. }
    apply lt_INR in Ht. cbn [INR] in Ht. assert (K : 0 < 2 * r * INR t0) by (apply Rmult_lt_0_compat; lra). pose proof (d2_pos m (Nat.iter t0 (stp m (length Xs) (Fx Xs) (nf Ys) r) (nf (parameters wb0))) (nf v)) as DP.
    rewrite (pow2_sqrt (d2 m (nf (parameters wb0)) (nf v))) by apply d2_pos. assert (Q : loss m (length Xs) (Fx Xs) (nf Ys) z - loss m (length Xs) (Fx Xs) (nf Ys) (nf v) <= d2 m (nf (parameters wb0)) (nf v) / (2 * r * INR t0)). { apply Rmult_le_reg_l with (2 * r * INR t0); [exact K|]. replace (2 * r * INR t0 * (d2 m (nf (parameters wb0)) (nf v) / (2 * r * INR t0))) with (d2 m (nf (parameters wb0)) (nf v)) by (field; lra). lra. }
    lra.
  Qed.
End Train.
(** C112: a sufficient condition on the start for [moderate]: parameters up to B, and (k + 1) M (B + r M t) at most 200. *)
Lemma k_C112_moderate r X Y t th M B : 0 <= r -> 1 <= M -> X <> [] -> length X = length Y -> Forall (Forall (fun v => Rabs v <= M)) X -> Forall (fun y => 0 <= y <= 1) Y -> Forall (fun p => Rabs p <= B) th -> th <> [] ->
  INR (length th) * (M * (B + r * M * INR t)) <= 200 -> moderate r X Y t th.
Proof.
  intros Hr HM Ne L FX FY Fp Nt HB. assert (HF : forall a j, (a < length X)%nat -> Rabs (Fx X a j) <= M).
  { intros a j Ha. unfold Fx, feature. destruct j as [|j]; cbn [nth]; [rewrite Rabs_R1; lra|]. rewrite Forall_forall in FX. pose proof (FX _ (nth_In _ [] Ha)) as F. destruct (Nat.lt_ge_cases j (length (nth a X []))) as [H|H]; [rewrite Forall_forall in F; now apply F, nth_In|rewrite nth_overflow, Rabs_R0 by exact H; lra]. }
  assert (HY : forall a, (a < length X)%nat -> 0 <= nf Y a <= 1) by (intros a Ha; rewrite Forall_forall in FY; apply FY, nth_In; now rewrite <- L).
  assert (N1 : 1 <= INR (length X)) by (replace 1 with (INR 1) by reflexivity; apply le_INR; destruct X; [congruence|cbn; lia]). assert (T1 : 1 <= INR (length th)) by (replace 1 with (INR 1) by reflexivity; apply le_INR; destruct th; [congruence|cbn; lia]). assert (B0 : 0 <= B) by (destruct th; [congruence|]; apply Forall_inv in Fp; pose proof (Rabs_pos r0); lra).
  assert (G : forall s, forall j, (j < length th)%nat -> Rabs (nf (descent r X Y s th) j) <= B + r * M * INR s).
  { induction s as [|s IH]; intros j Hj.
    - cbn [descent Nat.iter INR]. change (descent r X Y 0 th) with th. rewrite Forall_forall in Fp. pose proof (Fp _ (nth_In _ 0 Hj)) as H. unfold nf. cbv beta in H. lra.
    - change (descent r X Y (S s) th) with (descend r X Y (descent r X Y s th)). rewrite descend_nth by (try exact L; now rewrite descent_length). unfold stp. specialize (IH j Hj). rewrite S_INR. set (g := gr _ _ _ _ _ j).
      assert (Bg : Rabs g <= M). { unfold g, gr, Rdiv. rewrite Rabs_mult, (Rabs_right (/ INR (length X))) by (left; apply Rinv_0_lt_compat; lra). apply Rmult_le_reg_r with (INR (length X)); [lra|]. rewrite Rmult_assoc, Rinv_l, Rmult_1_r, Rmult_comm by lra. eapply Rle_trans; [apply su_abs|]. rewrite <- su_const. apply su_le. intros a Ha. rewrite Rabs_mult, <- (Rmult_1_l M). apply Rmult_le_compat; try apply Rabs_pos; [|now apply HF]. pose proof (HY a Ha). match goal with |- context [exact_sigmoid ?z] => pose proof (sg_01 z) end. apply Rabs_le. lra. }
      replace (nf (descent r X Y s th) j - r * g) with (nf (descent r X Y s th) j + - (r * g)) by ring. eapply Rle_trans; [apply Rabs_triang|]. rewrite Rabs_Ropp, Rabs_mult, (Rabs_right r) by lra. assert (r * Rabs g <= r * M) by (apply Rmult_le_compat_l; lra). lra. }
  intros s Hs. pose proof (descent_length r X Y s th) as Ld. apply lt_INR in Hs. assert (K : B + r * M * INR s <= B + r * M * INR t) by (apply Rplus_le_compat_l, Rmult_le_compat_l; [apply Rmult_le_pos; lra|lra]). set (b := B + r * M * INR t) in *. assert (b0 : 0 <= b) by (unfold b; assert (0 <= r * M * INR t) by (apply Rmult_le_pos; [apply Rmult_le_pos; lra|apply pos_INR]); lra).
  assert (Mb : b <= M * b) by (rewrite <- (Rmult_1_l b) at 1; apply Rmult_le_compat_r; lra). assert (Lb : M * b <= INR (length th) * (M * b)) by (rewrite <- (Rmult_1_l (M * b)) at 1; apply Rmult_le_compat_r; lra). split; apply Forall_forall.
  - intros x Hx. destruct (In_nth X x [] Hx) as (a & Ha & <-). rewrite score_sc, Ld. unfold sc. eapply Rle_trans; [apply su_abs|]. apply Rle_trans with (2 := HB). rewrite <- su_const. apply su_le. intros j Hj. rewrite Rabs_mult. apply Rmult_le_compat; try apply Rabs_pos; [now apply HF|]. specialize (G s j Hj). lra.
  - intros p Hp. destruct (In_nth _ p 0 Hp) as (j & Hj & <-). rewrite Ld in Hj. specialize (G s j Hj). unfold nf in G. lra.
Qed.

(** ** Claims *)
Section Weak.
  Variable pr : provider.
  Variable chk : check.
  Lemma dotv_weak l : weaker (dotv (pr := pr) chk l) (dotv no_check l).
  Proof. apply weaker_bind; [apply weaker_refl|]. intros raws. destruct l as [|[x y] l]; [apply weaker_refl|]. destruct (mul_rescale _ _) as [[d|] s']; [apply divv_weak|apply weaker_refl]. Qed.
  Lemma updatev_weak D rate p g : weaker (updatev (pr := pr) D chk rate p g) (updatev D no_check rate p g). Proof. apply weaker_bind; [apply mulpv_weak|]. intros. apply weaker_refl. Qed.
  Lemma epochv_weak D d d' o k rate X Y wb : weaker (epochv (pr := pr) D chk d d' o k rate X Y wb) (epochv D no_check d d' o k rate X Y wb).
  Proof.
    apply weaker_bind; [apply weaker_map; intros; apply weaker_bind; [apply dotv_weak|intros; apply weaker_refl]|]. intros zs. apply weaker_bind; [apply weaker_bind; [apply weaker_map; intros; apply sigmoidv_weak|]; intros; apply weaker_bind; [apply bcev_weak|]; intros; apply weaker_refl|]. intros r. apply weaker_bind; [apply weaker_refl|]. intros one.
    apply weaker_bind; [apply diff_gradv_weak|]. intros gs. apply weaker_bind; [apply weaker_map; intros; apply weaker_map; intros; apply dotv_weak|]. intros _. apply weaker_bind; [apply weaker_map; intros; apply dotv_weak|]. intros dw. apply weaker_bind; [apply weaker_zip; intros; apply updatev_weak|]. intros w. apply weaker_bind; [apply updatev_weak|]. intros. apply weaker_refl.
  Qed.
  Lemma trainv_weak D d d' o k rate X Y t : forall wb, weaker (trainv (pr := pr) D chk d d' o k rate X Y t wb) (trainv D no_check d d' o k rate X Y t wb).
  Proof. induction t as [|t IH]; intros wb; [apply weaker_refl|]. apply weaker_bind; [apply epochv_weak|]. intros r. apply weaker_bind; [apply IH|]. intros. apply weaker_refl. Qed.
End Weak.
Section Claims.
  Variables (n : nat) (pr : provider).
  Hypothesis Hn : (0 < n)%nat.
  Hypothesis HV : valid n pr.
  (** C112: one epoch moves every parameter to where one exact step of gradient descent puts it, within [step_error]. *)
  Lemma k_C112_step E k M rate X Y wb st o : (E = 1 \/ E = 2)%Z -> examples n k M X Y -> linear n k wb -> 1 <= M <= 2 ^ 10 -> 0 <= coded rate <= 2 ^ 10 ->
    Forall (fun x => Rabs (score (parameters wb) x) <= 255) (map (map rval) X) -> Forall (fun p => Rabs p <= 2 ^ 21) (parameters wb) ->
    fst (epochv (pr := pr) 65536 (within E) 8 8 8 2 rate X Y wb st) = Some o ->
    fst (epochv (pr := pr) 65536 no_check 8 8 8 2 rate X Y wb st) = Some o /\ linear n k (snd o) /\
    forall j, (j <= k)%nat -> Rabs (nth j (parameters (snd o)) 0 - nth j (descend (coded rate) (map (map rval) X) (map rval Y) (parameters wb)) 0) <= step_error E (length X) M (coded rate).
  Proof using Hn HV.
    intros HE HX HL HM Hr Hs Hp Ho. split; [eapply weaker_fst; [apply epochv_weak|exact Ho]|]. refine (yo_some _ _ _ _ _ (epoch_yo n pr Hn HV E false HE ltac:(discriminate) k M rate X Y HX HM Hr wb HL _ Hp) Ho).
    intros a Ha. rewrite Forall_forall in Hs. apply Hs, nth_In. unfold Xr. now rewrite map_length.
  Qed.
  (** C112: after t epochs the parameters are at Euclidean distance at most t * sqrt(k + 1) * [step_error] from those of t exact steps. *)
  Lemma k_C112_training E k M rate X Y t wb st o : (E = 1 \/ E = 2)%Z -> examples n k M X Y -> linear n k wb -> 1 <= M <= 2 ^ 10 -> 0 <= coded rate <= 2 ^ 10 ->
    let Xs := map (map rval) X in let Ys := map rval Y in let r := coded rate in let e := step_error E (length X) M r in
    r * spread Xs <= 8 -> moderate r Xs Ys t (parameters wb) -> M * INR (S k) * INR t * e <= 50 ->
    fst (trainv (pr := pr) 65536 (within E) 8 8 8 2 rate X Y t wb st) = Some o ->
    fst (trainv (pr := pr) 65536 no_check 8 8 8 2 rate X Y t wb st) = Some o /\ length (fst o) = t /\ linear n k (snd o) /\ distance (parameters (snd o)) (descent r Xs Ys t (parameters wb)) <= INR t * sqrt (INR (S k)) * e.
  Proof using Hn HV.
    intros HE HX HL HM Hr Xs Ys r e Hs Hm Hc Ho. split; [eapply weaker_fst; [apply trainv_weak|exact Ho]|]. exact (yo_some _ _ _ _ _ (train_yo n pr Hn HV E false HE ltac:(discriminate) k M rate X Y HX HM Hr Hs wb t HL Hm Hc) Ho).
  Qed.
  (** C112: the trained parameters are nearly as good as any others: for every v the logistic loss is at most that of v plus the squared distance from the start to v over 2 r t, plus what the rounding adds. *)
  Lemma k_C112_loss E k M rate X Y t wb st o v : (E = 1 \/ E = 2)%Z -> examples n k M X Y -> linear n k wb -> 1 <= M <= 2 ^ 10 -> 0 < coded rate <= 2 ^ 10 -> (0 < t)%nat ->
    let Xs := map (map rval) X in let Ys := map rval Y in let r := coded rate in let e := step_error E (length X) M r in
    r * spread Xs <= 4 -> moderate r Xs Ys t (parameters wb) -> M * INR (S k) * INR t * e <= 50 -> length v = S k ->
    fst (trainv (pr := pr) 65536 (within E) 8 8 8 2 rate X Y t wb st) = Some o ->
    logistic_loss Xs Ys (parameters (snd o)) <= logistic_loss Xs Ys v + distance (parameters wb) v ^ 2 / (2 * r * INR t) + M * INR (S k) * INR t * e.
  Proof using Hn HV.
    intros HE HX HL HM Hr Ht Xs Ys r e Hs Hm Hc Lv Ho. assert (Hr' : 0 <= coded rate <= 2 ^ 10) by lra. destruct (yo_some _ _ _ _ _ (train_yo n pr Hn HV E false HE ltac:(discriminate) k M rate X Y HX HM Hr' ltac:(fold Xs r; lra) wb t HL Hm Hc) Ho) as [_ K].
    exact (loss_bound n E HE k M rate X Y HX HM Hr' wb t HL (snd o) v K Ht (proj1 Hr) Hs Lv).
  Qed.
  (** C112: with one party training always comes out, with an error of one unit in each product. *)
  Lemma k_C112_one_party k M rate X Y t wb st : n = 1%nat -> examples n k M X Y -> linear n k wb -> 1 <= M <= 2 ^ 10 -> 0 <= coded rate <= 2 ^ 10 ->
    let Xs := map (map rval) X in let Ys := map rval Y in let r := coded rate in let e := step_error 1 (length X) M r in
    r * spread Xs <= 8 -> moderate r Xs Ys t (parameters wb) -> M * INR (S k) * INR t * e <= 50 ->
    exists o, fst (trainv (pr := pr) 65536 no_check 8 8 8 2 rate X Y t wb st) = Some o /\ length (fst o) = t /\ distance (parameters (snd o)) (descent r Xs Ys t (parameters wb)) <= INR t * sqrt (INR (S k)) * e.
  Proof using Hn HV.
    intros H1 HX HL HM Hr Xs Ys r e Hs Hm Hc. destruct (yo_true _ _ st (train_yo n pr Hn HV 1 true (or_introl eq_refl) (fun _ => H1) k M rate X Y HX HM Hr Hs wb t HL Hm Hc)) as (o & Ho & L & _ & D). exists o. split; [eapply weaker_fst; [apply trainv_weak|exact Ho]|]. split; assumption.
  Qed.
End Claims.
Lemma train_fixed {pr : provider} D chk d d' o k rate X Y wb l (st : pst pr) : epochv (pr := pr) D chk d d' o k rate X Y wb st = (Some (l, wb), st) -> forall t, trainv D chk d d' o k rate X Y t wb st = (Some (repeat l t, wb), st).
Proof.
  intros H. assert (BE : forall A B (m : runo pr A) (f : A -> runo pr B) s a s', m s = (Some a, s') -> bindo m f s = f a s') by (intros A B m f s a s' Hm; unfold bindo, bind; rewrite Hm; reflexivity).
  induction t as [|t IH]; [reflexivity|]. cbn [trainv]. rewrite (BE _ _ _ _ _ _ _ H). cbn [fst snd]. rewrite (BE _ _ _ _ _ _ _ IH). reflexivity.
Qed.
(** C112 refuted for small learning rates: 1/100000 is encoded as 0, so with one party no number of epochs moves the parameters, though each exact step would. *)
Lemma k_C112_small_rate_refuted : exists pr st X Y wb, valid 1 pr /\ examples 1 1 1 X Y /\ linear 1 1 wb /\ let rate := (1 # 100000)%Q in
  (forall t, exists ls, fst (trainv (pr := pr) 65536 no_check 8 8 8 2 rate X Y t wb st) = Some (ls, wb) /\ length ls = t) /\
  forall j, (j <= 1)%nat -> nth j (descend (Q2R rate) (map (map rval) X) (map rval Y) (parameters wb)) 0 = nth j (parameters wb) 0 + / 200000.
Proof.
  assert (I : forall v, (0 <= v <= 65536)%Z -> in64 v) by (intros; unfold in64, H63; lia). destruct (cell_ok 65536 ltac:(apply I; lia)) as (A1 & A2 & A3). destruct (cell_ok 0 ltac:(apply I; lia)) as (B1 & B2 & B3).
  assert (C1 : num1 1 (cell 65536)) by (split; assumption). assert (C0 : num1 1 (cell 0)) by (split; assumption). assert (R1 : rval (cell 65536) = 1) by (rewrite A3; field). assert (R0 : rval (cell 0) = 0) by (rewrite B3; field).
  exists alone, tt, [[cell 65536]], [cell 65536], ([cell 0], cell 0). split; [exact alone_valid|]. split; [|split; [|split]].
  - split; [discriminate|]. split; [reflexivity|]. split; [cbn; lia|]. split; (constructor; [|constructor]).
    + split; [reflexivity|]. split; constructor; try constructor; [exact A1|exact A2|rewrite R1, Rabs_R1; lra].
    + split; [exact C1|rewrite R1; lra].
  - split; [lia|]. split; [reflexivity|]. cbn [fst snd]. constructor; [exact C0|constructor; [exact C0|constructor]].
  - assert (S : match epochv (pr := alone) 65536 no_check 8 8 8 2 (1 # 100000) [[cell 65536]] [cell 65536] ([cell 0], cell 0) tt with (Some (_, p), _) => p = ([cell 0], cell 0) | _ => False end) by (vm_compute; reflexivity).
    intros t. cbv zeta. destruct (epochv (pr := alone) 65536 no_check 8 8 8 2 (1 # 100000) [[cell 65536]] [cell 65536] ([cell 0], cell 0) tt) as [[[l p]|] s'] eqn:Ep; [|destruct S]. subst p. destruct s'. exists (repeat l t). split; [|apply repeat_length]. rewrite (train_fixed (pr := alone) _ _ _ _ _ _ _ _ _ _ l tt Ep t). reflexivity.
  - unfold parameters. cbn [map fst snd]. rewrite R1, R0. intros j J. unfold descend. rewrite nth_seq by (cbn; lia). unfold slope, average. cbn [map combine fst snd length INR]. rewrite sumr_cons. cbn [sumr]. unfold score. cbn [length seq map]. rewrite !sumr_cons. unfold feature. assert (Q1 : Q2R (1 # 100000) = / 100000) by (unfold Q2R; cbn; field). rewrite Q1. unfold exact_sigmoid.
    destruct j as [|[|j]]; [| |lia]; cbn [nth]; unfold sumr; cbn [fold_right]; (replace (- (1 * 0 + (1 * 0 + 0))) with 0 by ring); rewrite exp_0; field.
Qed.
