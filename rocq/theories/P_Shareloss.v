(** Property theorems C111: classification losses and their gradients on shares. *)
Require Import ZArith QArith Qreals List Bool Lia Reals Lra.
From Verif Require Import Approx Approx_claims Approxfn_claims Approxsoft_claims.
From Verif Require Import Ring64 Encoder Arith Provider Binary Compare Compare_claims Maximum Maximum_claims Regular Regular_proofs Regular_claims Shareapprox Shareapprox_proofs Shareapprox_claims Sharesoft Sharesoft_claims Sharelog Sharelog_claims Sharerecip Sharerecip_claims Sharenorm_claims Shareloss Shareloss_claims P_Shareapprox.
Import ListNotations.
Open Scope R_scope.

Section S.
  Variables (n : nat) (pr : provider).
  Hypothesis Hn : (0 < n)%nat.
  Hypothesis HV : valid n pr.
  (** C111: L1 loss of up to 2^20 elements is the mean absolute difference within one unit of rounding. *)
  Theorem C111_l1 E xs ys st z : (E = 1 \/ E = 2)%Z -> vector n 65536 xs -> vector n 65536 ys -> (Z.of_nat (length xs) <= 2 ^ 20)%Z -> Forall2 (fun x y => Rabs x <= 2 ^ 18 /\ Rabs y <= 2 ^ 18) (map rval xs) (map rval ys) ->
    fst (l1v (pr := pr) 65536 (within E) xs ys st) = Some z -> fst (l1v (pr := pr) 65536 no_check xs ys st) = Some z /\ n_sc z = 65536%Z /\ Rabs (rval z - l1_loss (map rval xs) (map rval ys)) <= unit_error E.
  Proof. exact (k_C111_l1 n pr Hn HV E xs ys st z). Qed.
  (** C111: binary cross entropy is the exact one within the errors of the logarithms it needs, weighted by the targets, plus three units. *)
  Theorem C111_bce E ps ys st z : (E = 1 \/ E = 2)%Z -> vector n 65536 ps -> vector n 65536 ys -> (Z.of_nat (length ps) <= 2 ^ 20)%Z -> Forall2 (bce_fits E) (map rval ps) (map rval ys) ->
    fst (bcev (pr := pr) (within E) 8 8 8 2 ps ys st) = Some z -> fst (bcev (pr := pr) no_check 8 8 8 2 ps ys st) = Some z /\ n_sc z = 65536%Z /\ Rabs (rval z - bce_loss (map rval ps) (map rval ys)) <= bce_error E (map rval ps) (map rval ys).
  Proof. exact (k_C111_bce n pr Hn HV E ps ys st z). Qed.
  (** C111: the gradient of binary cross entropy is the exact derivative within the errors of the reciprocals it needs, by both methods. *)
  Theorem C111_bce_gradient me b E g ps ys st zs : (E = 1 \/ E = 2)%Z -> vector n 65536 ps -> vector n 65536 ys -> vector n 65536 [g] -> Rabs (rval g) <= 1000 -> Forall2 (slope_fits me E) (map rval ps) (map rval ys) ->
    fst (bce_gradv (pr := pr) 65536 (within E) (usual me b) g ps ys st) = Some zs -> fst (bce_gradv (pr := pr) 65536 no_check (usual me b) g ps ys st) = Some zs /\ slopes_near me E (rval g) (map rval ps) (map rval ys) zs.
  Proof. exact (k_C111_bce_gradient n pr Hn HV me b E g ps ys st zs). Qed.
  (** C111: binary cross entropy with logits, forward and backward: the loss of the exact sigmoids and its derivative, within the error of the sigmoid carried through the logarithm. *)
  Theorem C111_bce_logits E g xs ys st r : (E = 1 \/ E = 2)%Z -> vector n 65536 xs -> vector n 65536 ys -> vector n 65536 [g] -> Rabs (rval g) <= 1000 -> (Z.of_nat (length xs) <= 2 ^ 20)%Z -> Forall2 (logits_fit E) (map rval xs) (map rval ys) ->
    fst (bce_logits_bothv (pr := pr) 65536 (within E) 8 8 8 2 g xs ys st) = Some r -> fst (bce_logits_bothv (pr := pr) 65536 no_check 8 8 8 2 g xs ys st) = Some r /\ logits_near E (rval g) (map rval xs) (map rval ys) r.
  Proof. exact (k_C111_bce_logits n pr Hn HV E g xs ys st r). Qed.
  (** C111: with one party no product is out of range, so these losses and gradients always come out, and within one unit. *)
  Theorem C111_one_party me b g xs ys st : n = 1%nat -> vector n 65536 xs -> vector n 65536 ys -> vector n 65536 [g] -> Rabs (rval g) <= 1000 -> (Z.of_nat (length xs) <= 2 ^ 20)%Z ->
    (Forall2 (bce_fits 1) (map rval xs) (map rval ys) -> exists z, fst (bcev (pr := pr) no_check 8 8 8 2 xs ys st) = Some z /\ Rabs (rval z - bce_loss (map rval xs) (map rval ys)) <= bce_error 1 (map rval xs) (map rval ys)) /\
    (Forall2 (slope_fits me 1) (map rval xs) (map rval ys) -> exists zs, fst (bce_gradv (pr := pr) 65536 no_check (usual me b) g xs ys st) = Some zs /\ slopes_near me 1 (rval g) (map rval xs) (map rval ys) zs) /\
    (Forall2 (logits_fit 1) (map rval xs) (map rval ys) -> exists r, fst (bce_logits_bothv (pr := pr) 65536 no_check 8 8 8 2 g xs ys st) = Some r /\ logits_near 1 (rval g) (map rval xs) (map rval ys) r).
  Proof. exact (k_C111_one_party n pr Hn HV me b g xs ys st). Qed.
  Variables (local_bits : run pr (list Z)) (log_steps cascade_steps isqrt : nat -> nat).
  Hypothesis Hlocal : forall st, let u := fst (local_bits st) in length u = n /\ Forall (fun z => 0 <= z < 65536)%Z u.
  Hypothesis Hsqrt : forall m, (2 <= m)%nat -> (1 <= isqrt m < m)%nat.
  Local Notation both me chk := (cross_entropy_bothv (pr := pr) 65536 chk 8 8 8 2 16 local_bits log_steps cascade_steps isqrt me 10).
  (** C111: cross entropy of two or more examples with 2 to 29 classes, forward and backward: the mean of the exact losses and its derivative, within the error of the softmax carried through the logarithm. *)
  Theorem C111_cross_entropy me E g rows targets st r : (E = 1 \/ E = 2)%Z -> (2 <= length rows)%nat -> rows_fit n E rows targets -> vector n 65536 [g] -> Rabs (rval g) <= 1000 -> (Z.of_nat (length (concat rows)) <= 2 ^ 20)%Z ->
    fst (both me (within E) g rows targets st) = Some r -> let xss := map (map rval) rows in let yss := map (map rval) targets in
    fst (both me no_check g rows targets st) = Some r /\ n_sc (fst r) = 65536%Z /\ Rabs (rval (fst r) - cross_entropy xss yss) <= cross_entropy_error E xss yss /\ class_gradients_near E (INR (length rows)) (rval g) xss yss (snd r).
  Proof. exact (k_C111_cross_entropy n pr Hn HV local_bits log_steps cascade_steps isqrt Hlocal Hsqrt me E g rows targets st r). Qed.
  (** C111: with one party cross entropy always comes out, and within one unit. *)
  Theorem C111_cross_entropy_one_party me g rows targets st : n = 1%nat -> (2 <= length rows)%nat -> rows_fit n 1 rows targets -> vector n 65536 [g] -> Rabs (rval g) <= 1000 -> (Z.of_nat (length (concat rows)) <= 2 ^ 20)%Z ->
    let xss := map (map rval) rows in let yss := map (map rval) targets in exists r, fst (both me no_check g rows targets st) = Some r /\ Rabs (rval (fst r) - cross_entropy xss yss) <= cross_entropy_error 1 xss yss /\ class_gradients_near 1 (INR (length rows)) (rval g) xss yss (snd r).
  Proof. exact (k_C111_cross_entropy_one_party n pr Hn HV local_bits log_steps cascade_steps isqrt Hlocal Hsqrt me g rows targets st). Qed.
  (** C111: with a single example squeeze drops the batch dimension, and loss and gradient are divided by the number of classes. *)
  Theorem C111_one_example me E g xs ys st r : (E = 1 \/ E = 2)%Z -> rows_fit n E [xs] [ys] -> vector n 65536 [g] -> Rabs (rval g) <= 1000 ->
    fst (both me (within E) g [xs] [ys] st) = Some r -> let m := INR (length xs) in let x := map rval xs in let y := map rval ys in
    fst (both me no_check g [xs] [ys] st) = Some r /\ Rabs (rval (fst r) - row_loss x y / m) <= row_error E x y / m + unit_error E /\ class_gradients_near E m (rval g) [x] [y] (snd r).
  Proof. exact (k_C111_one_example n pr Hn HV local_bits log_steps cascade_steps isqrt Hlocal Hsqrt me E g xs ys st r). Qed.
End S.
(** C111 refuted outside the range: with one party the loss of a logit of 20 for the target 0 is given as less than 12, where the exact one is more than 20; that of a logit of 200 is the same. *)
Theorem C111_far_refuted : exists pr st, valid 1 pr /\ exists x x' y g r r', vector 1 65536 [x; x'; y; g] /\ rval x = 20 /\ rval x' = 200 /\ rval y = 0 /\ bce_loss [exact_sigmoid 20] [0] >= 20 /\
  fst (bce_logits_bothv (pr := pr) 65536 no_check 8 8 8 2 g [x] [y] st) = Some r /\ rval (fst r) < 12 /\ fst (bce_logits_bothv (pr := pr) 65536 no_check 8 8 8 2 g [x'] [y] st) = Some r' /\ rval (fst r') = rval (fst r).
Proof. exact k_C111_far_refuted. Qed.
(** C111 refuted for one example: with one party the cross entropy of the single example (0, 0) of class 0 is given as less than 2/5, where it is ln 2. *)
Theorem C111_one_example_refuted : exists pr st local_bits me g xs ys r, valid 1 pr /\ vector 1 65536 xs /\ map rval xs = [0; 0] /\ vector 1 65536 ys /\ map rval ys = [1; 0] /\
  fst (cross_entropy_bothv (pr := pr) 65536 no_check 8 8 8 2 16 local_bits (fun _ => 1%nat) (fun _ => 1%nat) Nat.sqrt me 10 g [xs] [ys] st) = Some r /\ rval (fst r) < 2 / 5 /\ cross_entropy [map rval xs] [map rval ys] = ln 2 /\ 1 / 2 <= ln 2.
Proof. exact k_C111_one_example_refuted. Qed.
Print Assumptions C111_l1.
Print Assumptions C111_bce.
Print Assumptions C111_bce_gradient.
Print Assumptions C111_bce_logits.
Print Assumptions C111_one_party.
Print Assumptions C111_cross_entropy.
Print Assumptions C111_cross_entropy_one_party.
Print Assumptions C111_one_example.
Print Assumptions C111_far_refuted.
Print Assumptions C111_one_example_refuted.

(** With two parties: predictions 3/4 and 1/4 for the targets 1 and 0. *)
Definition ex_raw (v : Z) : num := mkNum [v + 777000; -777000]%Z 65536.
Example C111_raw v : (Z.abs v <= 10000000)%Z -> sharing 2 (ex_raw v) /\ n_sc (ex_raw v) = 65536%Z /\ rval (ex_raw v) = IZR v / 65536.
Proof.
  intros B. assert (I : in64 v) by (unfold in64, H63; lia). assert (O : open_a (n_sh (ex_raw v)) = v). { unfold open_a, ex_raw. cbn [n_sh fold_left]. unfold wadd. rewrite Z.add_0_l, (wrap_id (v + 777000)) by (unfold in64, H63; lia). replace (v + 777000 + -777000)%Z with v by lia. now apply wrap_id. }
  split; [split; [reflexivity|split; [|reflexivity]]; repeat constructor; unfold in64, H63; lia|]. split; [reflexivity|]. unfold rval. rewrite O. reflexivity.
Qed.
Example C111_raws l : l <> [] -> Forall (fun v => (Z.abs v <= 10000000)%Z) l -> vector 2 65536 (map ex_raw l) /\ map rval (map ex_raw l) = map (fun v => IZR v / 65536) l.
Proof.
  intros Ne F. split; [split; [now destruct l|]|]; clear Ne; induction F as [|v l H _ IH]; [constructor| |reflexivity|]; destruct (C111_raw v H) as (A & B & C); [constructor; [split; assumption|exact IH]|]. cbn [map]. rewrite IH, C. reflexivity.
Qed.
Definition ex_open (z : num) : Z := open_a (n_sh z).
Definition ex_p := map ex_raw [49152; 16384]%Z.
Definition ex_y := map ex_raw [65536; 0]%Z.
(** The L1 loss of them is 1/4; the binary cross entropy is 21557 / 65536, exactly 0.2877; its gradient is -45055 and 45056 / 65536, exactly -2/3 and 2/3; with logits 2 and -1 loss and gradient are 17148 and -3863, 8774 / 65536, exactly 0.2201 and -0.0596, 0.1345; the cross entropy of the rows (1, 0) and (0, 2) of class 0 and 1 is 16823 / 65536, exactly 0.2201. *)
Definition ex_bits : run pair (list Z) := fun s => ([5; 60001]%Z, s).
Example C111_case : option_map ex_open (fst (l1v (pr := pair) 65536 (within 2) ex_p ex_y tt)) = Some 16384%Z /\ option_map ex_open (fst (bcev (pr := pair) (within 2) 8 8 8 2 ex_p ex_y tt)) = Some 21557%Z /\
  option_map (map ex_open) (fst (bce_gradv (pr := pair) 65536 (within 2) (usual ByNewton false) (ex_raw 65536) ex_p ex_y tt)) = Some [-45055; 45056]%Z /\
  option_map (fun r => (ex_open (fst r), map ex_open (snd r))) (fst (bce_logits_bothv (pr := pair) 65536 (within 2) 8 8 8 2 (ex_raw 65536) (map ex_raw [131072; -65536]%Z) ex_y tt)) = Some (17148, [-3863; 8774])%Z /\
  option_map (fun r => (ex_open (fst r), map (map ex_open) (snd r))) (fst (cross_entropy_bothv (pr := pair) 65536 (within 2) 8 8 8 2 16 ex_bits (fun _ => 1%nat) (fun _ => 1%nat) Nat.sqrt LogReduction 10 (ex_raw 65536) [map ex_raw [65536; 0]; map ex_raw [0; 131072]]%Z [map ex_raw [65536; 0]; map ex_raw [0; 65536]]%Z tt)) = Some (16823, [[-8798; 8800]; [3878; -3876]])%Z.
Proof. split; [vm_compute; reflexivity|]. split; [vm_compute; reflexivity|]. split; [vm_compute; reflexivity|]. split; vm_compute; reflexivity. Qed.
(** These meet the conditions, and the error allowed for the binary cross entropy is at most 0.2004. *)
Example C111_conditions : vector 2 65536 ex_p /\ vector 2 65536 ex_y /\ Forall2 (bce_fits 2) (map rval ex_p) (map rval ex_y) /\ Forall2 (slope_fits ByNewton 2) (map rval ex_p) (map rval ex_y) /\ bce_error 2 (map rval ex_p) (map rval ex_y) <= 2004 / 10000 /\
  Forall2 (logits_fit 2) [2; -1] (map rval ex_y).
Proof.
  destruct (C111_raws [49152; 16384]%Z ltac:(discriminate) ltac:(repeat constructor; lia)) as [V E]. destruct (C111_raws [65536; 0]%Z ltac:(discriminate) ltac:(repeat constructor; lia)) as [V' E']. unfold ex_p, ex_y. rewrite E, E'. cbn [map].
  replace (49152 / 65536) with (3 / 4) by lra. replace (16384 / 65536) with (1 / 4) by lra. replace (65536 / 65536) with 1 by lra. replace (0 / 65536) with 0 by lra.
  assert (L : log_range 2 (100 * (3 / 4))) by (right; split; [reflexivity|lra]). assert (L' : log_range 2 (100 * (1 - 1 / 4))) by (right; split; [reflexivity|lra]).
  split; [exact V|]. split; [exact V'|]. split; [|split; [|split]].
  - constructor; [|constructor; [|constructor]]; (split; [lra|split]); auto.
  - assert (W : forall x, x = 3 / 4 -> wide_range ByNewton 2 (64 * x)) by (intros x ->; split; [now right|lra]). constructor; [|constructor; [|constructor]]; (split; [discriminate|split; [lra|split]]); auto; right; apply W; lra.
  - unfold bce_error, average, pairwise, likelihood_error, unit_error, sumr. cbn [combine map fst snd fold_right length INR]. destruct (log01_small 2 (or_intror eq_refl) (3 / 4) L) as [S _]. replace (1 - 1 / 4) with (3 / 4) by lra. lra.
  - assert (S2 : forall x, 0 <= x -> 1 / 2 <= exact_sigmoid x < 1). { intros x X. pose proof (sigmoid_01 x). split; [|lra]. unfold exact_sigmoid. assert (exp (- x) <= 1) by (rewrite <- exp_0; destruct (Req_dec x 0) as [-> |N]; [rewrite Ropp_0; lra|left; apply exp_increasing; lra]). pose proof (exp_pos (- x)). replace (1 / 2) with (/ 2) by lra. apply Rinv_le_contravar; lra. }
    assert (S3 : 1 - exact_sigmoid (-1) = exact_sigmoid 1). { unfold exact_sigmoid. replace (- -1) with 1 by lra. rewrite exp_Ropp. pose proof (exp_pos 1). field. split; lra. }
    destruct (S2 2 ltac:(lra)) as [A A']. destruct (S2 1 ltac:(lra)) as [B B']. assert (D : sigmoid_shift 2 = 1 / 100 + 2 / 80) by reflexivity.
    constructor; [|constructor; [|constructor]]; (split; [apply Rabs_le; lra|]); cbv zeta; unfold shift_fits; rewrite D; (split; (split; [lra|])).
    + right. right. split; [reflexivity|lra].
    + left. lra.
    + left. lra.
    + right. right. rewrite S3. split; [reflexivity|lra].
Qed.
Example C111_rows : rows_fit 2 2 [map ex_raw [65536; 0]; map ex_raw [0; 131072]]%Z [map ex_raw [65536; 0]; map ex_raw [0; 65536]]%Z.
Proof.
  assert (W : forall a b, (Z.abs a <= 10000000)%Z -> (Z.abs b <= 10000000)%Z -> vector 2 65536 (map ex_raw [a; b]) /\ map rval (map ex_raw [a; b]) = [IZR a / 65536; IZR b / 65536]).
  { intros a b A B. apply (C111_raws [a; b]); [discriminate|]. constructor; [exact A|constructor; [exact B|constructor]]. }
  destruct (W 65536 0 ltac:(lia) ltac:(lia))%Z as [V1 E1]. destruct (W 0 131072 ltac:(lia) ltac:(lia))%Z as [V2 E2]. destruct (W 0 65536 ltac:(lia) ltac:(lia))%Z as [V3 E3]. clear W.
  split; [constructor; [exact V1|constructor; [exact V2|constructor]]|]. split; [constructor; [exact V1|constructor; [exact V3|constructor]]|].
  change (Forall2 (row_fits 2) [map rval (map ex_raw [65536; 0]%Z); map rval (map ex_raw [0; 131072]%Z)] [map rval (map ex_raw [65536; 0]%Z); map rval (map ex_raw [0; 65536]%Z)]). rewrite E1, E2, E3. replace (65536 / 65536) with 1 by lra. replace (0 / 65536) with 0 by lra. replace (131072 / 65536) with 2 by lra.
  assert (G : forall a b, b <= a -> 1 / 2 <= exp a / (exp a + exp b)). { intros a b H. assert (exp b <= exp a) by (destruct (Req_dec a b) as [-> |N]; [lra|left; apply exp_increasing; lra]). pose proof (exp_pos a). pose proof (exp_pos b). apply (Rmult_le_reg_r (exp a + exp b)); [lra|]. replace (exp a / (exp a + exp b) * (exp a + exp b)) with (exp a) by (field; lra). lra. }
  assert (D : softmax_shift_by 2 2 <= 7 / 100) by (unfold softmax_shift_by; cbn [INR]; lra). assert (D0 : 0 <= softmax_shift_by 2 2) by (unfold softmax_shift_by; cbn [INR]; lra).
  constructor; [|constructor; [|constructor]]; (split; [cbn; lia|split; [intros x y [<- |[<- |[]]] [<- |[<- |[]]]; lra|]]); cbn [length]; (constructor; [|constructor; [|constructor]]); unfold shift_fits; (split; [lra|]).
  - right. right. split; [reflexivity|]. pose proof (softmax_01 [1; 0] 1 (or_introl eq_refl)) as S. assert (H : 1 / 2 <= exact_softmax [1; 0] 1) by (unfold exact_softmax, total; cbn [map fold_right]; rewrite Rplus_0_r; apply G; lra). lra.
  - now left.
  - now left.
  - right. right. split; [reflexivity|]. pose proof (softmax_01 [0; 2] 2 (or_intror (or_introl eq_refl))) as S. assert (H : 1 / 2 <= exact_softmax [0; 2] 2) by (unfold exact_softmax, total; cbn [map fold_right]; rewrite Rplus_0_r, (Rplus_comm (exp 0)); apply G; lra). lra.
Qed.
