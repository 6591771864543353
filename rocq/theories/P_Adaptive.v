(** C60: adaptive pooling. The specification ([sees], [boundaries_right], [matrix], [entry], [meanQ], [mean_rows]) is at the head of Adaptive_claims.v. *)
Require Import ZArith QArith List Lia Lqa Bool.
From Verif Require Import Adaptive Adaptive_proofs Adaptive_claims.
Import ListNotations.
Open Scope Z_scope.

(** Max pooling: every output position pools exactly the values of its window (some of them repeated). *)
Theorem C60_max : forall A H W h w (m : list (list A)), (0 < H)%nat -> (0 < W)%nat -> (0 < h)%nat -> (0 < w)%nat -> matrix H W m -> boundaries_right H h -> boundaries_right W w ->
  exists blocks, adaptive2 first_row first_row h w m = Some blocks /\ length blocks = h /\ forall i j, (i < h)%nat -> (j < w)%nat -> length (nth i blocks []) = w /\
    forall x, In x (concat (nth j (nth i blocks []) [])) <-> exists y z, sees H h i y /\ sees W w j z /\ entry m y z x.
Proof. exact k_C60_max. Qed.
(** Average pooling, in exact arithmetic: the mean of every block is the mean of the window. *)
Theorem C60_mean : forall H W h w (m : list (list Q)), (0 < H)%nat -> (0 < W)%nat -> (0 < h)%nat -> (0 < w)%nat -> matrix H W m -> boundaries_right H h -> boundaries_right W w ->
  exists blocks, adaptive2 (fun l => Some (mean_rows l)) (fun l => Some (meanQ l)) h w m = Some blocks /\ length blocks = h /\ forall i j, (i < h)%nat -> (j < w)%nat -> length (nth i blocks []) = w /\
    exists y0 y1 z0 z1, (forall y, sees H h i y <-> y0 <= y < y1)%nat /\ (forall z, sees W w j z <-> z0 <= z < z1)%nat /\
    (meanQ (concat (nth j (nth i blocks []) [])) == meanQ (flat_map (fun y => map (fun z => nth z (nth y m []) 0) (seq z0 (z1 - z0))) (seq y0 (y1 - y0))))%Q.
Proof. exact k_C60_mean. Qed.
(** When the output size divides the input size all boundaries are right. *)
Theorem C60_divides : forall n out, (0 < out)%nat -> Z.of_nat n < 2 ^ 51 -> Nat.divide out n -> boundaries_right n out.
Proof. exact k_C60_divides. Qed.
(** In every case a boundary can be wrong only where it should be an integer, and then by one element outwards. *)
Theorem C60_near : forall n out j, (0 < out)%nat -> Z.of_nat (j * n) < 2 ^ 50 ->
  let v := fl_mul (Z.of_nat j) (fl_div (Z.of_nat n) (Z.of_nat out)) in let f := Z.of_nat (j * n / out) in let c := Z.of_nat ((j * n + out - 1) / out) in
  (~ Nat.divide out (j * n) -> fl_floor v = f /\ fl_ceil v = c) /\ f - 1 <= fl_floor v <= f /\ c <= fl_ceil v <= c + 1.
Proof. exact k_C60_near. Qed.
(** It does go wrong: 29 elements pooled to 7 give 6 outputs, since 7 * (29 / 7) > 29 in float64 and the last window ends after the input. *)
Theorem C60_refuted : exists n out (t : list nat), length t = n /\ (0 < out)%nat /\ ~ exists blocks, adaptive first_row out t = Some blocks /\ length blocks = out.
Proof. exact k_C60_refuted. Qed.

Print Assumptions C60_max.
Print Assumptions C60_mean.
Print Assumptions C60_divides.
Print Assumptions C60_near.
Print Assumptions C60_refuted.

(** ** A concrete case: a 5 by 4 matrix pooled to 3 by 3; no size divides another *)
Definition five_by_four : list (list nat) := [[1; 2; 3; 4]; [5; 6; 7; 8]; [9; 10; 11; 12]; [13; 14; 15; 16]; [17; 18; 19; 20]]%nat.
Example C60_case_right : boundaries_right 5 3 /\ boundaries_right 4 3 /\ boundaries_right 29 6.
Proof. split; [|split]; intros j Hj; do 7 (destruct j as [|j]; [vm_compute; split; reflexivity|]); lia. Qed.
Example C60_case_max : exists blocks, adaptive2 first_row first_row 3 3 five_by_four = Some blocks /\ map (map (fun b => fold_right Nat.max 0%nat (concat b))) blocks = [[6; 7; 8]; [14; 15; 16]; [18; 19; 20]]%nat.
Proof. eexists. split; vm_compute; reflexivity. Qed.
Example C60_case_sees : sees 5 3 1 1 /\ sees 5 3 1 3 /\ ~ sees 5 3 1 0 /\ ~ sees 5 3 1 4.
Proof. unfold sees. lia. Qed.
Definition fractions : list (list Q) := map (map (fun n => inject_Z (Z.of_nat n))) five_by_four.
Example C60_case_mean : exists blocks, adaptive2 (fun l => Some (mean_rows l)) (fun l => Some (meanQ l)) 3 3 fractions = Some blocks /\
  map (map (fun b => Qred (meanQ (concat b)))) blocks = [[7 # 2; 9 # 2; 11 # 2]; [19 # 2; 21 # 2; 23 # 2]; [31 # 2; 33 # 2; 35 # 2]]%Q.
Proof. eexists. split; vm_compute; reflexivity. Qed.
Example C60_case_near : ~ boundaries_right 29 7 /\ fl_ceil (fl_mul 7 (fl_div 29 7)) = 30.
Proof. split; [|reflexivity]. intros B. destruct (B 7%nat (le_n 7)) as [_ C]. vm_compute in C. discriminate C. Qed.
