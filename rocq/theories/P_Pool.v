(** C61: the windows of max pooling and the routing of its gradient. *)
Require Import ZArith List Lia Bool.
From Verif Require Import Ring64 Pool Pool_proofs.
Import ListNotations.
Open Scope Z_scope.

(** the element of plane [b] at row [y] and column [x]; [v] outside the image *)
Definition image (H W v : Z) (data : list Z) (b y x : Z) : Z :=
  if (0 <=? y) && (y <? H) && (0 <=? x) && (x <? W) then nth (Z.to_nat (b * (H * W) + y * W + x)) data 0 else v.
(** all pairs (row, column), row by row *)
Definition positions (rows columns : Z) : list (Z * Z) := flat_map (fun i => map (fun j => (i, j)) (zrange columns)) (zrange rows).
(** the elements under the kernel for output position [ij], with [p] rows and columns of padding around the image *)
Definition window (H W v : Z) (data : list Z) (k p s d : Z * Z) (b : Z) (ij : Z * Z) : list Z :=
  map (fun ac => image H W v data b (fst ij * fst s + fst ac * fst d - fst p) (snd ij * snd s + snd ac * snd d - snd p)) (positions (fst k) (snd k)).
(** [h] kernels fit along a dimension: all of them end inside the padded image (floor), or the last one starts inside the image or the padding before it and
    ends less than a stride beyond the padded image (ceil); and no more kernels do. *)
Definition kernels_along (ceil : bool) (H k p s d h : Z) : Prop :=
  1 <= h /\ if ceil then ((h - 1) * s < H + p /\ (h - 1) * s + d * (k - 1) < H + 2 * p + (s - 1)) /\ ~ (h * s < H + p /\ h * s + d * (k - 1) < H + 2 * p + (s - 1))
  else (h - 1) * s + d * (k - 1) < H + 2 * p /\ ~ h * s + d * (k - 1) < H + 2 * p.
(** sensible arguments along one dimension *)
Definition pooled (H k p s d : Z) : Prop := 0 < H /\ 0 < k /\ 0 <= p <= d * (k - 1) + 1 /\ 0 < s /\ 0 < d /\ d * (k - 1) < H + 2 * p.

Lemma size_kernels ceil H k p s d : pooled H k p s d -> kernels_along ceil H k p s d (size_of H k p s d ceil).
Proof.
  intros (HH & Hk & Hp & Hs & Hd & F). assert (Hd0 : 0 <= d * (k - 1)) by (apply Z.mul_nonneg_nonneg; lia). unfold kernels_along, size_of. destruct ceil.
  - pose proof (shape_ceil H k p s d Hs Hd0 F HH Hp) as (A & B & C & D). split; [exact A|]. split; [split; assumption|]. lia.
  - pose proof (shape_floor H k p s d Hs Hd0 F) as (A & B & C). split; [exact A|]. split; lia.
Qed.
Lemma pooled_fits H k p s d : pooled H k p s d -> fits H k p s d.
Proof. unfold pooled, fits. intuition lia. Qed.

(** Any number of leading dimensions, any sizes: every row is the window of its output position, in order. *)
Theorem C61_windows : forall lead H W k p s d ceil v data, Forall (fun e => 0 <= e) lead -> pooled H (fst k) p (fst s) (fst d) -> pooled W (snd k) p (snd s) (snd d) ->
  exists h w, kernels_along ceil H (fst k) p (fst s) (fst d) h /\ kernels_along ceil W (snd k) p (snd s) (snd d) w /\
  pool2d_reshape lead H W k (p, p) s d ceil v data = Some (flat_map (fun b => map (window H W v data k (p, p) s d b) (positions h w)) (zrange (fold_right Z.mul 1 lead)), (h, w)).
Proof.
  intros lead H W k p s d ceil v data Fl P0 P1. eexists _, _. split; [apply size_kernels; exact P0|]. split; [apply size_kernels; exact P1|].
  exact (pool2d_ok lead H W k p s d ceil v data Fl (pooled_fits _ _ _ _ _ P0) (pooled_fits _ _ _ _ _ P1)).
Qed.
(** With different paddings for rows and columns the two get mixed up: either an exception or elements of other windows. *)
Theorem C61_asymmetric_refuted :
  (exists H W k p s d v data, pooled H (fst k) (fst p) (fst s) (fst d) /\ pooled W (snd k) (snd p) (snd s) (snd d) /\ pool2d_reshape [] H W k p s d false v data = None) /\
  (exists H W k p s d v data h w rows, pooled H (fst k) (fst p) (fst s) (fst d) /\ pooled W (snd k) (snd p) (snd s) (snd d) /\
    kernels_along false H (fst k) (fst p) (fst s) (fst d) h /\ kernels_along false W (snd k) (snd p) (snd s) (snd d) w /\
    pool2d_reshape [] H W k p s d false v data = Some (rows, (h, w)) /\ map (fold_right Z.max v) rows <> map (fun ij => fold_right Z.max v (window H W v data k p s d 0 ij)) (positions h w)).
Proof.
  split.
  - exists 3, 3, (2, 2), (1, 0), (1, 1), (1, 1), (-(2 ^ 24)), [1; 2; 3; 4; 5; 6; 7; 8; 9]. unfold pooled. cbn [fst snd]. split; [lia|]. split; [lia|]. vm_compute. reflexivity.
  - exists 3, 3, (2, 2), (0, 1), (1, 1), (1, 1), (-(2 ^ 24)), [1; 2; 3; 4; 5; 6; 7; 8; 9], 2, 4.
    eexists. unfold pooled, kernels_along. cbn [fst snd]. split; [lia|]. split; [lia|]. split; [lia|]. split; [lia|]. split; [vm_compute; reflexivity|].
    vm_compute. discriminate.
Qed.

(** The gradient of element [(y, x)]: the sum over all windows and kernel positions that see it.  [blocks] has for every window, in row-major order, the gradient
    times the indicator of the argmax for every kernel position. *)
Definition gradient (h w : Z) (k p s d : Z * Z) (blocks : list (list Z)) (y x : Z) : Z :=
  zsum (flat_map (fun ij => map (fun ac => if (fst ij * fst s + fst ac * fst d - fst p =? y) && (snd ij * snd s + snd ac * snd d - snd p =? x)
    then nth (Z.to_nat (fst ac * snd k + snd ac)) (nth (Z.to_nat (fst ij * w + snd ij)) blocks []) 0 else 0) (positions (fst k) (snd k))) (positions h w)).
Theorem C61_backward : forall H W k p s d h w blocks, pooled H (fst k) (fst p) (fst s) (fst d) -> pooled W (snd k) (snd p) (snd s) (snd d) ->
  kernels_along false H (fst k) (fst p) (fst s) (fst d) h -> kernels_along false W (snd k) (snd p) (snd s) (snd d) w ->
  max_pool2d_backward h w (H, W) k p s d false blocks = Some (flat_map (fun y => map (fun x => wrap (gradient h w k p s d blocks y x)) (zrange W)) (zrange H)).
Proof.
  intros H W k p s d h w blocks (A1 & A2 & A3 & A4 & A5 & A6) (B1 & B2 & B3 & B4 & B5 & B6) [K1 [K2 _]] [L1 [L2 _]]. unfold max_pool2d_backward. cbv zeta. cbn [fst snd].
  apply backward_ok; try lia.
Qed.
(** In ceil mode: right when kernel, stride, dilation and padding are the same in both dimensions, whatever the size of the image. *)
Theorem C61_backward_ceil : forall H W k p s d h w blocks, pooled H k p s d -> pooled W k p s d -> kernels_along true H k p s d h -> kernels_along true W k p s d w ->
  max_pool2d_backward h w (H, W) (k, k) (p, p) (s, s) (d, d) true blocks =
  Some (flat_map (fun y => map (fun x => wrap (gradient h w (k, k) (p, p) (s, s) (d, d) blocks y x)) (zrange W)) (zrange H)).
Proof.
  intros H W k p s d h w blocks (A1 & A2 & A3 & A4 & A5 & A6) (B1 & B2 & B3 & B4 & B5 & B6) (K1 & (K2 & K3) & K4) (L1 & (L2 & L3) & L4). unfold max_pool2d_backward. cbv zeta. cbn [fst snd].
  assert (0 <= d * (k - 1)) by (apply Z.mul_nonneg_nonneg; lia). rewrite (Z.mul_comm (k - 1) d).
  apply (backward_ok (H + 2 * p + (w * s + d * (k - 1) - W)) (W + 2 * p + (h * s + d * (k - 1) - H)) _ _ h w H W (k, k) (p, p) (s, s) (d, d)); cbn [fst snd]; try lia.
Qed.
(** With different kernels in the two dimensions it may raise. *)
Theorem C61_backward_ceil_refuted : exists H W k p s d h w, pooled H (fst k) (fst p) (fst s) (fst d) /\ pooled W (snd k) (snd p) (snd s) (snd d) /\
  kernels_along true H (fst k) (fst p) (fst s) (fst d) h /\ kernels_along true W (snd k) (snd p) (snd s) (snd d) w /\
  forall blocks, max_pool2d_backward h w (H, W) k p s d true blocks = None.
Proof.
  exists 5, 5, (4, 1), (0, 0), (4, 3), (1, 1), 2, 2. unfold pooled, kernels_along. cbn [fst snd]. repeat (split; [lia|]). intros blocks. reflexivity.
Qed.

Print Assumptions C61_windows.
Print Assumptions C61_asymmetric_refuted.
Print Assumptions C61_backward.
Print Assumptions C61_backward_ceil.
Print Assumptions C61_backward_ceil_refuted.

(** Two planes of 3x4, a 2x2 kernel, stride (2, 1), dilation (1, 2), one row and column of padding: the first and the last window. *)
Example C61_case : pooled 3 2 1 2 1 /\ pooled 4 2 1 1 2 /\
  match pool2d_reshape [1; 2] 3 4 (2, 2) (1, 1) (2, 1) (1, 2) false (-9) (zrange 24) with
  | Some (rows, hw) => hw = (2, 4) /\ nth 0 rows [] = [-9; -9; -9; 1] /\ nth 15 rows [] = [18; -9; 22; -9]
  | None => False
  end.
Proof. unfold pooled. split; [lia|]. split; [lia|]. vm_compute. repeat split. Qed.
Example C61_case_ceil : match pool2d_reshape [] 3 3 (2, 2) (0, 0) (2, 2) (1, 1) true (-9) (zrange 9) with
  | Some (rows, hw) => hw = (2, 2) /\ rows = [[0; 1; 3; 4]; [2; -9; 5; -9]; [6; 7; -9; -9]; [8; -9; -9; -9]]
  | None => False
  end.
Proof. vm_compute. split; reflexivity. Qed.
(** Overlapping windows (3x3 image, 2x2 kernel, stride 1): the centre is the maximum of all four. *)
Example C61_case_backward : max_pool2d_backward 2 2 (3, 3) (2, 2) (0, 0) (1, 1) (1, 1) false [[0; 0; 0; 5]; [0; 0; 7; 0]; [0; 11; 0; 0]; [13; 0; 0; 0]] = Some [0; 0; 0; 0; 36; 0; 0; 0; 0].
Proof. vm_compute. reflexivity. Qed.
Example C61_case_backward_ceil : max_pool2d_backward 2 2 (3, 3) (2, 2) (0, 0) (2, 2) (1, 1) true [[1; 0; 0; 0]; [0; 0; 1; 0]; [0; 1; 0; 0]; [1; 0; 0; 0]] = Some [1; 0; 0; 0; 0; 1; 0; 1; 1].
Proof. vm_compute. reflexivity. Qed.
