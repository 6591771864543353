(** C42: integer products on a GPU. *)
Require Import ZArith List Permutation Lia.
From Verif Require Import Ring64 Arith Beaver Beaver_proofs Cuda Cuda_proofs.
Import ListNotations.
Open Scope Z_scope.

(** [rnd] is some rounding of integers to float64 values, and the kernels sum all products, in any order. *)
Definition rounds (rnd : Z -> Z) : Prop := forall z, float64 (rnd z) /\ (float64 z -> rnd z = z).
Definition sums_all (order : nat -> list Z -> tree) : Prop := forall idx l, Permutation (leaves (order idx l)) l.

Lemma rounds_exact rnd : rounds rnd -> forall z, 0 <= z <= 2 ^ 53 -> rnd z = z.
Proof. intros R z H. apply R. now apply small_float. Qed.

(** [bil T x y] is the product in 64-bit integers; the second theorem spells it out. *)
Theorem C42_matmul : forall rnd order n k m x y, rounds rnd -> sums_all order -> Z.of_nat k <= 2 ^ 21 ->
  gpu_matmul rnd order n k m x y = bil (matmul_table n k m) x y.
Proof. intros rnd order n k m x y R S. apply gpu_matmul_exact; [exact (rounds_exact rnd R)|exact S]. Qed.
Theorem C42_matmul_entry : forall rnd order n k m x y r c, rounds rnd -> sums_all order -> Z.of_nat k <= 2 ^ 21 -> (r < n)%nat -> (c < m)%nat ->
  nth (r * m + c) (gpu_matmul rnd order n k m x y) 0 = wrap (zsum (map (fun l => nth (r * k + l) x 0 * nth (l * m + c) y 0) (seq 0 k))).
Proof.
  intros rnd order n k m x y r c R S Hk Hr Hc. rewrite C42_matmul by assumption.
  assert (L : forall q, length (flat_map (fun r => map (fun c => map (fun l => (r * k + l, l * m + c)%nat) (seq 0 k)) (seq 0 m)) q) = (length q * m)%nat).
  { induction q as [|a q IH]; [reflexivity|]. cbn [flat_map length]. rewrite app_length, IH, map_length, seq_length. lia. }
  assert (E : nth (r * m + c) (matmul_table n k m) [] = map (fun l => (r * k + l, l * m + c)%nat) (seq 0 k)).
  { unfold matmul_table. replace n with (r + (1 + (n - r - 1)))%nat by lia. rewrite seq_app, flat_map_app. rewrite app_nth2 by (rewrite L, seq_length; nia).
    rewrite L, seq_length. replace (r * m + c - r * m)%nat with c by lia. cbn [seq flat_map plus]. rewrite app_nth1 by (rewrite map_length, seq_length; lia).
    rewrite (nth_indep _ [] (map (fun l => (r * k + l, l * m + c)%nat) (seq 0 k))) by (rewrite map_length, seq_length; lia).
    rewrite (nth_indep _ _ ((fun c0 => map (fun l => (r * k + l, l * m + c0)%nat) (seq 0 k)) 0%nat)) by (rewrite map_length, seq_length; lia).
    rewrite (map_nth (fun c0 => map (fun l => (r * k + l, l * m + c0)%nat) (seq 0 k))). rewrite seq_nth by lia. reflexivity. }
  rewrite nth_bil by (unfold matmul_table; rewrite L, seq_length; nia). rewrite E, bil_row_eq, map_map. reflexivity.
Qed.
(** The number of elements of a kernel with these sizes. *)
Fixpoint elements (ks : list nat) : nat := match ks with [] => 1%nat | k :: r => (k * elements r)%nat end.
(** Convolutions: right as long as no output element adds more than 512 products (fewer than 256 kernel elements) or 2^21 products (more). *)
Theorem C42_conv : forall rnd order ks T x y, rounds rnd -> sums_all order ->
  Forall (fun row => Z.of_nat (length row) <= (if Nat.ltb (elements ks) 256 then 512 else 2 ^ 21)) T -> gpu_conv rnd order ks T x y = bil T x y.
Proof.
  intros rnd order ks T x y R S F. unfold gpu_conv. change (elements ks) with (kernel_elements ks) in F. apply gpu_bil_exact; [exact (rounds_exact rnd R)|exact S|]. destruct (Nat.ltb (kernel_elements ks) 256); [left|right]; (split; [reflexivity|]); [|exact F].
  eapply Forall_impl; [|exact F]. intros row H. cbv beta in H. lia.
Qed.
(** The number of products also grows with the input channels, which the choice of the block size ignores: with a kernel of one element and 1023 channels
    the result is wrong, whatever the rounding mode and the order of summation. *)
Theorem C42_conv_channels_refuted : exists ks T x y, T = conv1d_table 1023 1 1 1 1 0 /\ ks = [1%nat] /\
  forall rnd order, rounds rnd -> sums_all order -> gpu_conv rnd order ks T x y <> bil T x y.
Proof.
  exists [1%nat], (conv1d_table 1023 1 1 1 1 0), (repeat 4194303 1023), (repeat 4194303 1023). split; [reflexivity|]. split; [reflexivity|]. intros rnd order R S.
  apply conv_one_wrong; [apply R|exact (rounds_exact rnd R)|exact S|reflexivity].
Qed.
(** avg_pool2d gives the truncated mean of the window sums, for windows of up to 2^31 elements. *)
Theorem C42_avg_pool : forall rnd order W d x, rounds rnd -> sums_all order -> Forall (fun win => Z.of_nat (length win) <= 2 ^ 31) W ->
  gpu_avg_pool rnd order W d x = map (fun win => wrap (Z.quot (wrap (zsum (map (fun p => nth p x 0) win))) d)) W.
Proof. intros rnd order W d x R S F. exact (gpu_avg_pool_exact rnd (rounds_exact rnd R) order S W d x F). Qed.

Print Assumptions C42_matmul.
Print Assumptions C42_matmul_entry.
Print Assumptions C42_conv.
Print Assumptions C42_conv_channels_refuted.
Print Assumptions C42_avg_pool.

(** Rounding towards zero is such a rounding; summing from the left and pairwise are such orders. *)
Example C42_case_rounds : rounds toward_zero.
Proof. intros z. split; [apply toward_zero_float|apply toward_zero_exact]. Qed.
Definition from_left (idx : nat) (l : list Z) : tree := fold_left (fun t p => Node t (Leaf p)) l Nil.
Example C42_case_order : sums_all from_left.
Proof.
  intros idx l. unfold from_left. enough (G : forall l t, leaves (fold_left (fun t p => Node t (Leaf p)) l t) = leaves t ++ l) by (rewrite G; reflexivity).
  clear. induction l as [|p l IH]; intros t; cbn [fold_left]; [now rewrite app_nil_r|]. rewrite IH. cbn [leaves]. now rewrite <- app_assoc.
Qed.
(** Large and negative entries: every block is in use, and the product wraps. *)
Example C42_case : gpu_matmul toward_zero from_left 1 3 2 [-9223372036854775807; 4611686018427387905; -77] [3; -5; 1234567890123456789; 9223372036854775807; -1; 0]
  = [-3377118128303931035; -4611686018427387910] /\ nth 1 (bil (matmul_table 1 3 2) [-9223372036854775807; 4611686018427387905; -77] [3; -5; 1234567890123456789; 9223372036854775807; -1; 0]) 0 = -4611686018427387910.
Proof. vm_compute. split; reflexivity. Qed.
Example C42_case_conv : gpu_conv toward_zero from_left [1%nat] (conv1d_table 1023 1 1 1 1 0) (repeat 4194303 1023) (repeat 4194303 1023) = [17996797741892096] /\
  bil (conv1d_table 1023 1 1 1 1 0) (repeat 4194303 1023) (repeat 4194303 1023) = [17996797741892607].
Proof. vm_compute. split; reflexivity. Qed.
