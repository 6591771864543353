(** Proofs about the float64 block products. *)
Require Import ZArith List Permutation Lia Setoid.
From Verif Require Import Ring64 Arith Beaver Beaver_proofs Cuda.
Import ListNotations.
Open Scope Z_scope.

(** ** sums *)
Lemma zsum_flat {A B} (f : B -> Z) (g : A -> list B) l : zsum (map f (flat_map g l)) = zsum (map (fun a => zsum (map f (g a))) l).
Proof. induction l as [|a l IH]; [reflexivity|]. cbn [flat_map map]. rewrite map_app, zsum_app, zsum_cons, IH. reflexivity. Qed.
Lemma zsum_add {A} (f g : A -> Z) l : zsum (map (fun a => f a + g a) l) = zsum (map f l) + zsum (map g l).
Proof. induction l as [|a l IH]; [reflexivity|]. cbn [map]. rewrite !zsum_cons, IH. lia. Qed.
Lemma zsum_scale {A} c (f : A -> Z) l : zsum (map (fun a => c * f a) l) = c * zsum (map f l).
Proof. induction l as [|a l IH]; [cbn; lia|]. cbn [map]. rewrite !zsum_cons, IH. lia. Qed.
Lemma zsum_zero {A} (l : list A) : zsum (map (fun _ => 0) l) = 0.
Proof. induction l as [|a l IH]; [reflexivity|]. cbn [map]. now rewrite zsum_cons, IH. Qed.
Lemma zsum_swap {A B} (f : A -> B -> Z) l m : zsum (map (fun a => zsum (map (f a) m)) l) = zsum (map (fun b => zsum (map (fun a => f a b) l)) m).
Proof.
  induction l as [|a l IH]; cbn [map].
  - symmetry. apply zsum_zero.
  - rewrite zsum_cons, IH, <- zsum_add. reflexivity.
Qed.
Lemma zsum_perm l m : Permutation l m -> zsum l = zsum m.
Proof. intros P. induction P; rewrite ?zsum_cons in *; lia. Qed.
Lemma zsum_ext {A} (f g : A -> Z) l : (forall a, In a l -> f a = g a) -> zsum (map f l) = zsum (map g l).
Proof. intros H. f_equal. now apply map_ext_in. Qed.
Lemma zsum_nonneg l : Forall (fun p => 0 <= p) l -> 0 <= zsum l.
Proof. intros F. induction F; [reflexivity|]. rewrite zsum_cons. lia. Qed.
Lemma zsum_bound c l : Forall (fun p => 0 <= p <= c) l -> zsum l <= c * Z.of_nat (length l).
Proof. intros F. induction F as [|p l Hp F IH]; [cbn; lia|]. rewrite zsum_cons. cbn [length]. nia. Qed.

(** ** float64 sums of small non-negative integers are exact *)
Section Float.
  Variable rnd : Z -> Z.
  Hypothesis rnd_exact : forall z, 0 <= z <= 2 ^ 53 -> rnd z = z.
  Lemma eval_exact t : Forall (fun p => 0 <= p) (leaves t) -> zsum (leaves t) <= 2 ^ 53 -> eval rnd t = zsum (leaves t).
  Proof.
    induction t as [|p|a IHa b IHb]; cbn [leaves eval]; intros F B.
    - reflexivity.
    - cbn in *. inversion F; subst. rewrite Z.add_0_r in *. now apply rnd_exact.
    - apply Forall_app in F as [Fa Fb]. rewrite zsum_app in *. pose proof (zsum_nonneg _ Fa). pose proof (zsum_nonneg _ Fb).
      rewrite IHa, IHb by (assumption || lia). apply rnd_exact. lia.
  Qed.
  Variable order : nat -> list Z -> tree.
  Hypothesis order_all : forall idx l, Permutation (leaves (order idx l)) l.
  Lemma fl_sum_exact idx l c : Forall (fun p => 0 <= p <= c) l -> c * Z.of_nat (length l) <= 2 ^ 53 -> fl_sum rnd order idx l = zsum l.
  Proof.
    intros F B. unfold fl_sum. pose proof (order_all idx l) as P. pose proof (zsum_bound c l F). rewrite eval_exact.
    - now apply zsum_perm.
    - apply Forall_forall. intros p Hp. rewrite Forall_forall in F. apply (Permutation_in _ P) in Hp. apply F in Hp. lia.
    - rewrite (zsum_perm _ _ P). lia.
  Qed.
End Float.

(** ** blocks *)
Lemma block_eq nb i x : 0 < block_size nb -> block nb i x = (x / 2 ^ (block_size nb * Z.of_nat i)) mod 2 ^ block_size nb.
Proof. intros H. unfold block, wshr. rewrite Z.shiftr_div_pow2 by lia. replace (2 ^ block_size nb - 1) with (Z.ones (block_size nb)) by (rewrite Z.ones_equiv; lia). now rewrite Z.land_ones by lia. Qed.
Lemma block_bound nb i x : 0 < block_size nb -> 0 <= block nb i x <= 2 ^ block_size nb - 1.
Proof. intros H. rewrite block_eq by assumption. pose proof (Z.mod_pos_bound (x / 2 ^ (block_size nb * Z.of_nat i)) (2 ^ block_size nb) ltac:(lia)). lia. Qed.
Lemma recon b x n : 0 < b -> zsum (map (fun i => (x / 2 ^ (b * Z.of_nat i)) mod 2 ^ b * 2 ^ (b * Z.of_nat i)) (seq 0 n)) = x mod 2 ^ (b * Z.of_nat n).
Proof.
  intros Hb. induction n as [|n IH].
  - cbn [seq map]. rewrite Z.mul_0_r. cbn. now rewrite Z.mod_1_r.
  - rewrite seq_S, map_app, zsum_app, IH. cbn [plus map]. rewrite zsum_cons. cbn [zsum fold_right].
    replace (b * Z.of_nat (S n)) with (b * Z.of_nat n + b) by lia. rewrite Z.pow_add_r by lia.
    rewrite Z.rem_mul_r by lia. lia.
Qed.
Lemma mod_eqm x m : 64 <= m -> x mod 2 ^ m == x.
Proof.
  intros H. unfold eqm. rewrite M64_eq. replace m with (64 + (m - 64)) by lia. rewrite Z.pow_add_r by lia. rewrite Z.rem_mul_r by lia.
  rewrite Z.mul_comm, Z.mod_add by lia. now rewrite Z.mod_mod by lia.
Qed.
Lemma blocks_value nb x : 0 < block_size nb -> 64 <= block_size nb * Z.of_nat nb ->
  zsum (map (fun i => block nb i x * 2 ^ (block_size nb * Z.of_nat i)) (seq 0 nb)) == x.
Proof.
  intros H H64. rewrite (zsum_ext _ (fun i => (x / 2 ^ (block_size nb * Z.of_nat i)) mod 2 ^ block_size nb * 2 ^ (block_size nb * Z.of_nat i))) by (intros; now rewrite block_eq).
  rewrite recon by assumption. now apply mod_eqm.
Qed.
Lemma shift_eqm a s : 0 <= s -> wshl a s == a * 2 ^ s.
Proof. intros H. unfold wshl. rewrite wrap_eqm. now rewrite Z.shiftl_mul_pow2. Qed.
Lemma shift_gone a s : 64 <= s -> a * 2 ^ s == 0.
Proof.
  intros H. unfold eqm. rewrite M64_eq. replace s with (64 + (s - 64)) by lia. rewrite Z.pow_add_r by lia. rewrite Z.mul_assoc, (Z.mul_comm a), <- Z.mul_assoc, Z.mul_comm.
  rewrite Z.mod_mul by lia. reflexivity.
Qed.
Lemma nth_blocks nb i x k : nth k (blocks nb i x) 0 = if Nat.ltb k (length x) then block nb i (nth k x 0) else 0.
Proof.
  unfold blocks. destruct (Nat.ltb_spec k (length x)) as [H|H].
  - rewrite (nth_indep _ 0 (block nb i 0)) by (now rewrite map_length). apply map_nth.
  - apply nth_overflow. now rewrite map_length.
Qed.

Lemma decode_eqm nb z w : 0 < block_size nb -> (forall i j, (i < nb)%nat -> (j < nb)%nat -> z (i * nb + j)%nat = w i j) ->
  decode nb z == zsum (map (fun i => zsum (map (fun j => w i j * 2 ^ (Z.of_nat (i + j) * block_size nb)) (seq 0 nb))) (seq 0 nb)).
Proof.
  intros Hb E. unfold decode. rewrite wrap_eqm. unfold index_shifts. rewrite zsum_flat. apply zsum_map_eqm. intros i Hi. rewrite zsum_flat. apply zsum_map_eqm. intros j Hj.
  apply in_seq in Hi, Hj. cbv zeta. destruct (Z.leb_spec 64 (Z.of_nat (i + j) * block_size nb)) as [L|L].
  - cbn [map zsum fold_right]. now rewrite shift_gone by assumption.
  - cbn [map fst snd]. rewrite zsum_cons. cbn [zsum fold_right]. rewrite Z.add_0_r, E by lia. apply shift_eqm. nia.
Qed.

Section Product.
  Variable rnd : Z -> Z.
  Hypothesis rnd_exact : forall z, 0 <= z <= 2 ^ 53 -> rnd z = z.
  Variable order : nat -> list Z -> tree.
  Hypothesis order_all : forall idx l, Permutation (leaves (order idx l)) l.

  Lemma z_encoded_exact nb i j row x y : 0 < block_size nb -> (2 ^ block_size nb - 1) * (2 ^ block_size nb - 1) * Z.of_nat (length row) <= 2 ^ 53 -> (i < nb)%nat -> (j < nb)%nat ->
    z_encoded rnd order nb (i * nb + j) row x y = zsum (map (fun p => nth (fst p) (blocks nb j x) 0 * nth (snd p) (blocks nb i y) 0) row).
  Proof.
    intros Hb B Hi Hj. unfold z_encoded, fl_row.
    replace ((i * nb + j) mod nb)%nat with j by (rewrite Nat.add_comm, Nat.mod_add by lia; symmetry; now apply Nat.mod_small).
    replace ((i * nb + j) / nb)%nat with i by (rewrite Nat.add_comm, Nat.div_add by lia; now rewrite Nat.div_small).
    apply (fl_sum_exact rnd rnd_exact order order_all _ _ ((2 ^ block_size nb - 1) * (2 ^ block_size nb - 1))); [|now rewrite map_length].
    apply Forall_map, Forall_forall. intros [a c] _. cbn [fst snd]. rewrite !nth_blocks.
    pose proof (block_bound nb j (nth a x 0) Hb). pose proof (block_bound nb i (nth c y 0) Hb).
    destruct (Nat.ltb a (length x)), (Nat.ltb c (length y)); nia.
  Qed.
  Lemma nth_block nb i x k : nth k (blocks nb i x) 0 = block nb i (nth k x 0).
  Proof.
    rewrite nth_blocks. destruct (Nat.ltb_spec k (length x)) as [H|H]; [reflexivity|]. rewrite nth_overflow by assumption.
    unfold block, wshr. rewrite Z.shiftr_0_l. reflexivity.
  Qed.
  Lemma bil_row_sum row x y : bil_row row x y == zsum (map (fun p => nth (fst p) x 0 * nth (snd p) y 0) row).
  Proof.
    unfold bil_row. enough (G : forall l acc, fold_left (fun acc p => wadd acc (wmul (nth (fst p) x 0) (nth (snd p) y 0))) l acc == acc + zsum (map (fun p => nth (fst p) x 0 * nth (snd p) y 0) l)).
    { rewrite G. now rewrite Z.add_0_l. }
    induction l as [|p l IH]; intros acc; cbn [fold_left map]; [cbn; now rewrite Z.add_0_r|]. rewrite IH, zsum_cons, wadd_eqm, wmul_eqm. now rewrite Z.add_assoc.
  Qed.
  Lemma bil_row_in64 row x y : in64 (bil_row row x y).
  Proof.
    unfold bil_row. enough (G : forall l acc, in64 acc -> in64 (fold_left (fun acc p => wadd acc (wmul (nth (fst p) x 0) (nth (snd p) y 0))) l acc)) by (apply G, in64_0).
    induction l as [|p l IH]; intros acc H; cbn [fold_left]; [assumption|]. apply IH, wadd_in64.
  Qed.

  Lemma row_exact nb row x y : 0 < block_size nb -> 64 <= block_size nb * Z.of_nat nb -> (2 ^ block_size nb - 1) * (2 ^ block_size nb - 1) * Z.of_nat (length row) <= 2 ^ 53 ->
    decode nb (fun idx => z_encoded rnd order nb idx row x y) = bil_row row x y.
  Proof.
    intros Hb H64 B. apply eqm_in64_eq; [unfold decode; apply wrap_in64|apply bil_row_in64|].
    rewrite (decode_eqm nb _ (fun i j => zsum (map (fun p => nth (fst p) (blocks nb j x) 0 * nth (snd p) (blocks nb i y) 0) row)) Hb) by (intros; now apply z_encoded_exact).
    rewrite bil_row_sum.
    rewrite (zsum_ext _ (fun i => zsum (map (fun p => (block nb i (nth (snd p) y 0) * 2 ^ (block_size nb * Z.of_nat i)) *
       zsum (map (fun j => block nb j (nth (fst p) x 0) * 2 ^ (block_size nb * Z.of_nat j)) (seq 0 nb))) row))).
    - rewrite zsum_swap. apply zsum_map_eqm. intros p _.
      rewrite (zsum_ext _ (fun i => zsum (map (fun j => block nb j (nth (fst p) x 0) * 2 ^ (block_size nb * Z.of_nat j)) (seq 0 nb)) * (block nb i (nth (snd p) y 0) * 2 ^ (block_size nb * Z.of_nat i)))) by (intros; apply Z.mul_comm).
      rewrite zsum_scale. rewrite !blocks_value by assumption. reflexivity.
    - intros i _. rewrite (zsum_ext _ (fun p => zsum (map (fun j => block nb j (nth (fst p) x 0) * 2 ^ (block_size nb * Z.of_nat j) * (block nb i (nth (snd p) y 0) * 2 ^ (block_size nb * Z.of_nat i))) (seq 0 nb))) row).
      + rewrite <- (zsum_swap (fun j p => block nb j (nth (fst p) x 0) * 2 ^ (block_size nb * Z.of_nat j) * (block nb i (nth (snd p) y 0) * 2 ^ (block_size nb * Z.of_nat i)))).
        apply zsum_ext. intros j _. rewrite Z.mul_comm, <- zsum_scale. apply zsum_ext. intros p _. rewrite !nth_block. rewrite Nat2Z.inj_add, Z.mul_add_distr_r, Z.pow_add_r by nia.
        rewrite (Z.mul_comm (Z.of_nat i)), (Z.mul_comm (Z.of_nat j)). ring.
      + intros p _. rewrite <- zsum_scale. apply zsum_ext. intros j _. ring.
  Qed.

  Lemma gpu_bil_exact nb T x y : (nb = 3%nat /\ Forall (fun row => (length row <= 512)%nat) T \/ nb = 4%nat /\ Forall (fun row => Z.of_nat (length row) <= 2 ^ 21) T) ->
    gpu_bil rnd order nb T x y = bil T x y.
  Proof.
    intros [[-> F]|[-> F]]; unfold gpu_bil, bil; apply map_ext_in; intros row Hr; rewrite Forall_forall in F; apply F in Hr; apply row_exact; try reflexivity.
    - vm_compute. discriminate.
    - change (block_size 3) with 22. change ((2 ^ 22 - 1) * (2 ^ 22 - 1)) with 17592177655809. change (2 ^ 53) with 9007199254740992. lia.
    - change (block_size 4) with 16. change ((2 ^ 16 - 1) * (2 ^ 16 - 1)) with 4294836225. change (2 ^ 53) with 9007199254740992. change (2 ^ 21) with 2097152 in Hr. lia.
  Qed.
  Lemma matmul_rows n k m row : In row (matmul_table n k m) -> length row = k.
  Proof.
    unfold matmul_table. intros H. apply in_flat_map in H as (r & _ & H). apply in_map_iff in H as (c & <- & _). rewrite map_length. apply seq_length.
  Qed.
  Lemma gpu_matmul_exact n k m x y : Z.of_nat k <= 2 ^ 21 -> gpu_matmul rnd order n k m x y = bil (matmul_table n k m) x y.
  Proof.
    intros Hk. unfold gpu_matmul. apply gpu_bil_exact. destruct (Nat.ltb_spec k 256) as [L|L]; [left|right]; (split; [reflexivity|]); apply Forall_forall; intros row Hr; apply matmul_rows in Hr; rewrite Hr; lia.
  Qed.

  Lemma gpu_avg_pool_exact W d x : Forall (fun win => Z.of_nat (length win) <= 2 ^ 31) W ->
    gpu_avg_pool rnd order W d x = map (fun win => tdiv (wrap (zsum (map (fun p => nth p x 0) win))) d) W.
  Proof.
    intros F. unfold gpu_avg_pool. apply map_ext_in. intros win Hw. rewrite Forall_forall in F. apply F in Hw. f_equal. apply eqm_wrap_eq.
    etransitivity; [apply (zsum_map_eqm _ (fun i => zsum (map (fun p => block 3 i (nth p x 0) * 2 ^ (22 * Z.of_nat i)) win)))|].
    - intros i _. change (block_size 3) with 22. rewrite shift_eqm by lia. rewrite (fl_sum_exact rnd rnd_exact order order_all i _ 4194303).
      + rewrite Z.mul_comm, <- zsum_scale. apply eqm_refl_eq. apply zsum_ext. intros p _. rewrite nth_block. ring.
      + apply Forall_map, Forall_forall. intros p _. rewrite nth_block. exact (block_bound 3 i (nth p x 0) eq_refl).
      + rewrite map_length. change (2 ^ 31) with 2147483648 in Hw. change (2 ^ 53) with 9007199254740992. lia.
    - rewrite zsum_swap. apply zsum_map_eqm. intros p _. apply (blocks_value 3); [reflexivity|vm_compute; discriminate].
  Qed.
End Product.

(** ** rounding does happen *)
(** integers a float64 can hold *)
Definition float64 (z : Z) : Prop := exists m e, Z.abs m < 2 ^ 53 /\ 0 <= e /\ z = m * 2 ^ e.
Lemma odd_not_float z : 2 ^ 53 <= Z.abs z -> Z.odd z = true -> ~ float64 z.
Proof.
  intros H O (m & e & Hm & He & ->). destruct (Z.eq_dec e 0) as [->|N].
  - rewrite Z.pow_0_r, Z.mul_1_r in H. lia.
  - rewrite Z.odd_mul in O. replace e with (1 + (e - 1)) in O by lia. rewrite Z.pow_add_r, Z.odd_mul in O by lia. change (Z.odd (2 ^ 1)) with false in O. cbn [andb] in O. rewrite Bool.andb_false_r in O. discriminate.
Qed.
Lemma small_float z : 0 <= z <= 2 ^ 53 -> float64 z.
Proof.
  intros H. destruct (Z.eq_dec z (2 ^ 53)) as [->|N].
  - exists (2 ^ 52), 1. split; [reflexivity|]. split; [lia|reflexivity].
  - exists z, 0. split; [lia|]. split; [lia|]. now rewrite Z.pow_0_r, Z.mul_1_r.
Qed.
(** a rounding mode: towards zero *)
Definition toward_zero (z : Z) : Z := let e := Z.max 0 (Z.log2 (Z.abs z) - 52) in Z.quot z (2 ^ e) * 2 ^ e.
Lemma toward_zero_float z : float64 (toward_zero z).
Proof.
  unfold toward_zero. cbv zeta. set (e := Z.max 0 (Z.log2 (Z.abs z) - 52)). exists (Z.quot z (2 ^ e)), e. split; [|split; [lia|reflexivity]].
  assert (0 < 2 ^ e) by (apply Z.pow_pos_nonneg; lia). rewrite <- Z.quot_abs by lia. rewrite (Z.abs_eq (2 ^ e)) by lia.
  destruct (Z.eq_dec z 0) as [->|N]; [reflexivity|].
  pose proof (Z.log2_spec (Z.abs z) ltac:(lia)) as [_ L]. rewrite Z.quot_div_nonneg by lia. apply Z.div_lt_upper_bound; [lia|].
  rewrite <- Z.pow_add_r by lia. eapply Z.lt_le_trans; [exact L|]. apply Z.pow_le_mono_r; lia.
Qed.
Lemma toward_zero_exact z : float64 z -> toward_zero z = z.
Proof.
  intros (m & e' & Hm & He & ->). unfold toward_zero. cbv zeta. set (e := Z.max 0 (Z.log2 (Z.abs (m * 2 ^ e')) - 52)).
  destruct (Z.eq_dec m 0) as [->|N]; [reflexivity|].
  assert (P : 0 < 2 ^ e') by (apply Z.pow_pos_nonneg; lia).
  assert (L : e <= e').
  { unfold e. rewrite Z.abs_mul, (Z.abs_eq (2 ^ e')), Z.log2_mul_pow2 by lia.
    assert (Z.log2 (Z.abs m) < 53) by (apply Z.log2_lt_pow2; lia). lia. }
  replace (m * 2 ^ e') with (m * 2 ^ (e' - e) * 2 ^ e) by (rewrite <- Z.mul_assoc, <- Z.pow_add_r by lia; do 2 f_equal; lia).
  rewrite Z.quot_mul by (apply Z.pow_nonzero; lia). reflexivity.
Qed.
Lemma eval_float rnd t : (forall z, float64 (rnd z)) -> float64 (eval rnd t).
Proof. intros H. destruct t; cbn [eval]; auto. exists 0, 0. cbn. lia. Qed.

(** ** a 1x1 convolution over [k] channels *)
Lemma conv_one k : conv1d_table k 1 1 1 1 0 = [map (fun i => (i, i)) (seq 0 k)].
Proof.
  unfold conv1d_table. cbn [seq flat_map map app Nat.div Nat.divmod fst snd Nat.mul plus Nat.sub]. cbv zeta. f_equal.
  rewrite <- (flat_map_concat_map) || idtac.
  induction (seq 0 k) as [|i l IH]; [reflexivity|]. cbn [flat_map map app]. rewrite IH. cbn. rewrite !Nat.mul_1_r, !Nat.add_0_r. reflexivity.
Qed.
Lemma diag_products (f g : list Z -> list Z) v a b k : (forall i, (i < k)%nat -> nth i (f (repeat v k)) 0 = a) -> (forall i, (i < k)%nat -> nth i (g (repeat v k)) 0 = b) ->
  map (fun p => nth (fst p) (f (repeat v k)) 0 * nth (snd p) (g (repeat v k)) 0) (map (fun i => (i, i)) (seq 0 k)) = repeat (a * b) k.
Proof.
  intros Hf Hg. rewrite map_map. cbn [fst snd].
  assert (G : forall n s, (s + n <= k)%nat -> map (fun i => nth i (f (repeat v k)) 0 * nth i (g (repeat v k)) 0) (seq s n) = repeat (a * b) n).
  { induction n as [|n IH]; intros s H; [reflexivity|]. cbn [seq map repeat]. rewrite Hf, Hg, IH by lia. reflexivity. }
  apply G. lia.
Qed.
Lemma nth_repeat_lt (v : Z) k : forall i, (i < k)%nat -> nth i (repeat v k) 0 = v.
Proof. induction k as [|k IH]; intros [|i] H; cbn [repeat nth]; try lia. apply IH. lia. Qed.
Lemma zsum_repeat v k : zsum (repeat v k) = v * Z.of_nat k.
Proof. induction k as [|k IH]; [cbn; lia|]. cbn [repeat]. rewrite zsum_cons, IH. lia. Qed.
Lemma block0_repeat k i : (i < k)%nat -> nth i (blocks 3 0 (repeat 4194303 k)) 0 = 4194303.
Proof. intros Hi. rewrite nth_block, nth_repeat_lt by assumption. vm_compute. reflexivity. Qed.
Lemma blockS_repeat b k i : b <> 0%nat -> (i < k)%nat -> nth i (blocks 3 b (repeat 4194303 k)) 0 = 0.
Proof.
  intros Hb Hi. rewrite nth_block, nth_repeat_lt by assumption. rewrite block_eq by reflexivity. change (block_size 3) with 22. rewrite Z.div_small; [reflexivity|].
  split; [lia|]. apply Z.lt_le_trans with (2 ^ 22); [reflexivity|]. apply Z.pow_le_mono_r; lia.
Qed.
Lemma fl_zero rnd order (idx k : nat) : (forall z, 0 <= z <= 2 ^ 53 -> rnd z = z) -> (forall idx l, Permutation (leaves (order idx l)) l) -> (idx mod 3 <> 0 \/ idx / 3 <> 0)%nat ->
  z_encoded rnd order 3 idx (map (fun i => (i, i)) (seq 0 k)) (repeat 4194303 k) (repeat 4194303 k) = 0.
Proof.
  intros R2 SO H. unfold z_encoded, fl_row.
  assert (D : exists a b, a * b = 0 /\ (forall i, (i < k)%nat -> nth i (blocks 3 (idx mod 3) (repeat 4194303 k)) 0 = a) /\ (forall i, (i < k)%nat -> nth i (blocks 3 (idx / 3) (repeat 4194303 k)) 0 = b)).
  { destruct (Nat.eq_dec (idx mod 3) 0) as [A|A].
    - exists 4194303, 0. split; [reflexivity|]. split; intros i Hi; [rewrite A; now apply block0_repeat|apply blockS_repeat; [intuition|assumption]].
    - destruct (Nat.eq_dec (idx / 3) 0) as [B|B]; [exists 0, 4194303|exists 0, 0]; (split; [reflexivity|]); split; intros i Hi; try (apply blockS_repeat; assumption). rewrite B. now apply block0_repeat. }
  destruct D as (a & b & Hab & Ha & Hb). rewrite (diag_products (blocks 3 (idx mod 3)) (blocks 3 (idx / 3)) 4194303 a b) by assumption.
  rewrite Hab. rewrite (fl_sum_exact rnd R2 order SO idx _ 0); [rewrite zsum_repeat; reflexivity| |discriminate].
  apply Forall_forall. intros p Hp. apply repeat_spec in Hp. lia.
Qed.
Lemma conv_one_row k : Z.of_nat k = 1023 -> bil_row (map (fun i => (i, i)) (seq 0 k)) (repeat 4194303 k) (repeat 4194303 k) = 17996797741892607.
Proof.
  intros Hk. rewrite bil_row_eq. rewrite (diag_products (fun l => l) (fun l => l) 4194303 4194303 4194303) by (intros; now apply nth_repeat_lt).
  rewrite zsum_repeat, Hk. vm_compute. reflexivity.
Qed.
Lemma decode3 z : (forall i, (i < 9)%nat -> i <> 0%nat -> z i = 0) -> decode 3 z == z 0%nat.
Proof.
  intros H. unfold decode. rewrite wrap_eqm. replace (index_shifts 3) with [(0%nat, 0); (1%nat, 22); (2%nat, 44); (3%nat, 22); (4%nat, 44); (6%nat, 44)] by (vm_compute; reflexivity). cbn [map fst snd].
  rewrite (H 1%nat), (H 2%nat), (H 3%nat), (H 4%nat), (H 6%nat) by lia.
  replace (wshl 0 22) with 0 by (vm_compute; reflexivity). replace (wshl 0 44) with 0 by (vm_compute; reflexivity). rewrite !zsum_cons. unfold wshl. rewrite wrap_eqm, Z.shiftl_0_r.
  cbn [zsum fold_right]. now rewrite Z.add_0_r.
Qed.
Lemma conv_one_wrong rnd order k : (forall z, float64 (rnd z)) -> (forall z, 0 <= z <= 2 ^ 53 -> rnd z = z) -> (forall idx l, Permutation (leaves (order idx l)) l) -> Z.of_nat k = 1023 ->
  gpu_conv rnd order [1%nat] (conv1d_table k 1 1 1 1 0) (repeat 4194303 k) (repeat 4194303 k) <> bil (conv1d_table k 1 1 1 1 0) (repeat 4194303 k) (repeat 4194303 k).
Proof.
  intros R1 R2 SO Hk E. rewrite conv_one in E. unfold gpu_conv, gpu_bil, bil in E. cbn [map] in E. apply (f_equal (hd 0)) in E. cbn [hd] in E.
  change (Nat.ltb (kernel_elements [1%nat]) 256) with true in E. cbv iota in E. rewrite conv_one_row in E by assumption.
  pose proof (fun idx => fl_zero rnd order idx k R2 SO) as Zero.
  assert (F : float64 (z_encoded rnd order 3 0 (map (fun i => (i, i)) (seq 0 k)) (repeat 4194303 k) (repeat 4194303 k))) by (unfold z_encoded, fl_row, fl_sum; apply eval_float; exact R1).
  set (z := fun idx => z_encoded rnd order 3 idx (map (fun i => (i, i)) (seq 0 k)) (repeat 4194303 k) (repeat 4194303 k)) in *.
  change (float64 (z 0%nat)) in F. assert (Zero' : forall i, (i < 9)%nat -> i <> 0%nat -> z i = 0).
  { intros i Hi H0. apply Zero. destruct (Nat.eq_dec (i mod 3) 0) as [A|A]; [right|now left]. pose proof (Nat.div_mod i 3). lia. }
  clear Zero. clearbody z. pose proof (decode3 z Zero') as D. rewrite E in D.
  assert (C : exists c, z 0%nat = 17996797741892607 + c * M64) by (apply eqm_iff; now symmetry).
  destruct C as [c C]. revert F. apply odd_not_float; rewrite C.
  - unfold M64. change (2 ^ 53) with 9007199254740992. lia.
  - rewrite Z.odd_add, Z.odd_mul. change (Z.odd M64) with false. now rewrite Bool.andb_false_r.
Qed.
