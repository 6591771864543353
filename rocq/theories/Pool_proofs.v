(** Proofs about max pooling windows. *)
Require Import ZArith List Lia Bool.
From Verif Require Import Ring64 Pool.
Import ListNotations.
Open Scope Z_scope.

Lemma in_zrange n i : In i (zrange n) <-> 0 <= i < n.
Proof.
  unfold zrange. rewrite in_map_iff. split.
  - intros (k & <- & Hk). apply in_seq in Hk. lia.
  - intros H. exists (Z.to_nat i). split; [lia|]. apply in_seq. lia.
Qed.
Lemma zrange_length n : length (zrange n) = Z.to_nat n.
Proof. unfold zrange. now rewrite map_length, seq_length. Qed.
Lemma zrange_nonpos n : n <= 0 -> zrange n = [].
Proof. intros H. unfold zrange. now replace (Z.to_nat n) with 0%nat by lia. Qed.
Lemma zrange_app a b : 0 <= a -> 0 <= b -> zrange (a + b) = zrange a ++ map (fun i => a + i) (zrange b).
Proof.
  intros Ha Hb. unfold zrange. rewrite Z2Nat.inj_add, seq_app, map_app by assumption. f_equal. cbn [plus]. rewrite map_map.
  assert (G : forall n s, map Z.of_nat (seq (Z.to_nat a + s) n) = map (fun x => a + Z.of_nat x) (seq s n)).
  { induction n as [|n IH]; intros t; [reflexivity|]. cbn [seq map]. rewrite <- IH. f_equal; [lia|]. do 2 f_equal. lia. }
  rewrite <- G. do 2 f_equal. lia.
Qed.
Lemma zrange_succ n : 0 <= n -> zrange (n + 1) = zrange n ++ [n].
Proof. intros H. rewrite zrange_app by lia. f_equal. change (zrange 1) with [0]. cbn [map]. now rewrite Z.add_0_r. Qed.
Lemma zrange_mul a e : 0 <= a -> 0 <= e -> zrange (a * e) = flat_map (fun b => map (fun i => b * e + i) (zrange e)) (zrange a).
Proof.
  intros Ha He. revert a Ha. apply (natlike_ind (fun a => zrange (a * e) = flat_map (fun b => map (fun i => b * e + i) (zrange e)) (zrange a))).
  - reflexivity.
  - intros a Ha IH. unfold Z.succ. rewrite zrange_succ by assumption. rewrite flat_map_app, <- IH. cbn [flat_map]. rewrite app_nil_r.
    replace ((a + 1) * e) with (a * e + e) by lia. apply zrange_app; nia.
Qed.
Lemma flat_map_map {A B C} (f : B -> list C) (g : A -> B) l : flat_map f (map g l) = flat_map (fun x => f (g x)) l.
Proof. induction l as [|a l IH]; [reflexivity|]. cbn [map flat_map]. now rewrite IH. Qed.
Lemma flat_map_flat_map {A B C} (f : B -> list C) (g : A -> list B) l : flat_map f (flat_map g l) = flat_map (fun x => flat_map f (g x)) l.
Proof. induction l as [|a l IH]; [reflexivity|]. cbn [flat_map]. now rewrite flat_map_app, IH. Qed.
Lemma map_flat_map {A B C} (f : B -> C) (g : A -> list B) l : map f (flat_map g l) = flat_map (fun x => map f (g x)) l.
Proof. induction l as [|a l IH]; [reflexivity|]. cbn [flat_map]. now rewrite map_app, IH. Qed.
Lemma flat_map_ext_in {A B} (f g : A -> list B) l : (forall a, In a l -> f a = g a) -> flat_map f l = flat_map g l.
Proof. induction l as [|a l IH]; intros H; [reflexivity|]. cbn [flat_map]. rewrite H by (now left). rewrite IH; [reflexivity|]. intros b Hb. apply H. now right. Qed.

(** elements of regular nested lists *)
Lemma nth_flat {A} (f : Z -> list A) m n i j : (forall k, 0 <= k < n -> Z.of_nat (length (f k)) = m) -> 0 <= i < n -> 0 <= j < m ->
  nth_error (flat_map f (zrange n)) (Z.to_nat (i * m + j)) = nth_error (f i) (Z.to_nat j).
Proof.
  intros L Hi Hj. assert (Hn : 0 <= n) by lia. revert L Hi. revert n Hn.
  apply (natlike_ind (fun n => (forall k, 0 <= k < n -> Z.of_nat (length (f k)) = m) -> 0 <= i < n -> nth_error (flat_map f (zrange n)) (Z.to_nat (i * m + j)) = nth_error (f i) (Z.to_nat j))); [lia|].
  intros n Hn IH L Hi. unfold Z.succ in *. rewrite zrange_succ, flat_map_app by assumption. cbn [flat_map]. rewrite app_nil_r.
  assert (Ln : forall q, 0 <= q <= n -> Z.of_nat (length (flat_map f (zrange q))) = q * m).
  { intros q Hq. assert (H0 : 0 <= q) by lia. revert Hq. revert q H0. apply (natlike_ind (fun q => 0 <= q <= n -> Z.of_nat (length (flat_map f (zrange q))) = q * m)); [reflexivity|].
    intros q Hq IHq Hb. unfold Z.succ in *. rewrite zrange_succ, flat_map_app, app_length by assumption. cbn [flat_map]. rewrite app_nil_r, Nat2Z.inj_add, IHq, L by lia. lia. }
  destruct (Z.eq_dec i n) as [->|D].
  - rewrite nth_error_app2 by (specialize (Ln n); lia). f_equal. specialize (Ln n). lia.
  - rewrite nth_error_app1; [apply IH; [intros k Hk; apply L; lia|lia]|]. specialize (Ln n ltac:(lia)). nia.
Qed.
Lemma nth_zrange n i : 0 <= i < n -> nth_error (zrange n) (Z.to_nat i) = Some i.
Proof.
  intros H. unfold zrange. rewrite nth_error_map. rewrite (nth_error_nth' _ 0%nat) by (rewrite seq_length; lia). rewrite seq_nth by lia. cbn. f_equal. lia.
Qed.
Lemma nth_map_zrange {A} (f : Z -> A) n i : 0 <= i < n -> nth_error (map f (zrange n)) (Z.to_nat i) = Some (f i).
Proof. intros H. rewrite nth_error_map, nth_zrange by assumption. reflexivity. Qed.

Definition grid {A} (n R C : Z) (f : Z -> Z -> Z -> A) : list A := flat_map (fun b => flat_map (fun y => map (fun x => f b y x) (zrange C)) (zrange R)) (zrange n).
Lemma flat_length {A} (f : Z -> list A) m n : 0 <= n -> (forall k, 0 <= k < n -> Z.of_nat (length (f k)) = m) -> Z.of_nat (length (flat_map f (zrange n))) = n * m.
Proof.
  intros Hn. revert n Hn. apply (natlike_ind (fun n => (forall k, 0 <= k < n -> Z.of_nat (length (f k)) = m) -> Z.of_nat (length (flat_map f (zrange n))) = n * m)); [reflexivity|].
  intros n Hn IH L. unfold Z.succ in *. rewrite zrange_succ, flat_map_app, app_length by assumption. cbn [flat_map]. rewrite app_nil_r, Nat2Z.inj_add, IH, L; [lia|lia|]. intros k Hk. apply L. lia.
Qed.
Lemma grid_nth {A} n R C (f : Z -> Z -> Z -> A) b y x : 0 <= b < n -> 0 <= y < R -> 0 <= x < C ->
  nth_error (grid n R C f) (Z.to_nat (b * (R * C) + y * C + x)) = Some (f b y x).
Proof.
  intros Hb Hy Hx. unfold grid. replace (b * (R * C) + y * C + x) with (b * (R * C) + (y * C + x)) by lia.
  assert (L : forall b, Z.of_nat (length (flat_map (fun y => map (fun x => f b y x) (zrange C)) (zrange R))) = R * C).
  { intros b'. apply flat_length; [lia|]. intros k Hk. rewrite map_length, zrange_length. lia. }
  rewrite (nth_flat _ (R * C)); [|intros k Hk; apply L|lia|nia]. rewrite (nth_flat _ C); [|intros k Hk; rewrite map_length, zrange_length; lia|lia|lia].
  now apply nth_map_zrange.
Qed.

(** ** padding *)
Definition pixel (H W v : Z) (data : list Z) (b y x : Z) : Z :=
  if (0 <=? y) && (y <? H) && (0 <=? x) && (x <? W) then nth (Z.to_nat (b * (H * W) + y * W + x)) data 0 else v.
Lemma pad2d_grid n H W l r t b v data : pad2d n H W l r t b v data = grid n (H + t + b) (W + l + r) (fun k y x => pixel H W v data k (y - t) (x - l)).
Proof.
  unfold pad2d, grid, pixel. apply flat_map_ext. intros k. apply flat_map_ext. intros y. apply map_ext. intros x.
  replace (0 <=? y - t) with (t <=? y) by (destruct (Z.leb_spec t y), (Z.leb_spec 0 (y - t)); lia || reflexivity).
  replace (y - t <? H) with (y <? t + H) by (destruct (Z.ltb_spec y (t + H)), (Z.ltb_spec (y - t) H); lia || reflexivity).
  replace (0 <=? x - l) with (l <=? x) by (destruct (Z.leb_spec l x), (Z.leb_spec 0 (x - l)); lia || reflexivity).
  replace (x - l <? W) with (x <? l + W) by (destruct (Z.ltb_spec x (l + W)), (Z.ltb_spec (x - l) W); lia || reflexivity). reflexivity.
Qed.
Lemma pixel_out H W v data b y x : ~ (0 <= y < H /\ 0 <= x < W) -> pixel H W v data b y x = v.
Proof.
  intros N. unfold pixel. destruct (Z.leb_spec 0 y), (Z.ltb_spec y H), (Z.leb_spec 0 x), (Z.ltb_spec x W); try reflexivity. exfalso. apply N. lia.
Qed.
Lemma pixel_grid n H W v f b y x : 0 <= b < n -> pixel H W v (grid n H W f) b y x = if (0 <=? y) && (y <? H) && (0 <=? x) && (x <? W) then f b y x else v.
Proof.
  intros Hb. unfold pixel. destruct ((0 <=? y) && (y <? H) && (0 <=? x) && (x <? W)) eqn:E; [|reflexivity].
  apply andb_prop in E as [E E4]. apply andb_prop in E as [E E3]. apply andb_prop in E as [E1 E2].
  apply nth_error_nth. apply grid_nth; lia.
Qed.

(** ** indices *)
Lemma all_some_map {A B} (f : A -> option B) g l : (forall x, In x l -> f x = Some (g x)) -> all_some (map f l) = Some (map g l).
Proof. induction l as [|a l IH]; intros H; [reflexivity|]. cbn [map all_some]. rewrite H by (now left). rewrite IH; [reflexivity|]. intros b Hb. apply H. now right. Qed.
Lemma take_map {A B} (data : list Z) (f : A -> list B) (ix : A -> B -> Z) (g : A -> B -> Z) l : (forall a b, In a l -> In b (f a) -> take1 data (ix a b) = Some (g a b)) ->
  take data (map (fun a => map (ix a) (f a)) l) = Some (map (fun a => map (g a) (f a)) l).
Proof.
  intros H. unfold take. rewrite map_map. apply all_some_map. intros a Ha. rewrite map_map. apply all_some_map. intros b Hb. now apply H.
Qed.
Lemma stack_leading_eq lead : Forall (fun e => 0 <= e) lead -> forall off m idx,
  stack_leading off (m :: lead) idx = flat_map (fun b => map (map (fun x => x + b * (off * m))) idx) (zrange (fold_right Z.mul 1 lead)).
Proof.
  induction 1 as [|e lead He F IH]; intros off m idx.
  - cbn [stack_leading fold_right]. change (zrange 1) with [0]. cbn [flat_map]. rewrite app_nil_r. symmetry. rewrite <- (map_id idx) at 2. apply map_ext. intros r. rewrite <- (map_id r) at 2. apply map_ext. intros x. lia.
  - change (stack_leading off (m :: e :: lead) idx) with (stack_leading (off * m) (e :: lead) (flat_map (fun i => map (map (fun x => x + i * (off * m))) idx) (zrange e))). rewrite IH. cbn [fold_right]. assert (P : 0 <= fold_right Z.mul 1 lead) by (clear -F; induction F; cbn [fold_right]; lia).
    rewrite (Z.mul_comm e), zrange_mul by assumption. rewrite flat_map_flat_map. apply flat_map_ext. intros b. rewrite flat_map_map, map_flat_map. apply flat_map_ext. intros i.
    rewrite map_map. apply map_ext. intros r. rewrite map_map. apply map_ext. intros x. lia.
Qed.
(** windows and kernel positions in row-major order *)
Definition cells (h w : Z) : list (Z * Z) := flat_map (fun i => map (fun j => (i, j)) (zrange w)) (zrange h).
Lemma in_cells h w i j : In (i, j) (cells h w) <-> 0 <= i < h /\ 0 <= j < w.
Proof.
  unfold cells. rewrite in_flat_map. split.
  - intros (a & Ha & Hj). apply in_map_iff in Hj as (b & E & Hb). injection E as -> ->. apply in_zrange in Ha, Hb. auto.
  - intros [Hi Hj]. exists i. split; [now apply in_zrange|]. apply in_map_iff. exists j. split; [reflexivity|now apply in_zrange].
Qed.
Lemma plane_indices_eq W h w k s d : plane_indices W h w k s d =
  map (fun ij => map (fun ac => (fst ij * fst s + fst ac * fst d) * W + (snd ij * snd s + snd ac * snd d)) (cells (fst k) (snd k))) (cells h w).
Proof.
  unfold plane_indices, cells. rewrite map_flat_map. apply flat_map_ext. intros i. rewrite !map_map. apply map_ext. intros j.
  rewrite !map_flat_map. apply flat_map_ext. intros a. rewrite !map_map. apply map_ext. intros c. cbn [fst snd]. ring.
Qed.
Lemma take_planes n H W f h w k s d v lead : Forall (fun e => 0 <= e) lead -> n = fold_right Z.mul 1 lead ->
  (forall i j a c, 0 <= i < h -> 0 <= j < w -> 0 <= a < fst k -> 0 <= c < snd k -> 0 <= i * fst s + a * fst d < H /\ 0 <= j * snd s + c * snd d < W) ->
  (forall b y x, 0 <= b < n -> 0 <= y < H -> 0 <= x < W -> nth_error v (Z.to_nat (b * (H * W) + y * W + x)) = Some (f b y x)) ->
  take v (stack_leading W (H :: lead) (plane_indices W h w k s d)) =
  Some (flat_map (fun b => map (fun ij => map (fun ac => f b (fst ij * fst s + fst ac * fst d) (snd ij * snd s + snd ac * snd d)) (cells (fst k) (snd k))) (cells h w)) (zrange n)).
Proof.
  intros Fl -> B N. rewrite stack_leading_eq, plane_indices_eq by assumption. set (n := fold_right Z.mul 1 lead) in *.
  set (L := flat_map (fun b => map (fun ij => (b, ij)) (cells h w)) (zrange n)).
  replace (flat_map _ (zrange n)) with (map (fun q : Z * (Z * Z) => map (fun ac : Z * Z => (fst (snd q) * fst s + fst ac * fst d) * W + (snd (snd q) * snd s + snd ac * snd d) + fst q * (W * H)) (cells (fst k) (snd k))) L).
  - rewrite (take_map v (fun _ => cells (fst k) (snd k)) (fun q ac => (fst (snd q) * fst s + fst ac * fst d) * W + (snd (snd q) * snd s + snd ac * snd d) + fst q * (W * H))
      (fun q ac => f (fst q) (fst (snd q) * fst s + fst ac * fst d) (snd (snd q) * snd s + snd ac * snd d))).
    + f_equal. unfold L. rewrite map_flat_map. apply flat_map_ext. intros b. rewrite map_map. reflexivity.
    + intros [b [i j]] [a c] Hq Ha. cbn [fst snd]. unfold L in Hq. apply in_flat_map in Hq as (b' & Hb & Hij). apply in_map_iff in Hij as ([i' j'] & E & Hij). injection E as -> -> ->.
      apply in_zrange in Hb. apply in_cells in Hij as [Hi Hj]. apply in_cells in Ha as [Ha Hc]. destruct (B i j a c) as [By Bx]; [assumption..|].
      unfold take1. rewrite <- N by assumption. f_equal. f_equal. ring.
  - unfold L. rewrite map_flat_map. apply flat_map_ext. intros b. rewrite !map_map. apply map_ext. intros [i j]. rewrite map_map. reflexivity.
Qed.

(** ** output sizes *)
Lemma shape_floor H k p s d : 0 < s -> 0 <= d * (k - 1) -> d * (k - 1) < H + 2 * p -> let h := pooling_output_shape H k p p s d false in
  1 <= h /\ (h - 1) * s + d * (k - 1) < H + 2 * p <= h * s + d * (k - 1).
Proof.
  intros Hs Hd Hk. unfold pooling_output_shape. cbn [andb]. cbv zeta. set (m := H + p + p - d * (k - 1) - 1).
  pose proof (Z.div_pos m s ltac:(lia) Hs). pose proof (Z.div_mod m s ltac:(lia)). pose proof (Z.mod_pos_bound m s Hs). unfold m in *. nia.
Qed.
Lemma shape_ceil H k p s d : 0 < s -> 0 <= d * (k - 1) -> d * (k - 1) < H + 2 * p -> 0 < H -> 0 <= p <= d * (k - 1) + 1 -> let h := pooling_output_shape H k p p s d true in
  1 <= h /\ (h - 1) * s < H + p /\ (h - 1) * s + d * (k - 1) < H + 2 * p + (s - 1) /\ (H + p <= h * s \/ H + 2 * p + (s - 1) <= h * s + d * (k - 1)).
Proof.
  intros Hs Hd Hk HH Hp. unfold pooling_output_shape. cbn [andb]. cbv zeta. set (m := H + p + p - d * (k - 1) - 1 + (s - 1)).
  pose proof (Z.div_pos m s ltac:(lia) Hs). pose proof (Z.div_mod m s ltac:(lia)). pose proof (Z.mod_pos_bound m s Hs). set (q := m / s) in *.
  replace (q + 1 - 1) with q by lia. destruct (Z.leb_spec (H + p) (q * s)) as [A|A].
  - assert (0 < q) by nia. assert (q * s <= m) by lia. assert (m <= H + 2 * p + s - 2) by lia. assert ((q - 1) * s < H + p).
    { assert (q * s <= H + 2 * p + s - 2 - d * (k-1)) by lia. nia. }
    repeat split; try nia.
  - unfold m in *. repeat split; try nia.
Qed.

(** ** the forward pass *)
Definition fits (H k p s d : Z) : Prop := 0 < H /\ 0 < k /\ 0 <= p /\ 0 < s /\ 0 < d /\ d * (k - 1) < H + 2 * p.
Definition size_of (H k p s d : Z) (ceil : bool) : Z := pooling_output_shape H k p p s d ceil.
Lemma fits_range H k p s d i a : fits H k p s d -> 0 <= i < size_of H k p s d false -> 0 <= a < k -> 0 <= i * s + a * d < H + p + p.
Proof.
  intros (HH & Hk & Hp & Hs & Hd & F) Hi Ha. assert (Hd0 : 0 <= d * (k - 1)) by nia. pose proof (shape_floor H k p s d Hs Hd0 F) as [A B]. fold (size_of H k p s d false) in A, B.
  set (h := size_of H k p s d false) in *. assert (i * s <= (h - 1) * s) by nia. assert (a * d <= d * (k - 1)) by nia. nia.
Qed.
Lemma pool2d_ok lead H W k p s d ceil v data : Forall (fun e => 0 <= e) lead -> fits H (fst k) p (fst s) (fst d) -> fits W (snd k) p (snd s) (snd d) ->
  let h := size_of H (fst k) p (fst s) (fst d) ceil in let w := size_of W (snd k) p (snd s) (snd d) ceil in
  pool2d_reshape lead H W k (p, p) s d ceil v data =
  Some (flat_map (fun b => map (fun ij => map (fun ac => pixel H W v data b (fst ij * fst s + fst ac * fst d - p) (snd ij * snd s + snd ac * snd d - p)) (cells (fst k) (snd k))) (cells h w))
    (zrange (fold_right Z.mul 1 lead)), (h, w)).
Proof.
  intros Fl F0 F1 h w. unfold pool2d_reshape. cbn [fst snd]. fold (size_of H (fst k) p (fst s) (fst d) ceil). fold (size_of W (snd k) p (snd s) (snd d) ceil). fold h w.
  set (n := fold_right Z.mul 1 lead). rewrite pad2d_grid. destruct ceil.
  - rewrite pad2d_grid.
    rewrite (take_planes n _ _ (fun b y x => pixel H W v data b (y - p) (x - p)) h w k s d _ lead Fl eq_refl); [reflexivity| |].
    + destruct F0 as (? & ? & ? & ? & ? & ?), F1 as (? & ? & ? & ? & ? & ?). intros i j a c Hi Hj Ha Hc. split; nia.
    + intros b y x Hb Hy Hx.
      replace (b * ((H + p + p + (h * fst s + (fst k - 1) * fst d - (H + p + p))) * (W + p + p + (w * snd s + (snd k - 1) * snd d - (W + p + p)))) + y * (W + p + p + (w * snd s + (snd k - 1) * snd d - (W + p + p))) + x)
        with (b * ((H + p + p + 0 + (h * fst s + (fst k - 1) * fst d - (H + p + p))) * (W + p + p + 0 + (w * snd s + (snd k - 1) * snd d - (W + p + p)))) + y * (W + p + p + 0 + (w * snd s + (snd k - 1) * snd d - (W + p + p))) + x) by (rewrite !Z.add_0_r; reflexivity).
      rewrite grid_nth by lia. rewrite !Z.sub_0_r. f_equal. rewrite pixel_grid by assumption.
      destruct ((0 <=? y) && (y <? H + p + p) && (0 <=? x) && (x <? W + p + p)) eqn:E; [reflexivity|]. symmetry. apply pixel_out. intros [A B].
      destruct F0 as (? & ? & ? & _), F1 as (? & ? & ? & _).
      assert (X : (0 <=? y) && (y <? H + p + p) && (0 <=? x) && (x <? W + p + p) = true); [|congruence]. rewrite !andb_true_iff. repeat split; lia.
  - cbv iota. rewrite !Z.add_0_r. rewrite (take_planes n _ _ (fun b y x => pixel H W v data b (y - p) (x - p)) h w k s d _ lead Fl eq_refl); [reflexivity| |].
    + intros i j a c Hi Hj Ha Hc. split; (eapply fits_range; [eassumption|eassumption|assumption]).
    + intros b y x Hb Hy Hx. rewrite pad2d_grid, grid_nth by assumption. reflexivity.
Qed.

(** ** the backward pass *)
Lemma add_at_length i v : forall l, length (add_at i v l) = length l.
Proof. intros l. revert i. induction l as [|x l IH]; intros [|i]; cbn [add_at length]; try reflexivity. now rewrite IH. Qed.
Lemma add_at_nth v q : forall l i, (q < length l)%nat -> nth q (add_at i v l) 0 == nth q l 0 + (if Nat.eqb i q then v else 0).
Proof.
  induction q as [|q IH]; intros [|x l] [|i] H; cbn [add_at nth length Nat.eqb] in *; try lia; rewrite ?Z.add_0_r; try reflexivity.
  - apply wadd_eqm.
  - apply IH. lia.
Qed.
Lemma add_at_in64 i v : forall l, Forall in64 l -> Forall in64 (add_at i v l).
Proof. intros l F. revert i. induction F as [|x l Hx F IH]; intros [|i]; cbn [add_at]; constructor; auto. apply wadd_in64. Qed.
Lemma add_all_in64 us : forall l, Forall in64 l -> Forall in64 (add_all l us).
Proof. induction us as [|u us IH]; intros l F; [exact F|]. cbn [add_all fold_left]. apply IH. now apply add_at_in64. Qed.
Lemma add_all_length us : forall l, length (add_all l us) = length l.
Proof. induction us as [|u us IH]; intros l; [reflexivity|]. unfold add_all in *. cbn [fold_left]. now rewrite IH, add_at_length. Qed.
Lemma add_all_app us vs l : add_all l (us ++ vs) = add_all (add_all l us) vs.
Proof. apply fold_left_app. Qed.
Lemma add_all_nth us : Forall (fun u => 0 <= fst u) us -> forall l q, 0 <= q -> (Z.to_nat q < length l)%nat ->
  nth (Z.to_nat q) (add_all l us) 0 == nth (Z.to_nat q) l 0 + zsum (map (fun u => if fst u =? q then snd u else 0) us).
Proof.
  induction 1 as [|u us Hu F IH]; intros l q Hq Hl; [cbn; now rewrite Z.add_0_r|]. change (add_all l (u :: us)) with (add_all (add_at (Z.to_nat (fst u)) (snd u) l) us).
  rewrite IH by (rewrite ?add_at_length; assumption). cbn [map]. rewrite zsum_cons, Z.add_assoc. rewrite add_at_nth by assumption.
  replace (Nat.eqb (Z.to_nat (fst u)) (Z.to_nat q)) with (fst u =? q); [reflexivity|]. destruct (Z.eqb_spec (fst u) q), (Nat.eqb_spec (Z.to_nat (fst u)) (Z.to_nat q)); try reflexivity; lia.
Qed.

Lemma slice_full start k d size : 0 <= d -> start + (k - 1) * d < size -> slice start k d size = map (fun a => start + a * d) (zrange k).
Proof.
  intros Hd H. unfold slice. assert (F : forall y, In y (map (fun a => start + a * d) (zrange k)) -> (y <? size) = true).
  { intros y Hy. apply in_map_iff in Hy as (a & <- & Ha). apply in_zrange in Ha. apply Z.ltb_lt. nia. }
  revert F. generalize (map (fun a => start + a * d) (zrange k)). clear. induction l as [|y l IH]; intros F; [reflexivity|]. cbn [filter]. rewrite F by (now left). f_equal. apply IH. intros z Hz. apply F. now right.
Qed.
(** the contributions of window [(i, j)] *)
Definition updates (C w : Z) (k s d : pair) (kernels : list (list Z)) (ij : Z * Z) : list (Z * Z) :=
  map (fun ac => ((fst s * fst ij + fst ac * fst d) * C + (snd s * snd ij + snd ac * snd d), nth (Z.to_nat (fst ac * snd k + snd ac)) (nth (Z.to_nat (fst ij * w + snd ij)) kernels []) 0)) (cells (fst k) (snd k)).
Lemma nth_map_zrange_d (f : Z -> Z) n i e : 0 <= i < n -> nth (Z.to_nat i) (map f (zrange n)) e = f i.
Proof. intros H. apply nth_error_nth. now apply nth_map_zrange. Qed.
Lemma add_block_ok R C w k s d kernels i j l : 0 <= fst k -> 0 <= snd k -> 0 <= fst d -> 0 <= snd d -> fst s * i + (fst k - 1) * fst d < R -> snd s * j + (snd k - 1) * snd d < C ->
  add_block C k (slice (fst s * i) (fst k) (fst d) R) (slice (snd s * j) (snd k) (snd d) C) (nth (Z.to_nat (i * w + j)) kernels []) l = Some (add_all l (updates C w k s d kernels (i, j))).
Proof.
  intros K0 K1 D0 D1 B0 B1. rewrite !slice_full by assumption. unfold add_block. rewrite !map_length, !zrange_length, !Z2Nat.id by assumption. rewrite !Z.eqb_refl. cbn [orb andb]. do 2 f_equal.
  unfold updates, cells. rewrite map_flat_map. apply flat_map_ext_in. intros a Ha. apply in_zrange in Ha. rewrite map_map. apply map_ext_in. intros c Hc. apply in_zrange in Hc. cbn [fst snd].
  rewrite !nth_map_zrange_d by assumption. reflexivity.
Qed.
Lemma loops_ok {A} (f : option A -> Z -> Z -> option A) (g : A -> Z -> Z -> A) w : forall h acc, (forall l i j, In i h -> In j w -> f (Some l) i j = Some (g l i j)) ->
  fold_left (fun acc i => fold_left (fun acc j => f acc i j) w acc) h (Some acc) = Some (fold_left (fun acc i => fold_left (fun acc j => g acc i j) w acc) h acc).
Proof.
  induction h as [|i h IH]; intros acc H; [reflexivity|]. cbn [fold_left].
  assert (E : forall w' acc, (forall j, In j w' -> In j w) -> fold_left (fun acc j => f acc i j) w' (Some acc) = Some (fold_left (fun acc j => g acc i j) w' acc)).
  { induction w' as [|j w' IHw]; intros acc' S; [reflexivity|]. cbn [fold_left]. rewrite H; [|now left|apply S; now left]. apply IHw. intros j' Hj. apply S. now right. }
  rewrite E by auto. apply IH. intros l i' j Hi Hj. apply H; [now right|assumption].
Qed.
Lemma loops_add {A} (u : A -> list (Z * Z)) (pr : Z -> Z -> A) w : forall h l, fold_left (fun acc i => fold_left (fun acc j => add_all acc (u (pr i j))) w acc) h l =
  add_all l (flat_map u (flat_map (fun i => map (fun j => pr i j) w) h)).
Proof.
  induction h as [|i h IH]; intros l; [reflexivity|]. cbn [fold_left flat_map]. rewrite flat_map_app, add_all_app, <- IH. f_equal. clear. revert l.
  induction w as [|j w IH]; intros l; [reflexivity|]. cbn [fold_left map flat_map]. rewrite add_all_app. apply IH.
Qed.

Definition routed (w : Z) (k p s d : pair) (kernels : list (list Z)) (h y x : Z) : Z :=
  zsum (flat_map (fun ij => map (fun ac => if (fst ij * fst s + fst ac * fst d - fst p =? y) && (snd ij * snd s + snd ac * snd d - snd p =? x)
    then nth (Z.to_nat (fst ac * snd k + snd ac)) (nth (Z.to_nat (fst ij * w + snd ij)) kernels []) 0 else 0) (cells (fst k) (snd k))) (cells h w)).
Lemma reach s j w c k d C : 0 < s -> 0 < d -> 0 <= j < w -> 0 <= c < k -> (0 < w -> s * (w - 1) + (k - 1) * d < C) -> 0 <= s * j + c * d < C.
Proof.
  intros Hs Hd Hj Hc B. specialize (B ltac:(lia)). assert (s * j <= s * (w - 1)) by (apply Z.mul_le_mono_nonneg_l; lia). assert (c * d <= (k - 1) * d) by (apply Z.mul_le_mono_nonneg_r; lia).
  assert (0 <= s * j) by (apply Z.mul_nonneg_nonneg; lia). assert (0 <= c * d) by (apply Z.mul_nonneg_nonneg; lia). lia.
Qed.
Lemma radix Y X y x C : 0 <= X < C -> 0 <= x < C -> Y * C + X = y * C + x -> Y = y /\ X = x.
Proof.
  intros HX Hx E. assert (Y = y); [|subst; lia]. transitivity ((Y * C + X) / C); [apply Z.div_unique with X; lia|]. rewrite E. symmetry. apply Z.div_unique with x; lia.
Qed.
Lemma backward_core R C h w k p s d kernels y x y1 x1 : 0 <= fst k -> 0 <= snd k -> 0 < fst d -> 0 < snd d -> 0 < fst s -> 0 < snd s ->
  (0 < h -> fst s * (h - 1) + (fst k - 1) * fst d < R) -> (0 < w -> snd s * (w - 1) + (snd k - 1) * snd d < C) -> y1 = y + fst p -> x1 = x + snd p -> 0 <= y1 < R -> 0 <= x1 < C ->
  nth (Z.to_nat (y1 * C + x1)) (add_all (repeat 0 (Z.to_nat (R * C))) (flat_map (updates C w k s d kernels) (cells h w))) 0 = wrap (routed w k p s d kernels h y x).
Proof.
  intros K0 K1 D0 D1 S0 S1 B0 B1 -> -> Hy Hx.
  assert (I : in64 (nth (Z.to_nat ((y + fst p) * C + (x + snd p))) (add_all (repeat 0 (Z.to_nat (R * C))) (flat_map (updates C w k s d kernels) (cells h w))) 0)).
  { set (l := add_all _ _). assert (F : Forall in64 l) by (apply add_all_in64; apply Forall_forall; intros z Hz; apply repeat_spec in Hz; subst; apply in64_0).
    destruct (Nat.lt_ge_cases (Z.to_nat ((y + fst p) * C + (x + snd p))) (length l)); [|rewrite nth_overflow by assumption; apply in64_0]. rewrite Forall_forall in F. apply F. now apply nth_In. }
  symmetry. apply wrap_unique; [exact I|]. symmetry. rewrite add_all_nth.
  - assert (Z0 : forall q N, nth q (repeat 0 N) 0 = 0) by (clear; induction q; destruct N; cbn; auto). rewrite Z0, Z.add_0_l. apply eqm_refl_eq. unfold routed.
    f_equal. rewrite map_flat_map. apply flat_map_ext_in. intros [i j] Hij. unfold updates. rewrite map_map. apply map_ext_in. intros [a c] Hac. cbn [fst snd].
    apply in_cells in Hij as [Hi Hj]. apply in_cells in Hac as [Ha Hc]. assert (RC : 0 <= snd s * j + c * snd d < C) by (apply (reach _ _ w _ (snd k)); assumption). assert (RR : 0 <= fst s * i + a * fst d < R) by (apply (reach _ _ h _ (fst k)); assumption).
    replace ((fst s * i + a * fst d) * C + (snd s * j + c * snd d) =? (y + fst p) * C + (x + snd p)) with ((i * fst s + a * fst d - fst p =? y) && (j * snd s + c * snd d - snd p =? x)); [reflexivity|].
    destruct (Z.eqb_spec ((fst s * i + a * fst d) * C + (snd s * j + c * snd d)) ((y + fst p) * C + (x + snd p))) as [E|E].
    + apply radix in E as [E1 E2]; [|assumption|assumption]. rewrite andb_true_iff. split; apply Z.eqb_eq; lia.
    + destruct (Z.eqb_spec (i * fst s + a * fst d - fst p) y) as [E1|E1], (Z.eqb_spec (j * snd s + c * snd d - snd p) x) as [E2|E2]; try reflexivity. exfalso. apply E. f_equal; [f_equal|]; lia.
  - apply Forall_forall. intros u Hu. apply in_flat_map in Hu as ([i j] & Hij & Hu). unfold updates in Hu. apply in_map_iff in Hu as ([a c] & <- & Hac). cbn [fst snd].
    apply in_cells in Hij as [Hi Hj]. apply in_cells in Hac as [Ha Hc].
    assert (RC : 0 <= snd s * j + c * snd d < C) by (apply (reach _ _ w _ (snd k)); assumption). assert (RR : 0 <= fst s * i + a * fst d < R) by (apply (reach _ _ h _ (fst k)); assumption).
    apply Z.add_nonneg_nonneg; [apply Z.mul_nonneg_nonneg|]; lia.
  - apply Z.add_nonneg_nonneg; [apply Z.mul_nonneg_nonneg|]; lia.
  - rewrite repeat_length. assert ((y + fst p) * C <= (R - 1) * C) by (apply Z.mul_le_mono_nonneg_r; lia). assert (0 <= (y + fst p) * C) by (apply Z.mul_nonneg_nonneg; lia). lia.
Qed.
Lemma backward_ok R C c0 c1 h w H W k p s d kernels : 0 <= fst k -> 0 <= snd k -> 0 < fst d -> 0 < snd d -> 0 < fst s -> 0 < snd s -> 0 <= fst p -> 0 <= snd p -> 0 <= c0 -> 0 <= c1 ->
  R = H + 2 * fst p + c0 -> C = W + 2 * snd p + c1 ->
  (0 < h -> fst s * (h - 1) + (fst k - 1) * fst d < R) -> (0 < w -> snd s * (w - 1) + (snd k - 1) * snd d < C) ->
  option_map (crop C (fst p) (R - c0 - fst p) (snd p) (C - c1 - snd p)) (fold_left (fun acc i => fold_left (fun acc j =>
      match acc with
      | Some l => add_block C k (slice (fst s * i) (fst k) (fst d) R) (slice (snd s * j) (snd k) (snd d) C) (nth (Z.to_nat (i * w + j)) kernels []) l
      | None => None
      end) (zrange w) acc) (zrange h) (Some (repeat 0 (Z.to_nat (R * C))))) =
  Some (flat_map (fun y => map (fun x => wrap (routed w k p s d kernels h y x)) (zrange W)) (zrange H)).
Proof.
  intros K0 K1 D0 D1 S0 S1 P0 P1 Hc0 Hc1 HR HC B0 B1.
  rewrite (loops_ok (fun acc i j => match acc with Some l => add_block C k (slice (fst s * i) (fst k) (fst d) R) (slice (snd s * j) (snd k) (snd d) C) (nth (Z.to_nat (i * w + j)) kernels []) l | None => None end)
    (fun l i j => add_all l (updates C w k s d kernels (i, j)))).
  2: { intros l i j Hi Hj. apply in_zrange in Hi, Hj. apply add_block_ok; try lia.
    - assert (fst s * i <= fst s * (h - 1)) by (apply Z.mul_le_mono_nonneg_l; lia). lia.
    - assert (snd s * j <= snd s * (w - 1)) by (apply Z.mul_le_mono_nonneg_l; lia). lia. }
  rewrite (loops_add (updates C w k s d kernels) (fun i j => (i, j))). fold (cells h w). cbn [option_map]. f_equal. unfold crop.
  replace (R - c0 - fst p - fst p) with H by lia. replace (C - c1 - snd p - snd p) with W by lia. rewrite flat_map_map. apply flat_map_ext_in. intros y Hy. apply in_zrange in Hy.
  rewrite map_map. apply map_ext_in. intros x Hx. apply in_zrange in Hx. apply backward_core; try assumption; lia.
Qed.
