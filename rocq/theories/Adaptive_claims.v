(** Adaptive pooling: specification and proofs of C60. *)
Require Import ZArith QArith List Lia Lqa Bool.
From Verif Require Import Adaptive Adaptive_proofs.
Import ListNotations.
Open Scope Z_scope.

(** Output [i] of [out] sees element [y] of [n]: the element overlaps the interval from i*n/out to (i+1)*n/out. *)
Definition sees (n out i y : nat) : Prop := (i * n < (y + 1) * out /\ y * out < (i + 1) * n)%nat.
(** the float computation of every window boundary along a dimension is right *)
Definition boundaries_right (n out : nat) : Prop := forall j, (j <= out)%nat -> let v := fl_mul (Z.of_nat j) (fl_div (Z.of_nat n) (Z.of_nat out)) in
  fl_floor v = Z.of_nat (j * n / out) /\ fl_ceil v = Z.of_nat ((j * n + out - 1) / out).
Definition matrix {A} (H W : nat) (m : list (list A)) : Prop := length m = H /\ Forall (fun r => length r = W) m.
Definition entry {A} (m : list (list A)) (y z : nat) (x : A) : Prop := exists r, nth_error m y = Some r /\ nth_error r z = Some x.
(** the mean of a non-empty list, and of rows, element by element *)
Definition meanQ (l : list Q) : Q := (fold_right Qplus 0 l / inject_Z (Z.of_nat (length l)))%Q.
Definition mean_rows (l : list (list Q)) : list Q := map (fun z => meanQ (map (fun r => nth z r 0%Q) l)) (seq 0 (length (hd [] l))).

Lemma ceil_nat a b : (0 < b)%nat -> - ((- Z.of_nat a) / Z.of_nat b) = Z.of_nat ((a + b - 1) / b).
Proof.
  intros Hb. pose proof (ceil_spec (Z.of_nat a) (Z.of_nat b) ltac:(lia)) as C. set (c := - ((- Z.of_nat a) / Z.of_nat b)) in *. rewrite Nat2Z.inj_div. apply Z.div_unique with (Z.of_nat (a + b - 1) - Z.of_nat b * c); lia.
Qed.
Lemma boundaries_windows n out : (0 < out)%nat -> boundaries_right n out -> float_windows (Z.of_nat n) (Z.of_nat out) = exact_windows (Z.of_nat n) (Z.of_nat out).
Proof.
  intros Ho B. unfold float_windows, exact_windows. cbv zeta. apply map_ext_in. intros j Hj. apply in_seq in Hj. rewrite Nat2Z.id in Hj.
  destruct (B j ltac:(lia)) as [F _]. destruct (B (j + 1)%nat ltac:(lia)) as [_ C]. replace (Z.of_nat j + 1) with (Z.of_nat (j + 1)) by lia. rewrite F, C. rewrite <- !Nat2Z.inj_mul. rewrite ceil_nat by lia. rewrite <- Nat2Z.inj_div. reflexivity.
Qed.
Lemma nth_exact n out i d : (i < out)%nat -> nth i (exact_windows (Z.of_nat n) (Z.of_nat out)) d = (Z.to_nat (Z.of_nat i * Z.of_nat n / Z.of_nat out), Z.to_nat (- ((- ((Z.of_nat i + 1) * Z.of_nat n)) / Z.of_nat out))).
Proof.
  intros Hi. apply nth_error_nth. unfold exact_windows. rewrite nth_error_map. rewrite (nth_error_nth' _ 0%nat) by (rewrite seq_length; lia). rewrite seq_nth by lia. reflexivity.
Qed.
Lemma sees_window n out i y : (0 < n)%nat -> (i < out)%nat -> let w := nth i (exact_windows (Z.of_nat n) (Z.of_nat out)) (0, 0)%nat in sees n out i y <-> (fst w <= y < snd w)%nat.
Proof.
  intros Hn Hi w. unfold w. rewrite nth_exact by assumption. cbn [fst snd]. pose proof (ceil_spec ((Z.of_nat i + 1) * Z.of_nat n) (Z.of_nat out) ltac:(lia)) as C.
  pose proof (Z.div_mod (Z.of_nat i * Z.of_nat n) (Z.of_nat out) ltac:(lia)) as D. pose proof (Z.mod_pos_bound (Z.of_nat i * Z.of_nat n) (Z.of_nat out) ltac:(lia)) as M.
  assert (P : 0 <= Z.of_nat i * Z.of_nat n / Z.of_nat out) by (apply Z.div_pos; lia).
  set (a := Z.of_nat i * Z.of_nat n / Z.of_nat out) in *. set (c := - ((- ((Z.of_nat i + 1) * Z.of_nat n)) / Z.of_nat out)) in *. unfold sees. split.
  - intros [A B]. split; nia.
  - intros [A B]. split; nia.
Qed.
Lemma block_in {A} (d : A) (t : list A) K w x : (fst w < snd w <= length t)%nat -> In x (block (hd d) K t w) <-> exists y, (fst w <= y < snd w)%nat /\ nth_error t y = Some x.
Proof.
  intros B. destruct w as [s e]. cbn [fst snd] in *. unfold block. cbn [fst snd]. assert (P : forall x, In x (part t (s, e)) <-> exists y, (s <= y < e)%nat /\ nth_error t y = Some x).
  { intros z. split.
    - intros H. apply In_nth_error in H as (k & Hk). assert (Lk : (k < e - s)%nat) by (rewrite <- (part_length t s e) by lia; apply nth_error_Some; congruence). exists (s + k)%nat. split; [lia|].
      rewrite <- (firstn_skipn s t). rewrite nth_error_app2 by (rewrite firstn_length; lia). rewrite firstn_length, Nat.min_l by lia. replace (s + k - s)%nat with k by lia. rewrite (skip_split t s e) by lia.
      rewrite nth_error_app1; [exact Hk|]. rewrite part_length; lia.
    - intros (y & Hy & E). rewrite <- (firstn_skipn s t) in E. rewrite nth_error_app2 in E by (rewrite firstn_length; lia). rewrite firstn_length, Nat.min_l in E by lia. rewrite (skip_split t s e) in E by lia.
      rewrite nth_error_app1 in E by (rewrite part_length; lia). eapply nth_error_In. exact E. }
  rewrite in_app_iff, P. split; [|auto]. intros [H|H]; [|exact H]. apply repeat_spec in H. apply P. rewrite H. destruct (part t (s, e)) as [|z l] eqn:Ep; [|now left]. apply (f_equal (@length A)) in Ep. rewrite part_length in Ep by lia. cbn in Ep. lia.
Qed.

Lemma exact_bounds n out i : (0 < n)%nat -> (i < out)%nat -> let w := nth i (exact_windows (Z.of_nat n) (Z.of_nat out)) (0, 0)%nat in (fst w < snd w <= n)%nat.
Proof.
  intros Hn Hi w. unfold w. rewrite nth_exact by assumption. cbn [fst snd]. pose proof (window_bounds (Z.of_nat n) (Z.of_nat out) (Z.of_nat i) ltac:(lia) ltac:(lia) ltac:(lia)) as B. unfold lo, hi in B. lia.
Qed.
Lemma exact_length n out : length (exact_windows (Z.of_nat n) (Z.of_nat out)) = out.
Proof. unfold exact_windows. rewrite map_length, seq_length. lia. Qed.
Lemma nth_map_in {A B} (f : A -> B) l i d e : (i < length l)%nat -> nth i (map f l) e = f (nth i l d).
Proof. intros H. rewrite (nth_indep _ e (f d)) by (now rewrite map_length). apply map_nth. Qed.

(** Max pooling: every output position pools exactly the values of its window (some of them repeated). *)
Lemma k_C60_max : forall A H W h w (m : list (list A)), (0 < H)%nat -> (0 < W)%nat -> (0 < h)%nat -> (0 < w)%nat -> matrix H W m -> boundaries_right H h -> boundaries_right W w ->
  exists blocks, adaptive2 first_row first_row h w m = Some blocks /\ length blocks = h /\ forall i j, (i < h)%nat -> (j < w)%nat -> length (nth i blocks []) = w /\
    forall x, In x (concat (nth j (nth i blocks []) [])) <-> exists y z, sees H h i y /\ sees W w j z /\ entry m y z x.
Proof.
  intros A H W h w m HH HW Hh Hw [Lm Fm] B0 B1. assert (d : A) by (destruct m as [|[|a r] m]; [exfalso; cbn in Lm; lia|exfalso; inversion Fm; subst; cbn in *; lia|exact a]).
  assert (Em : m <> []) by (intros ->; cbn in Lm; lia). eexists. split.
  - apply (adaptive2_ok first_row first_row (hd []) (hd d) h w m W).
    + intros [|a r] E; [contradiction|reflexivity].
    + intros [|a r] E; [contradiction|reflexivity].
    + intros [|a r] E F; [contradiction|]. now inversion F.
    + exact Em.
    + exact HW.
    + exact Fm.
    + exact Hh.
    + exact Hw.
    + rewrite Lm. now apply boundaries_windows.
    + now apply boundaries_windows.
  - rewrite Lm. rewrite map_length, exact_length. split; [reflexivity|]. intros i j Hi Hj. rewrite (nth_map_in _ _ _ (0, 0)%nat) by (now rewrite exact_length). rewrite map_length, exact_length. split; [reflexivity|].
    intros x. rewrite (nth_map_in _ _ _ (0, 0)%nat) by (now rewrite exact_length). set (wi := nth i _ _). set (wj := nth j _ _). pose proof (exact_bounds H h i HH Hi) as Bi. pose proof (exact_bounds W w j HW Hj) as Bj. cbv zeta in Bi, Bj. fold wi in Bi. fold wj in Bj.
    rewrite in_concat. split.
    + intros (b & Hb & Hx). apply in_map_iff in Hb as (r & <- & Hr). apply block_in in Hr as (y & Hy & Ey); [|rewrite Lm; exact Bi].
      assert (Lr : length r = W) by (rewrite Forall_forall in Fm; apply Fm; eapply nth_error_In; exact Ey). apply block_in in Hx as (z & Hz & Ez); [|rewrite Lr; exact Bj].
      exists y, z. split; [apply sees_window; assumption|]. split; [apply sees_window; assumption|]. exists r. auto.
    + intros (y & z & Sy & Sz & r & Ey & Ez). apply sees_window in Sy; [|assumption..]. apply sees_window in Sz; [|assumption..]. fold wi in Sy. fold wj in Sz.
      assert (Lr : length r = W) by (rewrite Forall_forall in Fm; apply Fm; eapply nth_error_In; exact Ey).
      exists (block (hd d) (kernel_of W w) r wj). split.
      * apply in_map_iff. exists r. split; [reflexivity|]. apply block_in; [rewrite Lm; exact Bi|]. exists y. auto.
      * apply block_in; [rewrite Lr; exact Bj|]. exists z. auto.
Qed.

(** ** means *)
Definition sumq (l : list Q) : Q := fold_right Qplus 0%Q l.
Lemma sumq_app a b : (sumq (a ++ b) == sumq a + sumq b)%Q.
Proof. induction a as [|x a IH]; cbn [app sumq fold_right]; [unfold sumq; ring|]. fold (sumq (a ++ b)). rewrite IH. unfold sumq. cbn [fold_right]. ring. Qed.
Lemma sumq_concat {B} (f : B -> list Q) l : (sumq (concat (map f l)) == sumq (map (fun b => sumq (f b)) l))%Q.
Proof. induction l as [|b l IH]; [reflexivity|]. cbn [map concat]. rewrite sumq_app, IH. reflexivity. Qed.
Lemma sumq_repeat v n : (sumq (repeat v n) == v * inject_Z (Z.of_nat n))%Q.
Proof. induction n as [|n IH]; [cbn; unfold sumq; cbn; ring|]. cbn [repeat]. unfold sumq in *. cbn [fold_right]. rewrite IH. rewrite Nat2Z.inj_succ. unfold Z.succ. rewrite inject_Z_plus. ring. Qed.
Lemma sumq_ext {B} (f g : B -> Q) l : (forall b, In b l -> f b == g b)%Q -> (sumq (map f l) == sumq (map g l))%Q.
Proof. induction l as [|b l IH]; intros H; [reflexivity|]. cbn [map]. unfold sumq in *. cbn [fold_right]. rewrite H by (now left). rewrite IH; [reflexivity|]. intros c Hc. apply H. now right. Qed.
Lemma sumq_scale {B} c (f : B -> Q) l : (sumq (map (fun b => c * f b) l) == c * sumq (map f l))%Q.
Proof. induction l as [|b l IH]; [cbn; unfold sumq; cbn; ring|]. cbn [map]. unfold sumq in *. cbn [fold_right]. rewrite IH. ring. Qed.
Lemma sumq_swap {B C} (f : B -> C -> Q) l m : (sumq (map (fun b => sumq (map (f b) m)) l) == sumq (map (fun c => sumq (map (fun b => f b c) l)) m))%Q.
Proof.
  induction l as [|b l IH].
  - cbn [map]. induction m as [|c m IHm]; [reflexivity|]. cbn [map]. unfold sumq in *. cbn [fold_right] in *. rewrite <- IHm. ring.
  - cbn [map]. change (sumq (map (f b) m) + sumq (map (fun b => sumq (map (f b) m)) l) == sumq (map (fun c => f b c + sumq (map (fun b => f b c) l)) m))%Q. rewrite IH. clear.
    induction m as [|c m IHm]; [cbn; unfold sumq; cbn; ring|]. cbn [map]. unfold sumq in *. cbn [fold_right] in *. rewrite <- IHm. ring.
Qed.
Lemma map_repeat' {B C} (f : B -> C) v n : map f (repeat v n) = repeat (f v) n.
Proof. induction n as [|n IH]; [reflexivity|]. cbn [repeat map]. now rewrite IH. Qed.
Lemma inj_nz n : (0 < n)%nat -> ~ (inject_Z (Z.of_nat n) == 0)%Q.
Proof. intros H E. change 0%Q with (inject_Z 0) in E. apply (proj1 (inject_Z_injective _ _)) in E. lia. Qed.
(** a block has the mean of its window *)
Lemma block_sum (t : list Q) K w : (fst w < snd w <= length t)%nat -> (snd w - fst w <= K)%nat -> (sumq (block meanQ K t w) == inject_Z (Z.of_nat K) * meanQ (part t w))%Q.
Proof.
  intros B HK. destruct w as [s e]. cbn [fst snd] in *. unfold block. cbn [fst snd]. rewrite sumq_app, sumq_repeat. assert (L : length (part t (s, e)) = (e - s)%nat) by (apply part_length; lia).
  assert (S : (sumq (part t (s, e)) == meanQ (part t (s, e)) * inject_Z (Z.of_nat (e - s)))%Q). { unfold meanQ. rewrite L. fold (sumq (part t (s, e))). field. apply inj_nz. lia. }
  rewrite S. replace (Z.of_nat K) with (Z.of_nat (K - (e - s)) + Z.of_nat (e - s)) by lia. rewrite inject_Z_plus. ring.
Qed.
(** the same for rows, seen through any linear function of a row *)
Lemma nth_part (t : list Q) s e k : (e <= length t)%nat -> (s + k < e)%nat -> nth k (part t (s, e)) 0%Q = nth (s + k) t 0%Q.
Proof.
  intros He Hk. rewrite <- (firstn_skipn s t) at 2. rewrite app_nth2 by (rewrite firstn_length; lia). rewrite firstn_length, Nat.min_l by lia. replace (s + k - s)%nat with k by lia. rewrite (skip_split t s e) by lia.
  rewrite app_nth1; [reflexivity|]. rewrite part_length; lia.
Qed.
Lemma part_as_map (t : list Q) s e : (s <= e <= length t)%nat -> part t (s, e) = map (fun z => nth z t 0%Q) (seq s (e - s)).
Proof.
  intros H. apply nth_ext with 0%Q 0%Q.
  - rewrite part_length, map_length, seq_length; lia.
  - intros k Hk. rewrite part_length in Hk by lia. rewrite nth_part by lia. rewrite (nth_map_in _ _ _ 0%nat) by (rewrite seq_length; lia). now rewrite seq_nth by lia.
Qed.
Lemma mean_rows_part (rs : list (list Q)) W s e : rs <> [] -> Forall (fun r => length r = W) rs -> (s < e <= W)%nat ->
  (meanQ (part (mean_rows rs) (s, e)) == sumq (map (fun r => meanQ (part r (s, e))) rs) / inject_Z (Z.of_nat (length rs)))%Q.
Proof.
  intros Ne F B. assert (L : length (mean_rows rs) = W) by (unfold mean_rows; rewrite map_length, seq_length; destruct rs; [contradiction|now inversion F]).
  assert (N1 := inj_nz (e - s) ltac:(lia)). assert (N2 : ~ (inject_Z (Z.of_nat (length rs)) == 0)%Q) by (apply inj_nz; destruct rs; [contradiction|cbn; lia]).
  unfold meanQ at 1. rewrite part_length by lia. fold (sumq (part (mean_rows rs) (s, e))). rewrite part_as_map by lia.
  assert (E1 : (sumq (map (fun z => nth z (mean_rows rs) 0) (seq s (e - s))) == / inject_Z (Z.of_nat (length rs)) * sumq (map (fun z => sumq (map (fun r => nth z r 0) rs)) (seq s (e - s))))%Q).
  { rewrite <- sumq_scale. apply sumq_ext. intros z Hz. apply in_seq in Hz. unfold mean_rows. assert (Lh : length (hd [] rs) = W) by (destruct rs; [contradiction|now inversion F]).
    rewrite (nth_map_in _ _ _ 0%nat) by (rewrite seq_length; lia). rewrite seq_nth by lia. cbn [plus]. unfold meanQ. rewrite map_length. fold (sumq (map (fun r => nth z r 0%Q) rs)). field. exact N2. }
  rewrite E1, <- sumq_swap.
  assert (E2 : (sumq (map (fun r => meanQ (part r (s, e))) rs) == / inject_Z (Z.of_nat (e - s)) * sumq (map (fun r => sumq (map (fun z => nth z r 0) (seq s (e - s)))) rs))%Q).
  { rewrite <- sumq_scale. apply sumq_ext. intros r Hr. rewrite Forall_forall in F. specialize (F r Hr). unfold meanQ. rewrite part_length by lia. fold (sumq (part r (s, e))). rewrite part_as_map by lia. field. exact N1. }
  rewrite E2. field. split; assumption.
Qed.
(** Average pooling, in exact arithmetic: the mean of every block is the mean of the window. *)
Lemma k_C60_mean : forall H W h w (m : list (list Q)), (0 < H)%nat -> (0 < W)%nat -> (0 < h)%nat -> (0 < w)%nat -> matrix H W m -> boundaries_right H h -> boundaries_right W w ->
  exists blocks, adaptive2 (fun l => Some (mean_rows l)) (fun l => Some (meanQ l)) h w m = Some blocks /\ length blocks = h /\ forall i j, (i < h)%nat -> (j < w)%nat -> length (nth i blocks []) = w /\
    exists y0 y1 z0 z1, (forall y, sees H h i y <-> y0 <= y < y1)%nat /\ (forall z, sees W w j z <-> z0 <= z < z1)%nat /\
    (meanQ (concat (nth j (nth i blocks []) [])) == meanQ (flat_map (fun y => map (fun z => nth z (nth y m []) 0) (seq z0 (z1 - z0))) (seq y0 (y1 - y0))))%Q.
Proof.
  intros H W h w m HH HW Hh Hw [Lm Fm] B0 B1. assert (Em : m <> []) by (intros ->; cbn in Lm; lia). eexists. split.
  - apply (adaptive2_ok (fun l => Some (mean_rows l)) (fun l => Some (meanQ l)) mean_rows meanQ h w m W); try assumption; try reflexivity.
    + intros rs Ne F. unfold mean_rows. rewrite map_length, seq_length. destruct rs; [contradiction|now inversion F].
    + rewrite Lm. now apply boundaries_windows.
    + now apply boundaries_windows.
  - rewrite Lm. rewrite map_length, exact_length. split; [reflexivity|]. intros i j Hi Hj. rewrite (nth_map_in _ _ _ (0, 0)%nat) by (now rewrite exact_length). rewrite map_length, exact_length. split; [reflexivity|].
    rewrite (nth_map_in _ _ _ (0, 0)%nat) by (now rewrite exact_length).
    assert (Ki : (snd (nth i (exact_windows (Z.of_nat H) (Z.of_nat h)) (0, 0)%nat) - fst (nth i (exact_windows (Z.of_nat H) (Z.of_nat h)) (0, 0)%nat) <= kernel_of H h)%nat).
    { pose proof (max_kernel_ge (exact_windows (Z.of_nat H) (Z.of_nat h))) as F. rewrite Forall_forall in F. apply F. apply nth_In. now rewrite exact_length. }
    assert (Kj : (snd (nth j (exact_windows (Z.of_nat W) (Z.of_nat w)) (0, 0)%nat) - fst (nth j (exact_windows (Z.of_nat W) (Z.of_nat w)) (0, 0)%nat) <= kernel_of W w)%nat).
    { pose proof (max_kernel_ge (exact_windows (Z.of_nat W) (Z.of_nat w))) as F. rewrite Forall_forall in F. apply F. apply nth_In. now rewrite exact_length. }
    pose proof (exact_bounds H h i HH Hi) as Bi. pose proof (exact_bounds W w j HW Hj) as Bj. cbv zeta in Bi, Bj.
    pose proof (fun y => sees_window H h i y HH Hi) as Si. pose proof (fun z => sees_window W w j z HW Hj) as Sj. cbv zeta in Si, Sj.
    destruct (nth i (exact_windows (Z.of_nat H) (Z.of_nat h)) (0, 0)%nat) as [y0 y1]. destruct (nth j (exact_windows (Z.of_nat W) (Z.of_nat w)) (0, 0)%nat) as [z0 z1]. cbn [fst snd] in *.
    exists y0, y1, z0, z1. split; [exact Si|]. split; [exact Sj|]. set (K0 := kernel_of H h) in *. set (K1 := kernel_of W w) in *.
    assert (Fp : Forall (fun r => length r = W) (part m (y0, y1))).
    { apply Forall_forall. intros r Hr. rewrite Forall_forall in Fm. apply Fm. rewrite <- (firstn_skipn y0 m). apply in_or_app. right. rewrite (skip_split m y0 y1) by lia. apply in_or_app. now left. }
    assert (Lp : length (part m (y0, y1)) = (y1 - y0)%nat) by (apply part_length; lia).
    assert (Pne : part m (y0, y1) <> []) by (intros E; rewrite E in Lp; cbn in Lp; lia).
    assert (Lx : length (mean_rows (part m (y0, y1))) = W) by (unfold mean_rows; rewrite map_length, seq_length; destruct (part m (y0, y1)); [contradiction|now inversion Fp]).
    (* the sum of the block *)
    assert (S1 : (sumq (concat (map (fun r => block meanQ K1 r (z0, z1)) (block mean_rows K0 m (y0, y1)))) ==
      inject_Z (Z.of_nat K0) * inject_Z (Z.of_nat K1) * (sumq (map (fun r => meanQ (part r (z0, z1))) (part m (y0, y1))) / inject_Z (Z.of_nat (y1 - y0))))%Q).
    { rewrite sumq_concat. rewrite (sumq_ext _ (fun r => inject_Z (Z.of_nat K1) * meanQ (part r (z0, z1)))%Q).
      - rewrite sumq_scale. unfold block at 1. cbn [fst snd]. rewrite map_app, sumq_app. rewrite map_repeat'. rewrite sumq_repeat. rewrite (mean_rows_part _ W z0 z1 Pne Fp) by lia. rewrite Lp.
        assert (EK : (inject_Z (Z.of_nat K0) == inject_Z (Z.of_nat (K0 - (y1 - y0))) + inject_Z (Z.of_nat (y1 - y0)))%Q) by (rewrite <- inject_Z_plus; replace (Z.of_nat (K0 - (y1 - y0)) + Z.of_nat (y1 - y0)) with (Z.of_nat K0) by lia; reflexivity).
        rewrite EK. field. apply inj_nz. lia.
      - intros r Hr. apply block_sum; cbn [fst snd]; [|exact Kj]. replace (length r) with W; [exact Bj|]. symmetry. unfold block in Hr. cbn [fst snd] in Hr. apply in_app_iff in Hr as [Hr|Hr]; [apply repeat_spec in Hr; rewrite Hr; exact Lx|].
        rewrite Forall_forall in Fp. now apply Fp. }
    assert (L1 : length (concat (map (fun r => block meanQ K1 r (z0, z1)) (block mean_rows K0 m (y0, y1)))) = (K0 * K1)%nat).
    { assert (G : forall l : list (list Q), Forall (fun r => length r = W) l -> length (concat (map (fun r => block meanQ K1 r (z0, z1)) l)) = (length l * K1)%nat).
      { induction 1 as [|r l Lr _ IH]; [reflexivity|]. cbn [map concat length]. rewrite app_length, IH. unfold block. cbn [fst snd]. rewrite app_length, repeat_length, part_length by lia. lia. }
      rewrite G.
      - unfold block. cbn [fst snd]. rewrite app_length, repeat_length, Lp. f_equal. lia.
      - unfold block. cbn [fst snd]. apply Forall_app. split; [|exact Fp]. apply Forall_forall. intros r Hr. apply repeat_spec in Hr. rewrite Hr. exact Lx. }
    (* the sum of the window *)
    assert (S2 : (sumq (flat_map (fun y => map (fun z => nth z (nth y m []) 0) (seq z0 (z1 - z0))) (seq y0 (y1 - y0))) == inject_Z (Z.of_nat (z1 - z0)) * sumq (map (fun r => meanQ (part r (z0, z1))) (part m (y0, y1))))%Q).
    { rewrite flat_map_concat_map, sumq_concat. rewrite <- sumq_scale.
      assert (Pm : part m (y0, y1) = map (fun y => nth y m []) (seq y0 (y1 - y0))).
      { apply nth_ext with [] []; [rewrite Lp, map_length, seq_length; reflexivity|]. intros k Hk. rewrite Lp in Hk. rewrite (nth_map_in _ _ _ 0%nat) by (rewrite seq_length; lia). rewrite seq_nth by lia.
        rewrite <- (firstn_skipn y0 m) at 2. rewrite app_nth2 by (rewrite firstn_length; lia). rewrite firstn_length, Nat.min_l by lia. replace (y0 + k - y0)%nat with k by lia. rewrite (skip_split m y0 y1) by lia.
        rewrite app_nth1; [reflexivity|]. lia. }
      rewrite Pm, map_map. apply sumq_ext. intros y Hy. apply in_seq in Hy. assert (Lr : length (nth y m []) = W) by (rewrite Forall_forall in Fm; apply Fm; apply nth_In; lia).
      unfold meanQ. rewrite part_length by lia. fold (sumq (part (nth y m []) (z0, z1))). rewrite part_as_map by lia. field. apply inj_nz. lia. }
    assert (L2 : length (flat_map (fun y => map (fun z => nth z (nth y m []) 0%Q) (seq z0 (z1 - z0))) (seq y0 (y1 - y0))) = ((y1 - y0) * (z1 - z0))%nat).
    { assert (G : forall l, length (flat_map (fun y => map (fun z => nth z (nth y m []) 0%Q) (seq z0 (z1 - z0))) l) = (length l * (z1 - z0))%nat).
      { induction l as [|y l IH]; [reflexivity|]. cbn [flat_map length]. rewrite app_length, IH, map_length, seq_length. lia. }
      rewrite G, seq_length. reflexivity. }
    unfold meanQ at 1. rewrite L1. fold (sumq (concat (map (fun r => block meanQ K1 r (z0, z1)) (block mean_rows K0 m (y0, y1))))). rewrite S1.
    unfold meanQ at 2. rewrite L2. fold (sumq (flat_map (fun y => map (fun z => nth z (nth y m []) 0%Q) (seq z0 (z1 - z0))) (seq y0 (y1 - y0)))). rewrite S2.
    rewrite !Nat2Z.inj_mul, !inject_Z_mult. field. repeat split; apply inj_nz; lia.
Qed.

(** When the output size divides the input size all boundaries are right. *)
Lemma k_C60_divides : forall n out, (0 < out)%nat -> Z.of_nat n < 2 ^ 51 -> Nat.divide out n -> boundaries_right n out.
Proof.
  intros n out Ho Hn [q ->] j Hj v. pose proof (product_exact (Z.of_nat out) (Z.of_nat q) (Z.of_nat j) ltac:(lia) ltac:(lia) ltac:(lia)) as E.
  rewrite Nat2Z.inj_mul in Hn. assert (B1 : Z.of_nat q < 2 ^ 51) by nia. assert (B2 : Z.of_nat j * Z.of_nat q < 2 ^ 51) by nia. specialize (E B1 B2). cbv zeta in E. rewrite <- Nat2Z.inj_mul in E. fold v in E. destruct E as [E1 E2].
  replace (j * (q * out))%nat with (j * q * out)%nat by lia. rewrite Nat.div_mul by lia. replace ((j * q * out + out - 1) / out)%nat with (j * q)%nat; [split; lia|]. apply Nat.div_unique with (out - 1)%nat; lia.
Qed.
(** In every case a boundary can be wrong only where it should be an integer, and then by one element outwards. *)
Lemma k_C60_near : forall n out j, (0 < out)%nat -> Z.of_nat (j * n) < 2 ^ 50 ->
  let v := fl_mul (Z.of_nat j) (fl_div (Z.of_nat n) (Z.of_nat out)) in let f := Z.of_nat (j * n / out) in let c := Z.of_nat ((j * n + out - 1) / out) in
  (~ Nat.divide out (j * n) -> fl_floor v = f /\ fl_ceil v = c) /\ f - 1 <= fl_floor v <= f /\ c <= fl_ceil v <= c + 1.
Proof.
  intros n out j Ho B v f c. pose proof (product_floor (Z.of_nat n) (Z.of_nat out) (Z.of_nat j) ltac:(lia) ltac:(lia) ltac:(lia)) as F. rewrite <- Nat2Z.inj_mul in F. specialize (F B). cbv zeta in F. fold v in F. destruct F as [F1 F2].
  rewrite <- Nat2Z.inj_div in F1, F2. fold f in F1, F2. assert (D : (j * n = out * (j * n / out) + (j * n) mod out)%nat) by (apply Nat.div_mod; lia). assert (M := Nat.mod_upper_bound (j * n) out ltac:(lia)).
  rewrite <- Nat2Z.inj_mod in F1, F2. destruct (Nat.eq_dec ((j * n) mod out) 0) as [E|E].
  - assert (Ec : c = f). { unfold c, f. f_equal. symmetry. apply Nat.div_unique with (out - 1)%nat; [lia|]. lia. }
    rewrite E in F2. specialize (F2 eq_refl). split; [intros N; exfalso; apply N; apply Nat.mod_divide; lia|]. lia.
  - assert (Ec : c = f + 1). { unfold c, f. change 1 with (Z.of_nat 1). rewrite <- Nat2Z.inj_add. f_equal. symmetry. apply Nat.div_unique with ((j * n) mod out - 1)%nat; [lia|]. nia. }
    specialize (F1 ltac:(lia)). split; [intros _; lia|lia].
Qed.
(** It does go wrong: 29 elements pooled to 7 give 6 outputs, since 7 * (29 / 7) > 29 in float64 and the last window ends after the input. *)
Lemma k_C60_refuted : exists n out (t : list nat), length t = n /\ (0 < out)%nat /\ ~ exists blocks, adaptive first_row out t = Some blocks /\ length blocks = out.
Proof.
  exists 29%nat, 7%nat, (seq 0 29). split; [reflexivity|]. split; [lia|]. intros (blocks & E & L). vm_compute in E. injection E as <-. discriminate L.
Qed.
