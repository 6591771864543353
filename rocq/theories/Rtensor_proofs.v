(** Sums and derivatives over real tensors. *)
Require Import List Reals ZArith Arith Bool Lia Lra.
From Verif Require Import Ring64 Tensor Tensor_proofs Rtensor.
Import ListNotations.
Open Scope R_scope.

Lemma rs_app a b : rsum (a ++ b) = rsum a + rsum b. Proof. unfold rsum. induction a as [|x a IH]; cbn [fold_right app]; lra. Qed.
Lemma rs_ext {A} (f g : A -> R) l : (forall x, In x l -> f x = g x) -> rsum (map f l) = rsum (map g l). Proof. intros H. f_equal. now apply map_ext_in. Qed.
Lemma rs_plus {A} (f g : A -> R) l : rsum (map (fun x => f x + g x) l) = rsum (map f l) + rsum (map g l). Proof. unfold rsum. induction l as [|x l IH]; cbn [fold_right map]; lra. Qed.
Lemma rs_minus {A} (f g : A -> R) l : rsum (map (fun x => f x - g x) l) = rsum (map f l) - rsum (map g l). Proof. unfold rsum. induction l as [|x l IH]; cbn [fold_right map]; lra. Qed.
Lemma rs_scale {A} c (f : A -> R) l : rsum (map (fun x => c * f x) l) = c * rsum (map f l). Proof. unfold rsum. induction l as [|x l IH]; cbn [fold_right map]; lra. Qed.
Lemma rs_zero {A} (f : A -> R) l : (forall x, In x l -> f x = 0) -> rsum (map f l) = 0.
Proof. intros H. rewrite (rs_ext f (fun _ => 0 * 0)) by (intros; rewrite H by assumption; lra). rewrite rs_scale. lra. Qed.
Lemma rs_swap {A B} (f : A -> B -> R) l m : rsum (map (fun x => rsum (map (f x) m)) l) = rsum (map (fun y => rsum (map (fun x => f x y) l)) m).
Proof.
  induction l as [|x l IH]; cbn [map]; [symmetry; apply rs_zero; reflexivity|]. unfold rsum at 1. cbn [fold_right]. fold (rsum (map (fun x => rsum (map (f x) m)) l)). rewrite IH. rewrite <- rs_plus. apply rs_ext. reflexivity.
Qed.
Lemma rs_flat {A B} (f : B -> R) (h : A -> list B) l : rsum (map f (flat_map h l)) = rsum (map (fun x => rsum (map f (h x))) l).
Proof. induction l as [|x l IH]; [reflexivity|]. cbn [flat_map]. rewrite map_app, rs_app, IH. reflexivity. Qed.
Lemma rs_pos {A} (f : A -> R) l : (forall x, In x l -> 0 < f x) -> l <> [] -> 0 < rsum (map f l).
Proof.
  intros H N. assert (G : forall l, (forall x, In x l -> 0 < f x) -> 0 <= rsum (map f l)) by (clear; induction l as [|x l IH]; intros H; unfold rsum; cbn [map fold_right]; [lra|]; pose proof (H x (or_introl eq_refl)); pose proof (IH (fun y I => H y (or_intror I))) as I; unfold rsum in I; lra).
  destruct l as [|x l]; [contradiction|]. unfold rsum. cbn [map fold_right]. pose proof (H x (or_introl eq_refl)). pose proof (G l (fun y I => H y (or_intror I))) as I. unfold rsum in I. lra.
Qed.
Lemma rs_nonneg {A} (f : A -> R) l : (forall x, In x l -> 0 <= f x) -> 0 <= rsum (map f l).
Proof. induction l as [|x l IH]; intros H; unfold rsum; cbn [map fold_right]; [lra|]; pose proof (H x (or_introl eq_refl)); pose proof (IH (fun y I => H y (or_intror I))) as I; unfold rsum in I; lra. Qed.

Lemma rsumn_ext n f g : (forall i, (i < n)%nat -> f i = g i) -> rsumn n f = rsumn n g. Proof. intros H. apply rs_ext. intros i I. apply in_seq in I. apply H. lia. Qed.
Lemma rsumn_plus n f g : rsumn n (fun i => f i + g i) = rsumn n f + rsumn n g. Proof. apply rs_plus. Qed.
Lemma rsumn_minus n f g : rsumn n (fun i => f i - g i) = rsumn n f - rsumn n g. Proof. apply rs_minus. Qed.
Lemma rsumn_scale n c f : rsumn n (fun i => c * f i) = c * rsumn n f. Proof. apply rs_scale. Qed.
Lemma rsumn_swap n m f : rsumn n (fun i => rsumn m (fun j => f i j)) = rsumn m (fun j => rsumn n (fun i => f i j)). Proof. apply rs_swap. Qed.
Lemma rsumn_S n f : rsumn (S n) f = rsumn n f + f n. Proof. unfold rsumn. rewrite seq_S, map_app, rs_app. unfold rsum. cbn. lra. Qed.
Lemma rsumn_zero n f : (forall i, (i < n)%nat -> f i = 0) -> rsumn n f = 0. Proof. intros H. apply rs_zero. intros i I. apply in_seq in I. apply H. lia. Qed.
Lemma rsumn_const n c : rsumn n (fun _ => c) = INR n * c. Proof. induction n as [|n IH]; [unfold rsumn, rsum; cbn; lra|]. rewrite rsumn_S, IH, S_INR. lra. Qed.
Lemma rsumn_pos n f : (0 < n)%nat -> (forall i, (i < n)%nat -> 0 < f i) -> 0 < rsumn n f.
Proof. intros N H. apply rs_pos; [|destruct n; [lia|discriminate]]. intros i I. apply in_seq in I. apply H. lia. Qed.
Lemma rsumn_nonneg n f : (forall i, (i < n)%nat -> 0 <= f i) -> 0 <= rsumn n f.
Proof. intros H. apply rs_nonneg. intros i I. apply in_seq in I. apply H. lia. Qed.
Lemma rsumn_one n k f : (k < n)%nat -> (forall i, (i < n)%nat -> i <> k -> f i = 0) -> rsumn n f = f k.
Proof.
  induction n as [|n IH]; intros Hk H; [lia|]. rewrite rsumn_S. destruct (Nat.eq_dec k n) as [->|N].
  - rewrite rsumn_zero by (intros i Hi; apply H; lia). lra.
  - rewrite IH by (try lia; intros; apply H; lia). rewrite (H n) by lia. lra.
Qed.

Lemma rsums_nil f : rsums [] f = f []. Proof. unfold rsums, rsum. cbn. lra. Qed.
Lemma rsums_cons n s f : rsums (n :: s) f = rsumn n (fun i => rsums s (fun ix => f (i :: ix))).
Proof. unfold rsums, rsumn. cbn [indices]. rewrite rs_flat. apply rs_ext. intros i _. now rewrite map_map. Qed.
Lemma rsums_ext s f g : (forall ix, valid s ix -> f ix = g ix) -> rsums s f = rsums s g. Proof. intros H. apply rs_ext. intros ix I. apply in_indices in I. auto. Qed.
Lemma rsums_plus s f g : rsums s (fun ix => f ix + g ix) = rsums s f + rsums s g. Proof. apply rs_plus. Qed.
Lemma rsums_minus s f g : rsums s (fun ix => f ix - g ix) = rsums s f - rsums s g. Proof. apply rs_minus. Qed.
Lemma rsums_scale s c f : rsums s (fun ix => c * f ix) = c * rsums s f. Proof. apply rs_scale. Qed.
Lemma rsums_zero s f : (forall ix, valid s ix -> f ix = 0) -> rsums s f = 0. Proof. intros H. apply rs_zero. intros ix I. apply in_indices in I. auto. Qed.
Lemma rsums_sumn s n f : rsums s (fun ix => rsumn n (fun j => f ix j)) = rsumn n (fun j => rsums s (fun ix => f ix j)). Proof. apply rs_swap. Qed.
Lemma indices_length s : length (indices s) = product s.
Proof. induction s as [|n s IH]; [reflexivity|]. cbn [indices]. change (product (n :: s)) with (n * product s)%nat. rewrite <- IH. generalize 0%nat. induction n as [|n IHn]; intros a; [reflexivity|]. cbn [seq flat_map]. rewrite app_length, map_length, IHn. rewrite Nat.mul_succ_l. apply Nat.add_comm. Qed.
Lemma rsums_const s c : rsums s (fun _ => c) = INR (product s) * c.
Proof. unfold rsums. rewrite <- indices_length. induction (indices s) as [|x l IH]; unfold rsum in *; cbn [map fold_right length]; [cbn; lra|]. rewrite IH, S_INR. lra. Qed.
Lemma rsums_dim d : forall s f, (d < length s)%nat -> rsums s f = rsums (del d s) (fun ix => rsumn (pos d s) (fun i => f (ins d i ix))).
Proof.
  induction d as [|d IH]; intros [|n s] f H; cbn [length] in H; try lia.
  - rewrite rsums_cons. change (del 0 (n :: s)) with s. change (pos 0 (n :: s)) with n. rewrite rsums_sumn. reflexivity.
  - change (del (S d) (n :: s)) with (n :: del d s). change (pos (S d) (n :: s)) with (pos d s). rewrite !rsums_cons. apply rsumn_ext. intros i _. rewrite IH by lia. reflexivity.
Qed.
Definition rinner (a b : rtensor) : R := rsums (rshape a) (fun ix => rat a ix * rat b ix).

(** *** Derivatives *)
Lemma d_ext f g x l : (forall t, f t = g t) -> derivable_pt_lim f x l -> derivable_pt_lim g x l.
Proof. intros E D eps He. destruct (D eps He) as [delta H]. exists delta. intros h Hh Hd. rewrite <- !E. now apply H. Qed.
Lemma d_val f x l l' : l = l' -> derivable_pt_lim f x l -> derivable_pt_lim f x l'. Proof. now intros ->. Qed.
Lemma d_near f g x l delta : 0 < delta -> (forall t, Rabs (t - x) < delta -> f t = g t) -> derivable_pt_lim f x l -> derivable_pt_lim g x l.
Proof.
  intros Hd E D eps He. destruct (D eps He) as [d2 H]. assert (P : 0 < Rmin delta d2) by (apply Rmin_pos; [exact Hd|apply cond_pos]). exists (mkposreal _ P). intros h Hh Hlt. cbn [pos] in Hlt.
  assert (Rabs h < delta) by (eapply Rlt_le_trans; [exact Hlt|apply Rmin_l]). assert (Rabs h < d2) by (eapply Rlt_le_trans; [exact Hlt|apply Rmin_r]). rewrite <- (E (x + h)), <- (E x).
  - now apply H.
  - rewrite Rminus_diag_eq by reflexivity. now rewrite Rabs_R0.
  - now replace (x + h - x) with h by ring.
Qed.
Lemma d_plus f g x a b : derivable_pt_lim f x a -> derivable_pt_lim g x b -> derivable_pt_lim (fun t => f t + g t) x (a + b). Proof. apply derivable_pt_lim_plus. Qed.
Lemma d_minus f g x a b : derivable_pt_lim f x a -> derivable_pt_lim g x b -> derivable_pt_lim (fun t => f t - g t) x (a - b). Proof. apply derivable_pt_lim_minus. Qed.
Lemma d_mult f g x a b : derivable_pt_lim f x a -> derivable_pt_lim g x b -> derivable_pt_lim (fun t => f t * g t) x (a * g x + f x * b). Proof. apply derivable_pt_lim_mult. Qed.
Lemma d_scal c f x a : derivable_pt_lim f x a -> derivable_pt_lim (fun t => c * f t) x (c * a). Proof. intros D. apply (derivable_pt_lim_scal f c x a D). Qed.
Lemma d_const c x : derivable_pt_lim (fun _ => c) x 0. Proof. apply derivable_pt_lim_const. Qed.
Lemma d_comp f g x a b : derivable_pt_lim f x a -> derivable_pt_lim g (f x) b -> derivable_pt_lim (fun t => g (f t)) x (b * a). Proof. intros A B. exact (derivable_pt_lim_comp f g x a b A B). Qed.
Lemma d_opp f x a : derivable_pt_lim f x a -> derivable_pt_lim (fun t => - f t) x (- a). Proof. apply derivable_pt_lim_opp. Qed.
Lemma d_inv f x a : f x <> 0 -> derivable_pt_lim f x a -> derivable_pt_lim (fun t => / f t) x (- a * (/ f x * / f x)).
Proof.
  intros N D. eapply d_val; [|eapply d_ext; [|exact (derivable_pt_lim_div (fct_cte 1) f x 0 a (derivable_pt_lim_const 1 x) D N)]].
  - unfold fct_cte, Rsqr. field. exact N.
  - intros t. unfold div_fct, fct_cte. lra.
Qed.
Lemma d_line a b : derivable_pt_lim (fun t => a + t * b) 0 b.
Proof. eapply d_val; [|apply d_plus; [apply d_const|apply d_mult; [apply derivable_pt_lim_id|apply d_const]]]. lra. Qed.
Lemma d_sum {A} (l : list A) (F : A -> R -> R) D x : (forall a, In a l -> derivable_pt_lim (F a) x (D a)) -> derivable_pt_lim (fun t => rsum (map (fun a => F a t) l)) x (rsum (map D l)).
Proof. induction l as [|a l IH]; intros H; unfold rsum; cbn [map fold_right]; [apply d_const|]. apply d_plus; [apply H; now left|apply IH; intros; apply H; now right]. Qed.
Lemma d_rsums s (F : index -> R -> R) D x : (forall ix, valid s ix -> derivable_pt_lim (F ix) x (D ix)) -> derivable_pt_lim (fun t => rsums s (fun ix => F ix t)) x (rsums s D).
Proof. intros H. apply d_sum. intros ix I. apply in_indices in I. auto. Qed.
Lemma d_rsumn n (F : nat -> R -> R) D x : (forall i, (i < n)%nat -> derivable_pt_lim (F i) x (D i)) -> derivable_pt_lim (fun t => rsumn n (fun i => F i t)) x (rsumn n D).
Proof. intros H. apply d_sum. intros i I. apply in_seq in I. apply H. lia. Qed.
