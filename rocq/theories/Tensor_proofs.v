(** Sums over indices, and positions of lists. *)
Require Import List ZArith Bool Arith Lia Permutation.
From Verif Require Import Ring64 Tensor.
Import ListNotations.
Open Scope Z_scope.

(** *** zsum *)
Lemma zs_app a b : zsum (a ++ b) = zsum a + zsum b.
Proof. unfold zsum. induction a as [|x a IH]; cbn [app fold_right]; lia. Qed.
Lemma zs_perm a b : Permutation a b -> zsum a = zsum b.
Proof. unfold zsum. induction 1; cbn [fold_right]; lia. Qed.
Lemma zs_plus {A} (f g : A -> Z) l : zsum (map (fun x => f x + g x) l) = zsum (map f l) + zsum (map g l).
Proof. unfold zsum. induction l as [|x l IH]; cbn [map fold_right]; lia. Qed.
Lemma zs_scale {A} c (f : A -> Z) l : zsum (map (fun x => c * f x) l) = c * zsum (map f l).
Proof. unfold zsum. induction l as [|x l IH]; cbn [map fold_right]; [lia|]. rewrite IH. ring. Qed.
Lemma zs_scale_r {A} c (f : A -> Z) l : zsum (map (fun x => f x * c) l) = zsum (map f l) * c.
Proof. rewrite (Z.mul_comm _ c), <- zs_scale. f_equal. apply map_ext. intros. apply Z.mul_comm. Qed.
Lemma zs_zero {A} (f : A -> Z) l : (forall x, In x l -> f x = 0) -> zsum (map f l) = 0.
Proof. intros H. unfold zsum. induction l as [|x l IH]; cbn [map fold_right]; [reflexivity|]. rewrite H by now left. rewrite IH; [reflexivity|]. intros y I. apply H. now right. Qed.
Lemma zs_swap {A B} (f : A -> B -> Z) l m : zsum (map (fun x => zsum (map (f x) m)) l) = zsum (map (fun y => zsum (map (fun x => f x y) l)) m).
Proof.
  induction l as [|x l IH]; cbn [map].
  - symmetry. apply zs_zero. reflexivity.
  - change (zsum (zsum (map (f x) m) :: map (fun x0 => zsum (map (f x0) m)) l)) with (zsum (map (f x) m) + zsum (map (fun x0 => zsum (map (f x0) m)) l)). rewrite IH, <- zs_plus. reflexivity.
Qed.
Lemma zs_flat {A B} (f : B -> Z) (h : A -> list B) l : zsum (map f (flat_map h l)) = zsum (map (fun x => zsum (map f (h x))) l).
Proof. induction l as [|x l IH]; [reflexivity|]. cbn [flat_map map]. rewrite map_app, zs_app, IH. reflexivity. Qed.
Lemma zs_ext {A} (f g : A -> Z) l : (forall x, In x l -> f x = g x) -> zsum (map f l) = zsum (map g l).
Proof. intros H. f_equal. now apply map_ext_in. Qed.

(** *** Sums over numbers *)
Lemma sumn_0 f : sumn 0 f = 0. Proof. reflexivity. Qed.
Lemma sumn_S n f : sumn (S n) f = sumn n f + f n.
Proof. unfold sumn. rewrite seq_S, map_app, zs_app. cbn. lia. Qed.
Lemma sumn_head n f : sumn (S n) f = f O + sumn n (fun i => f (S i)).
Proof. unfold sumn. cbn [seq map]. rewrite <- seq_shift, map_map. reflexivity. Qed.
Lemma sumn_1 f : sumn 1 f = f O. Proof. unfold sumn. cbn. lia. Qed.
Lemma sumn_ext n f g : (forall i, (i < n)%nat -> f i = g i) -> sumn n f = sumn n g.
Proof. intros H. apply zs_ext. intros i I. apply in_seq in I. apply H. lia. Qed.
Lemma sumn_plus n f g : sumn n (fun i => f i + g i) = sumn n f + sumn n g. Proof. apply zs_plus. Qed.
Lemma sumn_scale n c f : sumn n (fun i => c * f i) = c * sumn n f. Proof. apply zs_scale. Qed.
Lemma sumn_scale_r n c f : sumn n (fun i => f i * c) = sumn n f * c. Proof. apply zs_scale_r. Qed.
Lemma sumn_zero n f : (forall i, (i < n)%nat -> f i = 0) -> sumn n f = 0.
Proof. intros H. apply zs_zero. intros i I. apply in_seq in I. apply H. lia. Qed.
Lemma sumn_swap n m f : sumn n (fun i => sumn m (fun j => f i j)) = sumn m (fun j => sumn n (fun i => f i j)). Proof. apply zs_swap. Qed.
Lemma sumn_add n m f : sumn (n + m) f = sumn n f + sumn m (fun i => f (n + i)%nat).
Proof. induction m as [|m IH]; [rewrite Nat.add_0_r, sumn_0; lia|]. rewrite Nat.add_succ_r, !sumn_S, IH. lia. Qed.
Lemma sumn_one n k f : (k < n)%nat -> (forall i, (i < n)%nat -> i <> k -> f i = 0) -> sumn n f = f k.
Proof.
  induction n as [|n IH]; intros L H; [lia|]. rewrite sumn_S. destruct (Nat.eq_dec k n) as [->|N].
  - rewrite sumn_zero; [lia|]. intros i Hi. apply H; lia.
  - rewrite IH; [rewrite (H n); lia|lia|]. intros i Hi Ni. apply H; lia.
Qed.

(** *** Indices *)
Lemma NoDup_app' {A} (a b : list A) : NoDup a -> NoDup b -> (forall x, In x a -> ~ In x b) -> NoDup (a ++ b).
Proof. induction a as [|x a IH]; intros Na Nb D; [exact Nb|]. apply NoDup_cons_iff in Na as [Ha Na]. cbn. constructor; [intros F; apply in_app_or in F as [F|F]; [auto|apply (D x); [now left|exact F]]|]. apply IH; auto. intros y Hy. apply D. now right. Qed.
Lemma in_indices s : forall ix, In ix (indices s) <-> valid s ix.
Proof.
  induction s as [|n s IH]; intros ix; cbn [indices].
  - destruct ix; cbn; intuition discriminate.
  - rewrite in_flat_map. split.
    + intros (i & Hi & H). apply in_map_iff in H as (jx & <- & H). apply in_seq in Hi. cbn. split; [lia|now apply IH].
    + destruct ix as [|i ix]; [intros []|]. intros [Hi H]. exists i. split; [apply in_seq; lia|]. apply in_map. now apply IH.
Qed.
Lemma NoDup_indices s : NoDup (indices s).
Proof.
  induction s as [|n s IH]; cbn [indices]; [repeat constructor; intros []|]. generalize 0%nat. induction n as [|n IHn]; intros a; cbn [seq flat_map]; [constructor|].
  apply NoDup_app'; [|apply IHn|].
  - apply FinFun.Injective_map_NoDup; [intros x y E; now injection E|exact IH].
  - intros ix H1 H2. apply in_map_iff in H1 as (jx & <- & _). apply in_flat_map in H2 as (i & Hi & H2). apply in_map_iff in H2 as (kx & E & _). injection E as -> _. apply in_seq in Hi. lia.
Qed.
Lemma sums_nil f : sums [] f = f []. Proof. unfold sums. cbn. lia. Qed.
Lemma sums_cons n s f : sums (n :: s) f = sumn n (fun i => sums s (fun ix => f (i :: ix))).
Proof. unfold sums, sumn. cbn [indices]. rewrite zs_flat. apply zs_ext. intros i _. now rewrite map_map. Qed.
Lemma sums_ext s f g : (forall ix, valid s ix -> f ix = g ix) -> sums s f = sums s g.
Proof. intros H. apply zs_ext. intros ix I. apply H. now apply in_indices. Qed.
Lemma sums_plus s f g : sums s (fun ix => f ix + g ix) = sums s f + sums s g. Proof. apply zs_plus. Qed.
Lemma sums_scale s c f : sums s (fun ix => c * f ix) = c * sums s f. Proof. apply zs_scale. Qed.
Lemma sums_scale_r s c f : sums s (fun ix => f ix * c) = sums s f * c. Proof. apply zs_scale_r. Qed.
Lemma sums_zero s f : (forall ix, valid s ix -> f ix = 0) -> sums s f = 0.
Proof. intros H. apply zs_zero. intros ix I. apply H. now apply in_indices. Qed.
Lemma sums_swap s t f : sums s (fun ix => sums t (fun jx => f ix jx)) = sums t (fun jx => sums s (fun ix => f ix jx)). Proof. apply zs_swap. Qed.
Lemma sums_sumn s n f : sums s (fun ix => sumn n (fun j => f ix j)) = sumn n (fun j => sums s (fun ix => f ix j)). Proof. apply zs_swap. Qed.
Lemma sums_app s t f : sums (s ++ t) f = sums s (fun a => sums t (fun b => f (a ++ b))).
Proof. revert f. induction s as [|n s IH]; intros f; cbn [app]; [now rewrite sums_nil|]. rewrite !sums_cons. apply sumn_ext. intros i _. apply IH. Qed.
Lemma sums_bij s t phi psi f : (forall ix, valid s ix -> valid t (phi ix) /\ psi (phi ix) = ix) -> (forall jx, valid t jx -> valid s (psi jx) /\ phi (psi jx) = jx) -> sums s (fun ix => f (phi ix)) = sums t f.
Proof.
  intros A B. unfold sums. rewrite <- (map_map phi f). apply zs_perm, Permutation_map, NoDup_Permutation; [|apply NoDup_indices|].
  - assert (H : forall l, NoDup l -> (forall ix, In ix l -> valid s ix) -> NoDup (map phi l)).
    { induction l as [|ix l IH]; intros N V; cbn; [constructor|]. apply NoDup_cons_iff in N as [Hn N]. constructor; [|apply IH; auto; intros; apply V; now right]. intros F. apply in_map_iff in F as (jx & E & F). apply Hn. rewrite <- (proj2 (A ix (V ix (or_introl eq_refl)))), <- E, (proj2 (A jx (V jx (or_intror F)))). exact F. }
    apply H; [apply NoDup_indices|]. intros ix. apply in_indices.
  - intros jx. rewrite in_indices, in_map_iff. split.
    + intros (ix & <- & I). apply in_indices in I. now apply A.
    + intros V. exists (psi jx). destruct (B jx V) as [V' E]. split; [exact E|now apply in_indices].
Qed.
(** sums over an index map: the fibres *)
Lemma index_eqb_spec a b : index_eqb a b = true <-> a = b.
Proof. revert b. induction a as [|i a IH]; intros [|j b]; cbn; split; intros H; try discriminate; auto. - apply andb_true_iff in H as [E H]. apply Nat.eqb_eq in E. apply IH in H. now subst. - injection H as -> ->. rewrite Nat.eqb_refl. now apply IH. Qed.
Lemma index_eqb_refl a : index_eqb a a = true. Proof. now apply index_eqb_spec. Qed.
Lemma sums_one s jx f : valid s jx -> (forall ix, valid s ix -> ix <> jx -> f ix = 0) -> sums s f = f jx.
Proof.
  intros V H. unfold sums. assert (I : In jx (indices s)) by now apply in_indices. apply in_split in I as (l1 & l2 & E). pose proof (NoDup_indices s) as N. rewrite E in N. apply NoDup_remove in N as [_ N]. rewrite E, map_app, zs_app. cbn [map]. rewrite zsum_cons.
  assert (Z : forall ix, In ix l1 \/ In ix l2 -> f ix = 0). { intros ix K. apply H; [apply in_indices; rewrite E; apply in_or_app; destruct K; [now left|right; now right]|]. intros ->. apply N. apply in_or_app. exact K. }
  rewrite (zs_zero f l1), (zs_zero f l2) by auto. lia.
Qed.
Lemma sums_fibre s t phi (g f : index -> Z) : (forall ix, valid t ix -> valid s (phi ix)) -> sums t (fun ix => g ix * f (phi ix)) = sums s (fun jx => sums t (fun ix => if index_eqb (phi ix) jx then g ix else 0) * f jx).
Proof.
  intros V. transitivity (sums t (fun ix => sums s (fun jx => (if index_eqb (phi ix) jx then g ix else 0) * f jx))).
  - apply sums_ext. intros ix I. rewrite (sums_one s (phi ix)); [now rewrite index_eqb_refl|now apply V|]. intros jx _ N. destruct (index_eqb (phi ix) jx) eqn:E; [apply index_eqb_spec in E; congruence|lia].
  - rewrite sums_swap. apply sums_ext. intros jx _. apply sums_scale_r.
Qed.

(** *** Positions *)
Lemma nth_firstn_ {A} n : forall (l : list A) k d, (k < n)%nat -> nth k (firstn n l) d = nth k l d.
Proof. induction n as [|n IH]; intros [|x l] [|k] d H; cbn; auto; try lia. apply IH. lia. Qed.
Lemma pos_out d l : (length l <= d)%nat -> pos d l = O. Proof. apply nth_overflow. Qed.
Lemma list_ext (a b : list nat) : length a = length b -> (forall d, (d < length a)%nat -> pos d a = pos d b) -> a = b.
Proof. revert b. induction a as [|x a IH]; intros [|y b] L H; cbn in L; try discriminate; [reflexivity|]. f_equal; [exact (H O ltac:(cbn; lia))|]. apply IH; [lia|]. intros d Hd. apply (H (S d)). cbn. lia. Qed.
Lemma valid_pos s ix : valid s ix <-> length ix = length s /\ forall d, (d < length s)%nat -> (pos d ix < pos d s)%nat.
Proof.
  revert ix. induction s as [|n s IH]; intros [|i ix]; cbn [valid length].
  - split; [split; [reflexivity|lia]|auto].
  - split; [intros []|intros [H _]; discriminate].
  - split; [intros []|intros [H _]; discriminate].
  - rewrite IH. split.
    + intros (Hi & L & H). split; [lia|]. intros [|d] Hd; [exact Hi|]. apply H. lia.
    + intros (L & H). split; [exact (H O ltac:(lia))|]. split; [lia|]. intros d Hd. apply (H (S d)). lia.
Qed.
Lemma valid_length s ix : valid s ix -> length ix = length s. Proof. intros H. now apply valid_pos in H. Qed.
Lemma upd_length d v l : (d < length l)%nat -> length (upd d v l) = length l.
Proof. intros H. unfold upd. rewrite app_length, firstn_length. cbn [length]. rewrite skipn_length. lia. Qed.
Lemma ins_length d v l : (d <= length l)%nat -> length (ins d v l) = S (length l).
Proof. intros H. unfold ins. rewrite app_length, firstn_length. cbn [length]. rewrite skipn_length. lia. Qed.
Lemma del_length d l : (d < length l)%nat -> length (del d l) = (length l - 1)%nat.
Proof. intros H. unfold del. rewrite app_length, firstn_length, skipn_length. lia. Qed.
Lemma nth_skipn_ {A} n : forall (l : list A) k d, nth k (skipn n l) d = nth (n + k) l d.
Proof. induction n as [|n IH]; intros [|x l] k d; cbn; auto. now destruct k. Qed.
Lemma pos_upd d v l k : (d < length l)%nat -> pos k (upd d v l) = if Nat.eqb k d then v else pos k l.
Proof.
  intros H. unfold pos, upd. assert (F : length (firstn d l) = d) by (rewrite firstn_length; lia). destruct (Nat.eqb_spec k d) as [->|N]; [rewrite app_nth2, F, Nat.sub_diag by lia; reflexivity|].
  destruct (Nat.lt_ge_cases k d); [rewrite app_nth1 by lia; now apply nth_firstn_|]. rewrite app_nth2, F by lia. replace (k - d)%nat with (S (k - d - 1)) by lia. cbn [nth]. rewrite nth_skipn_. f_equal. lia.
Qed.
Lemma pos_ins d v l k : (d <= length l)%nat -> pos k (ins d v l) = if Nat.eqb k d then v else pos (if Nat.ltb k d then k else k - 1) l.
Proof.
  intros H. unfold pos, ins. assert (F : length (firstn d l) = d) by (rewrite firstn_length; lia). destruct (Nat.eqb_spec k d) as [->|N]; [rewrite app_nth2, F, Nat.sub_diag by lia; reflexivity|].
  destruct (Nat.ltb_spec k d); [rewrite app_nth1 by lia; now apply nth_firstn_|]. rewrite app_nth2, F by lia. replace (k - d)%nat with (S (k - d - 1)) by lia. cbn [nth]. rewrite nth_skipn_. f_equal. lia.
Qed.
Lemma pos_del d l k : (d < length l)%nat -> pos k (del d l) = pos (if Nat.ltb k d then k else S k) l.
Proof.
  intros H. unfold pos, del. assert (F : length (firstn d l) = d) by (rewrite firstn_length; lia). destruct (Nat.ltb_spec k d); [rewrite app_nth1 by lia; now apply nth_firstn_|]. rewrite app_nth2, F by lia. rewrite nth_skipn_. f_equal. lia.
Qed.
Lemma del_ins d v l : (d <= length l)%nat -> del d (ins d v l) = l.
Proof.
  intros H. assert (L : length (ins d v l) = S (length l)) by now apply ins_length. apply list_ext; [rewrite del_length; lia|]. intros k Hk. rewrite pos_del, pos_ins by lia. rewrite del_length in Hk by lia.
  destruct (Nat.ltb_spec k d); [destruct (Nat.eqb_spec k d); [lia|]; destruct (Nat.ltb_spec k d); [reflexivity|lia]|]. destruct (Nat.eqb_spec (S k) d); [lia|]. destruct (Nat.ltb_spec (S k) d); [lia|]. f_equal. lia.
Qed.
Lemma ins_del d l : (d < length l)%nat -> ins d (pos d l) (del d l) = l.
Proof.
  intros H. assert (L : length (del d l) = (length l - 1)%nat) by now apply del_length. apply list_ext; [rewrite ins_length; lia|]. intros k Hk. rewrite ins_length in Hk by lia. rewrite pos_ins by lia. destruct (Nat.eqb_spec k d) as [->|N]; [reflexivity|]. rewrite pos_del by lia.
  destruct (Nat.ltb_spec k d); [destruct (Nat.ltb_spec k d); [reflexivity|lia]|]. destruct (Nat.ltb_spec (k - 1) d); [lia|]. f_equal. lia.
Qed.
Lemma upd_ins d v w l : (d <= length l)%nat -> upd d v (ins d w l) = ins d v l.
Proof. intros H. pose proof (ins_length d w l H). pose proof (ins_length d v l H). apply list_ext; [rewrite upd_length; lia|]. intros k Hk. rewrite pos_upd, !pos_ins by lia. now destruct (Nat.eqb k d). Qed.
Lemma del_upd d v l : (d < length l)%nat -> del d (upd d v l) = del d l.
Proof. intros H. assert (L : length (upd d v l) = length l) by now apply upd_length. apply list_ext; [rewrite !del_length; lia|]. intros k Hk. rewrite !pos_del, pos_upd by lia. destruct (Nat.ltb_spec k d); [destruct (Nat.eqb_spec k d); [lia|reflexivity]|destruct (Nat.eqb_spec (S k) d); [lia|reflexivity]]. Qed.
Lemma upd_upd d v w l : (d < length l)%nat -> upd d v (upd d w l) = upd d v l.
Proof. intros H. assert (L : length (upd d w l) = length l) by now apply upd_length. apply list_ext; [rewrite !upd_length; lia|]. intros k Hk. rewrite !pos_upd by lia. now destruct (Nat.eqb k d). Qed.
Lemma upd_pos d l : (d < length l)%nat -> upd d (pos d l) l = l.
Proof. intros H. apply list_ext; [now apply upd_length|]. intros k Hk. rewrite pos_upd by lia. destruct (Nat.eqb_spec k d) as [->|N]; reflexivity. Qed.
Lemma upd_as_ins d v l : (d < length l)%nat -> upd d v l = ins d v (del d l).
Proof. intros H. rewrite <- (ins_del d l H) at 1. apply upd_ins. rewrite del_length; lia. Qed.
Lemma valid_upd d v s ix : (d < length s)%nat -> valid s ix -> (v < pos d s)%nat -> valid s (upd d v ix).
Proof. intros H V Hv. apply valid_pos in V as [L V]. apply valid_pos. split; [rewrite upd_length; lia|]. intros k Hk. rewrite pos_upd by lia. destruct (Nat.eqb_spec k d) as [->|N]; auto. Qed.
Lemma valid_ins d v n s ix : (d <= length s)%nat -> valid s ix -> (v < n)%nat -> valid (ins d n s) (ins d v ix).
Proof. intros H V Hv. apply valid_pos in V as [L V]. apply valid_pos. split; [rewrite !ins_length; lia|]. rewrite ins_length by lia. intros k Hk. rewrite !pos_ins by lia. destruct (Nat.eqb_spec k d) as [->|N]; auto. destruct (Nat.ltb_spec k d); apply V; lia. Qed.
Lemma valid_del d s ix : (d < length s)%nat -> valid s ix -> valid (del d s) (del d ix).
Proof. intros H V. apply valid_pos in V as [L V]. apply valid_pos. split; [rewrite !del_length; lia|]. rewrite del_length by lia. intros k Hk. rewrite !pos_del by lia. destruct (Nat.ltb_spec k d); apply V; lia. Qed.
Lemma valid_at d s ix : (d < length s)%nat -> valid s ix -> (pos d ix < pos d s)%nat. Proof. intros H V. apply valid_pos in V as [L V]. auto. Qed.
Lemma sums_dim d : forall s f, (d < length s)%nat -> sums s f = sums (del d s) (fun ix => sumn (pos d s) (fun i => f (ins d i ix))).
Proof.
  induction d as [|d IH]; intros [|n s] f H; cbn [length] in H; try lia.
  - rewrite sums_cons. unfold del, pos. cbn [firstn skipn nth app]. now rewrite sums_sumn.
  - rewrite sums_cons. change (del (S d) (n :: s)) with (n :: del d s). rewrite sums_cons. apply sumn_ext. intros i _. rewrite (IH s) by lia. reflexivity.
Qed.

(** *** Inner products *)
Definition inner (a b : tensor) : Z := sums (shape a) (fun ix => at_ a ix * at_ b ix).
