(** C63, continued: padding, narrowing, concatenation. *)
Require Import List ZArith Bool Arith Lia.
From Verif Require Import Ring64 Tensor Tensor_proofs Gradfn Broadcast_claims Gradfn_claims Gradfn_claims2 Gradfn_claims3 Gradfn_claims4.
Import ListNotations.
Open Scope Z_scope.

Lemma affine_gradient_t s fwd bwd osh F F0 :
  (forall x, shape x = s -> exists y, fwd x = Some y /\ teq y (mkT osh (F (at_ x)))) ->
  (forall f h ix, valid osh ix -> F (fun i => f i + h i) ix = F f ix + F0 h ix) ->
  (forall g, shape g = osh -> exists g', bwd g = Some g' /\ shape g' = s /\ forall f, sums osh (fun ix => at_ g ix * F0 f ix) = sums s (fun jx => at_ g' jx * f jx)) ->
  gradient_of fwd bwd s.
Proof.
  intros Hf Ha Hb x y Hx Hy g Hg. destruct (Hf x Hx) as (y' & Ey & Sy & Ty). rewrite Ey in Hy. injection Hy as ->. cbn [shape] in *. rewrite Sy in *. destruct (Hb g Hg) as (g' & E & Sg & A). exists g'. split; [exact E|]. split; [exact Sg|]. intros h Hh.
  destruct (Hf (plus x h) Hx) as (yh & Eh & Sh & Th). cbn [shape] in Sh. rewrite Sh in Th. exists yh. split; [exact Eh|]. split; [exact Sh|].
  unfold inner. rewrite Hg, Sg, <- A, <- sums_plus. apply sums_ext. intros ix V. rewrite Th, Ty by exact V. cbn [at_ plus]. rewrite Ha by exact V. ring.
Qed.
(** a sum in which only the image of an injection counts *)
Lemma sums_inj s t psi phi (G : index -> Z) : (forall jx, valid s jx -> valid t (psi jx) /\ phi (psi jx) = jx) -> (forall ix, valid t ix -> (valid s (phi ix) /\ psi (phi ix) = ix) \/ G ix = 0) -> sums t G = sums s (fun jx => G (psi jx)).
Proof.
  intros A B. transitivity (sums t (fun ix => sums s (fun jx => if index_eqb (psi jx) ix then G ix else 0))).
  - apply sums_ext. intros ix V. destruct (B ix V) as [[V' E]|Z].
    + rewrite (sums_one s (phi ix)); [now rewrite E, index_eqb_refl|exact V'|]. intros jx Vj N. destruct (index_eqb (psi jx) ix) eqn:Q; [|reflexivity]. apply index_eqb_spec in Q. exfalso. apply N. rewrite <- Q. symmetry. now apply A.
    + rewrite Z. symmetry. apply sums_zero. intros jx _. now destruct (index_eqb (psi jx) ix).
  - rewrite sums_swap. apply sums_ext. intros jx V. destruct (A jx V) as [V' _]. rewrite (sums_one t (psi jx)); [now rewrite index_eqb_refl|exact V'|]. intros ix _ N. destruct (index_eqb (psi jx) ix) eqn:Q; [apply index_eqb_spec in Q; congruence|reflexivity].
Qed.

(** *** Padding all dimensions at once *)
Definition padded_size (s : list nat) (b a : nat -> Z) : list nat := tabulate (length s) (fun k => Z.to_nat (Z.of_nat (pos k s) + b k + a k)).
Definition inside (s : list nat) (b : nat -> Z) (ix : index) : bool := forallb (fun k => (0 <=? Z.of_nat (pos k ix) - b k) && (Z.of_nat (pos k ix) - b k <? Z.of_nat (pos k s))) (seq 0 (length s)).
Definition unpadded (s : list nat) (b : nat -> Z) (ix : index) : index := tabulate (length s) (fun k => Z.to_nat (Z.of_nat (pos k ix) - b k)).
Definition padded_index (s : list nat) (b : nat -> Z) (jx : index) : index := tabulate (length s) (fun k => Z.to_nat (Z.of_nat (pos k jx) + b k)).
Definition pad_all (s : list nat) (b a : nat -> Z) (v : Z) (x : tensor) : tensor := mkT (padded_size s b a) (fun ix => if inside s b ix then at_ x (unpadded s b ix) else v).
(** the entries for dimension [k] when the list starts at dimension d-1 *)
Definition before (d : nat) (p : list Z) (k : nat) : Z := if Nat.ltb k d then nth (2 * (d - 1 - k)) p 0 else 0.
Definition after (d : nat) (p : list Z) (k : nat) : Z := if Nat.ltb k d then nth (2 * (d - 1 - k) + 1) p 0 else 0.
Lemma before_step d b a p k : before (S d) (b :: a :: p) k = if Nat.eqb k d then b else before d p k.
Proof. unfold before. destruct (Nat.eqb_spec k d) as [QQ|N]; [try subst k; destruct (Nat.ltb_spec d (S d)); [|lia]; replace (2 * (S d - 1 - d))%nat with O by lia; reflexivity|]. destruct (Nat.ltb_spec k (S d)), (Nat.ltb_spec k d); try lia. replace (2 * (S d - 1 - k))%nat with (S (S (2 * (d - 1 - k)))) by lia. reflexivity. Qed.
Lemma after_step d b a p k : after (S d) (b :: a :: p) k = if Nat.eqb k d then a else after d p k.
Proof. unfold after. destruct (Nat.eqb_spec k d) as [QQ|N]; [try subst k; destruct (Nat.ltb_spec d (S d)); [|lia]; replace (2 * (S d - 1 - d) + 1)%nat with 1%nat by lia; reflexivity|]. destruct (Nat.ltb_spec k (S d)), (Nat.ltb_spec k d); try lia. replace (2 * (S d - 1 - k) + 1)%nat with (S (S (2 * (d - 1 - k) + 1))) by lia. reflexivity. Qed.
Lemma nth_nil_z n : nth n (@nil Z) 0 = 0. Proof. now destruct n. Qed.
Lemma before_nil d k : before d [] k = 0. Proof. unfold before. rewrite nth_nil_z. now destruct (Nat.ltb k d). Qed.
Lemma after_nil d k : after d [] k = 0. Proof. unfold after. rewrite nth_nil_z. now destruct (Nat.ltb k d). Qed.
Lemma inside_spec s b ix : inside s b ix = true <-> forall k, (k < length s)%nat -> 0 <= Z.of_nat (pos k ix) - b k < Z.of_nat (pos k s).
Proof.
  unfold inside. rewrite forallb_forall. split; intros H k Hk.
  - specialize (H k ltac:(apply in_seq; lia)). apply andb_true_iff in H as [A B]. apply Z.leb_le in A. apply Z.ltb_lt in B. lia.
  - apply in_seq in Hk. specialize (H k ltac:(lia)). apply andb_true_iff. split; [apply Z.leb_le|apply Z.ltb_lt]; lia.
Qed.
Lemma pad_from_ok v : forall p d s x, shape x = s -> (d <= length s)%nat -> (exists m, length p = (2 * m)%nat /\ (m <= d)%nat) -> (forall k, (k < length s)%nat -> 0 <= Z.of_nat (pos k s) + before d p k + after d p k) ->
  exists y, pad_from d p v x = Some y /\ teq y (pad_all s (before d p) (after d p) v x).
Proof.
  intros p. remember (length p) as L eqn:EL. revert p EL. induction L as [L IH] using lt_wf_ind. intros p EL d s x Hx Hd Hm Hs. destruct p as [|b [|a p]].
  - exists x. split; [now destruct d|]. assert (E : padded_size s (before d []) (after d []) = s). { unfold padded_size. apply list_ext; [apply tab_length|]. rewrite tab_length. intros k Hk. rewrite pos_tab by exact Hk. rewrite before_nil, after_nil. lia. } split; [unfold pad_all; cbn [shape]; now rewrite E|]. rewrite Hx. intros ix V. unfold pad_all. cbn [at_].
    assert (I : inside s (before d []) ix = true). { apply inside_spec. intros k Hk. rewrite before_nil. pose proof (valid_at k s ix Hk V). lia. } rewrite I. f_equal. pose proof (valid_length _ _ V) as Lx. apply list_ext; [unfold unpadded; now rewrite tab_length|]. rewrite Lx. intros k Hk. unfold unpadded. rewrite pos_tab, before_nil by exact Hk. lia.
  - destruct Hm as (m & Hm & _). cbn in EL. lia.
  - destruct Hm as (m & Hm & Hmd). cbn [length] in EL. destruct d as [|d]; [lia|]. cbn [pad_from].
    assert (Hb : 0 <= Z.of_nat (pos d s) + b + a). { specialize (Hs d ltac:(lia)). rewrite before_step, after_step, Nat.eqb_refl in Hs. exact Hs. }
    set (s1 := upd d (Z.to_nat (Z.of_nat (pos d s) + b + a)) s). assert (L1 : length s1 = length s) by (apply upd_length; lia).
    unfold pad_dim. rewrite Hx. destruct (Z.leb_spec 0 (Z.of_nat (pos d s) + b + a)); [|lia]. fold s1. set (x1 := mkT s1 _).
    assert (B0 : before d p d = 0 /\ after d p d = 0). { unfold before, after. destruct (Nat.ltb_spec d d); [lia|auto]. } destruct B0 as [B0 A0].
    destruct (IH (length p) ltac:(lia) p eq_refl d s1 x1 eq_refl ltac:(lia)) as (y & Ey & Sy & Ty).
    { exists (m - 1)%nat. lia. }
    { intros k Hk. unfold s1. rewrite pos_upd by lia. specialize (Hs k ltac:(lia)). rewrite before_step, after_step in Hs. destruct (Nat.eqb_spec k d) as [QQ|N]; [try subst k; rewrite B0, A0; lia|exact Hs]. }
    exists y. split; [exact Ey|].
    assert (ES : padded_size s1 (before d p) (after d p) = padded_size s (before (S d) (b :: a :: p)) (after (S d) (b :: a :: p))).
    { unfold padded_size. rewrite L1. apply list_ext; [now rewrite !tab_length|]. rewrite tab_length. intros k Hk. rewrite !pos_tab by exact Hk. rewrite before_step, after_step. unfold s1. rewrite pos_upd by lia. destruct (Nat.eqb_spec k d) as [QQ|N]; [try subst k; rewrite B0, A0; lia|reflexivity]. }
    split; [rewrite Sy; exact ES|]. intros ix V. rewrite Ty by exact V. rewrite Sy in V. cbn [shape pad_all] in V. unfold padded_size in V. apply valid_tab in V as [Lx V]. rewrite L1 in Lx. unfold pad_all. cbn [at_].
    assert (Cd : (pos d ix < Z.to_nat (Z.of_nat (pos d s) + b + a))%nat). { specialize (V d ltac:(lia)). unfold s1 in V. rewrite pos_upd, Nat.eqb_refl, B0, A0 in V by lia. lia. }
    destruct (inside s1 (before d p) ix) eqn:I1.
    + pose proof (proj1 (inside_spec _ _ _) I1) as J1. unfold x1. cbn [at_].
      assert (Pd : Z.of_nat (pos d (unpadded s1 (before d p) ix)) = Z.of_nat (pos d ix)). { unfold unpadded. rewrite pos_tab by lia. rewrite B0. lia. } rewrite Pd.
      destruct ((0 <=? Z.of_nat (pos d ix) - b) && (Z.of_nat (pos d ix) - b <? Z.of_nat (pos d s))) eqn:C.
      * apply andb_true_iff in C as [C1 C2]. apply Z.leb_le in C1. apply Z.ltb_lt in C2. assert (I2 : inside s (before (S d) (b :: a :: p)) ix = true).
        { apply inside_spec. intros k Hk. rewrite before_step. destruct (Nat.eqb_spec k d) as [QQ|N]; [try subst k; lia|]. specialize (J1 k ltac:(lia)). unfold s1 in J1. rewrite pos_upd in J1 by lia. destruct (Nat.eqb_spec k d); [contradiction|exact J1]. }
        rewrite I2. f_equal. unfold unpadded. rewrite L1. apply list_ext; [rewrite upd_length; rewrite !tab_length; lia|]. rewrite upd_length by (rewrite tab_length; lia). rewrite tab_length. intros k Hk. rewrite pos_upd by (rewrite tab_length; lia). rewrite !pos_tab by exact Hk. rewrite before_step. destruct (Nat.eqb_spec k d) as [QQ|N]; [try subst k; reflexivity|]. reflexivity.
      * assert (I2 : inside s (before (S d) (b :: a :: p)) ix = false). { destruct (inside s _ ix) eqn:I2; [|reflexivity]. pose proof (proj1 (inside_spec _ _ _) I2 d ltac:(lia)) as J2. rewrite before_step, Nat.eqb_refl in J2. apply andb_false_iff in C as [C|C]; [apply Z.leb_gt in C|apply Z.ltb_ge in C]; lia. } now rewrite I2.
    + assert (I2 : inside s (before (S d) (b :: a :: p)) ix = false). { destruct (inside s _ ix) eqn:I2; [|reflexivity]. rewrite <- I1. symmetry. apply inside_spec. intros k Hk. pose proof (proj1 (inside_spec _ _ _) I2 k ltac:(lia)) as J2. rewrite before_step in J2. unfold s1. rewrite pos_upd by lia. destruct (Nat.eqb_spec k d) as [QQ|N]; [try subst k; rewrite B0; lia|exact J2]. } now rewrite I2.
Qed.

Definition cropped_size (s : list nat) (b a : nat -> Z) : list nat := tabulate (length s) (fun k => (pos k s - Z.to_nat (b k + a k))%nat).
Lemma before_nonneg d p k : Forall (fun z => 0 <= z) p -> 0 <= before d p k.
Proof. intros F. unfold before. destruct (Nat.ltb k d); [|lia]. destruct (Nat.ltb_spec (2 * (d - 1 - k)) (length p)) as [H|H]; [|rewrite nth_overflow by exact H; lia]. rewrite Forall_forall in F. apply F. now apply nth_In. Qed.
Lemma after_nonneg d p k : Forall (fun z => 0 <= z) p -> 0 <= after d p k.
Proof. intros F. unfold after. destruct (Nat.ltb k d); [|lia]. destruct (Nat.ltb_spec (2 * (d - 1 - k) + 1) (length p)) as [H|H]; [|rewrite nth_overflow by exact H; lia]. rewrite Forall_forall in F. apply F. now apply nth_In. Qed.
Lemma pad_backward_from_ok : forall p k d s g, shape g = s -> (k + d = length s)%nat -> (exists m, length p = (2 * m)%nat /\ (m <= d)%nat) -> Forall (fun z => 0 <= z) p -> (forall j, (j < length s)%nat -> before d p j + after d p j <= Z.of_nat (pos j s)) ->
  exists y, pad_backward_from k p g = Some y /\ teq y (mkT (cropped_size s (before d p) (after d p)) (fun jx => at_ g (padded_index s (before d p) jx))).
Proof.
  intros p. remember (length p) as L eqn:EL. revert p EL. induction L as [L IH] using lt_wf_ind. intros p EL k d s g Hg Hd Hm Hp Hs. destruct p as [|b [|a p]].
  - exists g. split; [reflexivity|]. assert (E : cropped_size s (before d []) (after d []) = s). { unfold cropped_size. apply list_ext; [apply tab_length|]. rewrite tab_length. intros j Hj. rewrite pos_tab by exact Hj. rewrite before_nil, after_nil. lia. }
    split; [cbn [shape]; now rewrite E|]. rewrite Hg. intros ix V. cbn [at_]. f_equal. pose proof (valid_length _ _ V) as Lx. apply list_ext; [unfold padded_index; now rewrite tab_length|]. rewrite Lx. intros j Hj. unfold padded_index. rewrite pos_tab, before_nil by exact Hj. lia.
  - destruct Hm as (m & Hm & _). cbn in EL. lia.
  - destruct Hm as (m & Hm & Hmd). cbn [length] in EL. destruct d as [|d]; [lia|]. cbn [pad_backward_from].
    inversion Hp as [|? ? Hb Hp']; subst. inversion Hp' as [|? ? Ha Hq]; subst. set (s := shape g) in *.
    assert (Hba : b + a <= Z.of_nat (pos d s)). { specialize (Hs d ltac:(lia)). rewrite before_step, after_step, Nat.eqb_refl in Hs. exact Hs. }
    replace (Z.of_nat (rank g) - Z.of_nat k - 1) with (Z.of_nat d) by (unfold rank; fold s; lia). unfold rank. fold s. rewrite dimn_of_nat by lia. cbn [bind]. unfold narrow, rank. fold s. rewrite dimn_of_nat by lia.
    destruct (Z.ltb_spec b 0); [lia|]. replace ((0 <=? b) && (0 <=? Z.of_nat (pos d s) - a - b) && (b + (Z.of_nat (pos d s) - a - b) <=? Z.of_nat (pos d s))) with true.
    2: { symmetry. rewrite !andb_true_iff, !Z.leb_le. lia. } cbn [bind].
    set (s1 := upd d (Z.to_nat (Z.of_nat (pos d s) - a - b)) s). assert (L1 : length s1 = length s) by (apply upd_length; lia). set (g1 := mkT s1 _).
    assert (B0 : before d p d = 0 /\ after d p d = 0). { unfold before, after. destruct (Nat.ltb_spec d d); [lia|auto]. } destruct B0 as [B0 A0].
    destruct (IH (length p) ltac:(lia) p eq_refl (S k) d s1 g1 eq_refl ltac:(lia)) as (y & Ey & Sy & Ty).
    { exists (m - 1)%nat. lia. }
    { exact Hq. }
    { intros j Hj. unfold s1. rewrite pos_upd by lia. specialize (Hs j ltac:(lia)). rewrite before_step, after_step in Hs. destruct (Nat.eqb_spec j d) as [QQ|N]; [subst j; rewrite B0, A0; lia|exact Hs]. }
    exists y. split; [exact Ey|].
    assert (ES : cropped_size s1 (before d p) (after d p) = cropped_size s (before (S d) (b :: a :: p)) (after (S d) (b :: a :: p))).
    { unfold cropped_size. rewrite L1. apply list_ext; [now rewrite !tab_length|]. rewrite tab_length. intros j Hj. rewrite !pos_tab by exact Hj. rewrite before_step, after_step. unfold s1. rewrite pos_upd by lia. destruct (Nat.eqb_spec j d) as [QQ|N]; [subst j; rewrite B0, A0; lia|reflexivity]. }
    split; [rewrite Sy; exact ES|]. intros ix V. rewrite Ty by exact V. unfold g1. cbn [at_]. f_equal.
    rewrite Sy in V. cbn [shape] in V. unfold cropped_size in V. apply valid_tab in V as [Lx V]. rewrite L1 in Lx.
    unfold padded_index. rewrite L1. apply list_ext; [rewrite upd_length; rewrite !tab_length; lia|]. rewrite upd_length by (rewrite tab_length; lia). rewrite tab_length. intros j Hj. rewrite pos_upd by (rewrite tab_length; lia). rewrite !pos_tab by lia. rewrite before_step. destruct (Nat.eqb_spec j d) as [QQ|N]; [subst j|reflexivity]. rewrite B0. lia.
Qed.

(** *** pad, gradients.py:1425-1441 *)
Lemma pad_all_adjoint s b a (G f : index -> Z) : (forall k, (k < length s)%nat -> 0 <= b k /\ 0 <= a k) ->
  sums (padded_size s b a) (fun ix => G ix * (if inside s b ix then f (unpadded s b ix) else 0)) = sums s (fun jx => G (padded_index s b jx) * f jx).
Proof.
  intros Hba. rewrite (sums_inj s (padded_size s b a) (padded_index s b) (unpadded s b)).
  - apply sums_ext. intros jx V. pose proof (valid_length _ _ V) as Lx. assert (U : unpadded s b (padded_index s b jx) = jx). { apply list_ext; unfold unpadded; [rewrite tab_length; lia|]. rewrite tab_length. intros k Hk. rewrite pos_tab by exact Hk. unfold padded_index. rewrite pos_tab by exact Hk. specialize (Hba k Hk). lia. } rewrite U.
    replace (inside s b (padded_index s b jx)) with true; [reflexivity|]. symmetry. apply inside_spec. intros k Hk. unfold padded_index. rewrite pos_tab by exact Hk. pose proof (valid_at k s jx Hk V). specialize (Hba k Hk). lia.
  - intros jx V. pose proof (valid_length _ _ V) as Lx. split.
    + unfold padded_size, padded_index. apply valid_tab. split; [apply tab_length|]. intros k Hk. rewrite pos_tab by exact Hk. pose proof (valid_at k s jx Hk V). specialize (Hba k Hk). lia.
    + apply list_ext; unfold unpadded; [rewrite tab_length; lia|]. rewrite tab_length. intros k Hk. rewrite pos_tab by exact Hk. unfold padded_index. rewrite pos_tab by exact Hk. specialize (Hba k Hk). lia.
  - intros ix V. destruct (inside s b ix) eqn:I; [left|right; ring]. pose proof (proj1 (inside_spec _ _ _) I) as J. unfold padded_size in V. apply valid_tab in V as [Lx V]. split.
    + apply valid_pos. split; [apply tab_length|]. intros k Hk. unfold unpadded. rewrite pos_tab by exact Hk. specialize (J k Hk). lia.
    + apply list_ext; unfold padded_index; [rewrite tab_length; lia|]. rewrite tab_length. intros k Hk. rewrite pos_tab by exact Hk. unfold unpadded. rewrite pos_tab by exact Hk. specialize (J k Hk). specialize (Hba k Hk). lia.
Qed.
Lemma k_pad s p v : Forall (fun z => 0 <= z) p -> (exists m, length p = (2 * m)%nat /\ (m <= length s)%nat) -> gradient_of (pad p v) (pad_backward p) s.
Proof.
  intros Hp Hm. set (b := before (length s) p). set (a := after (length s) p). assert (Hba : forall k, 0 <= b k /\ 0 <= a k) by (intros k; split; [apply before_nonneg|apply after_nonneg]; exact Hp).
  apply (affine_gradient_t s _ _ (padded_size s b a) (fun f ix => if inside s b ix then f (unpadded s b ix) else v) (fun f ix => if inside s b ix then f (unpadded s b ix) else 0)).
  - intros x Hx. unfold pad, rank. rewrite Hx. apply pad_from_ok; [exact Hx|lia|exact Hm|]. intros k _. destruct (Hba k). unfold a, b in *. lia.
  - intros f h ix _. destruct (inside s b ix); ring.
  - intros g Hg. unfold pad_backward. destruct (pad_backward_from_ok p 0 (length s) (shape g) g eq_refl) as (y & Ey & Sy & Ty).
    { rewrite Hg. unfold padded_size. now rewrite tab_length. } { exact Hm. } { exact Hp. }
    { rewrite Hg. unfold padded_size. rewrite tab_length. intros j Hj. rewrite pos_tab by exact Hj. destruct (Hba j). fold a b. lia. }
    fold a b in Sy, Ty. assert (EC : cropped_size (shape g) b a = s). { rewrite Hg. unfold cropped_size, padded_size. rewrite tab_length. apply list_ext; [apply tab_length|]. rewrite tab_length. intros k Hk. rewrite !pos_tab by exact Hk. destruct (Hba k). lia. }
    cbn [shape] in Sy. rewrite EC in Sy. exists y. split; [exact Ey|]. split; [exact Sy|]. intros f. rewrite pad_all_adjoint by (intros; apply Hba). rewrite Sy in Ty. apply sums_ext. intros jx V. rewrite (Ty jx V). cbn [at_]. f_equal. f_equal. unfold padded_index. rewrite Hg. unfold padded_size. now rewrite tab_length.
Qed.
(** cropping (a negative entry) is differentiable, but the backward function refuses it: the last dimension, forward defined with a non-empty overlap *)
Lemma k_pad_crop s n b a v x y : shape x = s ++ [n] -> b < 0 \/ a < 0 -> 0 < Z.of_nat n + b -> pad [b; a] v x = Some y -> forall g, shape g = shape y -> pad_backward [b; a] g = None.
Proof.
  intros Hx Hc Hn Hy g Hg. assert (Lx : rank x = S (length s)) by (unfold rank; rewrite Hx, app_length; cbn; lia).
  assert (Pn : pos (length s) (shape x) = n) by (rewrite Hx; unfold pos; rewrite app_nth2 by lia; now rewrite Nat.sub_diag).
  unfold pad in Hy. rewrite Lx in Hy. cbn [pad_from] in Hy. unfold pad_dim in Hy. rewrite Pn in Hy. destruct (Z.leb_spec 0 (Z.of_nat n + b + a)); [|discriminate].
  assert (Nil : forall d w z, pad_from d [] w z = Some z) by (now intros []). rewrite Nil in Hy. injection Hy as <-. cbn [shape] in Hg. assert (Lg : rank g = S (length s)) by (unfold rank in *; rewrite Hg, upd_length; lia). assert (Pg : pos (length s) (shape g) = Z.to_nat (Z.of_nat n + b + a)). { rewrite Hg, pos_upd by (unfold rank in Lx; lia). now rewrite Nat.eqb_refl. }
  unfold pad_backward. cbn [pad_backward_from]. rewrite Lg. replace (Z.of_nat (S (length s)) - Z.of_nat 0 - 1) with (Z.of_nat (length s)) by lia. rewrite dimn_of_nat by lia. cbn [bind]. unfold narrow. rewrite Lg, dimn_of_nat by lia. rewrite Pg.
  match goal with |- bind (if ?c then _ else _) _ = _ => replace c with false; [reflexivity|] end. symmetry. rewrite !andb_false_iff, !Z.leb_gt. destruct (Z.ltb_spec b 0); right; lia.
Qed.

(** *** narrow, gradients.py:286-305 *)
Definition at_dim (d : nat) (v : Z) (k : nat) : Z := if Nat.eqb k d then v else 0.
Lemma set_z_nth i v l l' j : 0 <= i -> set_z i v l = Some l' -> nth j l' 0 = if Nat.eqb j (Z.to_nat i) then v else nth j l 0.
Proof.
  intros Hi. unfold set_z. destruct (Z.ltb_spec i 0); [lia|]. destruct ((0 <=? i) && (i <? Z.of_nat (length l))) eqn:C; [|discriminate]. intros [= <-]. apply andb_true_iff in C as [_ C]. apply Z.ltb_lt in C. set (n := Z.to_nat i). assert (Hn : (n < length l)%nat) by lia.
  destruct (Nat.eqb_spec j n) as [->|N].
  - rewrite app_nth2; rewrite firstn_length_le by lia; [|lia]. now rewrite Nat.sub_diag.
  - destruct (Nat.ltb_spec j n).
    + rewrite app_nth1 by (rewrite firstn_length_le; lia). rewrite nth_firstn_; auto.
    + rewrite app_nth2; rewrite firstn_length_le by lia; [|lia]. destruct (j - n)%nat as [|m] eqn:E; [lia|]. change (nth m (skipn (S n) l) 0 = nth j l 0). rewrite nth_skipn_. f_equal. lia.
Qed.
Lemma set_z_some i v l : 0 <= i < Z.of_nat (length l) -> exists l', set_z i v l = Some l' /\ length l' = length l.
Proof.
  intros Hi. unfold set_z. destruct (Z.ltb_spec i 0); [lia|]. replace ((0 <=? i) && (i <? Z.of_nat (length l))) with true by (symmetry; rewrite andb_true_iff, Z.leb_le, Z.ltb_lt; lia). eexists. split; [reflexivity|]. rewrite app_length, firstn_length_le by lia. cbn [length]. rewrite skipn_length. lia.
Qed.
Lemma narrow_padding r d start rest : (d < r)%nat -> exists p, (do p <- set_z (2 * (Z.of_nat r - 1 - Z.of_nat d)) start (repeat 0 (2 * r)); set_z (2 * (Z.of_nat r - 1 - Z.of_nat d) + 1) rest p) = Some p /\ length p = (2 * r)%nat /\ forall k, (k < r)%nat -> before r p k = at_dim d start k /\ after r p k = at_dim d rest k.
Proof.
  intros Hd. destruct (set_z_some (2 * (Z.of_nat r - 1 - Z.of_nat d)) start (repeat 0 (2 * r))) as (p1 & E1 & L1); [rewrite repeat_length; lia|]. rewrite E1. cbn [bind]. rewrite repeat_length in L1.
  destruct (set_z_some (2 * (Z.of_nat r - 1 - Z.of_nat d) + 1) rest p1) as (p2 & E2 & L2); [lia|]. exists p2. split; [exact E2|]. split; [lia|]. intros k Hk. unfold before, after, at_dim. destruct (Nat.ltb_spec k r); [|lia].
  assert (H1 : forall j, nth j p1 0 = if Nat.eqb j (Z.to_nat (2 * (Z.of_nat r - 1 - Z.of_nat d))) then start else nth j (repeat 0 (2 * r)) 0) by (intros j; apply set_z_nth; [lia|exact E1]).
  assert (H2 : forall j, nth j p2 0 = if Nat.eqb j (Z.to_nat (2 * (Z.of_nat r - 1 - Z.of_nat d) + 1)) then rest else nth j p1 0) by (intros j; apply set_z_nth; [lia|exact E2]).
  rewrite !H2, !H1, !nth_repeat.
  destruct (Nat.eqb_spec k d) as [QQ|N]; split.
  - destruct (Nat.eqb_spec (2 * (r - 1 - k)) (Z.to_nat (2 * (Z.of_nat r - 1 - Z.of_nat d) + 1))); [lia|]. destruct (Nat.eqb_spec (2 * (r - 1 - k)) (Z.to_nat (2 * (Z.of_nat r - 1 - Z.of_nat d)))); [reflexivity|lia].
  - destruct (Nat.eqb_spec (2 * (r - 1 - k) + 1) (Z.to_nat (2 * (Z.of_nat r - 1 - Z.of_nat d) + 1))); [reflexivity|lia].
  - destruct (Nat.eqb_spec (2 * (r - 1 - k)) (Z.to_nat (2 * (Z.of_nat r - 1 - Z.of_nat d) + 1))); [lia|]. destruct (Nat.eqb_spec (2 * (r - 1 - k)) (Z.to_nat (2 * (Z.of_nat r - 1 - Z.of_nat d)))); [lia|reflexivity].
  - destruct (Nat.eqb_spec (2 * (r - 1 - k) + 1) (Z.to_nat (2 * (Z.of_nat r - 1 - Z.of_nat d) + 1))); [lia|]. destruct (Nat.eqb_spec (2 * (r - 1 - k) + 1) (Z.to_nat (2 * (Z.of_nat r - 1 - Z.of_nat d)))); [lia|reflexivity].
Qed.
Lemma inside_ext s b b' ix : (forall k, (k < length s)%nat -> b k = b' k) -> inside s b ix = inside s b' ix.
Proof. intros H. unfold inside. apply eq_true_iff_eq. rewrite !forallb_forall. split; intros A k Hk; specialize (A k Hk); apply in_seq in Hk; rewrite H in * by lia || rewrite <- H in * by lia; exact A. Qed.
Lemma tabulate_ext n f h : (forall k, (k < n)%nat -> f k = h k) -> tabulate n f = tabulate n h.
Proof. intros H. apply list_ext; [now rewrite !tab_length|]. rewrite tab_length. intros k Hk. rewrite !pos_tab by exact Hk. auto. Qed.
Lemma narrow_backward_ok s d start len g : (d < length s)%nat -> 0 <= start -> 0 <= len -> start + len <= Z.of_nat (pos d s) -> shape g = upd d (Z.to_nat len) s ->
  exists y, narrow_backward (Z.of_nat (pos d s)) (Z.of_nat d) start len g = Some y /\ teq y (mkT s (fun ix => if (start <=? Z.of_nat (pos d ix)) && (Z.of_nat (pos d ix) <? start + len) then at_ g (upd d (pos d ix - Z.to_nat start)%nat ix) else 0)).
Proof.
  intros Hd Hs Hl Hb Hg. set (rest := Z.of_nat (pos d s) - len - start). assert (Lg : length (shape g) = length s) by (rewrite Hg; apply upd_length; exact Hd).
  destruct (narrow_padding (length s) d start rest Hd) as (p & E & Lp & P). unfold narrow_backward, rank. rewrite Lg. fold rest. destruct (set_z (2 * (Z.of_nat (length s) - 1 - Z.of_nat d)) start (repeat 0 (2 * length s))) as [p1|]; [|discriminate]. cbn [bind] in *. rewrite E. cbn [bind].
  unfold pad, rank. rewrite Lg. destruct (pad_from_ok 0 p (length s) (shape g) g eq_refl) as (y & Ey & Sy & Ty).
  { lia. } { exists (length s). lia. }
  { intros k Hk. rewrite Lg in Hk. destruct (P k Hk) as [-> ->]. rewrite Hg, pos_upd by lia. unfold at_dim, rest. destruct (Nat.eqb_spec k d); lia. }
  exists y. split; [exact Ey|]. cbn [shape pad_all] in Sy. assert (ES : padded_size (shape g) (before (length s) p) (after (length s) p) = s).
  { unfold padded_size. rewrite Lg. apply list_ext; [apply tab_length|]. rewrite tab_length. intros k Hk. rewrite pos_tab by exact Hk. destruct (P k Hk) as [-> ->]. rewrite Hg, pos_upd by lia. unfold at_dim, rest. destruct (Nat.eqb_spec k d); [subst k|]; lia. }
  rewrite ES in Sy. split; [exact Sy|]. intros ix V. rewrite Ty by exact V. rewrite Sy in V. pose proof (valid_length _ _ V) as Lx. unfold pad_all. cbn [at_].
  replace (inside (shape g) (before (length s) p) ix) with ((start <=? Z.of_nat (pos d ix)) && (Z.of_nat (pos d ix) <? start + len)).
  - destruct ((start <=? Z.of_nat (pos d ix)) && (Z.of_nat (pos d ix) <? start + len)) eqn:C; [|reflexivity]. f_equal. unfold unpadded. rewrite Lg. apply list_ext; [rewrite upd_length; rewrite ?tab_length; lia|]. rewrite tab_length. intros k Hk. rewrite pos_tab by exact Hk. destruct (P k Hk) as [-> _]. rewrite pos_upd by lia. unfold at_dim. destruct (Nat.eqb_spec k d); [subst k|]; lia.
  - apply eq_true_iff_eq. rewrite inside_spec, Lg, andb_true_iff, Z.leb_le, Z.ltb_lt. split.
    + intros [A B] k Hk. destruct (P k Hk) as [-> _]. rewrite Hg, pos_upd by lia. pose proof (valid_at k s ix Hk V). unfold at_dim. destruct (Nat.eqb_spec k d); [subst k|]; lia.
    + intros A. specialize (A d Hd). destruct (P d Hd) as [E2 _]. rewrite E2, Hg, pos_upd in A by lia. unfold at_dim in A. rewrite Nat.eqb_refl in A. lia.
Qed.
Lemma sumn_window n a l f : (a + l <= n)%nat -> sumn n (fun i => if Nat.leb a i && Nat.ltb i (a + l) then f i else 0) = sumn l (fun i => f (i + a)%nat).
Proof.
  intros H. replace n with (a + (l + (n - a - l)))%nat by lia. rewrite sumn_add, sumn_add. rewrite (sumn_zero a), (sumn_zero (n - a - l)).
  - rewrite Z.add_0_l, Z.add_0_r. apply sumn_ext. intros i Hi. destruct (Nat.leb_spec a (a + i)), (Nat.ltb_spec (a + i) (a + l)); try lia. cbn. f_equal. lia.
  - intros i Hi. destruct (Nat.ltb_spec (a + (l + i)) (a + l)); [lia|]. now rewrite andb_false_r.
  - intros i Hi. destruct (Nat.leb_spec a i); [lia|reflexivity].
Qed.
Lemma k_narrow s d start len : (d < length s)%nat -> 0 <= start -> gradient_of (narrow (Z.of_nat d) start len) (narrow_backward (Z.of_nat (pos d s)) (Z.of_nat d) start len) s.
Proof.
  intros Hd Hs. destruct ((0 <=? len) && (start + len <=? Z.of_nat (pos d s))) eqn:C.
  - apply andb_true_iff in C as [C1 C2]. apply Z.leb_le in C1, C2.
    apply (affine_gradient_t s _ _ (upd d (Z.to_nat len) s) (fun f ix => f (upd d (pos d ix + Z.to_nat start)%nat ix)) (fun f ix => f (upd d (pos d ix + Z.to_nat start)%nat ix))).
    + intros x Hx. unfold narrow, rank. rewrite Hx, dimn_of_nat by exact Hd. destruct (Z.ltb_spec start 0); [lia|]. replace ((0 <=? start) && (0 <=? len) && (start + len <=? Z.of_nat (pos d s))) with true by (symmetry; rewrite !andb_true_iff, !Z.leb_le; lia). eexists. split; [reflexivity|]. split; reflexivity.
    + reflexivity.
    + intros g Hg. destruct (narrow_backward_ok s d start len g Hd Hs C1 C2 Hg) as (y & Ey & Sy & Ty). exists y. split; [exact Ey|]. cbn [shape] in Sy. split; [exact Sy|]. rewrite Sy in Ty. intros f.
      transitivity (sums s (fun jx => (if Nat.leb (Z.to_nat start) (pos d jx) && Nat.ltb (pos d jx) (Z.to_nat start + Z.to_nat len) then at_ g (upd d (pos d jx - Z.to_nat start)%nat jx) else 0) * f jx)).
      * pose proof (along_gradient s d (upd d (Z.to_nat len) s) (at_ g) f (fun b i => b (i + Z.to_nat start)%nat) (fun a j => if Nat.leb (Z.to_nat start) j && Nat.ltb j (Z.to_nat start + Z.to_nat len) then a (j - Z.to_nat start)%nat else 0) (Z.to_nat len)) as G. apply G; [exact Hd|reflexivity| | |].
        -- intros a b. symmetry. transitivity (sumn (pos d s) (fun j => if Nat.leb (Z.to_nat start) j && Nat.ltb j (Z.to_nat start + Z.to_nat len) then a (j - Z.to_nat start)%nat * b j else 0)).
           ++ apply sumn_ext. intros j _. destruct (Nat.leb (Z.to_nat start) j && Nat.ltb j (Z.to_nat start + Z.to_nat len)); ring.
           ++ rewrite sumn_window by lia. apply sumn_ext. intros i _. do 2 f_equal. lia.
        -- intros a b i H Hi. apply H. lia.
        -- intros a b j H Hj. destruct (Nat.leb_spec (Z.to_nat start) j), (Nat.ltb_spec j (Z.to_nat start + Z.to_nat len)); cbn [andb]; try reflexivity. apply H. lia.
      * apply sums_ext. intros jx V. f_equal. rewrite Ty by exact V. cbn [at_]. destruct (Nat.leb_spec (Z.to_nat start) (pos d jx)), (Nat.ltb_spec (pos d jx) (Z.to_nat start + Z.to_nat len)), (Z.leb_spec start (Z.of_nat (pos d jx))), (Z.ltb_spec (Z.of_nat (pos d jx)) (start + len)); cbn [andb]; try reflexivity; lia.
  - intros x y Hx Hy. exfalso. unfold narrow, rank in Hy. rewrite Hx, dimn_of_nat in Hy by exact Hd. destruct (Z.ltb_spec start 0); [lia|]. rewrite <- andb_assoc in Hy. rewrite C, andb_false_r in Hy. discriminate.
Qed.
(** with a negative dimension the list index is past the end *)
Lemma k_narrow_negative size d start len g : d < 0 -> narrow_backward size d start len g = None.
Proof. intros Hd. unfold narrow_backward, set_z. rewrite repeat_length. destruct (Z.ltb_spec (2 * (Z.of_nat (rank g) - 1 - d)) 0); [lia|]. replace ((0 <=? 2 * (Z.of_nat (rank g) - 1 - d)) && (2 * (Z.of_nat (rank g) - 1 - d) <? Z.of_nat (2 * rank g))) with false; [reflexivity|]. symmetry. apply andb_false_iff. right. apply Z.ltb_ge. lia. Qed.
