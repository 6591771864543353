(** C50: the adjoint of broadcasting. *)
Require Import List ZArith Bool Arith Lia.
From Verif Require Import Ring64 Tensor Tensor_proofs Gradfn.
Import ListNotations.
Open Scope Z_scope.

(** a tensor of shape [s] broadcasts to shape [t]: aligned at the right, each dimension is equal or 1; [nonempty]: no dimension of size 1 is broadcast to size 0 *)
Definition broadcasts (s t : list nat) : Prop := (length s <= length t)%nat /\ forall d, (d < length s)%nat -> pos d s = pos (length t - length s + d) t \/ pos d s = 1%nat.
Definition nonempty (s t : list nat) : Prop := forall d, (d < length s)%nat -> pos d s = 1%nat -> pos (length t - length s + d) t <> 0%nat.

Lemma drop_leading_ok k : forall g, (k <= rank g)%nat -> shape (drop_leading k g) = skipn k (shape g) /\ forall ix, at_ (drop_leading k g) ix = sums (firstn k (shape g)) (fun a => at_ g (a ++ ix)).
Proof.
  induction k as [|k IH]; intros g H; cbn [drop_leading].
  - split; [reflexivity|]. intros ix. cbn [firstn]. now rewrite sums_nil.
  - unfold rank in H. destruct (shape g) as [|n s] eqn:E; cbn [length] in H; [lia|]. destruct (IH (sum_dim 0 false g)) as [A B]; [unfold rank, sum_dim; cbn [shape]; rewrite E; cbn; lia|].
    assert (F : shape (sum_dim 0 false g) = s) by (unfold sum_dim; cbn [shape]; rewrite E; reflexivity). rewrite F in *. split; [exact A|]. intros ix. rewrite B. cbn [firstn]. rewrite sums_cons, <- sums_sumn. apply sums_ext. intros a _.
    unfold sum_dim. cbn [at_]. rewrite E. reflexivity.
Qed.
Lemma clamp_pos s ix d : length ix = length s -> (d < length s)%nat -> pos d (clamp s ix) = if Nat.eqb (pos d s) 1 then O else pos d ix.
Proof.
  revert ix d. induction s as [|n s IH]; intros [|i ix] [|d] L H; cbn [length] in *; try lia; [reflexivity|]. exact (IH ix d ltac:(lia) ltac:(lia)).
Qed.
Lemma clamp_length s ix : length ix = length s -> length (clamp s ix) = length s.
Proof. intros L. unfold clamp. rewrite map_length, combine_length. lia. Qed.
Lemma clamp_valid s ix : valid s ix -> clamp s ix = ix.
Proof.
  intros V. apply valid_pos in V as [L V]. apply list_ext; [rewrite clamp_length; lia|]. rewrite clamp_length by lia. intros d H. rewrite clamp_pos by lia. specialize (V d H). destruct (Nat.eqb_spec (pos d s) 1); lia.
Qed.
Lemma clamp_ins s d i j ix : (d < length s)%nat -> S (length ix) = length s -> pos d s = 1%nat -> clamp s (ins d i ix) = clamp s (ins d j ix).
Proof.
  intros H L E. assert (Li : forall v, length (ins d v ix) = length s) by (intros; rewrite ins_length; lia). apply list_ext; [rewrite !clamp_length; auto|]. rewrite clamp_length by auto. intros k Hk. rewrite !clamp_pos by auto. destruct (Nat.eqb_spec (pos k s) 1); [reflexivity|].
  rewrite !pos_ins by lia. destruct (Nat.eqb_spec k d); [subst; contradiction|reflexivity].
Qed.

Section Accumulate.
  Variables (s t : list nat) (g x : tensor).
  Hypotheses (L : length s = length t) (B : forall d, (d < length s)%nat -> pos d s = pos d t \/ pos d s = 1%nat) (N : forall d, (d < length s)%nat -> pos d s = 1%nat -> pos d t <> 0%nat) (Hg : shape g = t).
  Let stepf := fun g d => if Nat.eqb (pos d s) 1 && Nat.ltb 1 (pos d (shape g)) then sum_dim d true g else g.
  Lemma accumulate_loop k : (k <= length s)%nat -> let h := fold_left stepf (seq 0 k) g in
    shape h = firstn k s ++ skipn k t /\ sums (shape h) (fun ix => at_ h ix * at_ x (clamp s ix)) = sums t (fun ix => at_ g ix * at_ x (clamp s ix)).
  Proof.
    intros Hk. induction k as [|k IH]; [cbn; rewrite Hg; auto|]. rewrite seq_S, fold_left_app. cbn [fold_left Nat.add]. destruct (IH ltac:(lia)) as [A E]. set (h := fold_left stepf (seq 0 k) g) in *. clearbody h. clear IH.
    assert (Lh : length (shape h) = length s) by (rewrite A, app_length, firstn_length, skipn_length; lia).
    assert (Pk : pos k (shape h) = pos k t). { rewrite A. unfold pos. rewrite app_nth2; rewrite firstn_length; [|lia]. rewrite nth_skipn_. f_equal. lia. }
    assert (NX : firstn (S k) s ++ skipn (S k) t = upd k (pos k s) (shape h)).
    { assert (L1 : length (firstn (S k) s ++ skipn (S k) t) = length s) by (rewrite app_length, firstn_length, skipn_length; lia). apply list_ext; [rewrite upd_length; lia|]. rewrite L1. intros d Hd. rewrite pos_upd by lia. destruct (Nat.eqb_spec d k) as [->|Nd].
      - unfold pos. rewrite app_nth1 by (rewrite firstn_length; lia). apply nth_firstn_. lia.
      - rewrite A. unfold pos. destruct (Nat.lt_ge_cases d k).
        + rewrite !app_nth1 by (rewrite firstn_length; lia). rewrite !nth_firstn_ by lia. reflexivity.
        + rewrite !app_nth2 by (rewrite firstn_length; lia). rewrite !nth_skipn_, !firstn_length. f_equal. lia. }
    rewrite NX. unfold stepf. rewrite Pk. destruct (Nat.eqb_spec (pos k s) 1) as [E1|N1]; cbn [andb].
    - destruct (Nat.ltb_spec 1 (pos k t)) as [G|G].
      + split; [unfold sum_dim; cbn [shape]; now rewrite E1|]. rewrite <- E. unfold sum_dim. cbn [shape at_]. rewrite (sums_dim k (shape h)) by lia. rewrite (sums_dim k (upd k 1%nat (shape h))) by (rewrite upd_length; lia). rewrite del_upd by lia. apply sums_ext. intros ix V. pose proof (valid_length _ _ V) as Lx. rewrite del_length in Lx by lia.
        rewrite pos_upd, Nat.eqb_refl by lia. rewrite sumn_1, <- sumn_scale_r. apply sumn_ext. intros i _. rewrite upd_ins by lia. f_equal. f_equal. apply clamp_ins; [lia|lia|exact E1].
      + assert (pos k t = 1%nat) by (specialize (N k ltac:(lia) E1); lia). split; [|exact E]. rewrite E1, <- H, <- Pk. symmetry. apply upd_pos. lia.
    - split; [|exact E]. destruct (B k ltac:(lia)) as [F|F]; [|contradiction]. rewrite F, <- Pk. symmetry. apply upd_pos. lia.
  Qed.
  Lemma accumulate_ok : shape (accumulate s g) = s /\ sums s (fun ix => at_ (accumulate s g) ix * at_ x ix) = sums t (fun ix => at_ g ix * at_ x (clamp s ix)).
  Proof.
    destruct (accumulate_loop (length s) (le_n _)) as [A E]. unfold accumulate, rank. rewrite Hg, <- L. fold stepf. set (h := fold_left stepf (seq 0 (length s)) g) in *.
    assert (Sh : shape h = s) by (rewrite A, firstn_all, L, skipn_all; apply app_nil_r). split; [exact Sh|]. rewrite <- E, Sh. apply sums_ext. intros ix V. now rewrite clamp_valid.
  Qed.
End Accumulate.

Lemma k_C50 s t g x : broadcasts s t -> nonempty s t -> shape g = t -> shape x = s -> exists g', inverse_broadcast g s = Some g' /\ shape g' = s /\ inner g (expand x t) = inner g' x.
Proof.
  intros [Lst B] N Hg Hx. unfold inner, expand. cbn [at_]. rewrite Hx. destruct s as [|n s].
  - exists (sum_all g). split; [reflexivity|]. split; [reflexivity|]. unfold sum_all. cbn [shape at_]. rewrite sums_nil, Hg, <- sums_scale_r. apply sums_ext. intros ix _. reflexivity.
  - remember (n :: s) as s' eqn:Es'. set (k := (length t - length s')%nat) in *. destruct (drop_leading_ok k g) as [A E]; [unfold rank; rewrite Hg; lia|]. rewrite Hg in A, E. set (h := drop_leading k g) in *.
    assert (Lh : length (skipn k t) = length s') by (rewrite skipn_length; lia).
    destruct (accumulate_ok s' (skipn k t) h x) as [Sh Eh]; [lia| | |exact A|].
    { intros d Hd. unfold pos at 2. rewrite nth_skipn_. exact (B d Hd). }
    { intros d Hd E1. unfold pos. rewrite nth_skipn_. exact (N d Hd E1). }
    exists (accumulate s' h). assert (R : inverse_broadcast g s' = Some (accumulate s' h)). { subst s'. unfold inverse_broadcast. cbv zeta. replace (rank g - length (n :: s))%nat with k by (unfold rank; now rewrite Hg). fold h. unfold rank. rewrite A, Lh, Nat.eqb_refl. reflexivity. }
    split; [exact R|]. split; [exact Sh|]. rewrite Sh, Eh, Hg. rewrite <- (firstn_skipn k t) at 1. rewrite sums_app, sums_swap. apply sums_ext. intros b Vb. rewrite E, <- sums_scale_r. apply sums_ext. intros a Va. f_equal. f_equal. unfold bindex. f_equal.
    apply valid_length in Va. apply valid_length in Vb. rewrite app_length, Va, Vb, firstn_length, Lh. replace (Nat.min k (length t) + length s' - length s')%nat with (length a) by (rewrite Va, firstn_length; lia). rewrite skipn_app, skipn_all, Nat.sub_diag. reflexivity.
Qed.
(** the explicit form: each element of the result is the sum of the gradient over all positions the element was copied to *)
Lemma k_C50_fibres s t g g' jx : broadcasts s t -> nonempty s t -> shape g = t -> inverse_broadcast g s = Some g' -> valid s jx -> at_ g' jx = sums t (fun ix => if index_eqb (bindex s ix) jx then at_ g ix else 0).
Proof.
  intros B N Hg R V. destruct (k_C50 s t g (mkT s (fun ix => if index_eqb ix jx then 1 else 0)) B N Hg eq_refl) as (h & R' & Sh & E). rewrite R in R'. injection R' as <-. unfold inner, expand in E. cbn [at_ shape] in E. rewrite Sh, Hg in E. rewrite (sums_one s jx) in E.
  - rewrite index_eqb_refl, Z.mul_1_r in E. rewrite <- E. apply sums_ext. intros ix _. destruct (index_eqb (bindex s ix) jx); lia.
  - exact V.
  - intros ix _ Nx. destruct (index_eqb ix jx) eqn:F; [apply index_eqb_spec in F; contradiction|lia].
Qed.
Lemma accumulate_zero s d k : forall g, (d < rank g)%nat -> pos d (shape g) = 0%nat -> let h := fold_left (fun g d => if Nat.eqb (pos d s) 1 && Nat.ltb 1 (pos d (shape g)) then sum_dim d true g else g) (seq 0 k) g in (k <= rank g)%nat -> rank h = rank g /\ pos d (shape h) = 0%nat.
Proof.
  induction k as [|k IH]; intros g Hd E h Hk; subst h; [cbn; auto|]. rewrite seq_S, fold_left_app. cbn [fold_left Nat.add]. destruct (IH g Hd E ltac:(lia)) as [A B]. set (h := fold_left _ (seq 0 k) g) in *. clearbody h.
  destruct (Nat.eqb (pos k s) 1 && Nat.ltb 1 (pos k (shape h))) eqn:C; [|auto]. apply andb_true_iff in C as [_ C]. apply Nat.ltb_lt in C. unfold sum_dim, rank in *. cbn [shape]. split; [rewrite upd_length; lia|]. rewrite pos_upd by lia. destruct (Nat.eqb_spec d k); [subst; lia|exact B].
Qed.
Lemma k_C50_empty s g : broadcasts s (shape g) -> length s = length (shape g) -> forall d, (d < length s)%nat -> pos d s = 1%nat -> pos d (shape g) = 0%nat -> exists g', inverse_broadcast g s = Some g' /\ shape g' <> s.
Proof.
  intros _ L d Hd E1 E0. exists (accumulate s g). destruct s as [|n s]; [cbn in Hd; lia|]. split.
  - unfold inverse_broadcast. cbv zeta. replace (rank g - length (n :: s))%nat with O by (unfold rank; lia). cbn [drop_leading]. unfold rank at 1. rewrite <- L, Nat.eqb_refl. reflexivity.
  - destruct (accumulate_zero (n :: s) d (rank g) g) as [_ B]; [unfold rank; lia|exact E0|lia|]. fold (accumulate (n :: s) g) in B. intros F. rewrite F in B. lia.
Qed.
