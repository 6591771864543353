(** Lemmas about Chain.v: the adjoint of broadcasting, additivity of the gradient functions. *)
Require Import List Reals ZArith Arith Bool Lia Lra FunctionalExtensionality.
From Verif Require Import Autograd Autograd_proofs Gradfn Ring64 Tensor Tensor_proofs Rtensor Rtensor_proofs Realgrad Realloss Realloss_claims Realred Realred_proofs Broadcast_claims Chain.
Import ListNotations.
Open Scope R_scope.

(** *** The adjoint of broadcasting (as C50, over the reals) *)
Lemma rsums_app s t f : rsums (s ++ t) f = rsums s (fun a => rsums t (fun b => f (a ++ b))).
Proof.
  revert f. induction s as [|n s IH]; intros f; cbn [app]; [now rewrite rsums_nil|]. rewrite !rsums_cons. apply rsumn_ext. intros i _. rewrite IH. reflexivity.
Qed.
Lemma rsums_swap s t f : rsums s (fun a => rsums t (fun b => f a b)) = rsums t (fun b => rsums s (fun a => f a b)). Proof. apply rs_swap. Qed.
Lemma rsums_scale_r s c f : rsums s (fun ix => f ix * c) = rsums s f * c. Proof. rewrite (Rmult_comm (rsums s f)), <- rsums_scale. apply rsums_ext. intros. ring. Qed.
Lemma rsumn_scale_r n c f : rsumn n (fun i => f i * c) = rsumn n f * c. Proof. rewrite (Rmult_comm (rsumn n f)), <- rsumn_scale. apply rsumn_ext. intros. ring. Qed.
Lemma rsum_dim_at d k g ix : rat (rsum_dim d k g) ix = rsumn (pos d (rshape g)) (fun i => rat g (if k then upd d i ix else ins d i ix)).
Proof. destruct k; cbn [rsum_dim rreduce rat members]; rewrite map_map; reflexivity. Qed.
Lemma rsum_dim_shape d (k : bool) g : rshape (rsum_dim d k g) = if k then upd d 1%nat (rshape g) else del d (rshape g). Proof. now destruct k. Qed.
Lemma rdrop_leading_ok k : forall g, (k <= length (rshape g))%nat -> rshape (rdrop_leading k g) = skipn k (rshape g) /\ forall ix, rat (rdrop_leading k g) ix = rsums (firstn k (rshape g)) (fun a => rat g (a ++ ix)).
Proof.
  induction k as [|k IH]; intros g H; cbn [rdrop_leading].
  - split; [reflexivity|]. intros ix. cbn [firstn]. now rewrite rsums_nil.
  - destruct (rshape g) as [|n s] eqn:E; cbn [length] in H; [lia|]. assert (F : rshape (rsum_dim 0 false g) = s) by (rewrite rsum_dim_shape, E; reflexivity).
    destruct (IH (rsum_dim 0 false g)) as [A B]; [rewrite F; lia|]. rewrite F in *. split; [exact A|]. intros ix. rewrite B. cbn [firstn]. rewrite rsums_cons, <- rsums_sumn. apply rsums_ext. intros a _.
    rewrite rsum_dim_at, E. reflexivity.
Qed.

Section Accumulate.
  Variables (s t : list nat) (g : rtensor) (x : index -> R).
  Hypotheses (L : length s = length t) (B : forall d, (d < length s)%nat -> pos d s = pos d t \/ pos d s = 1%nat) (N : forall d, (d < length s)%nat -> pos d s = 1%nat -> pos d t <> 0%nat) (Hg : rshape g = t).
  Let stepf := fun g d => if Nat.eqb (pos d s) 1 && Nat.ltb 1 (pos d (rshape g)) then rsum_dim d true g else g.
  Lemma raccumulate_loop k : (k <= length s)%nat -> let h := fold_left stepf (seq 0 k) g in
    rshape h = firstn k s ++ skipn k t /\ rsums (rshape h) (fun ix => rat h ix * x (clamp s ix)) = rsums t (fun ix => rat g ix * x (clamp s ix)).
  Proof.
    intros Hk. induction k as [|k IH]; [cbn; rewrite Hg; auto|]. rewrite seq_S, fold_left_app. cbn [fold_left Nat.add]. destruct (IH ltac:(lia)) as [A E]. set (h := fold_left stepf (seq 0 k) g) in *. clearbody h. clear IH.
    assert (Lh : length (rshape h) = length s) by (rewrite A, app_length, firstn_length, skipn_length; lia).
    assert (Pk : pos k (rshape h) = pos k t). { rewrite A. unfold pos. rewrite app_nth2; rewrite firstn_length; [|lia]. rewrite nth_skipn_. f_equal. lia. }
    assert (NX : firstn (S k) s ++ skipn (S k) t = upd k (pos k s) (rshape h)).
    { assert (L1 : length (firstn (S k) s ++ skipn (S k) t) = length s) by (rewrite app_length, firstn_length, skipn_length; lia). apply list_ext; [rewrite upd_length; lia|]. rewrite L1. intros d Hd. rewrite pos_upd by lia. destruct (Nat.eqb_spec d k) as [->|Nd].
      - unfold pos. rewrite app_nth1 by (rewrite firstn_length; lia). apply nth_firstn_. lia.
      - rewrite A. unfold pos. destruct (Nat.lt_ge_cases d k).
        + rewrite !app_nth1 by (rewrite firstn_length; lia). rewrite !nth_firstn_ by lia. reflexivity.
        + rewrite !app_nth2 by (rewrite firstn_length; lia). rewrite !nth_skipn_, !firstn_length. f_equal. lia. }
    rewrite NX. unfold stepf. rewrite Pk. destruct (Nat.eqb_spec (pos k s) 1) as [E1|N1]; cbn [andb].
    - destruct (Nat.ltb_spec 1 (pos k t)) as [G|G].
      + split; [rewrite rsum_dim_shape; now rewrite E1|]. rewrite <- E. rewrite rsum_dim_shape. rewrite (rsums_dim k (rshape h)) by lia. rewrite (rsums_dim k (upd k 1%nat (rshape h))) by (rewrite upd_length; lia). rewrite del_upd by lia. apply rsums_ext. intros ix V. pose proof (valid_length _ _ V) as Lx. rewrite del_length in Lx by lia.
        rewrite pos_upd, Nat.eqb_refl by lia. rewrite (rsumn_S 0). unfold rsumn at 1. cbn [seq map rsum fold_right]. rewrite Rplus_0_l. rewrite rsum_dim_at, <- rsumn_scale_r. apply rsumn_ext. intros i _. cbn iota. rewrite upd_ins by lia. f_equal. f_equal. apply clamp_ins; [lia|lia|exact E1].
      + assert (pos k t = 1%nat) by (specialize (N k ltac:(lia) E1); lia). split; [|exact E]. rewrite E1, <- H, <- Pk. symmetry. apply upd_pos. lia.
    - split; [|exact E]. destruct (B k ltac:(lia)) as [F|F]; [|contradiction]. rewrite F, <- Pk. symmetry. apply upd_pos. lia.
  Qed.
  Lemma raccumulate_ok : rshape (raccumulate s g) = s /\ rsums s (fun ix => rat (raccumulate s g) ix * x ix) = rsums t (fun ix => rat g ix * x (clamp s ix)).
  Proof.
    destruct (raccumulate_loop (length s) (le_n _)) as [A E]. unfold raccumulate. rewrite Hg, <- L. fold stepf. set (h := fold_left stepf (seq 0 (length s)) g) in *.
    assert (Sh : rshape h = s) by (rewrite A, firstn_all, L, skipn_all; apply app_nil_r). split; [exact Sh|]. rewrite <- E, Sh. apply rsums_ext. intros ix V. now rewrite clamp_valid.
  Qed.
End Accumulate.
Lemma rinverse_ok s t g : broadcasts s t -> nonempty s t -> rshape g = t -> rshape (rinverse_broadcast g s) = s /\ forall f, rsums t (fun ix => rat g ix * f (bindex s ix)) = rsums s (fun jx => rat (rinverse_broadcast g s) jx * f jx).
Proof.
  intros [Lst B] N Hg. destruct s as [|n s].
  - split; [reflexivity|]. intros f. cbn [rinverse_broadcast reduce_all rat]. rewrite rsums_nil, Hg, <- rsums_scale_r. apply rsums_ext. intros ix _. reflexivity.
  - remember (n :: s) as s' eqn:Es'. set (k := (length t - length s')%nat) in *. destruct (rdrop_leading_ok k g) as [A E]; [rewrite Hg; lia|]. rewrite Hg in A, E. set (h := rdrop_leading k g) in *.
    assert (Lh : length (skipn k t) = length s') by (rewrite skipn_length; lia).
    assert (R : rinverse_broadcast g s' = raccumulate s' h). { subst s'. unfold rinverse_broadcast. cbv zeta. replace (length (rshape g) - length (n :: s))%nat with k by (now rewrite Hg). reflexivity. }
    assert (Q : forall f, rshape (raccumulate s' h) = s' /\ rsums s' (fun ix => rat (raccumulate s' h) ix * f ix) = rsums (skipn k t) (fun ix => rat h ix * f (clamp s' ix))).
    { intros f. apply (raccumulate_ok s' (skipn k t) h f); [lia| | |exact A].
      { intros d Hd. unfold pos at 2. rewrite nth_skipn_. exact (B d Hd). }
      { intros d Hd E1. unfold pos. rewrite nth_skipn_. exact (N d Hd E1). } }
    rewrite R. split; [exact (proj1 (Q (fun _ => 0)))|]. intros f. rewrite (proj2 (Q f)). rewrite <- (firstn_skipn k t) at 1. rewrite rsums_app, rsums_swap. apply rsums_ext. intros b Vb. rewrite E, <- rsums_scale_r. apply rsums_ext. intros a Va. f_equal. f_equal. unfold bindex. f_equal.
    apply valid_length in Va. apply valid_length in Vb. rewrite app_length, Va, Vb, firstn_length, Lh. replace (Nat.min k (length t) + length s' - length s')%nat with (length a) by (rewrite Va, firstn_length; lia). rewrite skipn_app, skipn_all, Nat.sub_diag. reflexivity.
Qed.

(** *** The gradient functions are additive *)
Definition radd (a b : rtensor) : rtensor := mkR (rshape a) (gplus (rat a) (rat b)).
Lemma rsum_dim_add d k a b : rshape b = rshape a -> rsum_dim d k (radd a b) = radd (rsum_dim d k a) (rsum_dim d k b).
Proof. intros E. apply tensor_ext; [now rewrite rsum_dim_shape; cbn [radd rshape]; rewrite rsum_dim_shape|]. intros ix. cbn [radd rat]. unfold gplus. rewrite !rsum_dim_at. cbn [rshape radd rat]. rewrite E. unfold gplus. now rewrite rsumn_plus. Qed.
Lemma rdrop_add k : forall a b, rshape b = rshape a -> rdrop_leading k (radd a b) = radd (rdrop_leading k a) (rdrop_leading k b) /\ rshape (rdrop_leading k b) = rshape (rdrop_leading k a).
Proof. induction k as [|k IH]; intros a b E; cbn [rdrop_leading]; [auto|]. rewrite rsum_dim_add by exact E. apply IH. now rewrite !rsum_dim_shape, E. Qed.
Lemma raccumulate_add s a b : rshape b = rshape a -> raccumulate s (radd a b) = radd (raccumulate s a) (raccumulate s b) /\ rshape (raccumulate s b) = rshape (raccumulate s a).
Proof.
  intros E. unfold raccumulate. rewrite E. cbn [radd rshape]. generalize (seq 0 (length (rshape a))) as l. intros l. revert a b E. induction l as [|d l IH]; intros a b E; cbn [fold_left]; [auto|].
  rewrite E. cbn [radd rshape]. destruct (Nat.eqb (pos d s) 1 && Nat.ltb 1 (pos d (rshape a))); [|now apply IH]. rewrite rsum_dim_add by exact E. apply IH. now rewrite !rsum_dim_shape, E.
Qed.
Lemma rinverse_add s a b : rshape b = rshape a -> rinverse_broadcast (radd a b) s = radd (rinverse_broadcast a s) (rinverse_broadcast b s).
Proof.
  intros E. unfold rinverse_broadcast. destruct s as [|n s].
  - apply tensor_ext; [reflexivity|]. intros ix. cbn [radd reduce_all rat rshape]. unfold gplus. cbn [reduce_all rat]. rewrite E. now rewrite rsums_plus.
  - rewrite E. cbn [radd rshape]. destruct (rdrop_add (length (rshape a) - length (n :: s)) a b E) as [A B]. change (mkR (rshape a) (gplus (rat a) (rat b))) with (radd a b). rewrite A. now apply raccumulate_add.
Qed.
Lemma rmap_add f a b : (forall u v, f (u + v) = f u + f v) -> rmap f (radd a b) = radd (rmap f a) (rmap f b).
Proof. intros F. apply tensor_ext; [reflexivity|]. intros ix. cbn [rmap radd rat]. unfold gplus. cbn [rmap rat]. apply F. Qed.
Lemma rmul_to_add y a b : rshape b = rshape a -> rmul_to (radd a b) y = radd (rmul_to a y) (rmul_to b y).
Proof. intros E. apply tensor_ext; [reflexivity|]. intros ix. cbn [rmul_to radd rat]. unfold gplus. cbn [rmul_to rat]. ring. Qed.
Lemma rmul_add y a b : rmul (radd a b) y = radd (rmul a y) (rmul b y).
Proof. apply tensor_ext; [reflexivity|]. intros ix. cbn [rmul rmap2 radd rat]. unfold gplus. cbn [rmul rmap2 rat]. ring. Qed.
Lemma rmatmul_add_l y a b : rshape b = rshape a -> rmatmul (radd a b) y = radd (rmatmul a y) (rmatmul b y).
Proof. intros E. apply tensor_ext; [reflexivity|]. intros ix. cbn [rmatmul radd rat rshape]. unfold gplus. cbn [rmatmul rat]. rewrite E, <- rsumn_plus. apply rsumn_ext. intros. ring. Qed.
Lemma rmatmul_add_r x a b : rshape b = rshape a -> rmatmul x (radd a b) = radd (rmatmul x a) (rmatmul x b).
Proof. intros E. apply tensor_ext; [reflexivity|]. intros ix. cbn [rmatmul radd rat rshape]. unfold gplus. cbn [rmatmul rat]. rewrite <- rsumn_plus. apply rsumn_ext. intros. ring. Qed.

Ltac forward_cases H := repeat match type of H with
  | context [match ?l with [] => _ | _ :: _ => _ end] => destruct l eqn:?; try discriminate H
  | context [match rbroadcast ?f ?a ?b with Some _ => _ | None => _ end] => destruct (rbroadcast f a b) eqn:?; try discriminate H
  | context [if ?c then _ else _] => destruct c eqn:?; try discriminate H end.
Ltac shape_of_result := repeat match goal with E : rbroadcast _ _ _ = Some _ |- _ => unfold rbroadcast in E end.
Definition additive (s : list nat) (b : rtensor -> list rtensor) : Prop := forall g h, map rat (b (mkR s (gplus g h))) = add_lists gplus (map rat (b (mkR s g))) (map rat (b (mkR s h))).
Lemma add_unary {C} s (r : C * rtensor) bw y b : unary r bw = Some (y, b) -> (forall g h ix, rat (bw (fst r) (mkR s (gplus g h))) ix = rat (bw (fst r) (mkR s g)) ix + rat (bw (fst r) (mkR s h)) ix) -> additive s b.
Proof. intros E H. injection E as _ <-. intros g h. cbn [map add_lists]. f_equal. apply functional_extensionality. intros ix. unfold gplus at 2. apply H. Qed.
Lemma add_one s (f : rtensor -> rtensor) b : b = (fun g => [f g]) -> (forall g h ix, rat (f (mkR s (gplus g h))) ix = rat (f (mkR s g)) ix + rat (f (mkR s h)) ix) -> additive s b.
Proof. intros -> H g h. cbn [map add_lists]. f_equal. apply functional_extensionality. intros ix. unfold gplus at 2. apply H. Qed.
Lemma add_two s (f f' : rtensor -> rtensor) b : b = (fun g => [f g; f' g]) -> (forall g h, rshape g = s -> rshape h = s -> f (radd g h) = radd (f g) (f h)) -> (forall g h, rshape g = s -> rshape h = s -> f' (radd g h) = radd (f' g) (f' h)) -> additive s b.
Proof.
  intros -> H H' g h. cbn [map add_lists]. change (mkR s (gplus g h)) with (radd (mkR s g) (mkR s h)). rewrite H, H' by reflexivity. reflexivity.
Qed.
Lemma forward_additive o xs y b : forward o xs = Some (y, b) -> additive (rshape y) b.
Proof.
  intros H. unfold forward in H. destruct o; forward_cases H;
    try (eapply add_unary; [exact H|]; intros g h ix; unfold gplus; cbn; unfold gplus, Rdiv; ring).
  - injection H as <- <-. eapply add_one; [reflexivity|]. intros g h ix. cbn. unfold gplus. ring.
  - injection H as <- <-. apply (add_two _ (fun g => rinverse_broadcast (rmap (fun v => v * c) g) (rshape r)) (fun g => rinverse_broadcast (rmul g r) [])); [reflexivity| |]; intros g h Hg Hh; cbv beta; rewrite ?rmul_add, ?rmap_add by (intros; ring); apply rinverse_add; cbn [rmap rmul rmap2 rshape]; congruence.
  - injection H as <- <-. apply (add_two _ (fun g => rinverse_broadcast g (rshape r)) (fun g => rinverse_broadcast g [])); [reflexivity| |]; intros g h Hg Hh; cbv beta; apply rinverse_add; congruence.
  - injection H as <- <-. apply (add_two _ (fun g => rmap Ropp (rinverse_broadcast g (rshape r))) (fun g => rinverse_broadcast g [])); [reflexivity| |]; intros g h Hg Hh; cbv beta; rewrite rinverse_add by congruence; rewrite ?rmap_add by (intros; ring); reflexivity.
  - injection H as <- <-. eapply add_two; [reflexivity| |]; intros g h Hg Hh; cbv beta; rewrite rinverse_add by congruence; rewrite ?rmap_add by (intros; ring); reflexivity.
  - injection H as <- <-. eapply add_two; [reflexivity| |]; intros g h Hg Hh; cbv beta; rewrite rinverse_add by congruence; rewrite ?rmap_add by (intros; ring); reflexivity.
  - injection H as <- <-. eapply add_two; [reflexivity| |]; intros g h Hg Hh; cbv beta; rewrite !rmul_to_add by congruence; apply rinverse_add; cbn [rmul_to rshape]; congruence.
  - injection H as <- <-. eapply add_two; [reflexivity| |]; intros g h Hg Hh; cbv beta; rewrite !rmul_to_add by (cbn [rmul_to rshape]; congruence); rewrite ?rmap_add by (intros; ring); apply rinverse_add; cbn [rmap rmul_to rshape]; congruence.
  - injection H as <- <-. apply (add_two _ (fun g => rinverse_broadcast (rmatmul g (rtranspose r0)) [n; n0]) (fun g => rinverse_broadcast (rmatmul (rtranspose r) g) [n1; n2])); [reflexivity| |]; intros g h Hg Hh; cbv beta; rewrite ?rmatmul_add_l, ?rmatmul_add_r by congruence; apply rinverse_add; cbn [rmatmul rshape]; congruence.
  - injection H as <- <-. eapply add_one; [reflexivity|]. reflexivity.
  - injection H as <- <-. eapply add_one; [reflexivity|]. reflexivity.
  - injection H as <- <-. eapply add_one; [reflexivity|]. reflexivity.
  - eapply add_unary; [exact H|]. intros g h ix. cbn [mean_forward fst mean_backward]. destruct (rshape r); [reflexivity|]. cbn [rmap spread rat]. unfold gplus. ring.
  - eapply add_unary; [exact H|]. intros g h ix. cbn [softmax_forward fst softmax_backward]. unfold is_0d, size. cbn [rshape]. destruct ((match rshape y with [] => true | _ => false end) || Nat.eqb (pos d (rshape y)) 1); cbn [rmap rat]; [ring|].
    cbn [rmul rmap2 rmap along rat rshape]. unfold line, gplus. cbn [rat rshape rmul rmap2]. erewrite (rsumn_ext _ (fun i => _ * (_ + _))) by (intros; rewrite Rmult_plus_distr_l; reflexivity). rewrite rsumn_plus. ring.
  - eapply add_unary; [exact H|]. intros g h ix. cbn [log_softmax_forward fst log_softmax_backward]. unfold is_0d, size. cbn [rshape]. destruct ((match rshape y with [] => true | _ => false end) || Nat.eqb (pos d (rshape y)) 1); cbn [rmap rat]; [ring|].
    cbn [rmul rmap2 rmap along rat rshape]. unfold line, gplus. cbn [rat rshape rmul rmap2]. rewrite rsumn_plus. ring.
Qed.
