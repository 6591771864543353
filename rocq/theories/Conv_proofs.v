(** Lemmas for the gradients of convolutions. *)
Require Import List ZArith Bool Arith Lia.
From Verif Require Import Ring64 Tensor Tensor_proofs Gradfn Broadcast_claims Gradfn_claims Gradfn_claims2 Gradfn_claims3 Gradfn_claims4 Gradfn_claims5 Conv.
Import ListNotations.
Open Scope Z_scope.

Lemma meets_sym st : forall pd dl p k q, meets st pd dl p k q = meets dl pd st k p q.
Proof.
  induction st as [|s st IH]; intros [|a pd] [|d dl] [|i p] [|j k] [|l q]; try reflexivity. cbn [meets]. now rewrite IH, (Nat.add_comm (i * s)).
Qed.
Lemma sumn_mul a b H : sumn (a * b) H = sumn a (fun i => sumn b (fun j => H (i * b + j)%nat)).
Proof. induction a as [|a IH]; [reflexivity|]. rewrite sumn_S, <- IH. replace (S a * b)%nat with (a * b + b)%nat by lia. now rewrite sumn_add. Qed.
Lemma group_sum Cg g G (F : nat -> nat -> Z) : (G < g)%nat -> sumn Cg (fun c => F (G * Cg + c)%nat c) = sumn (Cg * g) (fun c' => if Nat.eqb G (c' / Cg) then F c' (c' mod Cg)%nat else 0).
Proof.
  intros H. rewrite (Nat.mul_comm Cg g), sumn_mul. symmetry. rewrite (sumn_one g G); [|exact H|].
  - apply sumn_ext. intros c Hc. replace ((G * Cg + c) / Cg)%nat with G by (apply (Nat.div_unique _ _ _ c); lia). rewrite Nat.eqb_refl. f_equal. symmetry. apply (Nat.mod_unique _ _ G); lia.
  - intros i _ N. apply sumn_zero. intros c Hc. replace ((i * Cg + c) / Cg)%nat with i by (apply (Nat.div_unique _ _ _ c); lia). destruct (Nat.eqb_spec G i); [congruence|reflexivity].
Qed.
(** *** Sizes *)
Lemma one_size s a d n k : (1 <= s)%nat -> (1 <= d)%nat -> (1 <= k)%nat -> (d * (k - 1) + 1 <= n + 2 * a)%nat ->
  let p := ((n + 2 * a - d * (k - 1) - 1) / s + 1)%nat in let least := (Z.of_nat p - 1) * Z.of_nat s - 2 * Z.of_nat a + 1 + Z.of_nat d * (Z.of_nat k - 1) in
  least <= Z.of_nat n <= least + Z.of_nat s - 1 /\ (1 <= p)%nat /\ (s * (p - 1) + 1 <= n + 2 * a)%nat /\ (k <= (n + 2 * a - s * (p - 1) - 1) / d + 1)%nat.
Proof.
  intros Hs Hd Hk H. cbn zeta. set (N := (n + 2 * a - d * (k - 1) - 1)%nat). pose proof (Nat.div_mod N s ltac:(lia)) as D. pose proof (Nat.mod_upper_bound N s ltac:(lia)) as M. set (q := (N / s)%nat) in *. set (r := (N mod s)%nat) in *. replace (q + 1 - 1)%nat with q by lia.
  assert (E : (n + 2 * a = d * (k - 1) + 1 + N)%nat) by lia. clearbody q r N. assert (Z1 : Z.of_nat d * (Z.of_nat k - 1) = Z.of_nat (d * (k - 1))) by nia. assert (Z2 : (Z.of_nat (q + 1) - 1) * Z.of_nat s = Z.of_nat (s * q)) by nia. rewrite Z1, Z2.
  split; [lia|]. split; [lia|]. split; [lia|]. assert (Q : (n + 2 * a - s * q - 1 = d * (k - 1) + r)%nat) by (clear - D E; set (u := (d * (k - 1))%nat) in *; set (v := (s * q)%nat) in *; clearbody u v; lia). rewrite Q. enough (k - 1 <= (d * (k - 1) + r) / d)%nat by lia. apply Nat.div_le_lower_bound; lia.
Qed.
Lemma conv_size_cons s st a pd d dl n L k K : conv_size (s :: st) (a :: pd) (d :: dl) (n :: L) (k :: K) =
  if Nat.leb 1 s && Nat.leb 1 d && Nat.leb 1 k && Nat.leb (d * (k - 1) + 1) (n + 2 * a) then option_map (cons ((n + 2 * a - d * (k - 1) - 1) / s + 1)%nat) (conv_size st pd dl L K) else None.
Proof. reflexivity. Qed.
Lemma conv_sizes st : forall pd dl L K P, conv_size st pd dl L K = Some P ->
  (exists op, grad_input_padding st pd dl L P K = Some op /\ conv_transpose_size st pd dl op P K = Some L) /\ (exists K', conv_size dl pd st L P = Some K' /\ Forall2 le K K') /\ length P = length L.
Proof.
  induction st as [|s st IH]; intros [|a pd] [|d dl] [|n L] [|k K] P H; try discriminate.
  - injection H as <-. split; [exists []; auto|]. split; [|reflexivity]. exists []. split; [reflexivity|constructor].
  - rewrite conv_size_cons in H. destruct (Nat.leb 1 s && Nat.leb 1 d && Nat.leb 1 k && Nat.leb (d * (k - 1) + 1) (n + 2 * a)) eqn:C; [|discriminate]. rewrite !andb_true_iff, !Nat.leb_le in C. destruct C as [[[C1 C2] C3] C4].
    destruct (conv_size st pd dl L K) as [P'|] eqn:E; [|discriminate]. cbn [option_map] in H. assert (EP : P = ((n + 2 * a - d * (k - 1) - 1) / s + 1)%nat :: P') by congruence. clear H. subst P. destruct (IH _ _ _ _ _ E) as ((op & G1 & G2) & (K' & G3 & G4) & G5).
    destruct (one_size s a d n k C1 C2 C3 C4) as (A1 & A2 & A3 & A4). set (p := ((n + 2 * a - d * (k - 1) - 1) / s + 1)%nat) in *. set (least := (Z.of_nat p - 1) * Z.of_nat s - 2 * Z.of_nat a + 1 + Z.of_nat d * (Z.of_nat k - 1)) in *.
    split; [|split; [|cbn [length]; now rewrite G5]].
    + exists (Z.to_nat (Z.of_nat n - least) :: op). cbn [grad_input_padding]. fold least. destruct (Z.ltb_spec (Z.of_nat n) least); [lia|]. destruct (Z.ltb_spec (least + Z.of_nat s - 1) (Z.of_nat n)); [lia|]. cbn [orb]. rewrite G1. split; [reflexivity|]. cbn [conv_transpose_size]. rewrite G2. rewrite Z2Nat.id by lia.
      replace ((Z.of_nat p - 1) * Z.of_nat s - 2 * Z.of_nat a + Z.of_nat d * (Z.of_nat k - 1) + (Z.of_nat n - least) + 1) with (Z.of_nat n) by (unfold least; ring). destruct (Nat.ltb_spec (Z.to_nat (Z.of_nat n - least)) s); [|lia]. cbn [orb andb]. destruct (Z.leb_spec 0 (Z.of_nat n)); [|lia]. cbn [option_map]. now rewrite Nat2Z.id.
    + exists (((n + 2 * a - s * (p - 1) - 1) / d + 1)%nat :: K'). rewrite conv_size_cons, G3. replace (Nat.leb 1 d && Nat.leb 1 s && Nat.leb 1 p && Nat.leb (s * (p - 1) + 1) (n + 2 * a)) with true by (symmetry; rewrite !andb_true_iff, !Nat.leb_le; auto). split; [reflexivity|]. constructor; auto.
Qed.
(** *** Reshaping *)
Lemma reshape_at size x ix jx y : reshape size x = Some y -> valid (shape x) jx -> ravel size ix = ravel (shape x) jx -> at_ y ix = at_ x jx.
Proof. unfold reshape. destruct (Nat.eqb _ _); [|discriminate]. intros [= <-] V E. cbn [at_]. rewrite E. now rewrite (proj2 (ravel_ok _ _ V)). Qed.
Lemma reshape_some size x : product size = product (shape x) -> exists y, reshape size x = Some y /\ shape y = size.
Proof. intros E. unfold reshape. rewrite E, Nat.eqb_refl. eexists. split; reflexivity. Qed.
Lemma product_cons a s : product (a :: s) = (a * product s)%nat. Proof. reflexivity. Qed.
Lemma narrows_ok K : forall pre K' x, Forall2 le K K' -> shape x = pre ++ K' -> exists y, narrows (length pre) K x = Some y /\ shape y = pre ++ K /\ forall ix, length ix = (length pre + length K)%nat -> at_ y ix = at_ x ix.
Proof.
  induction K as [|k K IH]; intros pre K' x F Hx; inversion F as [|? k' ? K'' Hk Hf]; subst.
  - exists x. split; [reflexivity|]. split; [exact Hx|]. auto.
  - cbn [narrows]. assert (Lp : (length pre < length (shape x))%nat) by (rewrite Hx, app_length; cbn [length]; lia). assert (Pp : pos (length pre) (shape x) = k') by (rewrite Hx; unfold pos; rewrite app_nth2, Nat.sub_diag by lia; reflexivity).
    unfold narrow, rank. rewrite dimn_of_nat by exact Lp. rewrite Pp. change (0 <? 0) with false. cbv iota. replace ((0 <=? 0) && (0 <=? Z.of_nat k) && (0 + Z.of_nat k <=? Z.of_nat k')) with true by (symmetry; rewrite !andb_true_iff, !Z.leb_le; lia). cbn [bind]. rewrite Nat2Z.id.
    assert (U : upd (length pre) k (shape x) = (pre ++ [k]) ++ K''). { rewrite Hx. unfold upd. rewrite firstn_app, Nat.sub_diag, firstn_all. cbn [firstn]. rewrite app_nil_r, skipn_app, skipn_all2 by lia. replace (S (length pre) - length pre)%nat with 1%nat by lia. cbn [skipn app]. now rewrite <- app_assoc. }
    rewrite U. destruct (IH (pre ++ [k]) K'' (mkT ((pre ++ [k]) ++ K'') (fun ix => at_ x (upd (length pre) (pos (length pre) ix + Z.to_nat 0)%nat ix))) Hf eq_refl) as (y & E & Sy & A). rewrite app_length in E. cbn [length] in E. rewrite Nat.add_1_r in E.
    exists y. split; [exact E|]. split; [rewrite Sy, <- app_assoc; reflexivity|]. cbn [length]. intros ix Lx. rewrite A by (rewrite app_length; cbn [length]; lia). cbn [at_]. rewrite Nat.add_0_r. rewrite upd_pos by lia. reflexivity.
Qed.
Lemma transpose01 x a b s : shape x = a :: b :: s -> exists y, transpose 0 1 x = Some y /\ shape y = b :: a :: s /\ forall i j p, length p = length s -> at_ y (j :: i :: p) = at_ x (i :: j :: p).
Proof.
  intros Hx. unfold transpose, rank. rewrite Hx. cbn [length]. assert (D0 : dimn 0 (S (S (length s))) = Some 0%nat) by (apply (dimn_of_nat 0); lia). assert (D1 : dimn 1 (S (S (length s))) = Some 1%nat) by (apply (dimn_of_nat 1); lia). rewrite D0, D1. eexists. split; [reflexivity|].
  assert (Q : forall (i j : nat) p, length p = length s -> tabulate (S (S (length s))) (fun k => pos (swapped 0 1 k) (i :: j :: p)) = j :: i :: p).
  { intros i j p Lp. apply list_ext; [rewrite tab_length; cbn [length]; lia|]. rewrite tab_length. intros k Hk. rewrite pos_tab by exact Hk. unfold swapped. destruct k as [|[|k]]; reflexivity. }
  split; [cbn [shape]; now apply Q|]. intros i j p Lp. cbn [at_]. now rewrite Q.
Qed.
