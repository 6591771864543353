(** C65: gradients of convolutions. *)
Require Import List ZArith Bool Arith Lia.
From Verif Require Import Ring64 Tensor Tensor_proofs Gradfn Broadcast_claims Gradfn_claims Gradfn_claims2 Gradfn_claims3 Gradfn_claims4 Gradfn_claims5 Conv Conv_proofs.
Import ListNotations.
Open Scope Z_scope.

Lemma small_pair a b n m : (a < n)%nat -> (b < m)%nat -> (a * m + b < n * m)%nat. Proof. nia. Qed.
Lemma pos3 a b c : (1 <= a)%nat -> (1 <= b)%nat -> (1 <= c)%nat -> (1 <= a * b * c)%nat. Proof. nia. Qed.
Lemma inner_eq b c o h g : o = (h * g)%nat -> (b * (c * o) = h * (c * g * b))%nat. Proof. intros ->. ring. Qed.
Lemma O_eq g N : (1 <= g)%nat -> (N mod g = 0)%nat -> N = (N / g * g)%nat. Proof. intros A B. rewrite (Nat.div_mod N g) at 1 by lia. lia. Qed.
Lemma group_lt g N : (1 <= g)%nat -> (N mod g = 0)%nat -> forall o, (o < N)%nat -> (o / (N / g) < g)%nat.
Proof. intros A B o H. pose proof (O_eq g N A B) as E. apply Nat.div_lt_upper_bound; [intros Q; rewrite Q in E; cbn in E; lia|]. lia. Qed.
Lemma Forall2_len (a b : list nat) : Forall2 le a b -> length a = length b. Proof. induction 1; cbn; congruence. Qed.
Section Conv.
  Variables (st pd dl : list nat) (g B Cg O : nat) (L K P : list nat).
  Hypothesis (Hg : (1 <= g)%nat) (HO : (O mod g = 0)%nat) (HP : conv_size st pd dl L K = Some P).
  Let C := (Cg * g)%nat.
  Let Og := (O / g)%nat.
  Let o_lt := group_lt g O Hg HO.
  (** value of the convolution at one position *)
  Definition conv_at (f h : index -> Z) (b o : nat) (p : index) : Z :=
    sumn Cg (fun c => sums K (fun k => sums L (fun q => if meets st pd dl p k q then h (o :: c :: k) * f (b :: (o / Og * Cg + c)%nat :: q) else 0))).
  Lemma conv_closed x w : shape x = B :: C :: L -> shape w = O :: Cg :: K -> conv st pd dl g x w = Some (mkT (B :: O :: P) (fun ix => conv_at (at_ x) (at_ w) (pos 0 ix) (pos 1 ix) (skipn 2 ix))).
  Proof.
    intros Hx Hw. unfold conv. rewrite Hx, Hw, HP. replace (Nat.leb 1 g && Nat.eqb C (Cg * g) && Nat.eqb (O mod g) 0) with true; [reflexivity|]. symmetry. rewrite !andb_true_iff, Nat.leb_le, !Nat.eqb_eq. auto.
  Qed.
  Lemma out_sum (G : index -> Z) F : sums (B :: O :: P) (fun ix => G ix * F (pos 0 ix) (pos 1 ix) (skipn 2 ix)) = sumn B (fun b => sumn O (fun o => sums P (fun p => G (b :: o :: p) * F b o p))).
  Proof. rewrite sums_cons. apply sumn_ext. intros b _. rewrite sums_cons. apply sumn_ext. intros o _. reflexivity. Qed.

  (** *** Input *)
  Definition input_at (G h : index -> Z) (b c : nat) (q : index) : Z :=
    sumn O (fun o => if Nat.eqb (o / Og) (c / Cg) then sums P (fun p => sums K (fun k => if meets st pd dl p k q then G (b :: o :: p) * h (o :: (c mod Cg)%nat :: k) else 0)) else 0).
  Lemma input_adjoint G f h : sumn B (fun b => sumn O (fun o => sums P (fun p => G (b :: o :: p) * conv_at f h b o p))) = sumn B (fun b => sumn C (fun c => sums L (fun q => input_at G h b c q * f (b :: c :: q)))).
  Proof.
    apply sumn_ext. intros b _.
    transitivity (sumn O (fun o => sumn C (fun c => if Nat.eqb (o / Og) (c / Cg) then sums L (fun q => sums P (fun p => sums K (fun k => if meets st pd dl p k q then G (b :: o :: p) * h (o :: (c mod Cg)%nat :: k) else 0)) * f (b :: c :: q)) else 0))).
    - apply sumn_ext. intros o Ho. set (H := fun c' c => sums L (fun q => sums P (fun p => sums K (fun k => if meets st pd dl p k q then G (b :: o :: p) * h (o :: c :: k) else 0)) * f (b :: c' :: q))).
      transitivity (sumn Cg (fun c => H (o / Og * Cg + c)%nat c)); [|exact (group_sum Cg g (o / Og)%nat H (o_lt o Ho))].
      transitivity (sumn Cg (fun c => sums P (fun p => sums K (fun k => sums L (fun q => (if meets st pd dl p k q then G (b :: o :: p) * h (o :: c :: k) else 0) * f (b :: (o / Og * Cg + c)%nat :: q)))))).
      + rewrite <- sums_sumn. apply sums_ext. intros p _. unfold conv_at. rewrite <- sumn_scale. apply sumn_ext. intros c _. rewrite <- sums_scale. apply sums_ext. intros k _. rewrite <- sums_scale. apply sums_ext. intros q _. destruct (meets st pd dl p k q); ring.
      + apply sumn_ext. intros c _. unfold H. transitivity (sums P (fun p => sums L (fun q => sums K (fun k => (if meets st pd dl p k q then G (b :: o :: p) * h (o :: c :: k) else 0) * f (b :: (o / Og * Cg + c)%nat :: q))))).
        * apply sums_ext. intros p _. apply sums_swap.
        * rewrite sums_swap. apply sums_ext. intros q _. rewrite <- sums_scale_r. apply sums_ext. intros p _. now rewrite sums_scale_r.
    - rewrite sumn_swap. apply sumn_ext. intros c _. unfold input_at. transitivity (sumn O (fun o => sums L (fun q => (if Nat.eqb (o / Og) (c / Cg) then sums P (fun p => sums K (fun k => if meets st pd dl p k q then G (b :: o :: p) * h (o :: (c mod Cg)%nat :: k) else 0)) else 0) * f (b :: c :: q)))).
      + apply sumn_ext. intros o _. destruct (Nat.eqb (o / Og) (c / Cg)); [reflexivity|]. symmetry. apply sums_zero. intros. ring.
      + rewrite <- sums_sumn. apply sums_ext. intros q _. now rewrite sumn_scale_r.
  Qed.
  Lemma transpose_closed gt w op : shape gt = B :: O :: P -> shape w = O :: Cg :: K -> conv_transpose_size st pd dl op P K = Some L ->
    exists gx, conv_transpose st pd dl op g gt w = Some gx /\ shape gx = B :: C :: L /\ forall b c q, at_ gx (b :: c :: q) = input_at (at_ gt) (at_ w) b c q.
  Proof.
    intros Hx Hw E. unfold conv_transpose. rewrite Hx, Hw, E. replace (Nat.leb 1 g && Nat.eqb O O && Nat.eqb (O mod g) 0) with true by (symmetry; rewrite !andb_true_iff, Nat.leb_le, !Nat.eqb_eq; auto). cbn [bind]. eexists. split; [reflexivity|]. split; reflexivity.
  Qed.

  (** *** Kernel *)
  Definition kernel_at (G f : index -> Z) (o c : nat) (k : index) : Z := sumn B (fun b => sums P (fun p => sums L (fun q => if meets st pd dl p k q then G (b :: o :: p) * f (b :: (o / Og * Cg + c)%nat :: q) else 0))).
  Lemma kernel_adjoint G f h : sumn B (fun b => sumn O (fun o => sums P (fun p => G (b :: o :: p) * conv_at f h b o p))) = sumn O (fun o => sumn Cg (fun c => sums K (fun k => kernel_at G f o c k * h (o :: c :: k)))).
  Proof.
    rewrite sumn_swap. apply sumn_ext. intros o _. transitivity (sumn B (fun b => sumn Cg (fun c => sums K (fun k => sums P (fun p => sums L (fun q => if meets st pd dl p k q then G (b :: o :: p) * f (b :: (o / Og * Cg + c)%nat :: q) else 0)) * h (o :: c :: k))))).
    - apply sumn_ext. intros b _. transitivity (sumn Cg (fun c => sums P (fun p => sums K (fun k => sums L (fun q => if meets st pd dl p k q then G (b :: o :: p) * f (b :: (o / Og * Cg + c)%nat :: q) else 0) * h (o :: c :: k))))).
      + rewrite <- sums_sumn. apply sums_ext. intros p _. unfold conv_at. rewrite <- sumn_scale. apply sumn_ext. intros c _. rewrite <- sums_scale. apply sums_ext. intros k _. rewrite <- sums_scale, <- sums_scale_r. apply sums_ext. intros q _. destruct (meets st pd dl p k q); ring.
      + apply sumn_ext. intros c _. rewrite sums_swap. apply sums_ext. intros k _. now rewrite sums_scale_r.
    - rewrite sumn_swap. apply sumn_ext. intros c _. rewrite <- sums_sumn. apply sums_ext. intros k _. now rewrite sumn_scale_r.
  Qed.
End Conv.
Section Back.
  Variables (st pd dl : list nat) (g B Cg O : nat) (L K P : list nat).
  Hypothesis (Hg : (1 <= g)%nat) (HO : (O mod g = 0)%nat) (HP : conv_size st pd dl L K = Some P).
  Let C := (Cg * g)%nat.
  Let Og := (O / g)%nat.
  Let o_eq : O = (Og * g)%nat := O_eq g O Hg HO.
  (** the backward function in closed form *)
  Hypothesis (HB : (1 <= B)%nat) (HC : (1 <= Cg)%nat) (HG : g = 1%nat \/ Cg = 1%nat).
  Lemma valid_le k : forall K1 K2, Forall2 le K1 K2 -> valid K1 k -> valid K2 k.
  Proof. induction k as [|i k IH]; intros K1 K2 F; destruct F; cbn [valid]; intuition eauto; lia. Qed.
  Lemma size_inner : (B * (Cg * O) / (C * B) = Og)%nat.
  Proof. rewrite o_eq at 1. unfold C. replace (B * (Cg * (Og * g)))%nat with (Og * (Cg * g * B))%nat by ring. apply Nat.div_mul. pose proof (pos3 Cg g B HC Hg HB). lia. Qed.
  Lemma mod_inner : ((B * (Cg * O)) mod (C * B) = 0)%nat.
  Proof. rewrite (inner_eq B Cg O Og g o_eq). apply Nat.mod_mul. pose proof (pos3 Cg g B HC Hg HB). unfold C. lia. Qed.
  Lemma channel b c o : (b < B)%nat -> (c < Cg)%nat -> (o < O)%nat -> ((b * (Cg * O) + (c * O + o)) / Og = b * C + (o / Og * Cg + c) /\ o / Og * Cg + c < C)%nat.
  Proof.
    intros Hb Hc Ho. pose proof (group_lt g O Hg HO o Ho) as Gl. assert (Z0 : Og <> 0%nat) by (intros E; pose proof o_eq as Q; rewrite E in Q; cbn in Q; lia). split.
    - transitivity (((b * C + c * g) * Og + o) / Og)%nat; [f_equal; rewrite o_eq; unfold C; ring|]. rewrite Nat.div_add_l by exact Z0. destruct HG as [Q | Q].
      + assert (E : (o / Og = 0)%nat) by (fold Og in Gl; set (t := (o / Og)%nat) in *; clearbody t; lia). rewrite E, Q. lia.
      + assert (E : c = 0%nat) by lia. rewrite E, Q. lia.
    - unfold C. rewrite (Nat.mul_comm Cg). apply small_pair; assumption.
  Qed.
  Lemma kernel_closed x w gt : shape x = B :: C :: L -> shape w = O :: Cg :: K -> shape gt = B :: O :: P ->
    exists gx gw, conv_backward st pd dl g x w gt = Some (gx, gw) /\ shape gx = B :: C :: L /\ shape gw = O :: Cg :: K /\ (forall b c q, at_ gx (b :: c :: q) = input_at st pd dl g Cg O K P (at_ gt) (at_ w) b c q) /\
      (forall o c k, (o < O)%nat -> (c < Cg)%nat -> valid K k -> at_ gw (o :: c :: k) = kernel_at st pd dl g B Cg O L P (at_ gt) (at_ x) o c k).
  Proof.
    intros Hx Hw Hgt. destruct (conv_sizes st pd dl L K P HP) as ((op & E1 & E2) & (K' & E3 & E4) & E5).
    destruct (transpose_closed st pd dl g B Cg O L K P Hg HO gt w op Hgt Hw E2) as (gx & Egx & Sgx & Agx).
    unfold conv_backward. rewrite Hx, Hw, Hgt. fold C. rewrite !Nat.eqb_refl. cbn [andb negb].
    assert (Ng : Nat.ltb 1 g && Nat.ltb g C = false) by (apply andb_false_iff; destruct HG as [Q | Q]; [left; apply Nat.ltb_ge; lia|right; apply Nat.ltb_ge; unfold C; rewrite Q; lia]). rewrite Ng, E1. cbn [bind]. rewrite Egx. cbn [bind].
    assert (Cd : (C / g = Cg)%nat) by (unfold C; apply Nat.div_mul; lia). rewrite Cd. unfold repeat1. rewrite Hgt. cbn [bind].
    set (gr1 := mkT (B :: (Cg * O)%nat :: P) (fun ix => at_ gt (pos 0 ix :: (pos 1 ix mod O)%nat :: skipn 2 ix))).
    destruct (reshape_some ((B * (Cg * O))%nat :: 1%nat :: P) gr1) as (gr2 & R1 & S1); [cbn [shape gr1]; rewrite !product_cons; ring|]. rewrite R1. cbn [bind].
    destruct (reshape_some (1%nat :: (B * C)%nat :: L) x) as (x1 & R2 & S2); [rewrite Hx, !product_cons; ring|]. rewrite R2. cbn [bind].
    assert (Mg : (1 <= C * B)%nat) by (unfold C; apply pos3; assumption).
    assert (Mm : ((B * (Cg * O)) mod (C * B) = 0)%nat) by exact mod_inner.
    pose proof (conv_closed dl pd st (C * B) 1 1 (B * (Cg * O)) L P K' Mg Mm E3 x1 gr2) as Ec. rewrite S1, S2, Nat.mul_1_l, (Nat.mul_comm C B) in Ec. rewrite (Nat.mul_comm C B). rewrite (Ec eq_refl eq_refl). clear Ec. cbn [bind shape]. cbn [skipn]. change (pos 1 (1%nat :: (B * (Cg * O))%nat :: K')) with (B * (Cg * O))%nat.
    replace (B * (Cg * O) / B)%nat with (Cg * O)%nat by (symmetry; rewrite (Nat.mul_comm B); apply Nat.div_mul; lia).
    match goal with |- context [reshape (B :: _) ?t] => set (gw1 := t) end.
    destruct (reshape_some (B :: (Cg * O)%nat :: K') gw1) as (gw2 & R3 & S3); [cbn [shape gw1]; rewrite !product_cons; ring|]. rewrite R3. cbn [bind].
    set (gw3 := sum_dim 0 false gw2). assert (S3' : shape gw3 = (Cg * O)%nat :: K') by (unfold gw3; cbn [sum_dim shape]; rewrite S3; reflexivity).
    destruct (reshape_some (Cg :: O :: K') gw3) as (gw4 & R4 & S4); [rewrite S3', !product_cons; ring|]. rewrite R4. cbn [bind].
    destruct (transpose01 gw4 _ _ _ S4) as (gw5 & T5 & S5 & A5). rewrite T5. cbn [bind].
    destruct (narrows_ok K [O; Cg] K' gw5 E4 S5) as (gw6 & N6 & S6 & A6). cbn [length] in N6. rewrite N6. cbn [bind].
    exists gx, gw6. split; [reflexivity|]. split; [exact Sgx|]. split; [exact S6|]. split; [exact Agx|].
    intros o c k Ho Hc Vk. pose proof (valid_length _ _ Vk) as Lk. pose proof (Forall2_len _ _ E4) as L4. pose proof (valid_le k K K' E4 Vk) as Vk'.
    rewrite A6 by (cbn [length]; lia). rewrite A5 by lia.
    assert (Jl : (c * O + o < Cg * O)%nat) by (apply small_pair; assumption).
    rewrite (reshape_at _ _ (c :: o :: k) ((c * O + o)%nat :: k) _ R4); [|rewrite S3'; split; [exact Jl|exact Vk']|rewrite S3'; cbn [ravel]; rewrite product_cons; ring].
    unfold gw3. cbn [sum_dim at_ shape]. rewrite S3. change (pos 0 (B :: (Cg * O)%nat :: K')) with B. unfold kernel_at. apply sumn_ext. intros b Hb. change (ins 0 b ((c * O + o)%nat :: k)) with (b :: (c * O + o)%nat :: k).
    assert (Ml : (b * (Cg * O) + (c * O + o) < B * (Cg * O))%nat) by (apply small_pair; assumption).
    rewrite (reshape_at _ _ (b :: (c * O + o)%nat :: k) (0%nat :: (b * (Cg * O) + (c * O + o))%nat :: k) _ R3); [|split; [lia|split; [exact Ml|exact Vk']]|cbn [shape gw1 ravel]; rewrite !product_cons; ring].
    unfold gw1. cbn [at_]. cbn [skipn]. unfold conv_at. rewrite sumn_1. apply sums_ext. intros p Vp. apply sums_ext. intros q Vq. rewrite <- (meets_sym st pd dl p k q). destruct (meets st pd dl p k q); [|reflexivity].
    change (pos 0 (0%nat :: (b * (Cg * O) + (c * O + o))%nat :: k)) with 0%nat. change (pos 1 (0%nat :: (b * (Cg * O) + (c * O + o))%nat :: k)) with (b * (Cg * O) + (c * O + o))%nat. 
    rewrite (Nat.mul_comm B C), size_inner. destruct (channel b c o Hb Hc Ho) as [Q1 Q2]. rewrite Q1, Nat.mul_1_r, Nat.add_0_r. f_equal.
    - rewrite (reshape_at _ _ ((b * (Cg * O) + (c * O + o))%nat :: 0%nat :: p) (b :: (c * O + o)%nat :: p) _ R1); [|split; [exact Hb|split; [exact Jl|exact Vp]]|cbn [shape gr1 ravel]; rewrite !product_cons; ring].
      unfold gr1. cbn [at_]. unfold pos. cbn [nth skipn]. do 3 f_equal. rewrite Nat.add_comm, Nat.mod_add by lia. now apply Nat.mod_small.
    - rewrite (reshape_at _ _ (0%nat :: (b * C + (o / Og * Cg + c))%nat :: q) (b :: (o / Og * Cg + c)%nat :: q) _ R2); [reflexivity|rewrite Hx; split; [exact Hb|split; [exact Q2|exact Vq]]|rewrite Hx; cbn [ravel]; rewrite !product_cons; ring].
  Qed.
End Back.
(** *** Claims *)
(** the shapes the gradient supports: some data, some channels per group, and either no grouping or one input channel per group *)
Definition supported (g : nat) (x w : tensor) : Prop := (1 <= pos 0 (shape x))%nat /\ (1 <= pos 1 (shape w))%nat /\ (g = 1 \/ pos 1 (shape w) = 1)%nat.
Lemma conv_inv st pd dl g x w y : conv st pd dl g x w = Some y -> exists B Cg N L K P, shape x = B :: (Cg * g)%nat :: L /\ shape w = N :: Cg :: K /\ (1 <= g)%nat /\ (N mod g = 0)%nat /\ conv_size st pd dl L K = Some P.
Proof.
  unfold conv. destruct (shape x) as [|B [|C L]] eqn:Hx; [discriminate|discriminate|]. destruct (shape w) as [|N [|Cg K]] eqn:Hw; [discriminate|discriminate|].
  destruct (Nat.leb 1 g && Nat.eqb C (Cg * g) && Nat.eqb (N mod g) 0) eqn:E; [|discriminate]. rewrite !andb_true_iff, Nat.leb_le, !Nat.eqb_eq in E. destruct E as [[E1 E2] E3]. destruct (conv_size st pd dl L K) as [P|] eqn:E4; [|discriminate]. intros _. subst C. exists B, Cg, N, L, K, P. auto.
Qed.
Lemma sums_two a b s F : sums (a :: b :: s) F = sumn a (fun i => sumn b (fun j => sums s (fun p => F (i :: j :: p)))).
Proof. rewrite sums_cons. apply sumn_ext. intros i _. apply sums_cons. Qed.
Lemma conv_none st pd dl g x x' w w' : shape x' = shape x -> shape w' = shape w -> conv st pd dl g x w = None -> conv st pd dl g x' w' = None.
Proof.
  intros Hx Hw E. destruct (conv st pd dl g x' w') as [y|] eqn:E'; [|reflexivity]. destruct (conv_inv _ _ _ _ _ _ _ E') as (B & Cg & N & L & K & P & A1 & A2 & G1 & G2 & G3). rewrite Hx in A1. rewrite Hw in A2. rewrite (conv_closed st pd dl g B Cg N L K P G1 G2 G3 x w A1 A2) in E. discriminate.
Qed.
Lemma k_conv st pd dl g x0 w0 : supported g x0 w0 ->
  gradient_of (fun x => conv st pd dl g x w0) (fun gr => option_map fst (conv_backward st pd dl g x0 w0 gr)) (shape x0) /\
  gradient_of (fun w => conv st pd dl g x0 w) (fun gr => option_map snd (conv_backward st pd dl g x0 w0 gr)) (shape w0).
Proof.
  intros (U1 & U2 & U3). destruct (conv st pd dl g x0 w0) as [y0|] eqn:Q.
  2: { split; apply never_gradient; intros x Hx; [now apply (conv_none st pd dl g x0 x w0 w0)|now apply (conv_none st pd dl g x0 x0 w0 x)]. }
  destruct (conv_inv _ _ _ _ _ _ _ Q) as (B & Cg & N & L & K & P & Hx & Hw & G1 & G2 & G3). rewrite Hx, Hw in *. unfold pos in U1, U2, U3. cbn [nth] in U1, U2, U3. split.
  - apply (linear_gradient _ _ _ (B :: N :: P) (fun f ix => conv_at st pd dl g Cg N L K f (at_ w0) (pos 0 ix) (pos 1 ix) (skipn 2 ix))).
    + intros x Sx. now apply conv_closed.
    + intros f h ix _. unfold conv_at. rewrite <- sumn_plus. apply sumn_ext. intros c _. rewrite <- sums_plus. apply sums_ext. intros k _. rewrite <- sums_plus. apply sums_ext. intros q _. destruct (meets _ _ _ _ _ _); ring.
    + intros gt Sg. destruct (kernel_closed st pd dl g B Cg N L K P G1 G2 G3 U1 U2 U3 x0 w0 gt Hx Hw Sg) as (gx & gw & E & Sx & Sw & Ax & Aw). exists gx. rewrite E. split; [reflexivity|]. split; [exact Sx|]. intros f.
      rewrite (out_sum B N P). rewrite (input_adjoint st pd dl g B Cg N L K P G1 G2 (at_ gt) f (at_ w0)). rewrite sums_two. apply sumn_ext. intros b _. apply sumn_ext. intros c _. apply sums_ext. intros q _. now rewrite Ax.
  - apply (linear_gradient _ _ _ (B :: N :: P) (fun h ix => conv_at st pd dl g Cg N L K (at_ x0) h (pos 0 ix) (pos 1 ix) (skipn 2 ix))).
    + intros w Sw. now apply conv_closed.
    + intros f h ix _. unfold conv_at. rewrite <- sumn_plus. apply sumn_ext. intros c _. rewrite <- sums_plus. apply sums_ext. intros k _. rewrite <- sums_plus. apply sums_ext. intros q _. destruct (meets _ _ _ _ _ _); ring.
    + intros gt Sg. destruct (kernel_closed st pd dl g B Cg N L K P G1 G2 G3 U1 U2 U3 x0 w0 gt Hx Hw Sg) as (gx & gw & E & Sx & Sw & Ax & Aw). exists gw. rewrite E. split; [reflexivity|]. split; [exact Sw|]. intros h.
      rewrite (out_sum B N P). rewrite (kernel_adjoint st pd dl g B Cg N L K P (at_ gt) (at_ x0) h). rewrite sums_two. apply sumn_ext. intros o Ho. apply sumn_ext. intros c Hc. apply sums_ext. intros k Vk. now rewrite Aw by assumption.
Qed.
(** Grouped convolutions with several input channels per group are computed, and their backward function raises. *)
Lemma k_conv_groups st pd dl g x w y : conv st pd dl g x w = Some y -> (1 < g)%nat -> (1 < pos 1 (shape w))%nat -> forall gr, shape gr = shape y -> conv_backward st pd dl g x w gr = None.
Proof.
  intros Q Hg Hc gr Sg. destruct (conv_inv _ _ _ _ _ _ _ Q) as (B & Cg & N & L & K & P & Hx & Hw & G1 & G2 & G3). rewrite (conv_closed st pd dl g B Cg N L K P G1 G2 G3 x w Hx Hw) in Q. assert (Sy : shape y = B :: N :: P) by (injection Q as <-; reflexivity). rewrite Sy in Sg.
  rewrite Hw in Hc. unfold pos in Hc. cbn [nth] in Hc. unfold conv_backward. rewrite Hx, Hw, Sg, !Nat.eqb_refl. cbn [andb negb]. replace (Nat.ltb 1 g) with true by (symmetry; now apply Nat.ltb_lt). replace (Nat.ltb g (Cg * g)) with true by (symmetry; apply Nat.ltb_lt; nia). reflexivity.
Qed.
(** avg_pool2d *)
Lemma k_avg_pool c K st pd s : (1 <= pos 1 s)%nat -> gradient_of (avg_pool c K st pd) (avg_pool_backward c K st pd s) s.
Proof.
  intros HC. destruct s as [|B [|C L]]; [apply never_gradient; intros x Hx; unfold avg_pool; now rewrite Hx|apply never_gradient; intros x Hx; unfold avg_pool; now rewrite Hx|]. unfold pos in HC. cbn [nth] in HC.
  set (dl := repeat 1%nat (length st)). destruct (conv_size st pd dl L K) as [P|] eqn:E; [|apply never_gradient; intros x Hx; unfold avg_pool; rewrite Hx; fold dl; now rewrite E].
  set (w := mkT (C :: 1%nat :: K) (fun _ => c)). assert (Cm : (C mod C = 0)%nat) by (apply Nat.mod_same; lia). assert (Cd : (C / C = 1)%nat) by (apply Nat.div_same; lia).
  apply (linear_gradient _ _ _ (B :: C :: P) (fun f ix => sums K (fun k => sums L (fun q => if meets st pd dl (skipn 2 ix) k q then c * f (pos 0 ix :: pos 1 ix :: q) else 0)))).
  - intros x Hx. unfold avg_pool. rewrite Hx. fold dl. now rewrite E.
  - intros f h ix _. rewrite <- sums_plus. apply sums_ext. intros k _. rewrite <- sums_plus. apply sums_ext. intros q _. destruct (meets _ _ _ _ _ _); ring.
  - intros gt Sg. destruct (conv_sizes st pd dl L K P E) as ((op & E1 & E2) & _ & _). unfold avg_pool_backward. rewrite Sg. fold dl. rewrite E1. cbn [bind]. fold w.
    destruct (transpose_closed st pd dl C B 1 C L K P HC Cm gt w op Sg eq_refl E2) as (gx & Egx & Sgx & Agx). exists gx. rewrite Nat.mul_1_l in Sgx. split; [exact Egx|]. split; [exact Sgx|]. intros f.
    transitivity (sums (B :: C :: P) (fun ix => at_ gt ix * conv_at st pd dl C 1 C L K f (at_ w) (pos 0 ix) (pos 1 ix) (skipn 2 ix))).
    + apply sums_ext. intros ix _. f_equal. unfold conv_at. rewrite sumn_1. apply sums_ext. intros k _. apply sums_ext. intros q _. rewrite Cd, Nat.div_1_r, Nat.mul_1_r, Nat.add_0_r. reflexivity.
    + rewrite (out_sum B C P). rewrite (input_adjoint st pd dl C B 1 C L K P HC Cm (at_ gt) f (at_ w)). rewrite sums_two, Nat.mul_1_l. apply sumn_ext. intros b _. apply sumn_ext. intros c' _. apply sums_ext. intros q _. now rewrite Agx.
Qed.
