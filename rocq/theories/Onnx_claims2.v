(** C85: attributes of ONNX nodes: padding, convolution, pooling, clipping, comparing and casting. *)
Require Import List ZArith Bool Arith Lia.
From Verif Require Import Ring64 Tensor Tensor_proofs Gradfn Gradfn_claims Gradfn_claims5 Conv Pool Onnx Onnx_claims.
Import ListNotations.
Local Open Scope Z_scope.

(** *** Pad: ONNX lists the sizes before every dimension, then the sizes after every dimension *)
Definition onnx_pad (pads : list Z) (x : tensor) : tensor :=
  let b k := nth k pads 0 in let a k := nth (k + rank x) pads 0 in
  mkT (tabulate (rank x) (fun k => Z.to_nat (Z.of_nat (pos k (shape x)) + b k + a k)))
      (fun ix => if forallb (fun k => (0 <=? Z.of_nat (pos k ix) - b k) && (Z.of_nat (pos k ix) - b k <? Z.of_nat (pos k (shape x)))) (seq 0 (rank x))
                 then at_ x (tabulate (rank x) (fun k => Z.to_nat (Z.of_nat (pos k ix) - b k))) else 0).
(** the list means the same in torch's order: pairs (before, after), last dimension first *)
Definition order_free (r : nat) (pads : list Z) : Prop := forall k, (k < r)%nat -> nth (2 * (r - 1 - k)) pads 0 = nth k pads 0 /\ nth (2 * (r - 1 - k) + 1) pads 0 = nth (k + r) pads 0.
Lemma int32_map l : Forall (fun v => - 2147483648 <= v < 2147483648) l -> map int32 l = l.
Proof. intros F. induction F as [|v l H _ IH]; [reflexivity|]. cbn [map]. now rewrite IH, int32_id. Qed.
(** C85: Pad is ONNX's when the list of pads means the same in both orders, *)
Lemma k_C85_pad : forall pads x, length pads = (2 * rank x)%nat -> Forall (fun v => - 2147483648 <= v < 2147483648) pads -> order_free (rank x) pads ->
  (forall k, (k < rank x)%nat -> 0 <= Z.of_nat (pos k (shape x)) + nth k pads 0 + nth (k + rank x) pads 0) -> exists y, pad_module pads x = Some y /\ teq y (onnx_pad pads x).
Proof.
  intros pads x L F O N. unfold pad_module, pad. rewrite int32_map by exact F. unfold order_free, rank in *. set (r := length (shape x)) in *.
  assert (Eb : forall k, (k < r)%nat -> before r pads k = nth k pads 0 /\ after r pads k = nth (k + r) pads 0). { intros k Hk. unfold before, after. destruct (Nat.ltb_spec k r); [|lia]. now apply O. }
  destruct (pad_from_ok 0 pads r (shape x) x eq_refl ltac:(unfold r; lia)) as (y & E & S & T).
  - exists r. split; [exact L|lia].
  - intros k Hk. fold r in Hk. destruct (Eb k Hk) as [-> ->]. now apply N.
  - exists y. split; [exact E|]. assert (Sz : padded_size (shape x) (before r pads) (after r pads) = shape (onnx_pad pads x)).
    { unfold padded_size, onnx_pad, rank. cbn [shape]. fold r. apply list_ext; [now rewrite !tab_length|]. rewrite tab_length. intros k Hk. rewrite !pos_tab by exact Hk. destruct (Eb k Hk) as [-> ->]. reflexivity. }
    split; [rewrite S; exact Sz|]. intros ix V. rewrite T by exact V. unfold pad_all, onnx_pad, rank. cbn [at_]. fold r.
    assert (I : inside (shape x) (before r pads) ix = forallb (fun k => (0 <=? Z.of_nat (pos k ix) - nth k pads 0) && (Z.of_nat (pos k ix) - nth k pads 0 <? Z.of_nat (pos k (shape x)))) (seq 0 r)).
    { unfold inside. fold r. apply eq_true_iff_eq. rewrite !forallb_forall. split; intros H k Ik; specialize (H k Ik); apply in_seq in Ik; destruct (Eb k ltac:(lia)) as [Q _]; rewrite Q in *; exact H. }
    rewrite I. destruct (forallb _ _); [|reflexivity]. f_equal. unfold unpadded. fold r. apply list_ext; [now rewrite !tab_length|]. rewrite tab_length. intros k Hk. rewrite !pos_tab by exact Hk. destruct (Eb k Hk) as [-> _]. reflexivity.
Qed.
(** C85: for example when all entries are equal; for one dimension always. *)
Lemma k_C85_pad_uniform : (forall r p, order_free r (repeat p (2 * r))) /\ (forall b a, order_free 1 [b; a]).
Proof.
  split; [|intros b a [|k] Hk; [split; reflexivity|lia]]. intros r p k Hk. assert (H : forall i, (i < 2 * r)%nat -> nth i (repeat p (2 * r)) 0 = p). { intros i Hi. apply (repeat_spec (2 * r) p). apply nth_In. rewrite repeat_length. exact Hi. } rewrite !H by lia. auto.
Qed.
(** C85: Refuted: the pads of ConstantPad2d(p) on a batch of images pad the batch and the height, not the height and the width. *)
Lemma k_C85_pad_refuted : forall B C H W p x, shape x = [B; C; H; W] -> 0 < p < 2147483648 -> let pads := [0; 0; p; p; 0; 0; p; p] in
  exists y, pad_module pads x = Some y /\ shape y = [B + 2 * Z.to_nat p; C; H + 2 * Z.to_nat p; W]%nat /\ shape (onnx_pad pads x) = [B; C; H + 2 * Z.to_nat p; W + 2 * Z.to_nat p]%nat.
Proof.
  intros B C H W p x Hx Hp pads. unfold pads, pad_module. rewrite int32_map by (repeat constructor; lia). unfold pad, rank. rewrite Hx. cbn [length pad_from]. unfold pad_dim. rewrite Hx. cbn [pos nth upd firstn skipn app].
  destruct (Z.leb_spec 0 (Z.of_nat W + 0 + 0)); [|lia]. cbn [shape upd firstn skipn app pos nth]. destruct (Z.leb_spec 0 (Z.of_nat H + p + p)); [|lia]. cbn [shape upd firstn skipn app pos nth]. destruct (Z.leb_spec 0 (Z.of_nat C + 0 + 0)); [|lia]. cbn [shape upd firstn skipn app pos nth]. destruct (Z.leb_spec 0 (Z.of_nat B + p + p)); [|lia].
  eexists. split; [reflexivity|]. cbn [shape upd firstn skipn app]. split.
  - f_equal; [lia|]. f_equal; [lia|]. f_equal; [lia|]. f_equal. lia.
  - unfold onnx_pad, rank. rewrite Hx. unfold tabulate. cbn [shape length seq map pos nth Nat.add]. f_equal; [lia|]. f_equal; [lia|]. f_equal; [lia|]. f_equal. lia.
Qed.

(** *** Conv as ONNX defines it, with its own padding at the begin and at the end of each dimension *)
Fixpoint onnx_conv_size (strides begins ends dilations size kernel : list nat) : option (list nat) :=
  match strides, begins, ends, dilations, size, kernel with
  | s :: strides, b :: begins, e :: ends, d :: dilations, n :: size, k :: kernel =>
      if Nat.leb 1 s && Nat.leb 1 d && Nat.leb 1 k && Nat.leb (d * (k - 1) + 1) (n + b + e)
      then option_map (cons ((n + b + e - d * (k - 1) - 1) / s + 1)%nat) (onnx_conv_size strides begins ends dilations size kernel) else None
  | [], [], [], [], [], [] => Some []
  | _, _, _, _, _, _ => None
  end.
Definition onnx_conv (strides begins ends dilations : list nat) (groups : nat) (x w : tensor) (bias : option tensor) : option tensor :=
  match shape x, shape w with
  | B :: C :: L, N :: Cg :: K =>
      if Nat.leb 1 groups && Nat.eqb C (Cg * groups) && Nat.eqb (N mod groups) 0 then
        do P <- onnx_conv_size strides begins ends dilations L K;
        Some (mkT (B :: N :: P) (fun ix => let b := pos 0 ix in let o := pos 1 ix in let p := skipn 2 ix in
          sumn Cg (fun c => sums K (fun k => sums L (fun q => if meets strides begins dilations p k q
            then at_ w (o :: c :: k) * at_ x (b :: (o / (N / groups) * Cg + c)%nat :: q) else 0))) + match bias with Some v => at_ v [o] | None => 0 end))
      else None
  | _, _ => None
  end.
Lemma conv_size_symmetric strides : forall pads dilations size kernel, conv_size strides pads dilations size kernel = onnx_conv_size strides pads pads dilations size kernel.
Proof. induction strides as [|s strides IH]; intros [|a pads] [|d dilations] [|n size] [|k kernel]; try reflexivity. cbn [conv_size onnx_conv_size]. rewrite IH. replace (n + 2 * a)%nat with (n + a + a)%nat by lia. reflexivity. Qed.
Lemma conv_size_length strides : forall pads dilations size kernel P, conv_size strides pads dilations size kernel = Some P -> length P = length kernel.
Proof.
  induction strides as [|s strides IH]; intros [|a pads] [|d dilations] [|n size] [|k kernel] P; try discriminate; [intros [= <-]; reflexivity|]. cbn [conv_size]. destruct (_ && _); [|discriminate]. destruct (conv_size _ _ _ _ _) as [P'|] eqn:E; [|discriminate]. cbn [option_map]. intros [= <-]. cbn [length]. f_equal. eapply IH. exact E.
Qed.
Lemma op1_one a : op1 a 1 = Some a.
Proof. unfold op1. destruct (Nat.eqb_spec a 1); [reflexivity|]. reflexivity. Qed.
Lemma op1_same a : op1 a a = Some a.
Proof. unfold op1. now rewrite Nat.eqb_refl. Qed.
Lemma bshape_same s t : length s = length t -> bshape s t = bz s t.
Proof. intros H. change t with ([] ++ t) at 1. rewrite bshape_lead by exact H. now destruct (bz s t). Qed.
Lemma add_bias_ok bias y B N P : shape bias = [N] -> shape y = B :: N :: P -> (length P = 1 \/ length P = 2)%nat -> exists z, add_bias bias y = Some z /\ shape z = shape y /\ forall ix, valid (shape y) ix -> at_ z ix = at_ y ix + at_ bias [pos 1 ix].
Proof.
  intros Hb Hy HP. unfold add_bias, unsqueeze at 1, rank at 1. rewrite Hb. cbn [length]. rewrite dimn0. cbn [bind]. unfold ins at 1. cbn [firstn skipn app]. unfold rank. cbn [shape]. rewrite Hy. cbn [length]. 
  assert (Cl : forall i, (i < N)%nat -> (if Nat.eqb N 1 then O else i) = i) by (intros i Hi; destruct (Nat.eqb_spec N 1); lia).
  destruct P as [|n [|m [|? P]]]; cbn [length] in HP |- *; try lia.
  - cbn [Nat.sub seq fold_left bind]. unfold unsqueeze, rank. cbn [shape length]. cbn [shape length]. match goal with |- context [dimn (-1) ?e] => change (dimn (-1) e) with (Some 2%nat) end. cbn [bind]. cbn [ins firstn skipn app].
    unfold add, pointwise. cbn [shape ins firstn skipn app]. rewrite Hy. rewrite bshape_same by reflexivity. cbn [bz bind]. rewrite !op1_one, op1_same. cbn [bind option_map app]. eexists. split; [reflexivity|]. split; [reflexivity|]. intros ix V. cbn [at_].
    destruct ix as [|b [|o [|i [|? ix]]]]; try (cbn in V; tauto). destruct V as (V1 & V2 & V3 & _). unfold bindex. cbn [length Nat.sub skipn]. f_equal.
    + f_equal. unfold clamp. cbn [combine map fst snd]. rewrite Cl by exact V2. f_equal; [|f_equal; f_equal]; destruct (Nat.eqb_spec B 1), (Nat.eqb_spec n 1); lia.
    + f_equal. unfold clamp. cbn [combine map fst snd Nat.eqb del firstn skipn app pos nth]. now rewrite Cl.
  - cbn [Nat.sub seq fold_left bind]. unfold unsqueeze, rank. cbn [shape length]. cbn [shape length]. match goal with |- context [dimn (-1) ?e] => change (dimn (-1) e) with (Some 2%nat) end. cbn [bind]. cbn [shape ins firstn skipn app length]. cbn [shape ins firstn skipn app length]. match goal with |- context [dimn (-1) ?e] => change (dimn (-1) e) with (Some 3%nat) end. cbn [bind]. cbn [ins firstn skipn app].
    unfold add, pointwise. cbn [shape ins firstn skipn app]. rewrite Hy. rewrite bshape_same by reflexivity. cbn [bz bind]. rewrite !op1_one, op1_same. cbn [bind option_map app]. eexists. split; [reflexivity|]. split; [reflexivity|]. intros ix V. cbn [at_].
    destruct ix as [|b [|o [|i [|j [|? ix]]]]]; try (cbn in V; tauto). destruct V as (V1 & V2 & V3 & V4 & _). unfold bindex. cbn [length Nat.sub skipn]. f_equal.
    + f_equal. unfold clamp. cbn [combine map fst snd]. rewrite Cl by exact V2. f_equal; [|f_equal; f_equal; [|f_equal]]; destruct (Nat.eqb_spec B 1), (Nat.eqb_spec n 1), (Nat.eqb_spec m 1); lia.
    + f_equal. unfold clamp. cbn [combine map fst snd Nat.eqb del firstn skipn app pos nth]. now rewrite Cl.
Qed.
Lemma every_second_repeat {A} (p : A) n : every_second (repeat p (2 * n)) = repeat p n.
Proof. induction n as [|n IH]; [reflexivity|]. replace (2 * S n)%nat with (S (S (2 * n))) by lia. cbn [repeat every_second]. now rewrite IH. Qed.
(** C85: Conv (1-D and 2-D, with or without bias) is ONNX's when all pads are equal. *)
Lemma k_C85_conv : forall strides p dilations group x w bias, (rank w = 3 \/ rank w = 4)%nat -> (forall b, bias = Some b -> shape b = [pos 0 (shape w)]) ->
  let dim := (rank w - 2)%nat in let groups := match group with Some g => g | None => 1%nat end in
  match conv_module strides (repeat p (2 * dim)) dilations group x w bias, onnx_conv strides (repeat p dim) (repeat p dim) dilations groups x w bias with Some y, Some z => teq y z | None, None => True | _, _ => False end.
Proof.
  intros strides p dilations group x w bias R Hb dim groups. unfold conv_module. fold dim groups. assert (D : Nat.eqb dim 1 || Nat.eqb dim 2 = true) by (unfold dim; destruct R as [-> | ->]; reflexivity). rewrite D, every_second_repeat. unfold conv, onnx_conv.
  destruct (shape x) as [|B [|C L]] eqn:Hx; [exact I|exact I|]. destruct (shape w) as [|N [|Cg K]] eqn:Hw; [exact I|exact I|]. destruct (_ && _); [|exact I]. rewrite <- conv_size_symmetric. destruct (conv_size _ _ _ _ _) as [P|] eqn:E; [|exact I]. cbn [bind]. apply conv_size_length in E.
  assert (HP : (length P = 1 \/ length P = 2)%nat) by (rewrite E; unfold rank in R; rewrite Hw in R; cbn in R; lia).
  destruct bias as [b|].
  - set (y := mkT (B :: N :: P) _). destruct (add_bias_ok b y B N P (Hb b eq_refl) eq_refl HP) as (z & Ez & Sz & Tz). rewrite Ez. split; [exact Sz|]. intros ix V. rewrite Sz in V. rewrite Tz by exact V. reflexivity.
  - split; [reflexivity|]. intros ix V. cbn [at_]. lia.
Qed.
Lemma conv_shape strides pads dilations groups x w y : conv strides pads dilations groups x w = Some y -> exists P, conv_size strides pads dilations (skipn 2 (shape x)) (skipn 2 (shape w)) = Some P /\ shape y = pos 0 (shape x) :: pos 0 (shape w) :: P.
Proof. unfold conv. destruct (shape x) as [|B [|C L]]; try discriminate. destruct (shape w) as [|N [|Cg K]]; try discriminate. destruct (_ && _); [|discriminate]. cbn [skipn]. destruct (conv_size _ _ _ _ _) as [P|]; [|discriminate]. cbn [bind]. intros [= <-]. exists P. auto. Qed.
Lemma onnx_conv_shape strides b e dilations groups x w bias y : onnx_conv strides b e dilations groups x w bias = Some y -> exists P, onnx_conv_size strides b e dilations (skipn 2 (shape x)) (skipn 2 (shape w)) = Some P /\ shape y = pos 0 (shape x) :: pos 0 (shape w) :: P.
Proof. unfold onnx_conv. destruct (shape x) as [|B [|C L]]; try discriminate. destruct (shape w) as [|N [|Cg K]]; try discriminate. destruct (_ && _); [|discriminate]. cbn [skipn]. destruct (onnx_conv_size _ _ _ _ _) as [P|]; [|discriminate]. cbn [bind]. intros [= <-]. exists P. auto. Qed.
(** C85: Refuted: the pads p, q of Conv2d(padding=(p, q)) come out as (p, p); with stride 1 the result has another width unless p = q. *)
Lemma k_C85_conv_refuted : forall p q x w H W kh kw B C N Cg y z, shape x = [B; C; H; W] -> shape w = [N; Cg; kh; kw] -> p <> q ->
  conv_module [1; 1]%nat [p; q; p; q] [1; 1]%nat None x w None = Some y -> onnx_conv [1; 1]%nat [p; q] [p; q] [1; 1]%nat 1 x w None = Some z ->
  shape y = [B; N; H + 2 * p - kh + 1; W + 2 * p - kw + 1]%nat /\ shape z = [B; N; H + 2 * p - kh + 1; W + 2 * q - kw + 1]%nat /\ shape y <> shape z.
Proof.
  intros p q x w H W kh kw B C N Cg y z Hx Hw Npq Hy Hz. unfold conv_module in Hy. destruct (Nat.eqb _ _ || _); [|discriminate]. cbn [every_second] in Hy. destruct (conv _ _ _ _ _ _) as [y'|] eqn:E; [|discriminate]. injection Hy as ->. apply conv_shape in E as (P & EP & Sy). apply onnx_conv_shape in Hz as (Q & EQ & Sz). rewrite Hx, Hw in *. cbn [skipn pos nth] in *. cbn [conv_size onnx_conv_size] in *.
  destruct (_ && _) eqn:C1 in EP; [|discriminate]. destruct (_ && _) eqn:C2 in EP; [|discriminate]. destruct (_ && _) eqn:C3 in EQ; [|discriminate]. destruct (_ && _) eqn:C4 in EQ; [|discriminate]. cbn [option_map] in *. injection EP as <-. injection EQ as <-. assert (Dv : forall n, fst (Nat.divmod n 0 0 0) = n) by (intros n; exact (Nat.div_1_r n)). rewrite !Dv in Sy. rewrite !Dv in Sz.
  apply andb_true_iff in C2 as [C2 D2], C4 as [C4 D4], C1 as [C1 D1], C3 as [C3 D3]. apply Nat.leb_le in D1, D2, D3, D4. apply andb_true_iff in C2 as [_ K2], C1 as [_ K1]. apply Nat.leb_le in K1, K2.
  assert (Sy' : shape y = [B; N; H + 2 * p - kh + 1; W + 2 * p - kw + 1]%nat) by (rewrite Sy; repeat (f_equal; try lia)). assert (Sz' : shape z = [B; N; H + 2 * p - kh + 1; W + 2 * q - kw + 1]%nat) by (rewrite Sz; repeat (f_equal; try lia)). split; [exact Sy'|]. split; [exact Sz'|]. rewrite Sy', Sz'. intros [= Q]. lia.
Qed.

(** *** Average pooling as ONNX defines it when padding is counted (count_include_pad = 1); [c] is one over the size of the kernel *)
Definition onnx_avg_pool (c : Z) (kernel strides begins ends : list nat) (x : tensor) : option tensor :=
  match shape x with
  | B :: C :: L => do P <- onnx_conv_size strides begins ends (repeat 1%nat (length strides)) L kernel;
      Some (mkT (B :: C :: P) (fun ix => sums kernel (fun k => sums L (fun q => if meets strides begins (repeat 1%nat (length strides)) (skipn 2 ix) k q then c * at_ x (pos 0 ix :: pos 1 ix :: q) else 0))))
  | _ => None
  end.
(** C85: AveragePool with a square kernel, equal strides and equal pads is ONNX's; different strides are refused. *)
Lemma k_C85_avg_pool : forall c k s p ps d x, ps = Some [p; p; p; p] \/ (ps = None /\ p = O) ->
  avg_pool_module c (mkPool [k; k] [s; s] ps d) x = onnx_avg_pool c [k; k] [s; s] [p; p] [p; p] x /\ forall ks s' , s <> s' -> avg_pool_module c (mkPool ks [s; s'] ps d) x = None.
Proof.
  intros c k s p ps d x H. split.
  - unfold avg_pool_module, pool_from_onnx. cbn [all_the_same forallb Nat.eqb andb kernel_shape strides pads]. rewrite Nat.eqb_refl. cbn [andb nth_error bind]. assert (G : avg_pool c [k; k] [s; s] [p; p] x = onnx_avg_pool c [k; k] [s; s] [p; p] [p; p] x) by (unfold avg_pool, onnx_avg_pool; destruct (shape x) as [|B [|C L]]; try reflexivity; rewrite conv_size_symmetric; reflexivity). rewrite <- G. destruct H as [->|[-> ->]]; reflexivity.
  - intros ks s' N. unfold avg_pool_module, pool_from_onnx. cbn [all_the_same forallb Nat.eqb andb strides]. destruct (Nat.eqb_spec s s'); [contradiction|]. cbn [andb]. now rewrite andb_false_r.
Qed.
(** C85: Refuted: the check for square kernels compares a list with one string, so a kernel of kh rows and kw columns becomes kh by kh. *)
Lemma k_C85_kernel_refuted : forall c kh kw x B C H W y z, shape x = [B; C; H; W] -> kh <> kw -> avg_pool_module c (mkPool [kh; kw] [1; 1]%nat None None) x = Some y -> onnx_avg_pool c [kh; kw] [1; 1]%nat [0; 0]%nat [0; 0]%nat x = Some z ->
  shape y = [B; C; H - kh + 1; W - kh + 1]%nat /\ shape z = [B; C; H - kh + 1; W - kw + 1]%nat /\ shape y <> shape z.
Proof.
  intros c kh kw x B C H W y z Hx Nk. unfold avg_pool_module, pool_from_onnx. cbn [all_the_same forallb Nat.eqb andb kernel_shape strides pads nth_error bind]. unfold avg_pool, onnx_avg_pool. rewrite Hx. cbn [length repeat conv_size onnx_conv_size].
  intros Hy Hz. destruct (_ && _) eqn:C1 in Hy; [|discriminate]. destruct (_ && _) eqn:C2 in Hy; [|discriminate]. cbn [option_map bind] in Hy. destruct (_ && _) eqn:C3 in Hz; [|discriminate]. destruct (_ && _) eqn:C4 in Hz; [|discriminate]. cbn [option_map bind] in Hz. apply (f_equal (option_map shape)) in Hy, Hz. cbn [option_map shape] in Hy, Hz. rewrite !Nat.div_1_r in Hy. rewrite !Nat.div_1_r in Hz. assert (Some_inj : forall A (u v : A), Some u = Some v -> u = v) by (intros; congruence). apply Some_inj in Hy, Hz. rewrite <- Hy, <- Hz. clear Hy Hz.
  apply andb_true_iff in C1 as [C1 D1], C2 as [C2 D2], C3 as [C3 D3], C4 as [C4 D4]. apply Nat.leb_le in D1, D2, D3, D4. apply andb_true_iff in C1 as [_ K1], C2 as [_ K2], C3 as [_ K3], C4 as [_ K4]. apply Nat.leb_le in K1, K2, K3, K4.
  assert (A : [B; C; H + 2 * 0 - 1 * (kh - 1) - 1 + 1; W + 2 * 0 - 1 * (kh - 1) - 1 + 1]%nat = [B; C; H - kh + 1; W - kh + 1]%nat) by (repeat (f_equal; try lia)). assert (A' : [B; C; H + 0 + 0 - 1 * (kh - 1) - 1 + 1; W + 0 + 0 - 1 * (kw - 1) - 1 + 1]%nat = [B; C; H - kh + 1; W - kw + 1]%nat) by (repeat (f_equal; try lia)). rewrite A, A'. split; [reflexivity|]. split; [reflexivity|]. intros [= Q]. lia.
Qed.
(** C85: Refuted: the dilation of a MaxPool node is ignored: the module's windows of k by k give another output size than windows k apart by d. *)
Lemma k_C85_dilation_refuted : forall k d H, (1 < k)%nat -> (1 < d)%nat -> Z.of_nat (d * (k - 1)) < H ->
  pool_from_onnx (mkPool [k; k] [1; 1]%nat None (Some [d; d])) = Some (k, 1%nat, O) /\ pooling_output_shape H (Z.of_nat k) 0 0 1 (Z.of_nat d) false < pooling_output_shape H (Z.of_nat k) 0 0 1 1 false.
Proof. intros k d H Hk Hd HH. split; [reflexivity|]. unfold pooling_output_shape. cbn [andb]. rewrite !Z.div_1_r. nia. Qed.

(** *** Clip, Equal, Cast *)
Definition onnx_clip (min max : option Z) (v : Z) : Z := let v := match min with Some m => Z.max m v | None => v end in match max with Some m => Z.min m v | None => v end.
(** C85: Clip with both bounds is ONNX's. *)
Lemma k_C85_clip : forall S lo hi v, clip_module S (Some lo) (Some hi) v = onnx_clip (Some lo) (Some hi) v.
Proof. intros S lo hi v. unfold clip_module, clamped, onnx_clip. lia. Qed.
(** C85: Refuted: a missing bound is replaced by -1 or 1 instead of none. *)
Lemma k_C85_clip_refuted : forall S lo hi v, 0 < S -> (S < v -> lo <= S -> clip_module S (Some lo) None v = S /\ onnx_clip (Some lo) None v = v) /\ (v < - S -> - S <= hi -> clip_module S None (Some hi) v = - S /\ onnx_clip None (Some hi) v = v) /\ (S < Z.abs v -> clip_module S None None v <> onnx_clip None None v).
Proof. intros S lo hi v HS. unfold clip_module, clamped, onnx_clip. repeat split; lia. Qed.
(** C85: Equal on tensors of one shape compares the elements. *)
Lemma k_C85_equal : forall x y, shape x = shape y -> exists z, equal_module x y = inr z /\ shape z = shape x /\ forall ix, at_ z ix = (if Z.eq_dec (at_ x ix) (at_ y ix) then 1 else 0).
Proof. intros x y H. unfold equal_module. rewrite (proj2 (index_eqb_spec _ _) H). eexists. split; [reflexivity|]. split; [reflexivity|]. intros ix. cbn [at_]. destruct (Z.eqb_spec (at_ x ix) (at_ y ix)), (Z.eq_dec (at_ x ix) (at_ y ix)); congruence. Qed.
(** C85: Refuted: shapes that broadcast give Python's False, not a tensor. *)
Lemma k_C85_equal_refuted : forall x y n, shape x = [n] -> shape y = [] -> bshape (shape x) (shape y) = Some [n] /\ equal_module x y = inl false.
Proof. intros x y n Hx Hy. unfold equal_module. rewrite Hx, Hy. split; reflexivity. Qed.
(** the numbers of ONNX's TensorProto.DataType, for types that PyTorch has *)
Definition onnx_dtype (number : nat) : option dtype :=
  match number with
  | 1 => Some Float32 | 2 => Some Uint8 | 3 => Some Int8 | 5 => Some Int16 | 6 => Some Int32 | 7 => Some Int64 | 9 => Some Bool | 10 => Some Float16 | 11 => Some Float64 | 14 => Some Complex64 | 15 => Some Complex128 | 16 => Some Bfloat16
  | _ => None
  end%nat.
(** C85: Refuted: no ONNX type is cast to itself; float becomes int8, and bfloat16 is refused. *)
Lemma k_C85_cast_refuted : (forall number t, onnx_dtype number = Some t -> cast_from_onnx number <> Some t) /\ cast_from_onnx 1 = Some Int8 /\ cast_from_onnx 16 = None.
Proof.
  split; [|split; reflexivity]. intros number t H E. do 17 (destruct number as [|number]; [first [discriminate H|injection H as <-; first [discriminate E|cbn in E; discriminate E]]|]). discriminate H.
Qed.
