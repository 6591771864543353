(** C63: the gradient functions of the structural operations. *)
Require Import List ZArith Bool Arith Lia.
From Verif Require Import Ring64 Tensor Tensor_proofs Gradfn Broadcast_claims Gradfn_claims Gradfn_claims2 Gradfn_claims3 Gradfn_claims4 Gradfn_claims5 Gradfn_claims6.
Import ListNotations.
Open Scope Z_scope.

(** [gradient_of fwd bwd s]: on every input of shape [s] on which the operation is defined, the backward function succeeds, returns a tensor of the input's shape, and that tensor g' gives the exact change of every weighted sum of the output: <g, fwd (x + h)> = <g, fwd x> + <g', h> for all h. *)
Theorem C63_reorder : forall s, gradient_of t_ t_backward s /\ (forall d1 d2, gradient_of (transpose d1 d2) (transpose_backward d1 d2) s) /\ (forall dims, Forall (fun d => 0 <= d) dims -> gradient_of (permute dims) (permute_backward dims) s)
  /\ (forall dims, gradient_of (flip dims) (flip_backward dims) s) /\ (forall shifts dims, gradient_of (roll_dims shifts dims) (roll_backward shifts dims) s) /\ (forall shift, gradient_of (fun x => Some (roll_flat shift x)) (roll_flat_backward shift) s).
Proof. intros s. exact (conj (k_t s) (conj (k_transpose s) (conj (k_permute s) (conj (k_flip s) (conj (k_roll s) (k_roll_flat s)))))). Qed.
Print Assumptions C63_reorder.

Theorem C63_reshape : forall s, (forall size, gradient_of (reshape size) (reshape_backward s) s) /\ (forall a b, gradient_of (flatten a b) (reshape_backward s) s) /\ (forall d, gradient_of (unsqueeze d) (unsqueeze_backward d) s)
  /\ (forall d, gradient_of (squeeze d) (squeeze_backward (squeeze_dims d s)) s) /\ gradient_of (fun x => Some (squeeze_all x)) (squeeze_backward (squeeze_all_dims s)) s.
Proof. intros s. exact (conj (k_reshape s) (conj (k_flatten s) (conj (k_unsqueeze s) (conj (k_squeeze s) (k_squeeze_all s))))). Qed.
Print Assumptions C63_reshape.

Theorem C63_select : forall s, (forall d idx, gradient_of (index_select d idx) (index_select_backward s d idx) s) /\ (forall d t idx, gradient_of (gather d t idx) (gather_backward s d t idx) s)
  /\ (forall t idx, (forall ix jx, valid t ix -> valid t jx -> idx ix = idx jx -> ix = jx) -> gradient_of (take_flat t idx) (take_backward s t idx) s)
  /\ (forall d start len, (d < length s)%nat -> 0 <= start -> gradient_of (narrow (Z.of_nat d) start len) (narrow_backward (Z.of_nat (pos d s)) (Z.of_nat d) start len) s)
  /\ (forall p v, Forall (fun z => 0 <= z) p -> (exists m, length p = (2 * m)%nat /\ (m <= length s)%nat) -> gradient_of (pad p v) (pad_backward p) s).
Proof. intros s. exact (conj (k_index_select s) (conj (k_gather s) (conj (k_take s) (conj (k_narrow s) (k_pad s))))). Qed.
Print Assumptions C63_select.

Theorem C63_reduce : forall s, (forall dim keepdim, gradient_of (sum_forward dim keepdim) (sum_backward s dim keepdim) s) /\ (forall d, gradient_of (cumsum d) (cumsum_backward d) s) /\ gradient_of (fun x => Some (neg x)) neg_backward s /\ (forall n, gradient_of trace (trace_backward n) [n; n]).
Proof. intros s. exact (conj (k_sum s) (conj (k_cumsum s) (conj (k_neg s) k_trace))). Qed.
Print Assumptions C63_reduce.

(** Binary operators with broadcasting, in each argument. *)
Theorem C63_left : forall s y, (forall t, bshape s (shape y) = Some t -> nonempty s t) ->
  gradient_of (fun x => add x y) (fun g => fst (add_backward s (shape y) g)) s /\ gradient_of (fun x => sub x y) (fun g => fst (sub_backward s (shape y) g)) s /\ gradient_of (fun x => add (neg x) y) (fun g => fst (rsub_backward s (shape y) g)) s
  /\ forall x0, shape x0 = s -> gradient_of (fun x => mul x y) (fun g => fst (mul_backward x0 y g)) s.
Proof. intros s y H. refine (conj (k_add_left s y H) (conj (k_sub_left s y H) (conj (k_rsub_left s y H) _))). intros x0 <-. exact (k_mul_left x0 y H). Qed.
Print Assumptions C63_left.
Theorem C63_right : forall s x, (forall t, bshape (shape x) s = Some t -> nonempty s t) ->
  gradient_of (fun y => add x y) (fun g => snd (add_backward (shape x) s g)) s /\ gradient_of (fun y => sub x y) (fun g => snd (sub_backward (shape x) s g)) s /\ gradient_of (fun y => add (neg x) y) (fun g => snd (rsub_backward (shape x) s g)) s
  /\ forall y0, shape y0 = s -> gradient_of (fun y => mul x y) (fun g => snd (mul_backward x y0 g)) s.
Proof. intros s x H. refine (conj (k_add_right s x H) (conj (k_sub_right s x H) (conj (k_rsub_right s x H) _))). intros y0 <-. exact (k_mul_right x y0 H). Qed.
Print Assumptions C63_right.

(** Operations on a list of tensors: one gradient per tensor. *)
Theorem C63_lists : forall d, gradients_of (cat d) (cat_backward d) /\ gradients_of (stack d) (fun _ => stack_backward d).
Proof. intros d. exact (conj (k_cat d) (k_stack d)). Qed.
Print Assumptions C63_lists.

(** A negative dimension is accepted by the forward functions of permute and narrow, and the backward function then raises on every gradient. *)
Theorem C63_negative_dim_refuted : (forall dims x y g, permute dims x = Some y -> Exists (fun d => d < 0) dims -> permute_backward dims g = None) /\ (forall size d start len g, d < 0 -> narrow_backward size d start len g = None).
Proof. split; [exact k_permute_negative|exact k_narrow_negative]. Qed.
Print Assumptions C63_negative_dim_refuted.
(** Cropping by a negative padding: the forward function is defined and the backward function raises on every gradient. *)
Theorem C63_crop_refuted : forall s n b a v x y, shape x = s ++ [n] -> b < 0 \/ a < 0 -> 0 < Z.of_nat n + b -> pad [b; a] v x = Some y -> forall g, shape g = shape y -> pad_backward [b; a] g = None.
Proof. exact k_pad_crop. Qed.
Print Assumptions C63_crop_refuted.
(** The gradient of the trace of a rectangular matrix has the wrong shape. *)
Theorem C63_trace_refuted : forall n m g, n <> m -> shape g = [] -> exists g', trace_backward n g = Some g' /\ shape g' = [n; n] /\ shape g' <> [n; m].
Proof. exact k_trace_rectangular. Qed.
Print Assumptions C63_trace_refuted.

(** Concrete cases. *)
Definition x0 : tensor := mkT [2; 3]%nat (fun ix => Z.of_nat (10 * pos 0 ix + pos 1 ix)).
Definition read (o : option tensor) : option (list nat * list Z) := option_map (fun x => (shape x, map (at_ x) (indices (shape x)))) o.
Example C63_case_permute : read (permute [1; 0] x0) = Some ([3; 2]%nat, [0; 10; 1; 11; 2; 12]) /\ read (do y <- permute [1; 0] x0; permute_backward [1; 0] y) = read (Some x0).
Proof. split; reflexivity. Qed.
Example C63_case_roll : read (roll_dims [1; 2] [0; 1] x0) = Some ([2; 3]%nat, [11; 12; 10; 1; 2; 0]) /\ read (do y <- roll_dims [1; 2] [0; 1] x0; roll_backward [1; 2] [0; 1] y) = read (Some x0).
Proof. split; reflexivity. Qed.
Example C63_case_narrow : read (narrow 1 1 2 x0) = Some ([2; 2]%nat, [1; 2; 11; 12]) /\ read (do y <- narrow 1 1 2 x0; narrow_backward 3 1 1 2 y) = Some ([2; 3]%nat, [0; 1; 2; 0; 11; 12]).
Proof. split; reflexivity. Qed.
Example C63_case_pad : read (pad [1; 0; 0; 1] 7 x0) = Some ([3; 4]%nat, [7; 0; 1; 2; 7; 10; 11; 12; 7; 7; 7; 7]) /\ read (do y <- pad [1; 0; 0; 1] 7 x0; pad_backward [1; 0; 0; 1] y) = read (Some x0) /\ Forall (fun z => 0 <= z) [1; 0; 0; 1] /\ exists m, length [1; 0; 0; 1] = (2 * m)%nat /\ (m <= 2)%nat.
Proof. split; [reflexivity|split; [reflexivity|split; [repeat constructor; lia|exists 2%nat; split; [reflexivity|lia]]]]. Qed.
Example C63_case_gather : read (index_select 1 [2; 0; 2]%nat x0) = Some ([2; 3]%nat, [2; 0; 2; 12; 10; 12]) /\ read (index_select_backward [2; 3]%nat 1 [2; 0; 2]%nat (mkT [2; 3]%nat (fun _ => 1))) = Some ([2; 3]%nat, [1; 0; 2; 1; 0; 2]).
Proof. split; reflexivity. Qed.
Example C63_case_cumsum : read (cumsum 1 x0) = Some ([2; 3]%nat, [0; 1; 3; 10; 21; 33]) /\ read (cumsum_backward 1 (mkT [2; 3]%nat (fun _ => 1))) = Some ([2; 3]%nat, [3; 2; 1; 3; 2; 1]).
Proof. split; reflexivity. Qed.
Example C63_case_cat : read (cat (-1) [x0; mkT [2; 1]%nat (fun _ => 5)]) = Some ([2; 4]%nat, [0; 1; 2; 5; 10; 11; 12; 5]) /\
  option_map (map (fun y => read (Some y))) (do y <- cat (-1) [x0; mkT [2; 1]%nat (fun _ => 5)]; cat_backward (-1) [x0; mkT [2; 1]%nat (fun _ => 5)] y) = Some [read (Some x0); Some ([2; 1]%nat, [5; 5])].
Proof. split; reflexivity. Qed.
Example C63_case_mul : bshape [1; 3]%nat [2; 1]%nat = Some [2; 3]%nat /\ nonempty [1; 3]%nat [2; 3]%nat.
Proof. split; [reflexivity|]. intros [|[|d]] H E; cbn in *; [discriminate|discriminate|lia]. Qed.
Example C63_case_negative : read (permute [-1; 0] x0) = read (permute [1; 0] x0) /\ Exists (fun d => d < 0) [-1; 0] /\ read (narrow (-1) 1 2 x0) = read (narrow 1 1 2 x0).
Proof. split; [reflexivity|split; [|reflexivity]]. apply Exists_cons_hd. lia. Qed.
Example C63_case_crop : read (pad [-1; 0] 0 x0) = Some ([2; 2]%nat, [1; 2; 11; 12]).
Proof. reflexivity. Qed.
(** Further refutations, on one input each: a repeated index of take receives one of its gradients instead of their sum, and a negative start gives a gradient at the wrong place. *)
Theorem C63_take_repeated_refuted : exists s t idx, take_flat t idx (mkT s (fun _ => 0)) <> None /\ ~ gradient_of (take_flat t idx) (take_backward s t idx) s.
Proof.
  exists [2]%nat, [2]%nat, (fun _ => 0%nat). split; [discriminate|]. intros G. destruct (G (mkT [2]%nat (fun _ => 0)) _ eq_refl eq_refl (mkT [2]%nat (fun _ => 1)) eq_refl) as (g' & E & S & H). injection E as <-.
  destruct (H (mkT [2]%nat (fun _ => 1)) eq_refl) as (yh & E & Sh & I). injection E as <-. discriminate I.
Qed.
Print Assumptions C63_take_repeated_refuted.
Theorem C63_negative_start_refuted : exists s start len, narrow 0 start len (mkT s (fun _ => 0)) <> None /\ ~ gradient_of (narrow 0 start len) (narrow_backward (Z.of_nat (pos 0 s)) 0 start len) s.
Proof.
  exists [3]%nat, (-2), 1. split; [discriminate|]. intros G. destruct (G (mkT [3]%nat (fun _ => 0)) _ eq_refl eq_refl (mkT [1]%nat (fun _ => 1)) eq_refl) as (g' & E & S & H). injection E as <-.
  destruct (H (mkT [3]%nat (fun _ => 1)) eq_refl) as (yh & E & Sh & I). injection E as <-. discriminate I.
Qed.
Print Assumptions C63_negative_start_refuted.
