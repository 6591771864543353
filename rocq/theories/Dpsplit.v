(** Split learning with label privacy: crypten/nn/privacy/dp_split.py. Encrypted values are modelled by the reals (rationals) they stand for; fixed-point rounding is left out. *)
Require Import QArith List Bool Arith.
Import ListNotations.
Open Scope Q_scope.

(** One label tensor, elementwise. [mask]: the bernoulli draws of this call. *)
Definition flip_public (t m : Q) : Q := t + (m - 2 * t * m).           (* targets += flip_mask - 2 * targets * flip_mask, 272 *)
Definition flip_encrypted (p t m : Q) : Q := t + p - 2 * m * t.        (* targets + flip_probs - 2 * flip_mask * targets, 266 *)
(** _process_targets, 252-277: the value encrypted from the label party, and the caller's tensor on this party after the call *)
Definition process_targets (encrypted : bool) (rr_prob : option Q) (is_label_src : bool) (targets mask : list Q) : list Q * list Q :=
  match rr_prob with
  | None => (targets, targets)
  | Some p =>
      if encrypted then (map (fun tm => flip_encrypted p (fst tm) (snd tm)) (combine targets mask), targets)
      else if is_label_src then let targets := map (fun tm => flip_public (fst tm) (snd tm)) (combine targets mask) in (targets, targets)
      else (targets, targets)
  end.
(** several batches with one label tensor, as in several epochs over the same data: the labels used each time *)
Fixpoint epochs (rr_prob : option Q) (targets : list Q) (masks : list (list Q)) : list (list Q) * list Q :=
  match masks with
  | [] => ([], targets)
  | m :: masks => let (used, targets) := process_targets false rr_prob true targets m in let (rest, targets) := epochs rr_prob targets masks in (used :: rest, targets)
  end.

(** _add_dp_if_necessary, 341-354: who draws the noise; [noise_src] as given to the constructor *)
Inductive noise := NoNoise | Joint | From (src : nat).
Definition noise_source (noise_magnitude : option Q) (noise_src : option nat) : noise :=
  match noise_magnitude with
  | None => NoNoise
  | Some q => if Qeq_bool q 0 then NoNoise
              else match noise_src with Some (S n) => From (S n) | _ => Joint end      (* "if self.noise_src": 0 is false *)
  end.

(** Matrices as functions with given sizes *)
Fixpoint qsum (n : nat) (f : nat -> Q) : Q := match n with O => 0 | S n => qsum n f + f n end.
Definition matrix := nat -> nat -> Q.
Definition t (m : matrix) : matrix := fun i j => m j i.
Definition matmul (n : nat) (a b : matrix) : matrix := fun i j => qsum n (fun k => a i k * b k j).
(** _compute_last_layer_grad, 484-520, without noise: dLdZ.t().matmul(last_input) *)
Definition last_layer_grad (batch : nat) (dLdZ last_input : matrix) : matrix := matmul batch (t dLdZ) last_input.
(** _solve_dLdZ, 474-482: lstsq(last_input.t(), dLdW.t()) minimises this residual over all batch x classes matrices *)
Definition residual (batch classes features : nat) (last_input dLdW X : matrix) : Q :=
  qsum features (fun f => qsum classes (fun c => let r := matmul batch (t last_input) X f c - t dLdW f c in r * r)).
