(** Elementwise autograd functions (crypten/gradients.py) over the numbers the encrypted tensors stand for.

    Each operation is a pair: [f_forward] returns what [ctx] saves and the result, [f_backward] takes what was saved and the incoming gradient.
    The secure primitives (exp, log, reciprocal, inv_sqrt, tanh, sigmoid, cossin, comparison) are the ideal real functions: their approximation error
    and the rounding to fixed point are not part of this model.  Operands of binary operations have one size (broadcasting is C50). *)
Require Import List Reals ZArith Arith Bool.
From Verif Require Import Ring64 Tensor Rtensor.
Import ListNotations.
Open Scope R_scope.

(** mpc/primitives (the comparison circuits, C28): [x < 0] as 0/1 *)
Definition ltz (x : R) : R := if Rlt_dec x 0 then 1 else 0.
(** logic.py:42-44 [gt] *)
Definition gt (x y : R) : R := ltz (- x + y).
(** logic.py:73-75 [sign] (0 is considered positive) *)
Definition sign (x : R) : R := 1 - 2 * ltz x.
(** approximations.py: the ideal inv_sqrt and sigmoid *)
Definition inv_sqrt (x : R) : R := / sqrt x.
Definition sigmoid (x : R) : R := / (1 + exp (- x)).

(** gradients.py:481-492 *)
Definition relu_forward (x : rtensor) : rtensor * rtensor := let mask := rmap (fun a => gt a 0) x in (mask, rmul x mask).
Definition relu_backward (mask g : rtensor) : rtensor := rmul g mask.
(** gradients.py:495-526: [draw] is the tensor [torch.rand] returns.  The saved list is empty ([None]) in eval mode.  Not modelled: [inplace]. *)
Definition dropout_forward (p : R) (training : bool) (draw x : rtensor) : option (rtensor * R) * rtensor :=
  if negb training then (None, x)
  else let mask := rmap (fun u => if Rlt_dec p u then 1 else 0) draw in (Some (mask, p), rmul x (rmap (fun m => m / (1 - p)) mask)).
Definition dropout_backward (saved : option (rtensor * R)) (g : rtensor) : rtensor :=
  match saved with None => g | Some (mask, p) => rmul g (rmap (fun m => m / (1 - p)) mask) end.
(** gradients.py:530-567: one draw per entry of the first two dimensions, broadcast over the rest *)
Definition feature_dropout_forward (p : R) (training : bool) (draw x : rtensor) : option (rtensor * R) * rtensor :=
  if negb training then (None, x)
  else let mask := mkR (rshape x) (fun ix => if Rlt_dec p (rat draw (firstn 2 ix)) then 1 else 0) in (Some (mask, p), rmul x (rmap (fun m => m / (1 - p)) mask)).
(** gradients.py:570-581 *)
Definition tanh_forward (x : rtensor) : rtensor * rtensor := let a := rmap tanh x in (a, a).
Definition tanh_backward (a g : rtensor) : rtensor := rmul g (rmap (fun v => - (v * v) + 1) a).
(** gradients.py:584-611 *)
Definition hardtanh_forward (lo hi : R) (x : rtensor) : rtensor * rtensor :=
  if Req_EM_T lo hi then let grad := rmap (fun _ => 0) x in (grad, rmap (fun z => z + lo) grad)
  else
    let above := rmap (fun a => gt (a - lo) 0) x in let below := rmap (fun a => gt (hi - a) 0) x in
    let grad := rmap (fun s => s - 1) (rmap2 Rplus above below) in
    let result := rmul grad x in
    let result := rmap2 Rplus result (rmap (fun b => (1 - b) * lo) above) in
    (grad, rmap2 Rplus result (rmap (fun b => (1 - b) * hi) below)).
Definition hardtanh_backward (grad g : rtensor) : rtensor := rmul grad g.
(** gradients.py:628-653 *)
Definition relu6_forward (x : rtensor) : rtensor * rtensor :=
  let above := rmap (fun a => gt a 0) x in let below := rmap (fun a => gt (6 - a) 0) x in
  let grad := rmap (fun s => s - 1) (rmap2 Rplus above below) in
  (grad, rmap2 Rplus (rmul grad x) (rmap (fun b => (1 - b) * 6) below)).
Definition relu6_backward (grad g : rtensor) : rtensor := rmul grad g.
(** gradients.py:775-807, encrypted divisor *)
Definition div_forward (x y : rtensor) : (rtensor * rtensor) * rtensor := let r := rmap Rinv y in ((x, r), rmul x r).
Definition div_backward (saved : rtensor * rtensor) (g : rtensor) : rtensor * rtensor :=
  let '(x, r) := saved in (rmul r g, rmap Ropp (rmul (rmul (rmap Rsqr r) x) g)).
(** ... public divisor *)
Definition div_public_forward (y x : rtensor) : rtensor * rtensor := (y, rmap2 Rdiv x y).
Definition div_public_backward (y g : rtensor) : rtensor := rmap2 Rdiv g y.
(** gradients.py:810-829: [other / self] *)
Definition rdiv_forward (x other : rtensor) : (rtensor * rtensor) * rtensor := let r := rmap Rinv x in ((r, other), rmul r other).
Definition rdiv_backward (saved : rtensor * rtensor) (g : rtensor) : rtensor * rtensor :=
  let '(r, other) := saved in (rmap Ropp (rmul (rmul (rmap Rsqr r) other) g), rmul r g).
(** power.py:63-97 [polynomial] at one element: the terms x, x^2 are extended by multiplying all of them by the highest one *)
Fixpoint terms_grow (fuel k : nat) (terms : list R) : list R :=
  match fuel with
  | O => terms
  | S f => if Nat.ltb (length terms) k then terms_grow f k (terms ++ map (fun t => t * last terms 0) terms) else terms
  end.
Fixpoint weighted (terms coeffs : list R) : R := match terms, coeffs with t :: ts, c :: cs => t * c + weighted ts cs | _, _ => 0 end.
Definition polynomial (coeffs : list R) (x : R) : R :=
  match coeffs with [c] => x * c | _ => weighted (firstn (length coeffs) (terms_grow (length coeffs) (length coeffs) [x; x * x])) coeffs end.
(** gradients.py:832-846.  [coeffs *= ...] updates the saved tensor in place: the backward also returns its new contents.  [None]: [coeffs[0]] of an empty tensor. *)
Definition polynomial_forward (coeffs : list R) (x : rtensor) : (rtensor * list R) * rtensor := ((x, coeffs), rmap (polynomial coeffs) x).
Fixpoint times_arange (k : nat) (coeffs : list R) : list R := match coeffs with [] => [] | c :: cs => c * INR (k + 1) :: times_arange (S k) cs end.
Definition polynomial_backward (saved : rtensor * list R) (g : rtensor) : option (rtensor * list R) :=
  let '(x, coeffs) := saved in
  match times_arange 0 coeffs with
  | [] => None
  | c :: cs => Some (rmul (rmap (fun v => polynomial cs v + c) x) g, c :: cs)
  end.
(** power.py:16-45 [pow] at one element for an integer exponent ([fuel] bounds the recursion) *)
Fixpoint pow_loop (fuel : nat) (x : R) (p : Z) : R :=
  match fuel with
  | O => x
  | S f =>
      if (p <? -1)%Z then pow_loop f (/ x) (- p)
      else if (p =? -1)%Z then / x
      else if (p =? 0)%Z then 1
      else if (p =? 1)%Z then x
      else if (p =? 2)%Z then x * x
      else if (p mod 2 =? 0)%Z then pow_loop f (x * x) (p / 2)
      else pow_loop f (x * x * x) ((p - 1) / 2)
  end.
Definition powi (x : R) (p : Z) : R := pow_loop (S (S (Z.abs_nat p))) x p.
(** gradients.py:849-861 *)
Definition pow_forward (p : Z) (x : rtensor) : (rtensor * rtensor) * rtensor :=
  let grad_pow := rmap (fun v => powi v (p - 1)) x in let grad := rmap (fun v => v * IZR p) grad_pow in ((x, grad), rmul grad_pow x).
Definition pow_backward (saved : rtensor * rtensor) (g : rtensor) : rtensor := rmul (snd saved) g.
(** gradients.py:864-882.  The exponent is an integer (an int, or a float with an integer value) or another float. *)
Inductive exponent := Whole (p : Z) | Fractional (q : R).
Definition pos_pow_forward (e : exponent) (x : rtensor) : (rtensor * exponent) * rtensor :=
  match e with
  | Whole p => ((x, e), rmap (fun v => powi v p) x)
  | Fractional q => let l := rmap ln x in ((l, e), rmap (fun v => exp (v * q)) l)
  end.
Definition pos_pow_backward (saved : rtensor * exponent) (g : rtensor) : rtensor :=
  match snd saved with
  | Whole p => rmul (rmap (fun v => powi v (p - 1) * IZR p) (fst saved)) g
  | Fractional q => rmul (rmap (fun v => exp (v * (q - 1) * q)) (fst saved)) g
  end.
(** gradients.py:885-895 *)
Definition square_forward (x : rtensor) : rtensor * rtensor := (x, rmap (fun v => v * v) x).
Definition square_backward (x g : rtensor) : rtensor := rmul g (rmap (fun v => v * 2) x).
(** gradients.py:898-909 *)
Definition sqrt_forward (x : rtensor) : rtensor * rtensor := let r := rmap inv_sqrt x in (r, rmul r x).
Definition sqrt_backward (r g : rtensor) : rtensor := rmul (rmap (fun v => v / 2) r) g.
(** gradients.py:912-923 *)
Definition exp_forward (x : rtensor) : rtensor * rtensor := let y := rmap exp x in (y, y).
Definition exp_backward (y g : rtensor) : rtensor := rmul y g.
(** gradients.py:926-936 *)
Definition log_forward (x : rtensor) : rtensor * rtensor := (x, rmap ln x).
Definition log_backward (x g : rtensor) : rtensor := rmap2 Rdiv g x.
(** gradients.py:939-950 *)
Definition reciprocal_forward (x : rtensor) : rtensor * rtensor := let r := rmap Rinv x in (r, r).
Definition reciprocal_backward (r g : rtensor) : rtensor := rmul (rmap Ropp g) (rmap (fun v => v * v) r).
(** gradients.py:979-990, 993-1004: [cossin] returns the pair (cos, sin) *)
Definition cossin (x : rtensor) : rtensor * rtensor := (rmap cos x, rmap sin x).
Definition sin_forward (x : rtensor) : rtensor * rtensor := let cs := cossin x in (fst cs, snd cs).
Definition sin_backward (c g : rtensor) : rtensor := rmul g c.
Definition cos_forward (x : rtensor) : rtensor * rtensor := let cs := cossin x in (snd cs, fst cs).
Definition cos_backward (s g : rtensor) : rtensor := rmul g (rmap Ropp s).
(** gradients.py:1064-1075, 1078-1086 *)
Definition abs_forward (x : rtensor) : rtensor * rtensor := let s := rmap sign x in (s, rmul x s).
Definition abs_backward (s g : rtensor) : rtensor := rmul g s.
Definition sign_forward (x : rtensor) : unit * rtensor := (tt, rmap sign x).
Definition sign_backward (_ : unit) (g : rtensor) : rtensor := rmap2 Rminus g g.
(** gradients.py:1375-1386 *)
Definition sigmoid_forward (x : rtensor) : rtensor * rtensor := let p := rmap sigmoid x in (p, p).
Definition sigmoid_backward (p g : rtensor) : rtensor := rmul (rmul g p) (rmap (fun v => 1 - v) p).
