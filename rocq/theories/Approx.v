(** Approximated functions: crypten/common/functions/approximations.py and the parts of power.py and util.py they use, at one element.

    The numbers are reals and every addition, multiplication and division by a public number is exact: what remains is the error of the method itself.
    Rounding to fixed point and overflow are not part of this model (C04, C11, C15 and C18 bound one operation). *)
Require Import List Reals ZArith Arith Bool.
From Verif Require Import Ring64 Tensor Rtensor Realgrad.
Import ListNotations.
Open Scope R_scope.

(** the entries of [cfg.functions] (configs/default.yaml:10-42); initial values are numbers or null, since a configuration holds no tensors *)
Inductive reciprocal_methods := NR | Log | Unknown_reciprocal.
Inductive sigmoid_methods := Chebyshev | Reciprocal | Unknown_sigmoid.
Record config := mkConfig {
  exp_iterations : nat;
  reciprocal_method : reciprocal_methods; reciprocal_nr_iters : nat; reciprocal_log_iters : nat; reciprocal_all_pos : bool; reciprocal_initial : option R;
  sqrt_nr_iters : nat; sqrt_nr_initial : option R;
  sigmoid_tanh_method : sigmoid_methods; sigmoid_tanh_terms : nat;
  log_iterations : nat; log_exp_iterations : nat; log_order : nat;
  trig_iterations : nat; erf_iterations : nat }.
Definition default : config := mkConfig 8 NR 10 1 false None 3 None Reciprocal 32 2 8 8 10 8.
(** [cfg.temp_override] of one or several entries (C37) *)
Definition with_exp_iterations (n : nat) (c : config) : config :=
  mkConfig n (reciprocal_method c) (reciprocal_nr_iters c) (reciprocal_log_iters c) (reciprocal_all_pos c) (reciprocal_initial c) (sqrt_nr_iters c) (sqrt_nr_initial c) (sigmoid_tanh_method c) (sigmoid_tanh_terms c) (log_iterations c) (log_exp_iterations c) (log_order c) (trig_iterations c) (erf_iterations c).
Definition with_reciprocal (iters : nat) (all_pos : bool) (initial : option R) (c : config) : config :=
  mkConfig (exp_iterations c) (reciprocal_method c) iters (reciprocal_log_iters c) all_pos initial (sqrt_nr_iters c) (sqrt_nr_initial c) (sigmoid_tanh_method c) (sigmoid_tanh_terms c) (log_iterations c) (log_exp_iterations c) (log_order c) (trig_iterations c) (erf_iterations c).
Definition with_all_pos (c : config) : config := with_reciprocal (reciprocal_nr_iters c) true (reciprocal_initial c) c.

Inductive error := ValueError | AttributeError.
Definition outcome := (error + R)%type.
Definition bind (r : outcome) (f : R -> outcome) : outcome := match r with inl e => inl e | inr v => f v end.
Definition after (r : outcome) (f : R -> R) : outcome := bind r (fun v => inr (f v)).

(** 34-52: 1 + x / 2^iters, squared [iters] times *)
Definition exp_approx (iters : nat) (x : R) : R := Nat.iter iters (fun r => r * r) (1 + x / 2 ^ iters).
Definition mpc_exp (c : config) (x : R) : R := exp_approx (exp_iterations c) x.

(** 55-104.  The first estimate is computed before the number of iterations of exp is overridden. *)
Definition log_step (c : config) (x y : R) : R :=
  let h := 1 - x * mpc_exp (with_exp_iterations (log_exp_iterations c) c) (- y) in
  y - polynomial (map (fun i => 1 / INR (i + 1)) (seq 0 (log_order c))) h.
Definition log_initial (c : config) (x : R) : R := x / 120 - mpc_exp c (- (x * 2 + 1)) * 20 + 3.
Definition log_main (c : config) (x : R) : R := Nat.iter (log_iterations c) (log_step c x) (log_initial c x).
Definition mpc_log (c : config) (input_in_01 : bool) (x : R) : R := if input_in_01 then log_main c (x * 100) - 4605170 / 1000000 else log_main c x.

(** 156-175; the override of the log method names an entry, functions.log_iters, that no function reads *)
Definition nr_initial (c : config) (x : R) : R := match reciprocal_initial c with None => 3 * mpc_exp c (1 - 2 * x) + 3 / 1000 | Some v => v end.
Definition nr_step (x result : R) : R := result + (result - result * result * x).
Definition reciprocal_positive (c : config) (x : R) : outcome :=
  match reciprocal_method c with
  | NR => inr (Nat.iter (reciprocal_nr_iters c) (nr_step x) (nr_initial c x))
  | Log => inr (mpc_exp c (- mpc_log c false x))
  | Unknown_reciprocal => inl ValueError
  end.
(** 150-154 *)
Definition reciprocal_signed (c : config) (x : R) : outcome :=
  if reciprocal_all_pos c then reciprocal_positive c x
  else let sgn := sign x in after (reciprocal_positive (with_all_pos c) (sgn * x)) (fun r => sgn * r).
(** 107-175 *)
Definition mpc_reciprocal (c : config) (input_in_01 : bool) (x : R) : outcome :=
  if input_in_01 then after (reciprocal_signed (with_all_pos c) (x * 64)) (fun r => r * 64) else reciprocal_signed c x.

(** 178-204: y.mul_ is not defined for a number *)
Definition sqrt_step (x y : R) : R := y * (3 - x * (y * y)) / 2.
Definition sqrt_initial (c : config) (x : R) : R := mpc_exp c (- (x / 2 + 2 / 10)) * (22 / 10) + 2 / 10 - x / 1024.
Definition mpc_inv_sqrt (c : config) (x : R) : outcome :=
  match sqrt_nr_initial c with
  | None => inr (Nat.iter (sqrt_nr_iters c) (sqrt_step x) (sqrt_initial c x))
  | Some y => match sqrt_nr_iters c with O => inr y | S _ => inl AttributeError end
  end.
(** 207-221: the number returned without iterations has no mul_ either *)
Definition mpc_sqrt (c : config) (x : R) : outcome := match sqrt_nr_initial c with None => after (mpc_inv_sqrt c x) (fun r => r * x) | Some _ => inl AttributeError end.

(** 224-245: the first squaring is done in any case *)
Definition eix_step (p : R * R) : R * R := let '(re, im) := p in (re * re - im * im, im * re * 2).
Definition eix (c : config) (x : R) : R * R :=
  let im := x / 2 ^ trig_iterations c in
  Nat.iter (trig_iterations c - 1) eix_step (1 - im * im, im * 2).
(** 248-272 *)
Definition mpc_cos (c : config) (x : R) : R := fst (eix c x).
Definition mpc_sin (c : config) (x : R) : R := snd (eix c x).

(** util.py:32-53: coefficient j of [func] on [-1, 1]; [sum_n] is a sum over 0 .. n-1 *)
Definition node (terms k : nat) : R := cos ((INR k + 1 / 2) * PI / INR terms).
Definition chebyshev_coefficient (func : R -> R) (terms j : nat) : R :=
  2 / INR terms * rsumn terms (fun k => func (node terms k) * cos (INR j * (INR k + 1 / 2) * PI / INR terms)).
(** 365-392, as the list of the polynomials of degree 1, 3, ..., newest first *)
Fixpoint chebyshev_more (y : R) (n : nat) (ps : list R) : list R :=
  match n with O => ps | S n => chebyshev_more y n (match ps with p1 :: p2 :: _ => (y * p1 - p2) :: ps | _ => ps end) end.
Definition chebyshev_polynomials (x : R) (terms : nat) : option (list R) :=
  if negb (Nat.even terms) || Nat.ltb terms 6 then None
  else let y := 4 * (x * x) - 2 in let z := y - 1 in Some (rev (chebyshev_more y (terms / 2 - 2) [z * x; x])).
(** hardtanh with its default bounds (C30, C66) *)
Definition hardtanh (x : R) : R := Rmax (-1) (Rmin 1 x).
Definition tanh_chebyshev (c : config) (x : R) : outcome :=
  let terms := sigmoid_tanh_terms c in
  match chebyshev_polynomials x terms with
  | None => inl ValueError
  | Some ps => inr (hardtanh (weighted ps (map (fun j => chebyshev_coefficient tanh terms (2 * j + 1)) (seq 0 (terms / 2)))))
  end.
(** 276-323.  The exponential is computed before the overrides take effect. *)
Definition sigmoid_reciprocal (c : config) (x : R) : outcome :=
  let l := ltz x in let sgn := 1 - 2 * l in
  let denominator := mpc_exp c (- (x * sgn)) + 1 in
  after (mpc_reciprocal (with_reciprocal 3 true (Some (75 / 100)) (with_exp_iterations 9 c)) false denominator)
        (fun pos_output => if Rlt_dec x 0 then 1 - pos_output else pos_output).
Definition mpc_sigmoid (c : config) (x : R) : outcome :=
  match sigmoid_tanh_method c with
  | Chebyshev => after (tanh_chebyshev c (x / 2)) (fun t => t / 2 + 1 / 2)
  | Reciprocal => sigmoid_reciprocal c x
  | Unknown_sigmoid => inl ValueError
  end.
(** 326-362 *)
Definition mpc_tanh (c : config) (x : R) : outcome :=
  match sigmoid_tanh_method c with
  | Reciprocal => after (mpc_sigmoid c (x * 2)) (fun s => s * 2 - 1)
  | Chebyshev => tanh_chebyshev c x
  | Unknown_sigmoid => inl ValueError
  end.
(** 395-405, with pow as it is (C43) *)
Definition mpc_erf (c : config) (x : R) : R :=
  fold_left (fun output n => output + powi x (2 * Z.of_nat n + 1) * ((-1) ^ n / (INR (fact n) * (2 * INR n + 1)))) (seq 1 (erf_iterations c)) x * (2 / sqrt PI).

(** 409-424: one line of values (with an empty line the code raises; not modelled) *)
Fixpoint maximum (x : R) (xs : list R) : R := match xs with [] => x | y :: ys => maximum (Rmax x y) ys end.
Definition total (xs : list R) : R := fold_right Rplus 0 xs.
Definition mpc_softmax (c : config) (xs : list R) : error + list R :=
  match xs with
  | [] => inr []
  | [_] => inr [1]
  | x :: rest =>
      let maximum_value := maximum x rest in
      let numerator := map (fun v => mpc_exp c (v - maximum_value)) xs in
      match mpc_reciprocal (with_all_pos c) false (total numerator) with
      | inl e => inl e
      | inr inv_denominator => inr (map (fun v => v * inv_denominator) numerator)
      end
  end.
(** 427-445 *)
Definition mpc_log_softmax (c : config) (xs : list R) : list R :=
  match xs with
  | [] => []
  | [_] => [0]
  | x :: rest =>
      let maximum_value := maximum x rest in
      let logits := map (fun v => v - maximum_value) xs in
      let normalize_term := total (map (mpc_exp c) logits) in
      map (fun v => v - mpc_log c false normalize_term) logits
  end.
