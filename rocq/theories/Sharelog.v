(** log and log_softmax (crypten/common/functions/approximations.py) on shares, with the rounding of every operation; conventions as in Shareapprox.v.
    One element, log_softmax one line.  Python floats are exact here (the coefficients of the polynomial are float32 in the code). *)
Require Import ZArith List Bool QArith.
From Verif Require Import Ring64 Encoder Arith Beaver Trunc Provider Binary Compare Maximum Regular Shareapprox.
Import ListNotations.
Open Scope Z_scope.

Section Log.
  Context {pr : provider}.
  Variable chk : check.
  (** 95-97: [self.div(120) - exp(self.mul(2).add(1.0).neg()).mul(20) + 3.0]; [d] = exp_iterations *)
  Definition log_initialv (d : nat) (x : num) : runo pr num :=
    t <~ divv chk x 120 ;; e <~ expv chk d (neg_num (add_num (muli_num 2 x) (AFloat 1))) ;;
    okr (add_num (sub_num t (AEnc (muli_num 20 e))) (AFloat 3)).
  (** 103: [[1 / (i + 1) for i in range(order)]] *)
  Definition householder (order : nat) : list coeff := map (fun i => KFloat (1 # Pos.of_succ_nat i)) (seq 0 order).
  (** 102-103: [h = 1 - self * exp(-y)], [y -= h.polynomial(...)]; [d] = log_exp_iterations *)
  Definition log_stepv (d order : nat) (x y : num) : runo pr num :=
    e <~ expv chk d (neg_num y) ;; p <~ mulv chk x e ;; q <~ polynomial chk (one_minus p) (householder order) ;; okr (sub_num y (AEnc q)).
  (** 91-104, [iters] = log_iterations *)
  Definition logv (d d' order iters : nat) (x : num) : runo pr num :=
    y <~ log_initialv d x ;; repeatv iters (log_stepv d' order x) y.
  (** 86-87: [input_in_01], [log(self.mul(100)) - 4.605170] *)
  Definition log01v (d d' order iters : nat) (x : num) : runo pr num :=
    y <~ logv d d' order iters (muli_num 100 x) ;; okr (sub_num y (AFloat (460517 # 100000))).
End Log.
Section Logsoftmax.
  Context {pr : provider}.
  (** as in Sharesoft.v *)
  Variables (D : Z) (p : nat) (local_bits : run pr (list Z)) (log_steps cascade_steps isqrt : nat -> nat) (me : method).
  Variable chk : check.
  (** 438-445: a line of one element is [self.new(torch.zeros_like(self.data))], an encryption of 0 *)
  Definition log_softmaxv (d d' order iters : nat) (xs : list num) : runo pr (list num) :=
    match xs with
    | [_] => z <~ lift (next_zero pr) ;; okr [mkNum z D]
    | _ =>
        m <~ lift (max_dim D p local_bits log_steps cascade_steps isqrt me xs) ;;
        let logits := map (fun x => sub_num x (AEnc (fst m))) xs in
        e <~ mapO (expv chk d) logits ;;
        l <~ logv chk d d' order iters (sum_num e) ;;
        okr (map (fun x => sub_num x (AEnc l)) logits)
    end.
End Logsoftmax.
