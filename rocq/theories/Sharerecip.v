(** reciprocal (crypten/common/functions/approximations.py:107-175) on shares with both of its methods and input_in_01, with the rounding of every
    operation; conventions as in Shareapprox.v.  One element; no initial value is configured (Shareapprox.v has the numbers sigmoid configures). *)
Require Import ZArith List Bool QArith.
From Verif Require Import Ring64 Encoder Arith Beaver Trunc Provider Binary Compare Maximum Regular Shareapprox Sharelog.
Import ListNotations.
Open Scope Z_scope.

(** functions.reciprocal_method: 'NR', 'log' or another string *)
Inductive rmethod := ByNewton | ByLog | ByOther.
(** the settings reciprocal reads, directly and through exp and log (configs/default.yaml, functions) *)
Record rconfig := mkRconfig { r_method : rmethod; r_all_pos : bool; r_exp_iterations : nat; r_nr_iters : nat; r_log_iterations : nat; r_log_exp_iterations : nat; r_log_order : nat }.
(** temp_override of reciprocal_all_pos *)
Definition with_positive (c : rconfig) : rconfig := mkRconfig (r_method c) true (r_exp_iterations c) (r_nr_iters c) (r_log_iterations c) (r_log_exp_iterations c) (r_log_order c).

Section Reciprocal.
  Context {pr : provider}.
  (** scale of the default encoder, as in Compare.v *)
  Variable D : Z.
  Variable chk : check.
  (** 170-173: [exp(-log(self))].  The override is of functions.log_iters, which nothing reads: log runs log_iterations *)
  Definition recip_logv (c : rconfig) (x : num) : runo pr num :=
    l <~ logv chk (r_exp_iterations c) (r_log_exp_iterations c) (r_log_order c) (r_log_iterations c) x ;; expv chk (r_exp_iterations c) (neg_num l).
  (** 156-175 *)
  Definition recip_positivev (c : rconfig) (x : num) : runo pr num :=
    match r_method c with
    | ByNewton => reciprocal_posv chk (r_exp_iterations c) (r_nr_iters c) x
    | ByLog => recip_logv c x
    | ByOther => raise
    end.
  (** 145-154 *)
  Definition recip_signedv (c : rconfig) (x : num) : runo pr num :=
    if r_all_pos c then recip_positivev c x
    else sgn <~ lift (n_sign D x) ;; p <~ mulv chk sgn x ;; r <~ recip_positivev c p ;; mulv chk sgn r.
  (** 138-143: [reciprocal(self.mul(64)).mul(64)] with all_pos *)
  Definition recipv (c : rconfig) (input_in_01 : bool) (x : num) : runo pr num :=
    if input_in_01 then r <~ recip_signedv (with_positive c) (muli_num 64 x) ;; okr (muli_num 64 r) else recip_signedv c x.
End Reciprocal.
