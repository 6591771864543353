(** C76: tanh and sigmoid by Chebyshev polynomials (model: Approx.v). *)
Require Import List Reals ZArith Arith Bool Lia Lra.
From Verif Require Import Ring64 Tensor Rtensor Realgrad Approx Approx_claims Approxcheb_claims.
Import ListNotations.
Open Scope R_scope.

(** C76: for an even number of terms from 6 on, the polynomials are T_1, T_3, ..., T_(terms-1) at every x; any other number raises ValueError. *)
Theorem C76_polynomials : forall x terms, (forall p, (3 <= p)%nat -> terms = (2 * p)%nat -> chebyshev_polynomials x terms = Some (map (fun j => first_kind (2 * j + 1) x) (seq 0 p))) /\
  (Nat.odd terms = true \/ (terms < 6)%nat -> chebyshev_polynomials x terms = None).
Proof. exact k_C76_polynomials. Qed.
Print Assumptions C76_polynomials.
(** C76: such a number of terms makes tanh and sigmoid by Chebyshev fail for every input. *)
Theorem C76_terms : forall c x, sigmoid_tanh_method c = Chebyshev -> Nat.odd (sigmoid_tanh_terms c) = true \/ (sigmoid_tanh_terms c < 6)%nat -> mpc_tanh c x = inl ValueError /\ mpc_sigmoid c x = inl ValueError.
Proof. exact k_C76_terms. Qed.
Print Assumptions C76_terms.
(** C76: with any valid number of terms, tanh by Chebyshev is exact at each of the [terms] nodes cos((k + 1/2) pi / terms), and so is sigmoid at twice the nodes. *)
Theorem C76_nodes : forall c m, sigmoid_tanh_method c = Chebyshev -> Nat.even (sigmoid_tanh_terms c) = true -> (6 <= sigmoid_tanh_terms c)%nat -> (m < sigmoid_tanh_terms c)%nat ->
  let x := cos ((INR m + 1 / 2) * PI / INR (sigmoid_tanh_terms c)) in mpc_tanh c x = inr (tanh x) /\ mpc_sigmoid c (2 * x) = inr (/ (1 + exp (- (2 * x)))).
Proof. exact k_C76_nodes. Qed.
Print Assumptions C76_nodes.

(** three polynomials at 2: T_1 = 2, T_3 = 26, T_5 = 362 *)
Example C76_at_2 : chebyshev_polynomials 2 6 = Some [2; 26; 362] /\ chebyshev_polynomials 2 7 = None /\ chebyshev_polynomials 2 4 = None.
Proof.
  split; [|split; apply (proj2 (C76_polynomials 2 _)); [now left|right; lia]].
  rewrite (proj1 (C76_polynomials 2 6) 3%nat ltac:(lia) eq_refl). cbn [seq map Nat.mul Nat.add first_kind]. repeat f_equal; ring.
Qed.
Definition by_chebyshev (terms : nat) : config := mkConfig 8 NR 10 1 false None 3 None Chebyshev terms 2 8 8 10 8.
Example C76_first_node : let x := cos (PI / 64) in mpc_tanh (by_chebyshev 32) x = inr (tanh x).
Proof.
  pose proof (proj1 (C76_nodes (by_chebyshev 32) 0 eq_refl eq_refl ltac:(cbn; lia) ltac:(cbn; lia))) as H. cbv zeta in *.
  change (sigmoid_tanh_terms (by_chebyshev 32)) with 32%nat in H. replace (PI / 64) with ((INR 0 + 1 / 2) * PI / INR 32); [exact H|]. rewrite !S_INR. cbn [INR]. field.
Qed.
Example C76_odd_terms : mpc_sigmoid (by_chebyshev 31) 1 = inl ValueError.
Proof. apply (C76_terms (by_chebyshev 31) 1 eq_refl). now left. Qed.
