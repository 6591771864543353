(** Property theorems C28, C29, C30: comparisons and piecewise-linear functions of encrypted numbers. *)
Require Import ZArith QArith List Lia Lqa.
From Verif Require Import Ring64 Encoder Arith Arith_proofs Trunc Provider Binary Binary_proofs Compare Compare_proofs P_Binary Compare_claims.
Import ListNotations.
Open Scope Z_scope.

Section Claims.
  Variables (n : nat) (pr : provider) (D : Z).
  Hypothesis Hn : (0 < n)%nat.
  Hypothesis HV : valid n pr.
  Hypothesis HD : 0 < D.
  (** C28 *)
  Theorem C28_order : forall x y st, operands n x y -> fits x y -> scale_of x y = 1 \/ scale_of x y = D ->
    ebit (fst (n_lt (pr := pr) D x y st)) (qval x < qarg x y)%Q /\ ebit (fst (n_le (pr := pr) D x y st)) (qval x <= qarg x y)%Q /\
    ebit (fst (n_gt (pr := pr) D x y st)) (qarg x y < qval x)%Q /\ ebit (fst (n_ge (pr := pr) D x y st)) (qarg x y <= qval x)%Q.
  Proof. exact (k_C28_order n pr D Hn HV HD). Qed.
  (** At any other scale [S] the encrypted bit comes out multiplied by [D // S] (0 when S > D). *)
  Theorem C28_other_scale : forall x y st, operands n x y -> fits x y -> scale_of x y <> 1 ->
    open_a (n_sh (fst (n_lt (pr := pr) D x y st))) = wrap (if Qlt_le_dec (qval x) (qarg x y) then D / scale_of x y else 0).
  Proof. exact (k_C28_other_scale n pr D Hn HV HD). Qed.
  (** C29 *)
  Theorem C29_equality : forall x y st, operands n x y -> fits x y -> scale_of x y = D \/ (scale_of x y = 1 /\ n <> 2%nat) ->
    ebit (fst (n_eq (pr := pr) D x y st)) (qval x == qarg x y)%Q /\ ebit (fst (n_ne (pr := pr) D x y st)) (~ qval x == qarg x y)%Q.
  Proof. exact (k_C29_equality n pr D Hn HV HD). Qed.
  (** Two parties, integers (scale 1): equality yields the default scale instead of 1. *)
  Theorem C29_two_party_scale_one : forall x y st, n = 2%nat -> operands n x y -> fits x y -> scale_of x y = 1 -> (qval x == qarg x y)%Q ->
    open_a (n_sh (fst (n_eq (pr := pr) D x y st))) = wrap D /\ n_sc (fst (n_eq (pr := pr) D x y st)) = 1.
  Proof. exact (k_C29_two_party_scale_one n pr D Hn HV HD). Qed.
  (** A difference of -2^63 at the comparison scale: != gives 2 and == gives -1, except with two parties. *)
  Theorem C29_corner_difference : forall x y st, n <> 2%nat -> operands n x y -> scale_of x y = 1 \/ scale_of x y = D ->
    ((qval x - qarg x y) * inject_Z (scale_of x y) == inject_Z (- H63))%Q ->
    open_a (n_sh (fst (n_ne (pr := pr) D x y st))) = 2 /\ open_a (n_sh (fst (n_eq (pr := pr) D x y st))) = -1.
  Proof. exact (k_C29_corner_difference n pr D Hn HV HD). Qed.
  (** C30: exact, whatever the sharing; raw values at the tensor's own scale. *)
  Theorem C30_piecewise : forall x st, sharing n x -> n_sc x = 1 \/ n_sc x = D -> let v := open_a (n_sh x) in
    (let r := fst (n_sign (pr := pr) D x st) in open_a (n_sh r) = (if v <? 0 then -1 else 1) /\ n_sc r = 1) /\
    (let r := fst (n_relu (pr := pr) D x st) in open_a (n_sh r) = Z.max v 0 /\ n_sc r = n_sc x) /\
    (v <> - H63 -> let r := fst (n_abs (pr := pr) D x st) in open_a (n_sh r) = Z.abs v /\ n_sc r = n_sc x).
  Proof. exact (k_C30_piecewise n pr D Hn HV HD). Qed.
  (** where() with an encrypted condition and encrypted alternatives at one scale, both as method and as crypten.where. *)
  Theorem C30_where : forall x c y st, sharing n x -> sharing n c -> sharing n y -> n_sc c = 1 -> n_sc y = n_sc x -> open_a (n_sh c) = 0 \/ open_a (n_sh c) = 1 ->
    let chosen := if open_a (n_sh c) =? 1 then open_a (n_sh x) else open_a (n_sh y) in
    (let r := fst (where_enc (pr := pr) x c y st) in open_a (n_sh r) = chosen /\ n_sc r = n_sc x) /\
    (let r := fst (cwhere (pr := pr) c x y st) in open_a (n_sh r) = chosen /\ n_sc r = n_sc x).
  Proof. exact (k_C30_where n pr D Hn HV HD). Qed.
  (** ... but with a float alternative its fraction is lost: where the condition is 0 the result is the integer part of [q]. *)
  Theorem C30_where_float_truncates : forall x c q st, sharing n x -> sharing n c -> n_sc c = 1 -> 1 < n_sc x -> open_a (n_sh c) = 0 ->
    let r := fst (where_float (pr := pr) x c q st) in open_a (n_sh r) = wrap (Z.quot (Qnum q) (Zpos (Qden q)) * n_sc x) /\ n_sc r = n_sc x.
  Proof. exact (k_C30_where_float_truncates n pr D Hn HV HD). Qed.
  (** hardtanh is the clamp between the encoded bounds. *)
  Theorem C30_hardtanh : forall x lo hi st, sharing n x -> n_sc x = 1 \/ n_sc x = D ->
    match lo, hi with AEnc _, _ | _, AEnc _ => False | _, _ => True end ->
    let s := n_sc x in let v := open_a (n_sh x) in
    let bound y := match y with AInt k => k * s | AFloat q => encodeQ s q | AEnc _ => 0 end in
    in64 (bound lo) -> in64 (bound hi) -> in64 (v - bound lo) -> in64 (v - bound hi) -> bound lo <= bound hi ->
    let r := fst (hardtanh (pr := pr) D x lo hi st) in open_a (n_sh r) = Z.min (Z.max v (bound lo)) (bound hi) /\ n_sc r = n_sc x.
  Proof. exact (k_C30_hardtanh n pr D Hn HV HD). Qed.
End Claims.
Print Assumptions C28_order.
Print Assumptions C28_other_scale.
Print Assumptions C29_equality.
Print Assumptions C29_two_party_scale_one.
Print Assumptions C29_corner_difference.
Print Assumptions C30_piecewise.
Print Assumptions C30_where.
Print Assumptions C30_where_float_truncates.
Print Assumptions C30_hardtanh.

(** Concrete cases: three parties, default scale 65536; x = -1.5, y = 2.25 held as wrapped shares. *)
Definition ex_x : num := mkNum [H63 - 1; H63 - 5; 6 - 98304] 65536.
Definition ex_y : num := mkNum [147456; 77; -77] 65536.
Definition ex_one : num := mkNum [5; -3; -1] 1.
Example C28_case_hyps : operands 3 ex_x (AEnc ex_y) /\ fits ex_x (AEnc ex_y) /\ (qval ex_x == -3 # 2)%Q /\ (qval ex_y == 9 # 4)%Q.
Proof.
  repeat split; try (repeat constructor; unfold H63; lia); try (vm_compute; reflexivity); try (left; apply Z.divide_refl).
Qed.
Example C28_case : open_a (n_sh (fst (n_lt 65536 ex_x (AEnc ex_y) demo_state))) = 1 /\ open_a (n_sh (fst (n_ge 65536 ex_x (AInt (-1)) demo_state))) = 0.
Proof. vm_compute. split; reflexivity. Qed.
Example C28_other_scale_case : open_a (n_sh (fst (n_lt 65536 (mkNum [-300; 1; 2] 256) (AInt 0) demo_state))) = 256.
Proof. vm_compute. reflexivity. Qed.
Example C29_case : open_a (n_sh (fst (n_eq 65536 ex_x (AFloat (-3 # 2)) demo_state))) = 1 /\ open_a (n_sh (fst (n_ne 65536 ex_x (AEnc ex_y) demo_state))) = 1.
Proof. vm_compute. split; reflexivity. Qed.
Example C30_case : open_a (n_sh (fst (n_abs 65536 ex_x demo_state))) = 98304 /\ open_a (n_sh (fst (hardtanh 65536 ex_x (AInt (-1)) (AInt 1) demo_state))) = -65536 /\
  open_a (n_sh (fst (where_float ex_y (one_minus ex_one) (7 # 2) demo_state))) = 3 * 65536.
Proof. vm_compute. repeat split; reflexivity. Qed.
