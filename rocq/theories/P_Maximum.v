(** Property theorems C31, C32, C33, C59: maxima, arg-maxima, shared random numbers, weighted sampling. *)
Require Import ZArith QArith List Lia.
From Verif Require Import Ring64 Encoder Arith Arith_proofs Trunc Provider Binary Binary_proofs Convert_proofs Compare Compare_proofs Compare_claims Maximum Maximum_proofs P_Binary Maximum_claims.
Import ListNotations.
Open Scope Z_scope.

Section Claims.
  Variables (n : nat) (pr : provider) (D : Z) (p : nat) (local_bits : run pr (list Z)) (log_steps cascade_steps isqrt : nat -> nat).
  Hypothesis Hn : (0 < n)%nat.
  Hypothesis HV : valid n pr.
  Hypothesis Hp : (1 <= p <= 62)%nat.
  Hypothesis HD : D = 2 ^ Z.of_nat p.
  Hypothesis Hlocal : forall st, let u := fst (local_bits st) in length u = n /\ Forall (fun z => 0 <= z < D) u.
  Hypothesis Hsqrt : forall m, (2 <= m)%nat -> (1 <= isqrt m < m)%nat.
  (** C31, C32: with [dim] given, every method returns the greatest element and the indicator of a position holding it. *)
  Theorem C31_max : forall me xs s st, s = 1 \/ s = D -> vector n s xs -> differences_fit xs -> short n D s xs ->
    let r := fst (max_dim D p local_bits log_steps cascade_steps isqrt me xs st) in
    greatest (open_a (n_sh (fst r))) (reveals xs) /\ n_sc (fst r) = s /\
    exists k, (k < length xs)%nat /\ nth k (reveals xs) 0 = open_a (n_sh (fst r)) /\ indicator (length xs) k (snd r).
  Proof. exact (k_C31_max n pr D p local_bits log_steps cascade_steps isqrt Hn HV Hp HD Hlocal Hsqrt). Qed.
  Theorem C31_max_all : forall me xs s st, s = 1 \/ s = D -> vector n s xs -> differences_fit xs -> short n D s xs ->
    let r := fst (max_all D p local_bits log_steps cascade_steps isqrt me xs st) in greatest (open_a (n_sh r)) (reveals xs) /\ n_sc r = s.
  Proof. exact (k_C31_max_all n pr D p local_bits log_steps cascade_steps isqrt Hn HV Hp HD Hlocal Hsqrt). Qed.
  Theorem C31_min : forall me xs s st, s = 1 \/ s = D -> vector n s xs -> differences_fit xs -> short n D s xs ->
    let r := fst (min_dim D p local_bits log_steps cascade_steps isqrt me xs st) in
    least (open_a (n_sh (fst r))) (reveals xs) /\ n_sc (fst r) = s /\
    exists k, (k < length xs)%nat /\ nth k (reveals xs) 0 = open_a (n_sh (fst r)) /\ indicator (length xs) k (snd r).
  Proof. exact (k_C31_min n pr D p local_bits log_steps cascade_steps isqrt Hn HV Hp HD Hlocal Hsqrt). Qed.
  Theorem C31_min_all : forall me xs s st, s = 1 \/ s = D -> vector n s xs -> differences_fit xs -> short n D s xs ->
    let r := fst (min_all D p local_bits log_steps cascade_steps isqrt me xs st) in least (open_a (n_sh r)) (reveals xs) /\ n_sc r = s.
  Proof. exact (k_C31_min_all n pr D p local_bits log_steps cascade_steps isqrt Hn HV Hp HD Hlocal Hsqrt). Qed.
  (** C32 *)
  Theorem C32_argmax : forall me xs s st, s = 1 \/ s = D -> vector n s xs -> differences_fit xs -> short n D s xs ->
    exists k, (k < length xs)%nat /\ greatest (nth k (reveals xs) 0) (reveals xs) /\ indicator (length xs) k (fst (argmax D p local_bits log_steps cascade_steps isqrt me xs st)).
  Proof. exact (k_C32_argmax n pr D p local_bits log_steps cascade_steps isqrt Hn HV Hp HD Hlocal Hsqrt). Qed.
  Theorem C32_argmin : forall me xs s st, s = 1 \/ s = D -> vector n s xs -> differences_fit xs -> short n D s xs ->
    exists k, (k < length xs)%nat /\ least (nth k (reveals xs) 0) (reveals xs) /\ indicator (length xs) k (fst (argmin D p local_bits log_steps cascade_steps isqrt me xs st)).
  Proof. exact (k_C32_argmin n pr D p local_bits log_steps cascade_steps isqrt Hn HV Hp HD Hlocal Hsqrt). Qed.
  Theorem C32_argmax_index : forall me xs s st, s = 1 \/ s = D -> vector n s xs -> differences_fit xs -> short n D s xs ->
    exists k, (k < length xs)%nat /\ greatest (nth k (reveals xs) 0) (reveals xs) /\
      let r := fst (argmax_index D p local_bits log_steps cascade_steps isqrt me xs st) in open_a (n_sh r) = Z.of_nat k /\ n_sc r = 1.
  Proof. exact (k_C32_argmax_index n pr D p local_bits log_steps cascade_steps isqrt Hn HV Hp HD Hlocal Hsqrt). Qed.
  (** C33: whatever the local draws, the revealed number is u / 2^p with 0 <= u < 2^p, u being the exclusive or of the draws ... *)
  Theorem C33_rand_range : forall us st, length us = n -> Forall (fun z => 0 <= z < D) us ->
    let r := fst (rand_num (pr := pr) D p (ret us) st) in open_a (n_sh r) = fold_right Z.lxor 0 us /\ 0 <= open_a (n_sh r) < 2 ^ Z.of_nat p /\ n_sc r = 2 ^ Z.of_nat p.
  Proof. exact (k_C33_rand_range n pr D p local_bits log_steps cascade_steps isqrt Hn HV Hp HD Hlocal Hsqrt). Qed.
  (** ... so, the other parties' draws being fixed, each of the 2^p values is produced by exactly one draw of party i. *)
  Theorem C33_rand_uniform : forall us i v st, (i < n)%nat -> length us = n -> Forall (fun z => 0 <= z < D) us -> 0 <= v < D ->
    exists! z, 0 <= z < D /\ open_a (n_sh (fst (rand_num (pr := pr) D p (ret (firstn i us ++ z :: skipn (S i) us)) st))) = v.
  Proof. exact (k_C33_rand_uniform n pr D p local_bits log_steps cascade_steps isqrt Hn HV Hp HD Hlocal Hsqrt). Qed.
  (** C59: weighted sampling with integer weights w (scale 1) picks the index k whose weight interval contains u * W / 2^p, where u is the
      shared random number and W the sum of the weights; a zero weight is never picked. *)
  Theorem C59_weighted_index : forall ws us st, vector n 1 ws -> Forall (fun w => 0 <= w) (reveals ws) -> 0 < zsum (reveals ws) -> zsum (reveals ws) * D < H63 ->
    length us = n -> Forall (fun z => 0 <= z < D) us -> let W := zsum (reveals ws) in let u := fold_right Z.lxor 0 us in
    exists k, (k < length ws)%nat /\ 0 < nth k (reveals ws) 0 /\ zsum (firstn k (reveals ws)) * D <= u * W < zsum (firstn (S k) (reveals ws)) * D /\
      indicator (length ws) k (fst (weighted_index (pr := pr) D p (ret us) ws st)).
  Proof. exact (k_C59_weighted_index n pr D p local_bits log_steps cascade_steps isqrt Hn HV Hp HD Hlocal Hsqrt). Qed.
  (** Hence the number of draws u that pick k differs from the ideal w_k * 2^p / W by less than one: u picks k iff it lies between two ceilings. *)
  Theorem C59_interval : forall u a w W, 0 < W -> 0 <= w -> (a * D <= u * W < (a + w) * D <-> - ((- (a * D)) / W) <= u < - ((- ((a + w) * D)) / W)) /\
    (w * D - W < (- ((- ((a + w) * D)) / W) - - ((- (a * D)) / W)) * W < w * D + W).
  Proof. exact (k_C59_interval n pr D p local_bits log_steps cascade_steps isqrt Hn HV Hp HD Hlocal Hsqrt). Qed.
End Claims.
Print Assumptions C31_max.
Print Assumptions C31_max_all.
Print Assumptions C31_min.
Print Assumptions C31_min_all.
Print Assumptions C32_argmax.
Print Assumptions C32_argmin.
Print Assumptions C32_argmax_index.
Print Assumptions C33_rand_range.
Print Assumptions C33_rand_uniform.
Print Assumptions C59_weighted_index.
Print Assumptions C59_interval.

(** Concrete cases: three parties, default scale 2^16, the vector (-1.5, 2.25, 0.5, 2.25, -7) with a tie for the maximum; correlated randomness
    that is always the same. *)
Definition light : provider := mkProvider unit
  (fun s => (([5; 9; 1], [3; 8; 2], [Z.lxor (Z.land 13 9) 6; 2; 4]), s)) (fun s => (([5; 9; H63 - 1], [3; 8; 2], [0; wmul (13 - H63) 13; 0]), s))
  (fun s => (([1; 2; 3], [30; 5; 1]), s)) (fun s => (([H63 - 1; H63 - 1; 5], [3; -1; -1]), s)) (fun s => (([7; -8; 2], [3; 0; 2]), s)) (fun s => ([5; -9; 4], s)) (fun s => ([5; 9; 12], s)).
Example light_valid : valid 3 light.
Proof. constructor; intros []; cbn -[H63 wmul Z.lxor Z.land]; repeat split; try (repeat constructor; unfold in64, H63; vm_compute; intuition discriminate); try (vm_compute; reflexivity); right; vm_compute; reflexivity. Qed.
Definition ex_vec : list num :=
  [mkNum [H63 - 1; H63 - 5; 6 - 98304] 65536; mkNum [147456; 77; -77] 65536; mkNum [1; 2; 32765] 65536; mkNum [-147456; 147456; 147456] 65536; mkNum [-458752; 0; 0] 65536].
Definition ex_bits : run light (list Z) := fun s => ([41000; 513; 65535], s).
Example C31_case_hyps : vector 3 65536 ex_vec /\ differences_fit ex_vec /\ short 3 65536 65536 ex_vec /\ reveals ex_vec = [-98304; 147456; 32768; 147456; -458752].
Proof.
  assert (E : reveals ex_vec = [-98304; 147456; 32768; 147456; -458752]) by (vm_compute; reflexivity). split; [|split; [|split; [|exact E]]].
  - split; [discriminate|]. repeat constructor; unfold H63; lia.
  - intros a b. rewrite E. unfold in64, H63. cbn [In]. intuition lia.
  - vm_compute. reflexivity.
Qed.
Example C31_case : forall me, let r := fst (max_dim (pr := light) 65536 16 ex_bits (fun _ => 1%nat) (fun _ => 1%nat) Nat.sqrt me ex_vec tt) in
  open_a (n_sh (fst r)) = 147456 /\ reveals (snd r) = [0; 1; 0; 0; 0].
Proof. intros []; vm_compute; split; reflexivity. Qed.
Example C31_min_case : open_a (n_sh (fst (min_all (pr := light) 65536 16 ex_bits (fun _ => 1%nat) (fun _ => 1%nat) Nat.sqrt LogReduction ex_vec tt))) = -458752.
Proof. vm_compute. reflexivity. Qed.
Example C32_case : open_a (n_sh (fst (argmax_index (pr := light) 65536 16 ex_bits (fun _ => 1%nat) (fun _ => 1%nat) Nat.sqrt DoubleLog ex_vec tt))) = 1.
Proof. vm_compute. reflexivity. Qed.
Example C33_case : open_a (n_sh (fst (rand_num 65536 16 ex_bits tt))) = Z.lxor 41000 (Z.lxor 513 65535).
Proof. vm_compute. reflexivity. Qed.
Example C59_case : reveals (fst (weighted_index (pr := light) 65536 16 ex_bits [mkNum [1; 2; -2] 1; mkNum [4; 0; 1] 1; mkNum [0; 0; 0] 1] tt)) = [0; 1; 0].
Proof. vm_compute. reflexivity. Qed.

(** The restriction to scales 1 and 2^p matters: at scale 2^8 with default 2^16 a maximum of (3, 5) is not among the elements, and at scale 2^20 the
    one-hot vector points to a smaller element ("max"/"argmax" of tensors with a non-default precision). *)
Definition ex_small : list num := [mkNum [768; 1; -1] 256; mkNum [0; 1280; 0] 256].
Definition ex_large : list num := [mkNum [768; 1; -1] 1048576; mkNum [0; 1280; 0] 1048576].
Theorem C31_other_scale_refuted : exists xs, vector 3 256 xs /\ differences_fit xs /\ short 3 65536 256 xs /\
  ~ In (open_a (n_sh (fst (max_all (pr := light) 65536 16 ex_bits (fun _ => 0%nat) (fun _ => 0%nat) Nat.sqrt LogReduction xs tt)))) (reveals xs).
Proof.
  exists ex_small. assert (E : reveals ex_small = [768; 1280]) by (vm_compute; reflexivity). split; [|split; [|split]].
  - split; [discriminate|]. repeat constructor; unfold H63; lia.
  - intros a b. rewrite E. unfold in64, H63. cbn [In]. intuition lia.
  - vm_compute. reflexivity.
  - vm_compute. intuition discriminate.
Qed.
Theorem C32_large_scale_refuted : exists xs, vector 3 1048576 xs /\ differences_fit xs /\ short 3 65536 1048576 xs /\
  reveals (fst (argmax (pr := light) 65536 16 ex_bits (fun _ => 0%nat) (fun _ => 0%nat) Nat.sqrt LogReduction xs tt)) = [1; 0] /\ nth 0 (reveals xs) 0 < nth 1 (reveals xs) 0.
Proof.
  exists ex_large. assert (E : reveals ex_large = [768; 1280]) by (vm_compute; reflexivity). split; [|split; [|split]].
  - split; [discriminate|]. repeat constructor; unfold H63; lia.
  - intros a b. rewrite E. unfold in64, H63. cbn [In]. intuition lia.
  - vm_compute. reflexivity.
  - vm_compute. split; reflexivity.
Qed.
Print Assumptions C31_other_scale_refuted.
Print Assumptions C32_large_scale_refuted.
