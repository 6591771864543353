(** Property theorems C95: how likely truncations, and programs of encrypted operations, go wrong. *)
Require Import ZArith QArith Qabs List Lia Bool.
From Verif Require Import Ring64 Encoder Arith Beaver Trunc Provider Binary Compare Compare_proofs Compare_claims Maximum Regular Regular_proofs Regular_claims Program Program_claims Chance Chance_claims.
Import ListNotations.
Open Scope Z_scope.

(** C95.  There are (2^64 - 1)^k tapes of k draws of the random generators, *)
Theorem C95_tapes : forall k, exists L, Z.of_nat (length L) = choices ^ Z.of_nat k /\ NoDup L /\ forall t, In t L <-> tape k t.
Proof. exact k_C95_tapes. Qed.
Print Assumptions C95_tapes.
(** and [few k c bad] says that at most the fraction c / (2^64 - 1) of them are bad. *)
Theorem C95_fraction : forall k c bad B, few k c bad -> NoDup B -> (forall t, In t B -> tape k t /\ bad t) -> Z.of_nat (length B) * choices <= c * choices ^ Z.of_nat k.
Proof. exact k_C95_fraction. Qed.
Print Assumptions C95_fraction.
(** Two parties: of the 2^64 sharings of v exactly |v + 1| make the division by y wrong by more than one unit. *)
Theorem C95_two_parties : forall r th v y, in64 v -> 2 <= y <= 2 ^ 61 ->
  exists W, NoDup W /\ Z.of_nat (length W) = Z.abs (v + 1) /\
    forall w, in64 w -> (In w W <-> 1 < Z.abs (open_a (div_ r th [wsub v w; w] y) - Z.quot v y)).
Proof. exact k_C95_two_parties. Qed.
Print Assumptions C95_two_parties.
(** Three or more parties: of the masks r of [truncate] at most the fraction (|v| + 2n) / (2^64 - 1) make it wrong by n units or more. *)
Theorem C95_masks : forall x y, (2 < length x)%nat -> Z.of_nat (length x) <= 2 ^ 32 -> Forall in64 x -> 0 < y -> (y | 2 ^ 62) ->
  few (length x) (Z.abs (open_a x) + 2 * Z.of_nat (length x)) (fun r => exists th, length th = length x /\ open_a th == count_wraps r /\ Z.of_nat (length x) * y <= Z.abs (open_a (truncate r th x y) * y - open_a x)).
Proof. exact k_C95_masks. Qed.
Print Assumptions C95_masks.

Section Claims.
  Variables (n : nat) (pr : provider) (s : Z) (p : nat) (log_steps cascade_steps isqrt : nat -> nat) (me : method).
  (** every random value that is not on the tape comes from an arbitrary correct provider [pr] *)
  Hypothesis HV : valid n pr.
  Hypothesis Hp : (1 <= p <= 62)%nat.
  Hypothesis Hs : s = 2 ^ Z.of_nat p.
  Hypothesis Hsqrt : forall m, (2 <= m)%nat -> (1 <= isqrt m < m)%nat.
  (** Two parties, default configuration.  A program (C93) of additions, subtractions, products, squares, matrix-product and convolution entries of encrypted numbers, sums, relu, abs and
      hardtanh: except for a fraction of the draws of at most the sum over its truncations of (a bound on the truncated number, plus one) / (2^64 - 1), every number that it computes is the
      number the program computes over the rationals up to the error found by the analysis. *)
  Theorem C95_program_two : forall local_bits E prog hints bs qs xs bs' s0, n = 2%nat -> (forall st, let u := fst (local_bits st) in length u = n /\ Forall (fun z => 0 <= z < s) u) ->
    2 <= E -> Forall for_two prog -> all_represent n s bs qs xs -> analyse s E hints prog bs = Some bs' -> sound_hints s hints prog qs ->
    few (draws product_draws prog) (hazards 1 s E hints prog bs)
      (fun t => ~ exists zs, fst (exec (pr := taped_products pr) s p local_bits log_steps cascade_steps isqrt me no_check prog xs (s0, t)) = Some zs /\ all_represent n s bs' (ideals prog qs) zs).
  Proof. exact (k_C95_program_two n pr s p log_steps cascade_steps isqrt me HV Hp Hs Hsqrt). Qed.
  (** Three or more parties: the same, also with products and matrix products by public numbers and divisions by integers; each truncation adds 2n instead of one. *)
  Theorem C95_program_many : forall local_bits E prog hints bs qs xs bs' s0, (2 < n)%nat -> Z.of_nat n <= 2 ^ 32 -> (forall st, let u := fst (local_bits st) in length u = n /\ Forall (fun z => 0 <= z < s) u) ->
    Z.of_nat n <= E -> Forall (for_many n E) prog -> all_represent n s bs qs xs -> analyse s E hints prog bs = Some bs' -> sound_hints s hints prog qs ->
    few (draws (mask_draws n) prog) (hazards (2 * Z.of_nat n) s E hints prog bs)
      (fun t => ~ exists zs, fst (exec (pr := taped_masks n pr) s p local_bits log_steps cascade_steps isqrt me no_check prog xs (s0, t)) = Some zs /\ all_represent n s bs' (ideals prog qs) zs).
  Proof. exact (k_C95_program_many n pr s p log_steps cascade_steps isqrt me HV Hp Hs Hsqrt). Qed.
End Claims.
Print Assumptions C95_program_two.
Print Assumptions C95_program_many.

(** Concrete cases.  One quarter of the sharings of 2^62 divide wrongly; one of them is off by 2^48. *)
Example C95_quarter : exists W, NoDup W /\ Z.of_nat (length W) = 2 ^ 62 + 1 /\ forall w, in64 w -> (In w W <-> 1 < Z.abs (open_a (div_ [] [] [wsub (2 ^ 62) w; w] 65536) - 2 ^ 46)).
Proof. exact (C95_two_parties [] [] (2 ^ 62) 65536 ltac:(unfold in64, H63; lia) ltac:(lia)). Qed.
Example C95_wrong : open_a (div_ [] [] [wsub 131072 (- H63); - H63] 65536) - Z.quot 131072 65536 = - 2 ^ 48.
Proof. vm_compute. reflexivity. Qed.
(** Two parties, 1.5 and -0.5: x * y, relu of it, x * (x * y) + y * y, on a tape of four draws, and on one of the tapes (fewer than 9.2 * 10^9 in every 2^64 - 1)
    on which it goes wrong. *)
Definition pair : provider := mkProvider unit
  (fun s => (([13; 6], [9; 4], [Z.lxor (Z.land 11 13) 5; 5]), s)) (fun s => (([12345; -99], [-777; 20], [wmul 12246 (-757) - 8; 8]), s)) (fun s => (([31; 9], [1600 - 77; 77]), s))
  (fun s => (([99; 8], [3; -3]), s)) (fun s => (([-3; 4], [6; 7]), s)) (fun s => ([71; -71], s)) (fun s => ([5; 5], s)).
Example pair_valid : valid 2 pair.
Proof. constructor; intros []; cbn -[H63 wmul Z.lxor Z.land]; repeat split; try (repeat constructor; unfold in64, H63; vm_compute; intuition discriminate); try (vm_compute; reflexivity); right; vm_compute; reflexivity. Qed.
Definition two_bits : run (taped_products pair) (list Z) := fun s => ([41000; 513], s).
Definition two_prog : list instr := [IMul 0 1; IRelu 2; IDot [(0, 2); (1, 1)]]%nat.
Definition two_b : list bound := [(98304, 1); (32768, 1)].
Definition two_q : list Q := [3 # 2; -1 # 2]%Q.
Definition two_x : list num := map (fun q => mkNum [encodeQ 65536 q + 777000; -777000] 65536) two_q.
Definition two_run (t : list Z) := option_map (map (fun z => open_a (n_sh z))) (fst (exec (pr := taped_products pair) 65536 16 two_bits (fun _ => 1%nat) (fun _ => 1%nat) Nat.sqrt LogReduction no_check two_prog two_x (tt, t))).
Example C95_two_hyps : all_represent 2 65536 two_b two_q two_x /\ Forall for_two two_prog /\ sound_hints 65536 [] two_prog two_q /\ tape 4 [5; -6; 2 ^ 61; 1000].
Proof.
  split; [|split; [|split]].
  - split; [reflexivity|]. split; [reflexivity|]. intros i b Hb. do 2 (destruct i as [|i]; [injection Hb as <-; split; [split; [reflexivity|split; [repeat apply Forall_cons; try apply Forall_nil; vm_compute; intuition congruence|reflexivity]]|]; split; [reflexivity|]; split; [vm_compute; congruence|]; split; [vm_compute; congruence|vm_compute; reflexivity]|]). destruct i; discriminate.
  - repeat apply Forall_cons; try apply Forall_nil; exact I.
  - cbn. repeat split; exact I.
  - split; [reflexivity|]. repeat apply Forall_cons; try apply Forall_nil; unfold drawn, H63; lia.
Qed.
Example C95_two_case : analyse 65536 2 [] two_prog two_b = Some (two_b ++ [(49152, 5); (49152, 5); (90112, 12)]) /\ draws product_draws two_prog = 4%nat /\
  hazards 1 65536 2 [] two_prog two_b = 98305 * 32769 + 1 + (98305 * 49157 + 32769 * 32769 + 1) /\
  two_run [5; -6; 2 ^ 61; 1000] = Some [98304; -32768; -49152; 0; -57344] /\
  two_run [H63 - 2 - 2 ^ 29; -6; 2 ^ 61; 1000] = Some [98304; -32768; 281474976661503; 281474976661503; 140737488297982].
Proof. vm_compute. repeat split. Qed.
(** Three parties: 1.5 * -0.5, a product by 0.75 and a division by 4, on a tape of three masks of three shares, and on one on which the first truncation goes wrong. *)
Definition light : provider := mkProvider unit
  (fun s => (([5; 9; 1], [3; 8; 2], [Z.lxor (Z.land 13 9) 6; 2; 4]), s)) (fun s => (([5; 9; H63 - 1], [3; 8; 2], [0; wmul (13 - H63) 13; 0]), s))
  (fun s => (([1; 2; 3], [30; 5; 1]), s)) (fun s => (([H63 - 1; H63 - 1; 5], [3; -1; -1]), s)) (fun s => (([7; -8; 2], [3; 0; 2]), s)) (fun s => ([5; -9; 4], s)) (fun s => ([5; 9; 12], s)).
Example light_valid : valid 3 light.
Proof. constructor; intros []; cbn -[H63 wmul Z.lxor Z.land]; repeat split; try (repeat constructor; unfold in64, H63; vm_compute; intuition discriminate); try (vm_compute; reflexivity); right; vm_compute; reflexivity. Qed.
Definition three_bits : run (taped_masks 3 light) (list Z) := fun s => ([41000; 513; 65535], s).
Definition three_prog : list instr := [IMul 0 1; IMulQ 2 (3 # 4)%Q; IDiv 3 4]%nat.
Definition three_x : list num := map (fun q => mkNum [encodeQ 65536 q + 777000; -777001; 1] 65536) two_q.
Definition three_run (t : list Z) := option_map (map (fun z => open_a (n_sh z))) (fst (exec (pr := taped_masks 3 light) 65536 16 three_bits (fun _ => 1%nat) (fun _ => 1%nat) Nat.sqrt LogReduction no_check three_prog three_x (tt, t))).
Example C95_three_hyps : all_represent 3 65536 two_b two_q three_x /\ Forall (for_many 3 3) three_prog /\ sound_hints 65536 [] three_prog two_q /\ tape 9 [5; -6; 2 ^ 61; 1000; 3; 2 ^ 62; 2 ^ 60; 2 ^ 61; 7].
Proof.
  split; [|split; [|split]].
  - split; [reflexivity|]. split; [reflexivity|]. intros i b Hb. do 2 (destruct i as [|i]; [injection Hb as <-; split; [split; [reflexivity|split; [repeat apply Forall_cons; try apply Forall_nil; vm_compute; intuition congruence|reflexivity]]|]; split; [reflexivity|]; split; [vm_compute; congruence|]; split; [vm_compute; congruence|vm_compute; reflexivity]|]). destruct i; discriminate.
  - repeat apply Forall_cons; try apply Forall_nil; try exact I. left. exists (2 ^ 60). reflexivity.
  - cbn. repeat split; exact I.
  - split; [reflexivity|]. repeat apply Forall_cons; try apply Forall_nil; unfold drawn, H63; lia.
Qed.
Example C95_three_case : analyse 65536 3 [] three_prog two_b = Some (two_b ++ [(49152, 6); (36865, 9); (9217, 6)]) /\ draws (mask_draws 3) three_prog = 9%nat /\ hazards 6 65536 3 [] three_prog two_b = 5637607453 /\
  three_run [5; -6; 2 ^ 61; 1000; 3; 2 ^ 62; 2 ^ 60; 2 ^ 61; 7] = Some [98304; -32768; -49150; -36863; -9215] /\
  three_run [0; 0; 2 ^ 31 - H63; 1000; 3; 2 ^ 62; 2 ^ 60; 2 ^ 61; 7] = Some [98304; -32768; 281474976661506; -70368744214527; -17592186053631].
Proof. vm_compute. repeat split. Qed.
