(** C88, C89: what zero sharings, the trusted first party and the replicated protocol give away. *)
Require Import List ZArith Bool Arith Lia.
From Verif Require Import Ring64 Sharing Sharing_proofs Arith Beaver Trunc Secrecy_claims Leak Leak_claims.
Import ListNotations.
Open Scope Z_scope.

(** C88: the shares of the zero sharings are differences of numbers that neighbouring parties have in common *)
Theorem C88_ring : forall (G : Type) seeded (draw : G -> nat -> list Z * G), (forall g k, length (fst (draw g k)) = k) -> forall next_seeds global_seeds w0 history d k i j,
  setup_prng G seeded next_seeds global_seeds = Some w0 -> let w := run G seeded draw history w0 in (i < length w)%nat -> (j < k)%nat ->
  nth j (nth i (fst (przs G draw wsub d k w)) []) 0 = zero_share (length w) (map (fun g => nth j (fst (draw (g_next G g d) k)) 0) w) i.
Proof. exact k_C88_ring. Qed.
Print Assumptions C88_ring.
(** C88: a coalition that sees a sum revealed learns the sum of the numbers of each stretch of parties between its members, and nothing else *)
Theorem C88_exactly : forall n bad c x x' m, (c < n)%nat -> bad c = true ->
  (same_runs n bad c x x' -> exists f g, bijection (rounds_ok n (S m)) f g /\ forall us, rounds_ok n (S m) us -> sum_view n bad us x = sum_view n bad (f us) x') /\
  (forall us us', sum_view n bad us x = sum_view n bad us' x' -> same_runs n bad c x x').
Proof. exact k_C88_exactly. Qed.
Print Assumptions C88_exactly.
(** C88: one party alone learns the sum of the others' numbers and nothing else *)
Theorem C88_one_party : forall n c x x' m, (c < n)%nat -> length x = n -> length x' = n -> nth c x 0 = nth c x' 0 -> zsum x == zsum x' ->
  exists f g, bijection (rounds_ok n (S m)) f g /\ forall us, rounds_ok n (S m) us -> sum_view n (Nat.eqb c) us x = sum_view n (Nat.eqb c) (f us) x'.
Proof. exact k_C88_one_party. Qed.
Print Assumptions C88_one_party.
(** C88: both neighbours of a party together learn its number, though only the sum is revealed *)
Theorem C88_neighbours : forall n bad i us us' x x', (i < n)%nat -> bad (prev n i) = true -> bad (next n i) = true -> sum_view n bad us x = sum_view n bad us' x' -> nth i x 0 == nth i x' 0.
Proof. exact k_C88_neighbours. Qed.
Print Assumptions C88_neighbours.
(** C88: so the sum is not all that is learned: two of four parties tell two inputs with the same sum apart, whatever the generators give *)
Theorem C88_only_sum_refuted : exists n bad x x', length x = n /\ length x' = n /\ zsum x = zsum x' /\ (forall i, bad i = true -> nth i x 0 = nth i x' 0) /\ forall us us', sum_view n bad us x <> sum_view n bad us' x'.
Proof. exact k_C88_only_sum_refuted. Qed.
Print Assumptions C88_only_sum_refuted.
(** C88: with the trusted first party, the two neighbours of any other party read the number it encrypted from its message in one multiplication *)
Theorem C88_tfp_neighbours : forall (G : Type) seeded (draw : G -> nat -> list Z * G), (forall g k, length (fst (draw g k)) = k) -> forall next_seeds global_seeds w0 history d src x a g0,
  setup_prng G seeded next_seeds global_seeds = Some w0 -> let w := run G seeded draw history w0 in (src < length w)%nat -> src <> O -> Forall in64 x -> length a = length x ->
  unmask_input draw d (nth (prev (length w) src) w g0) (nth (next (length w) src) w g0) (tfp_message G draw d src x a w) = x.
Proof. exact k_C88_tfp_neighbours. Qed.
Print Assumptions C88_tfp_neighbours.
(** C88: and party 0, which drew the masks, reads every operand of a multiplication from the opened difference *)
Theorem C88_tfp_first : forall (G : Type) seeded (draw : G -> nat -> list Z * G), (forall g k, length (fst (draw g k)) = k) -> forall next_seeds global_seeds w0 history d src x a,
  setup_prng G seeded next_seeds global_seeds = Some w0 -> let w := run G seeded draw history w0 in (src < length w)%nat -> Forall in64 x -> length a = length x ->
  map (fun j => wadd (nth j (tfp_opened G draw d src x a w) 0) (nth j a 0)) (seq 0 (length x)) = x.
Proof. exact k_C88_tfp_first. Qed.
Print Assumptions C88_tfp_first.
(** C89: party 1 learns the product of the operands shifted by numbers it knows *)
Theorem C89_product : forall x y x' y', length x = 3%nat -> length y = 3%nat -> length x' = 3%nat -> length y' = 3%nat -> replicated_view1 x y = replicated_view1 x' y' ->
  nth 0 x 0 = nth 0 x' 0 /\ nth 0 y 0 = nth 0 y' 0 /\ (zsum x - nth 0 x 0) * (zsum y - nth 0 y 0) == (zsum x' - nth 0 x 0) * (zsum y' - nth 0 y 0).
Proof. exact k_C89_product. Qed.
Print Assumptions C89_product.
(** C89: so when party 1 knows the second operand, it knows the first one too, in every run where its complement to party 0's share is odd *)
Theorem C89_operand : forall x y x' y', length x = 3%nat -> length y = 3%nat -> length x' = 3%nat -> length y' = 3%nat -> replicated_view1 x y = replicated_view1 x' y' ->
  zsum y == zsum y' -> Z.odd (zsum y - nth 0 y 0) = true -> zsum x == zsum x'.
Proof. exact k_C89_operand. Qed.
Print Assumptions C89_operand.
(** C89: after square() it knows the number up to the sign of its distance from party 0's share and the top bit, in every run where that distance is odd *)
Theorem C89_square : forall x x', length x = 3%nat -> length x' = 3%nat -> replicated_square_view1 x = replicated_square_view1 x' -> Z.odd (zsum x - nth 0 x 0) = true ->
  nth 0 x 0 = nth 0 x' 0 /\ ((2 ^ 63 | zsum x' - zsum x) \/ (2 ^ 63 | zsum x' - (2 * nth 0 x 0 - zsum x))).
Proof. exact k_C89_square. Qed.
Print Assumptions C89_square.
(** C89: so the shares do not hide the operands from party 1: for an operand other than the real one no shares of the other parties give the same messages *)
Theorem C89_hidden_refuted : exists x y, length x = 3%nat /\ length y = 3%nat /\ Forall in64 x /\ Forall in64 y /\ forall x' y', length x' = 3%nat -> length y' = 3%nat -> zsum y' == zsum y -> ~ zsum x' == zsum x -> replicated_view1 x' y' <> replicated_view1 x y.
Proof. exact k_C89_hidden_refuted. Qed.
Print Assumptions C89_hidden_refuted.

(** *** Cases that meet the hypotheses *)
(** five parties, the coalition {0, 2}: it learns the number of party 1 and the sum of those of parties 3 and 4 *)
Definition ex_bad (i : nat) : bool := Nat.eqb i 0 || Nat.eqb i 2.
Example C88_runs_case : same_runs 5 ex_bad 0 [1; 2; 3; 40; 50] [1; 2; 3; 60; 30] /\ ~ same_runs 5 ex_bad 0 [1; 2; 3; 40; 50] [1; 3; 3; 40; 49].
Proof.
  split.
  - split; [intros i Hi; destruct i as [|[|[|[|[|i]]]]]; try lia; cbn; congruence|]. intros j Hj. destruct j as [|[|[|[|[|j]]]]]; try lia; vm_compute; congruence.
  - intros [_ H]. specialize (H 1%nat ltac:(lia) eq_refl). vm_compute in H. discriminate.
Qed.
Example C88_rounds_case : rounds_ok 5 2 [[1; 2; 3; 4; 5]; [-1; 7; 9; 0; 2]] /\ map (sum_share 5 [[1; 2; 3; 4; 5]; [-1; 7; 9; 0; 2]] [1; 2; 3; 40; 50]) (seq 0 5) = [8; -7; 0; 48; 47].
Proof. split; [|vm_compute; reflexivity]. split; [reflexivity|]. repeat constructor; unfold in64, H63; lia. Qed.
(** a toy generator; four parties, party 2 multiplies, parties 1 and 3 read its numbers *)
Definition toy_draw (g : Z) (k : nat) : list Z * Z := (map (fun i => wrap (g * 31 + Z.of_nat i * 7)) (seq 0 k), wrap (g * 6364136223846793005 + 1442695040888963407)).
Example C88_tfp_case :
  match setup_prng Z (fun s => s) [11; 22; 33; 44] [5; 6; 7; 8] with
  | Some w => let w := run Z (fun s => s) toy_draw [CEnc 0 1 [9; 9]; CPrzs 0 3] w in
      let g0 := mkGens Z (fun _ => 0) (fun _ => 0) in
      (unmask_input toy_draw 0 (nth 1 w g0) (nth 3 w g0) (tfp_message Z toy_draw 0 2 [42; -17] [1000; 2000] w), tfp_opened Z toy_draw 0 2 [42; -17] [1000; 2000] w) = ([42; -17], [-958; -2017])
  | None => False
  end /\ prev 4 2 = 1%nat /\ next 4 2 = 3%nat.
Proof. vm_compute. repeat split. Qed.
(** three parties, replicated shares of 12 and 31; 31 - 10 is odd *)
Example C89_case : replicated_view1 [3; 4; 5] [10; 20; 1] = Some [4; 20; 3; 10; 109] /\ Z.odd (zsum [10; 20; 1] - 10) = true /\ replicated_square_view1 [3; 4; 5] = Some [4; 3; 65] /\ Z.odd (zsum [3; 4; 5] - 3) = true.
Proof. vm_compute. repeat split. Qed.
