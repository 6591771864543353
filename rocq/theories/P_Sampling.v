(** Property theorems C97: sampling and dropout. *)
Require Import ZArith QArith Qabs List Lia Bool.
From Verif Require Import Ring64 Encoder Arith Beaver Trunc Provider Binary Compare Compare_proofs Compare_claims Maximum Maximum_proofs Maximum_claims P_Maximum Regular Regular_proofs Regular_claims Sampling Sampling_claims.
Import ListNotations.
Open Scope Z_scope.

(** C97.  [with_draw us i z]: the parties' local draws, that of party i being z; [of_draws D c P]: exactly c of the D draws z have the property P. *)
Section Claims.
  Variables (n : nat) (pr : provider) (D : Z) (p : nat).
  Hypothesis Hn : (0 < n)%nat.
  Hypothesis HV : valid n pr.
  Hypothesis Hp : (1 <= p <= 62)%nat.
  Hypothesis HD : D = 2 ^ Z.of_nat p.
  (** bernoulli gives bits; whatever the other parties draw, exactly as many of party i's 2^p draws give one as the encoded probability says: none below 0, all from 1 on. *)
  Theorem C97_bernoulli : forall x us i st, sharing n x -> n_sc x = 1 \/ n_sc x = D -> (i < n)%nat -> length us = n -> Forall (fun z => 0 <= z < D) us ->
    let a := open_a (n_sh x) * (D / n_sc x) in D - H63 <= a <= H63 ->
    let r z := fst (bernoulli (pr := pr) D p (ret (with_draw us i z)) x st) in
    of_draws D (Z.max 0 (Z.min a D)) (fun z => ones (r z)) /\ forall z, 0 <= z < D -> n_sc (r z) = 1 /\ (ones (r z) \/ zero (r z)).
  Proof. exact (k_C97_bernoulli n pr D p Hn HV Hp HD). Qed.
  (** so does crypten.bernoulli of an encrypted tensor ... *)
  Theorem C97_bernoulli_function : forall x us i st, sharing n x -> n_sc x = 1 \/ n_sc x = D -> (i < n)%nat -> length us = n -> Forall (fun z => 0 <= z < D) us ->
    let a := open_a (n_sh x) * (D / n_sc x) in D - H63 <= a < H63 ->
    let r z := fst (crypten_bernoulli (pr := pr) D p (ret (with_draw us i z)) (AEnc x) st) in
    of_draws D (Z.max 0 (Z.min a D)) (fun z => ones (r z)) /\ forall z, 0 <= z < D -> n_sc (r z) = 1 /\ (ones (r z) \/ zero (r z)).
  Proof. exact (k_C97_bernoulli_function n pr D p Hn HV Hp HD). Qed.
  (** ... and of public probabilities, each encoded with p bits. *)
  Theorem C97_bernoulli_public : forall q us i st, (i < n)%nat -> length us = n -> Forall (fun z => 0 <= z < D) us -> let a := encodeQ D q in D - H63 <= a <= H63 ->
    let r z := fst (crypten_bernoulli (pr := pr) D p (ret (with_draw us i z)) (AFloat q) st) in
    of_draws D (Z.max 0 (Z.min a D)) (fun z => ones (r z)) /\ forall z, 0 <= z < D -> n_sc (r z) = 1 /\ (ones (r z) \/ zero (r z)).
  Proof. exact (k_C97_bernoulli_public n pr D p Hn HV Hp HD). Qed.
  (** weighted_sample returns the weight at the index that weighted_index picks (C59), and the indicator of that index. *)
  Theorem C97_weighted_sample : forall ws us st, vector n 1 ws -> Forall (fun w => 0 <= w) (reveals ws) -> 0 < zsum (reveals ws) -> zsum (reveals ws) * D < H63 ->
    length us = n -> Forall (fun z => 0 <= z < D) us -> let W := zsum (reveals ws) in let u := fold_right Z.lxor 0 us in
    let r := fst (weighted_sample (pr := pr) D p (ret us) ws st) in
    exists k, (k < length ws)%nat /\ zsum (firstn k (reveals ws)) * D <= u * W < zsum (firstn (S k) (reveals ws)) * D /\
      open_a (n_sh (fst r)) = nth k (reveals ws) 0 /\ n_sc (fst r) = 1 /\ indicator (length ws) k (snd r).
  Proof. exact (k_C97_weighted_sample n pr D p Hn HV Hp HD). Qed.
  (** dropout of a fixed-point number in training: exactly floor(q 2^p) + 1 of party i's 2^p draws drop the element, which is then 0; the others give x / (1 - q) up to the truncation and the encoding of 1 / (1 - q). *)
  Theorem C97_dropout : forall E x q us i st, 1 <= E -> 4 * E <= D -> sharing n x -> n_sc x = D -> (0 < q)%Q -> (q < 1)%Q -> in64 (open_a (n_sh x) * encodeQ D (/ (1 - q))) ->
    (i < n)%nat -> length us = n -> Forall (fun z => 0 <= z < D) us ->
    let r z := fst (dropout (pr := pr) D p (ret (with_draw us i z)) (within E) x q true st) in
    of_draws D (encodeQ D q + 1) (fun z => zxor (with_draw us i z) <= encodeQ D q) /\
    forall z y, 0 <= z < D -> r z = Some y -> fst (dropout (pr := pr) D p (ret (with_draw us i z)) no_check x q true st) = Some y /\ n_sc y = D /\
      (zxor (with_draw us i z) <= encodeQ D q -> zero y) /\
      (encodeQ D q < zxor (with_draw us i z) -> (Qabs (qval y - qval x / (1 - q)) <= ulps E D + Qabs (qval x) / inject_Z D)%Q).
  Proof. exact (k_C97_dropout n pr D p Hn HV Hp HD). Qed.
  (** an integer tensor (scale 1) is instead multiplied by the integer part of 1 / (1 - q). *)
  Theorem C97_dropout_integer : forall x q us i st, sharing n x -> n_sc x = 1 -> (0 < q)%Q -> (q < 1)%Q -> (i < n)%nat -> length us = n -> Forall (fun z => 0 <= z < D) us -> forall z, 0 <= z < D ->
    exists y, fst (dropout (pr := pr) D p (ret (with_draw us i z)) no_check x q true st) = Some y /\ n_sc y = 1 /\
      open_a (n_sh y) = if encodeQ D q <? zxor (with_draw us i z) then wrap (open_a (n_sh x) * encodeQ 1 (/ (1 - q))) else 0.
  Proof. exact (k_C97_dropout_integer n pr D p Hn HV Hp HD). Qed.
  (** outside training dropout returns x, for 0 <= q < 1; whether in training or not, it returns x for q = 0, raises unless 0 <= q <= 1, and for q = 1 returns 0. *)
  Theorem C97_dropout_cases : forall chk bits x q training st, sharing n x ->
    let r := fst (dropout (pr := pr) D p bits chk x q training st) in
    ((0 <= q)%Q -> (q < 1)%Q -> training = false -> r = Some x) /\ ((q == 0)%Q -> r = Some x) /\ ((q < 0)%Q \/ (1 < q)%Q -> r = None) /\
    ((q == 1)%Q -> exists y, r = Some y /\ zero y /\ n_sc y = n_sc x).
  Proof. exact (k_C97_dropout_cases n pr D p Hn HV Hp HD). Qed.
  (** when x requires a gradient a public random number u decides, with the same accuracy. *)
  Theorem C97_dropout_tracked : forall E x q u st y, 1 <= E -> 4 * E <= D -> sharing n x -> n_sc x = D -> (0 <= q)%Q -> (q < 1)%Q -> in64 (open_a (n_sh x) * encodeQ D (/ (1 - q))) ->
    fst (dropout_tracked (pr := pr) (within E) x q true u st) = Some y -> fst (dropout_tracked (pr := pr) no_check x q true u st) = Some y /\ n_sc y = D /\
      ((u <= q)%Q -> (Qabs (qval y) <= ulps E D)%Q) /\ ((q < u)%Q -> (Qabs (qval y - qval x / (1 - q)) <= ulps E D + Qabs (qval x) / inject_Z D)%Q).
  Proof. exact (k_C97_dropout_tracked n pr D p Hn HV Hp HD). Qed.
  (** so outside training the two disagree for q = 1: dropout without a gradient returns 0. *)
  Theorem C97_eval_refuted : exists q, (0 <= q <= 1)%Q /\ forall chk bits x u st st', sharing n x -> ~ zero x ->
    fst (dropout_tracked (pr := pr) chk x q false u st) = Some x /\ exists y, fst (dropout (pr := pr) D p bits chk x q false st') = Some y /\ zero y.
  Proof. exact (k_C97_eval_refuted n pr D p Hn HV Hp HD). Qed.
End Claims.
Print Assumptions C97_bernoulli.
Print Assumptions C97_bernoulli_function.
Print Assumptions C97_bernoulli_public.
Print Assumptions C97_weighted_sample.
Print Assumptions C97_dropout.
Print Assumptions C97_dropout_integer.
Print Assumptions C97_dropout_cases.
Print Assumptions C97_dropout_tracked.
Print Assumptions C97_eval_refuted.

(** Concrete cases: three parties and the provider [light] of P_Maximum.v, p = 16.  The probability 0.75 is encoded as 49152: drawing 16383 on top of 41000 xor 513 gives one or zero. *)
Definition prob : num := mkNum [49152; 99; -99] 65536.
Definition three : list Z := [41000; 513; 65535].
Definition sample (z : Z) := open_a (n_sh (fst (bernoulli (pr := light) 65536 16 (ret (with_draw three 2 z)) prob tt))).
Example C97_bernoulli_case : sharing 3 prob /\ length three = 3%nat /\ Forall (fun z => 0 <= z < 65536) three /\ zxor (with_draw three 2 49151) = 7638 /\ sample 49151 = 1 /\ zxor (with_draw three 2 10000) = 34105 /\ sample 10000 = 1 /\
  zxor (with_draw three 2 20000) = 60425 /\ sample 20000 = 0.
Proof.
  split; [split; [reflexivity|split; [repeat apply Forall_cons; try apply Forall_nil; vm_compute; intuition congruence|reflexivity]]|]. split; [reflexivity|]. split; [repeat apply Forall_cons; try apply Forall_nil; vm_compute; intuition congruence|]. vm_compute. repeat split; reflexivity.
Qed.
Example C97_public_case : open_a (n_sh (fst (crypten_bernoulli (pr := light) 65536 16 (ret three) (AFloat (2 # 5)) tt))) = 1 /\ open_a (n_sh (fst (crypten_bernoulli (pr := light) 65536 16 (ret three) (AFloat (1 # 5)) tt))) = 0 /\
  open_a (n_sh (fst (crypten_bernoulli (pr := light) 65536 16 (ret three) (AEnc prob) tt))) = 1 /\ zxor three = 24022 /\ encodeQ 65536 (2 # 5) = 26214.
Proof. vm_compute. repeat split; reflexivity. Qed.
Example C97_sample_case : let r := fst (weighted_sample (pr := light) 65536 16 (ret three) [mkNum [1; 2; -2] 1; mkNum [4; 0; 1] 1; mkNum [0; 0; 0] 1] tt) in open_a (n_sh (fst r)) = 5 /\ reveals (snd r) = [0; 1; 0].
Proof. vm_compute. split; reflexivity. Qed.
(** dropout of 2.25 with probability 1/4 keeps the draw 24022 > 16384 and gives 3; with probability 1/2 it is dropped; of the integer 3 with probability 1/4 it keeps 3 (instead of 4) *)
Definition drop (x : num) (q : Q) (training : bool) := option_map (fun y => (open_a (n_sh y), n_sc y)) (fst (dropout (pr := light) 65536 16 (ret three) (within 4) x q training tt)).
Definition x225 : num := mkNum [147456; 77; -77] 65536.
Example C97_dropout_case : drop x225 (1 # 4) true = Some (196607, 65536) /\ drop x225 (1 # 2) true = Some (0, 65536) /\ drop (mkNum [1; 1; 1] 1) (1 # 4) true = Some (3, 1) /\ drop x225 (1 # 2) false = Some (147456, 65536) /\
  drop x225 1 false = Some (0, 65536) /\ drop x225 (3 # 2) true = None /\ option_map (fun y => open_a (n_sh y)) (fst (dropout_tracked (pr := light) (within 4) x225 (1 # 4) true (1 # 3) tt)) = Some 196607.
Proof. vm_compute. repeat split; reflexivity. Qed.
Example C97_dropout_hyps : sharing 3 x225 /\ 1 <= 4 /\ 4 * 4 <= 65536 /\ in64 (open_a (n_sh x225) * encodeQ 65536 (/ (1 - (1 # 4)))).
Proof. split; [split; [reflexivity|split; [repeat apply Forall_cons; try apply Forall_nil; vm_compute; intuition congruence|reflexivity]]|]. vm_compute. intuition congruence. Qed.
