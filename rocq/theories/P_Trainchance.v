(** Property theorem C110: how likely training on encrypted data goes wrong with three or more parties. *)
Require Import ZArith QArith Qabs List Lia Bool.
From Verif Require Import Ring64 Encoder Arith Beaver Trunc Provider Binary Binary_proofs Compare Compare_proofs Compare_claims Maximum Regular Regular_proofs Regular_claims Optim Program Program_claims Training Training_claims Chance Chance_claims Trainchance Trainchance_claims P_Chance P_Training.
Import ListNotations.
Open Scope Z_scope.

Section Claims.
  Variables (n : nat) (pr : provider) (s : Z) (p : nat) (log_steps cascade_steps isqrt : nat -> nat) (me : method).
  Hypothesis Hn : (2 < n)%nat.
  Hypothesis Hn32 : Z.of_nat n <= 2 ^ 32.
  Hypothesis HV : valid n pr.
  Hypothesis Hp : (1 <= p <= 62)%nat.
  Hypothesis Hs : s = 2 ^ Z.of_nat p.
  Hypothesis Hsqrt : forall m, (2 <= m)%nat -> (1 <= isqrt m < m)%nat.

  (** C110: three or more parties: of all draws of the masks of truncation, those for which training does not end with the parameters and losses of gradient descent, up to the errors the analysis gives, are at most the fraction thazards / (2^64 - 1). *)
  Theorem C110_training : forall local_bits E B m k one threshold rate batches qb ls qls hints bs qs xs code ls' lost a' s0, (forall st, let u := fst (local_bits st) in length u = n /\ Forall (fun z => 0 <= z < s) u) ->
    Z.of_nat n <= E -> (Z.of_nat (B * m) | 2 ^ 62) \/ 3 * Z.of_nat n + 2 <= E -> all_represent n s bs qs xs -> is_at qs one 1 -> layers_at qs ls qls -> shaped k m qls -> Forall2 (batch_at qs B k m) batches qb ->
    train B m one threshold rate batches ls (length xs) 0 = (code, ls', lost) -> tanalyse s E hints code (bs, []) = Some a' -> tsound s hints code (qs, []) ->
    few (tdraws n code) (thazards (2 * Z.of_nat n) s E hints code (bs, []))
    (fun t => ~ exists zs, fst (texec (pr := taped_masks n pr) s p local_bits log_steps cascade_steps isqrt me no_check code (xs, []) (s0, t)) = Some zs /\
    trained n s (fst a') (fst zs) ls' (sgd B m threshold rate qb qls) /\ Forall2 (num_at n s (fst a') (fst zs)) lost (losses B m threshold rate qb qls)).
  Proof. exact (k_C110_training n pr s p log_steps cascade_steps isqrt me Hn Hn32 HV Hp Hs Hsqrt). Qed.
End Claims.
Print Assumptions C110_training.

(** The network of P_Training with three parties: the inputs are shared, one step is analysed with the bound of three parties, every parameter off by at most eleven units
    of 1/65536, and at most 42131810472 in every 2^64 - 1 draws go wrong. *)
Definition many_numbers : list num := map (fun v => mkNum [v + 777000; -777001; 1] 65536) ex_values.
Example C110_inputs : all_represent 3 65536 ex_bs ex_qs many_numbers /\ (Z.of_nat (2 * 1) | 2 ^ 62).
Proof.
  split; [split; [reflexivity|split; [reflexivity|]]|].
  - intros i b Hb. assert (Hi : (i < 16)%nat) by (change 16%nat with (length ex_bs); apply nth_error_Some; congruence).
    do 16 (destruct i as [|i]; [injection Hb as <-; split; [split; [reflexivity|split; [repeat apply Forall_cons; try apply Forall_nil; vm_compute; intuition congruence|reflexivity]]|]; split; [reflexivity|]; split; [vm_compute; congruence|]; split; [vm_compute; congruence|vm_compute; reflexivity]|]). lia.
  - exists (2 ^ 61). reflexivity.
Qed.
Example C110_analysis : let '(code, ls', lost) := ex_run 1 in let h := exact_hints 65536 code (ex_qs, []) in
  match tanalyse 65536 3 h code (ex_bs, []) with
  | Some a => map (fun i => snd (nth i (fst a) (0, 0))) (registers ls' ++ lost) = [10; 8; 8; 7; 9; 7; 7; 9; 11; 11] /\ tdraws 3 code = 141%nat /\ thazards 6 65536 3 h code (ex_bs, []) = 42131810472
  | None => False
  end.
Proof. vm_compute. split; [|split]; reflexivity. Qed.
(** The step on an ordinary draw of the 141 shares of masks, and on one of the draws on which the first truncation goes wrong: a hidden unit is lost and the loss is 17312 instead of 8608. *)
Definition many_run (t : list Z) : option (list Z) := let '(code, ls', lost) := ex_run 1 in
  option_map (fun zs => map (fun i => open_a (n_sh (nth i (fst zs) nil_num))) (registers ls' ++ lost))
    (fst (texec (pr := taped_masks 3 light) 65536 16 (fun s => ([41000; 513; 65535], s)) (fun _ => 1%nat) (fun _ => 1%nat) Nat.sqrt LogReduction no_check code (many_numbers, []) (tt, t))).
Definition many_draws (k : nat) : list Z := flat_map (fun i => [7 * Z.of_nat i; 2 ^ 60 - Z.of_nat i; 1000]) (seq 0 k).
Example C110_case : many_run (many_draws 47) = Some [36095; -14721; 47489; 31936; 11519; -9856; 36095; -10560; 5631; 8608] /\
  many_run ([0; 0; H63 - 2] ++ many_draws 46) = Some [32767; -16384; 46465; 31425; 8191; -10879; 32767; -6977; 9727; 17312].
Proof. vm_compute. split; reflexivity. Qed.
