(** Property theorems C108: training on encrypted data is gradient descent. *)
Require Import ZArith QArith Qabs List Lia Lqa Bool.
From Verif Require Import Ring64 Encoder Arith Beaver Trunc Provider Binary Binary_proofs Compare Compare_proofs Compare_claims Maximum Regular Regular_proofs Regular_claims Optim Program Program_claims Training Training_claims P_Program.
Import ListNotations.
Open Scope Z_scope.

Section Claims.
  Variables (n : nat) (pr : provider) (s : Z) (p : nat) (local_bits : run pr (list Z)) (log_steps cascade_steps isqrt : nat -> nat) (me : method).
  Hypothesis Hn : (0 < n)%nat.
  Hypothesis HV : valid n pr.
  Hypothesis Hp : (1 <= p <= 62)%nat.
  Hypothesis Hs : s = 2 ^ Z.of_nat p.
  (** every party's local draw is one of the 2^p values; int(math.sqrt(m)) lies strictly between 0 and m for m >= 2 *)
  Hypothesis Hlocal : forall st, let u := fst (local_bits st) in length u = n /\ Forall (fun z => 0 <= z < s) u.
  Hypothesis Hsqrt : forall m, (2 <= m)%nat -> (1 <= isqrt m < m)%nat.
  Local Notation run := (texec (pr := pr) s p local_bits log_steps cascade_steps isqrt me).

  (** C108: a program with masks, gates and thresholded gradients computes what it computes over the rationals, up to the error the analysis gives. *)
  Theorem C108_program : forall E prog hints bs qs xs a' st zs, 1 <= E -> all_represent n s bs qs xs -> tanalyse s E hints prog (bs, []) = Some a' -> tsound s hints prog (qs, []) ->
    fst (run (within E) prog (xs, []) st) = Some zs -> fst (run no_check prog (xs, []) st) = Some zs /\ all_represent n s (fst a') (fst (tideals prog (qs, []))) (fst zs).
  Proof. exact (k_C108_program n pr s p local_bits log_steps cascade_steps isqrt me Hn HV Hp Hs Hlocal Hsqrt). Qed.
  (** C108: training on encrypted batches ends with the parameters of gradient descent over the rationals, up to the error the analysis gives. *)
  Theorem C108_training : forall E B m k one threshold rate batches qb ls qls hints bs qs xs code ls' lost a' st zs, 1 <= E -> all_represent n s bs qs xs -> is_at qs one 1 -> layers_at qs ls qls -> shaped k m qls ->
    Forall2 (batch_at qs B k m) batches qb -> train B m one threshold rate batches ls (length xs) 0 = (code, ls', lost) -> tanalyse s E hints code (bs, []) = Some a' -> tsound s hints code (qs, []) ->
    fst (run (within E) code (xs, []) st) = Some zs ->
    fst (run no_check code (xs, []) st) = Some zs /\ trained n s (fst a') (fst zs) ls' (sgd B m threshold rate qb qls) /\ Forall2 (num_at n s (fst a') (fst zs)) lost (losses B m threshold rate qb qls).
  Proof. exact (k_C108_training n pr s p local_bits log_steps cascade_steps isqrt me Hn HV Hp Hs Hlocal Hsqrt). Qed.
  (** C108: with one party every run of the training loop does. *)
  Theorem C108_one_party : forall B m k one threshold rate batches qb ls qls hints bs qs xs code ls' lost a' st, n = 1%nat -> all_represent n s bs qs xs -> is_at qs one 1 -> layers_at qs ls qls -> shaped k m qls ->
    Forall2 (batch_at qs B k m) batches qb -> train B m one threshold rate batches ls (length xs) 0 = (code, ls', lost) -> tanalyse s 1 hints code (bs, []) = Some a' -> tsound s hints code (qs, []) ->
    exists zs, fst (run no_check code (xs, []) st) = Some zs /\ trained n s (fst a') (fst zs) ls' (sgd B m threshold rate qb qls) /\ Forall2 (num_at n s (fst a') (fst zs)) lost (losses B m threshold rate qb qls).
  Proof. exact (k_C108_one_party n pr s p local_bits log_steps cascade_steps isqrt me Hn HV Hp Hs Hlocal Hsqrt). Qed.
End Claims.
(** C108: hints read off the exact values are true. *)
Theorem C108_hints : forall s prog st, 0 < s -> tsound s (exact_hints s prog st) prog st.
Proof. exact k_C108_hints. Qed.
(** C108: the gradient is the gradient of the loss: moving the parameters by [- t h] changes the loss by [- t <gradient, h>] up to a multiple of t^2. *)
Theorem C108_gradient : forall B m k Y X ls hs, shaped k m ls -> length hs = length ls -> smooth B ls X ->
  exists delta K, (0 < delta /\ forall t, Qabs t <= delta ->
  Qabs (mse B m Y (net (descend None t ls hs) X) - (mse B m Y (net ls X) - t * inner ls (fst (gradient B m Y ls X)) hs)) <= K * (t * t))%Q.
Proof. exact k_C108_gradient. Qed.
(** C108: so a small enough step decreases the loss of the batch, unless the gradient vanishes. *)
Theorem C108_descent : forall B m k Y X ls, let g := fst (gradient B m Y ls X) in shaped k m ls -> smooth B ls X -> (0 < inner ls g g)%Q ->
  exists delta, (0 < delta /\ forall rate, 0 < rate -> rate <= delta -> mse B m Y (net (sgd_step B m None rate ls (X, Y)) X) < mse B m Y (net ls X))%Q.
Proof. exact k_C108_descent. Qed.
(** C108: a relu whose input rounds to the wrong side loses the whole gradient. *)
Theorem C108_gate_refuted : exists pr st xs zs, valid 1 pr /\ all_represent 1 65536 [(1, 1); (327680, 0)] [(1 # 131072)%Q; 5%Q] xs /\
  tideals [Mask 0; Gate 1 0] ([(1 # 131072)%Q; 5%Q], []) = ([(1 # 131072)%Q; 5%Q; 5%Q], [true]) /\
  fst (texec (pr := pr) 65536 16 (fun s => ([0], s)) (fun _ => 1%nat) (fun _ => 1%nat) Nat.sqrt LogReduction no_check [Mask 0; Gate 1 0] (xs, []) st) = Some zs /\ (qval (nth 2 (fst zs) nil_num) == 0)%Q.
Proof. exact k_C108_gate_refuted. Qed.
Print Assumptions C108_program.
Print Assumptions C108_training.
Print Assumptions C108_one_party.
Print Assumptions C108_hints.
Print Assumptions C108_gradient.
Print Assumptions C108_descent.
Print Assumptions C108_gate_refuted.

(** A network with two inputs, a hidden layer of two relus and one output, and a batch of two examples.  Registers: 0 holds 1, 1 to 4 the inputs, 5 and 6 the targets, 7 to 15 the parameters. *)
Definition ex_values : list Z := [65536; 65536; 32768; -65536; 49152; 32768; -16384; 32768; -16384; 49152; 32768; 8192; -8192; 32768; -16384; 4096].
Definition ex_numbers : list num := map (fun v => mkNum [v] 65536) ex_values.
Definition ex_qs : list Q := map (fun v => (inject_Z v / 65536)%Q) ex_values.
Definition ex_bs : list bound := map (fun v => (Z.abs v, 0)) ex_values.
Definition ex_net : list tlayer := [Dense 2 2 (placed 7 2) (fun j => 11 + j)%nat; Act 2; Dense 1 2 (placed 13 2) (fun _ => 15%nat)].
Definition ex_batch : matrix * matrix := (placed 1 2, placed 5 1).
Definition ex_qnet : list qlayer := [QDense 2 2 (fun j i => value ex_qs (placed 7 2 j i)) (fun j => value ex_qs (11 + j)); QAct 2; QDense 1 2 (fun j i => value ex_qs (placed 13 2 j i)) (fun _ => value ex_qs 15)].
Definition ex_qbatch : qmatrix * qmatrix := (fun a i => value ex_qs (placed 1 2 a i), fun a i => value ex_qs (placed 5 1 a i)).
(** the registers of a network's parameters *)
Definition registers (ls : list tlayer) : list nat := flat_map (fun l => match l with Dense o k W b => flat_map (fun j => map (W j) (seq 0 k)) (seq 0 o) ++ map b (seq 0 o) | Act _ => [] end) ls.
Definition ex_run (steps : nat) := train 2 1 0 (Some 100) (1 # 4) (repeat ex_batch steps) ex_net 16 0.

(** The hypotheses of [C108_training] hold for it, for any number of steps. *)
Example C108_inputs : all_represent 1 65536 ex_bs ex_qs ex_numbers /\ is_at ex_qs 0 1 /\ layers_at ex_qs ex_net ex_qnet /\ shaped 2 1 ex_qnet /\ forall steps, Forall2 (batch_at ex_qs 2 2 1) (repeat ex_batch steps) (repeat ex_qbatch steps).
Proof.
  assert (At : forall i, (i < 16)%nat -> is_at ex_qs i (value ex_qs i)) by (intros i Hi; split; [exact Hi|reflexivity]).
  split; [split; [reflexivity|split; [reflexivity|]]|].
  - intros i b Hb. assert (Hi : (i < 16)%nat) by (change 16%nat with (length ex_bs); apply nth_error_Some; congruence).
    do 16 (destruct i as [|i]; [injection Hb as <-; split; [split; [reflexivity|split; [constructor; [unfold in64, H63; cbn; lia|constructor]|reflexivity]]|]; split; [reflexivity|]; split; [vm_compute; congruence|]; split; [vm_compute; congruence|vm_compute; reflexivity]|]). lia.
  - split; [split; [cbn; lia|vm_compute; reflexivity]|]. split.
    + cbn [layers_at ex_net ex_qnet]. repeat (split; [first [reflexivity|intros ? ? ? ?; apply At; unfold placed; lia|intros ? ?; apply At; lia]|]). exact I.
    + split; [cbn; auto|]. intros steps. induction steps as [|k IH]; [constructor|]. cbn [repeat]. constructor; [|exact IH]. split; intros a i Ha Hi; apply At; unfold placed; cbn [fst snd ex_batch]; unfold placed; lia.
Qed.
(** For one step the analysis succeeds: every parameter is off by at most five units of 1/65536, every mask is known. *)
Example C108_analysis : let '(code, ls', lost) := ex_run 1 in
  match tanalyse 65536 1 (exact_hints 65536 code (ex_qs, [])) code (ex_bs, []) with
  | Some a => map (fun i => snd (nth i (fst a) (0, 0))) (registers ls') = [4; 3; 3; 3; 4; 3; 3; 4; 5] /\ snd a = [true; true; true; true]
  | None => False
  end.
Proof. vm_compute. split; reflexivity. Qed.
(** Two steps with a single party: the loss falls from 8608/65536 to 5109/65536. *)
Example C108_case : let '(code, ls', lost) := ex_run 2 in
  option_map (fun zs => map (fun i => open_a (n_sh (nth i (fst zs) nil_num))) (registers ls' ++ lost))
    (fst (texec (pr := alone) 65536 16 (fun s => ([0], s)) (fun _ => 1%nat) (fun _ => 1%nat) Nat.sqrt LogReduction no_check code (ex_numbers, []) tt)) =
  Some [37968; -13784; 46941; 31663; 13392; -10403; 38184; -7780; 3529; 8608; 5109].
Proof. vm_compute. reflexivity. Qed.
(** No relu of the network receives a zero, and its gradient is not zero. *)
Example C108_smooth : smooth 2 ex_qnet (fst ex_qbatch) /\ let g := fst (gradient 2 1 (snd ex_qbatch) ex_qnet (fst ex_qbatch)) in (0 < inner ex_qnet g g)%Q.
Proof.
  split; [|vm_compute; reflexivity]. cbn [smooth ex_qnet]. split; [|exact I]. intros a i Ha Hi. destruct a as [|[|a]]; [| |lia]; (destruct i as [|[|i]]; [| |lia]); vm_compute; discriminate.
Qed.
