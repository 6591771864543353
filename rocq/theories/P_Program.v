(** Property theorems C93: programs of encrypted operations, networks, predictions. *)
Require Import ZArith QArith Qabs List Lia Lqa Bool.
From Verif Require Import Ring64 Encoder Arith Beaver Trunc Provider Binary Binary_proofs Compare Compare_proofs Compare_claims Maximum Regular Regular_proofs Regular_claims Program Program_claims.
Import ListNotations.
Open Scope Z_scope.

Section Claims.
  Variables (n : nat) (pr : provider) (s : Z) (p : nat) (local_bits : run pr (list Z)) (log_steps cascade_steps isqrt : nat -> nat) (me : method).
  Hypothesis Hn : (0 < n)%nat.
  Hypothesis HV : valid n pr.
  Hypothesis Hp : (1 <= p <= 62)%nat.
  Hypothesis Hs : s = 2 ^ Z.of_nat p.
  (** every party's local draw is one of the 2^p values; int(math.sqrt(m)) lies strictly between 0 and m for m >= 2 *)
  Hypothesis Hlocal : forall st, let u := fst (local_bits st) in length u = n /\ Forall (fun z => 0 <= z < s) u.
  Hypothesis Hsqrt : forall m, (2 <= m)%nat -> (1 <= isqrt m < m)%nat.
  Local Notation run := (exec (pr := pr) s p local_bits log_steps cascade_steps isqrt me).

  (** C93.  A program of additions, subtractions, products, squares, divisions by integers, matrix-product and convolution entries, sums, relu, abs, hardtanh and maxima, run on
      encrypted numbers of the default scale s = 2^p by any number of parties.  A run in which every truncation is off by less than E units in the last place is a run of the default
      configuration, and every number it computes is the number the same program computes over the rationals, up to the error found by the analysis; the analysis succeeds only if no
      number can leave 64 bits. *)
  Theorem C93_program : forall E prog hints bs qs xs bs' st zs, 1 <= E -> all_represent n s bs qs xs -> analyse s E hints prog bs = Some bs' -> sound_hints s hints prog qs ->
    fst (run (within E) prog xs st) = Some zs -> fst (run no_check prog xs st) = Some zs /\ all_represent n s bs' (ideals prog qs) zs.
  Proof. exact (k_C93_program n pr s p local_bits log_steps cascade_steps isqrt me Hn HV Hp Hs Hlocal Hsqrt). Qed.
  (** With a single party every run is such a run, with E = 1. *)
  Theorem C93_one_party : forall prog hints bs qs xs bs' st, n = 1%nat -> all_represent n s bs qs xs -> analyse s 1 hints prog bs = Some bs' -> sound_hints s hints prog qs ->
    exists zs, fst (run no_check prog xs st) = Some zs /\ all_represent n s bs' (ideals prog qs) zs.
  Proof. exact (k_C93_one_party n pr s p local_bits log_steps cascade_steps isqrt me Hn HV Hp Hs Hlocal Hsqrt). Qed.
  (** The forward pass of a network of linear and convolution layers (encrypted or public parameters), relu, average and max pooling: every decrypted output is the network's function of
      what the encrypted inputs and parameters stand for, up to the error found by the analysis. *)
  Theorem C93_network : forall E hints ls bs qs xs bs' cur prog out st zs, 1 <= E -> all_represent n s bs qs xs -> Forall (fun i => i < length xs)%nat cur -> network_fits (length xs) (length cur) ls ->
    compile cur (length xs) ls = (prog, out) -> analyse s E hints prog bs = Some bs' -> sound_hints s hints prog qs -> fst (run (within E) prog xs st) = Some zs ->
    fst (run no_check prog xs st) = Some zs /\
    let result := network_value (value qs) ls (map (value qs) cur) in
    length out = length result /\ forall k i, nth_error out k = Some i -> exists b, nth_error bs' i = Some b /\ represents n s b (entry result k) (nth i zs nil_num).
  Proof. exact (k_C93_network n pr s p local_bits log_steps cascade_steps isqrt me Hn HV Hp Hs Hlocal Hsqrt). Qed.
End Claims.
Print Assumptions C93_program.
Print Assumptions C93_one_party.
Print Assumptions C93_network.
(** The decrypted scores order two classes as the network does whenever its scores differ by more than the two errors. *)
Theorem C93_prediction : forall n s b c q r x y, represents n s b q x -> represents n s c r y -> (q + ulps (snd b + snd c) s < r)%Q -> (qval x < qval y)%Q.
Proof. exact k_C93_prediction. Qed.
Print Assumptions C93_prediction.
(** Without the analysis a product may leave 64 bits: one party, default configuration, 2^24 squared decrypts to 0. *)
Theorem C93_unchecked_refuted : exists pr local_bits st x z, valid 1 pr /\ represents 1 65536 (2 ^ 40, 0) (inject_Z (2 ^ 24)) x /\ analyse 65536 1 [] [ISquare 0] [(2 ^ 40, 0)] = None /\
  fst (exec (pr := pr) 65536 16 local_bits (fun _ => 1%nat) (fun _ => 1%nat) Nat.sqrt LogReduction no_check [ISquare 0] [x] st) = Some [x; z] /\ (qval z == 0)%Q.
Proof. exact k_C93_unchecked_refuted. Qed.
Print Assumptions C93_unchecked_refuted.

(** Concrete case: two parties; an encrypted 2x2 linear layer with bias on the encrypted input (1.5, -0.5), relu, a max pool of both outputs and a public linear layer. *)
Definition pair : provider := mkProvider unit
  (fun s => (([13; 6], [9; 4], [Z.lxor (Z.land 11 13) 5; 5]), s)) (fun s => (([12345; -99], [-777; 20], [wmul 12246 (-757) - 8; 8]), s)) (fun s => (([31; 9], [1600 - 77; 77]), s))
  (fun s => (([99; 8], [3; -3]), s)) (fun s => (([-3; 4], [6; 7]), s)) (fun s => ([71; -71], s)) (fun s => ([5; 5], s)).
Example pair_valid : valid 2 pair.
Proof. constructor; intros []; cbn -[H63 wmul Z.lxor Z.land]; repeat split; try (repeat constructor; unfold in64, H63; vm_compute; intuition discriminate); try (vm_compute; reflexivity); right; vm_compute; reflexivity. Qed.
Definition pair_bits : run pair (list Z) := fun s => ([41000; 513], s).
Definition ex_q : list Q := [1 # 2; 1; -1 # 1; 1 # 4; 1 # 10; -1 # 8; 3 # 2; -1 # 2]%Q.
Definition ex_x : list num := map (fun q => mkNum [encodeQ 65536 q + 777000; -777000] 65536) ex_q.
Definition ex_b : list bound := [(32768, 1); (65536, 1); (65536, 1); (16384, 1); (6554, 1); (8192, 1); (98304, 1); (32768, 1)].
Definition ex_net : list layer := [Affine [([(0, 0); (1, 1)], 4); ([(0, 2); (1, 3)], 5)]%nat; Relu; MaxPool [[0; 1]%nat]; AffineQ [([(0%nat, (3 # 4)%Q)], (1 # 8)%Q)]].
Example C93_case_hyps : all_represent 2 65536 ex_b ex_q ex_x /\ network_fits (length ex_x) 2 ex_net.
Proof.
  split.
  - split; [reflexivity|]. split; [reflexivity|]. intros i b Hb. do 8 (destruct i as [|i]; [injection Hb as <-; split; [split; [reflexivity|split; [repeat apply Forall_cons; try apply Forall_nil; vm_compute; intuition congruence|reflexivity]]|]; split; [reflexivity|]; split; [vm_compute; congruence|]; split; [vm_compute; congruence|vm_compute; reflexivity]|]). destruct i; discriminate.
  - cbn. repeat split; intros; repeat match goal with H : _ \/ _ |- _ => destruct H as [H|H] | H : False |- _ => destruct H end; subst; cbn in *; repeat match goal with H : _ \/ _ |- _ => destruct H as [H|H] | H : False |- _ => destruct H end; subst; cbn; lia.
Qed.
Example C93_case : let '(prog, out) := compile [6; 7]%nat (length ex_x) ex_net in
  map (fun q => Qred q) (network_value (value ex_q) ex_net [3 # 2; -1 # 2]%Q) = [31 # 80]%Q /\
  option_map (fun bs => map (fun i => nth i bs (0, 0)) out) (analyse 65536 2 [] prog ex_b) = Some [(94211, 10)] /\
  option_map (fun zs => map (fun i => open_a (n_sh (nth i zs nil_num))) out) (fst (exec (pr := pair) 65536 16 pair_bits (fun _ => 1%nat) (fun _ => 1%nat) Nat.sqrt LogReduction (within 2) prog ex_x tt)) = Some [25395].
Proof. vm_compute. repeat split. Qed.
