(** Property theorems C34: the trusted-first-party provider. *)
Require Import ZArith List Lia.
From Verif Require Import Ring64 Sharing Arith Beaver Trunc Sharing_proofs Beaver_proofs Tfp Provider Tfp_proofs P_Sharing.
Import ListNotations.
Open Scope Z_scope.

(** What is assumed of torch.randint: as many elements as asked, each in the requested range. *)
Definition draws_ring {G} (draw : G -> nat -> list Z * G) : Prop := forall g k, length (fst (draw g k)) = k /\ Forall in64 (fst (draw g k)).
Definition draws_bit {G} (draw : G -> nat -> list Z * G) : Prop := forall g k, length (fst (draw g k)) = k /\ Forall (fun b => b = 0 \/ b = 1) (fst (draw g k)).
(** A tensor of [k] elements held by [n] parties as ring elements. *)
Definition held (n k : nat) (s : list (list Z)) : Prop := length s = n /\ Forall (fun t => length t = k /\ Forall in64 t) s.

Section Claim.
  Context {G : Type}.
  Variables (seeded : Z -> G) (draw draw_bits : G -> nat -> list Z * G).
  Definition after (next_seeds global_seeds : list Z) (local : G) (h : list request) (st : tfp_state G) : Prop :=
    draws_ring draw /\ draws_bit draw_bits /\ (0 < length next_seeds)%nat /\
    exists w0, setup_prng G seeded next_seeds global_seeds = Some w0 /\ st = tfp_history G draw draw_bits seeded h (local, w0).

  Lemma after_good ns gs l h st : after ns gs l h st ->
    (forall g k, length (fst (draw g k)) = k) /\ (forall g k, Forall in64 (fst (draw g k))) /\
    (forall g k, length (fst (draw_bits g k)) = k) /\ (forall g k, Forall (fun b => b = 0 \/ b = 1) (fst (draw_bits g k))) /\
    (0 < length ns)%nat /\ good (length ns) (snd st).
  Proof.
    intros (D & B & Hn & w0 & E & ->). split; [apply D|]. split; [apply D|]. split; [apply B|]. split; [apply B|]. split; [assumption|].
    apply tfp_history_good; try apply D; try apply B; [assumption|]. cbn [snd]. now apply (setup_good seeded ns gs).
  Qed.
  Lemma shared_held n k s : shared n k s -> held n k s.
  Proof. intros (L & A & B). split; [assumption|]. rewrite Forall_forall in *. auto. Qed.

  Theorem C34_triple : forall ns gs l h st d k k' T, after ns gs l h st ->
    let '((a, b, c), _) := tfp_triple G draw d k k' T st in
    held (length ns) k a /\ held (length ns) k' b /\ held (length ns) (length T) c /\ reveal_arith c = bil T (reveal_arith a) (reveal_arith b).
  Proof.
    intros ns gs l h st d k k' T A. apply after_good in A as (A1 & A2 & A3 & A4 & Hn & Hg).
    pose proof (tfp_triple_ok draw A1 A2 (length ns) d k k' T st Hn Hg) as H. destruct (tfp_triple G draw d k k' T st) as [[[a b] c] st'].
    destruct H as (Ha & Hb & Hc & R & _). auto using shared_held.
  Qed.
  Theorem C34_square : forall ns gs l h st d k, after ns gs l h st ->
    let '((r, r2), _) := tfp_square G draw d k st in
    held (length ns) k r /\ held (length ns) k r2 /\ reveal_arith r2 = map (fun v => wrap (v * v)) (reveal_arith r).
  Proof.
    intros ns gs l h st d k A. apply after_good in A as (A1 & A2 & A3 & A4 & Hn & Hg).
    pose proof (tfp_square_ok draw A1 A2 (length ns) d k st Hn Hg) as H. destruct (tfp_square G draw d k st) as [[a b] st'].
    destruct H as (Ha & Hb & R & _). rewrite zipw_diag in R. auto using shared_held.
  Qed.
  Theorem C34_binary : forall ns gs l h st d k, after ns gs l h st ->
    let '((a, b, c), _) := tfp_binary G draw d k st in
    held (length ns) k a /\ held (length ns) k b /\ held (length ns) k c /\
    forall j, (j < k)%nat -> nth j (reveal_bin c) 0 = Z.land (nth j (reveal_bin a) 0) (nth j (reveal_bin b) 0).
  Proof.
    intros ns gs l h st d k A. apply after_good in A as (A1 & A2 & A3 & A4 & Hn & Hg).
    pose proof (tfp_binary_ok draw A1 A2 (length ns) d k st Hn Hg) as H. destruct (tfp_binary G draw d k st) as [[[a b] c] st'].
    destruct H as (Ha & Hb & Hc & R & _). repeat (split; [now apply shared_held|]). intros j Hj. rewrite R. apply zipw_land_nth.
    - destruct Ha as (L & F & _). rewrite (reveal_bin_length a k); [lia| |exact F]. intros ->. cbn [length] in L. lia.
    - destruct Hb as (L & F & _). rewrite (reveal_bin_length b k); [lia| |exact F]. intros ->. cbn [length] in L. lia.
  Qed.
  Theorem C34_wrap : forall ns gs l h st d k, after ns gs l h st ->
    let '((r, theta), _) := tfp_wrap G draw d k st in
    held (length ns) k r /\ held (length ns) k theta /\
    reveal_arith theta = map (fun j => count_wraps (map (fun t => nth j t 0) r)) (seq 0 k).
  Proof.
    intros ns gs l h st d k A. apply after_good in A as (A1 & A2 & A3 & A4 & Hn & Hg).
    pose proof (tfp_wrap_ok draw A1 A2 (length ns) d k st Hn Hg) as H. destruct (tfp_wrap G draw d k st) as [[a b] st'].
    destruct H as (Ha & Hb & R & _). auto using shared_held.
  Qed.
  Theorem C34_b2a : forall ns gs l h st d k, after ns gs l h st ->
    let '((rA, rB), _) := tfp_b2a G draw draw_bits d k st in
    held (length ns) k rA /\ held (length ns) k rB /\ reveal_arith rA = reveal_bin rB /\ Forall (fun b => b = 0 \/ b = 1) (reveal_bin rB).
  Proof.
    intros ns gs l h st d k A. apply after_good in A as (A1 & A2 & A3 & A4 & Hn & Hg).
    pose proof (tfp_b2a_ok draw draw_bits A1 A2 A3 A4 (length ns) d k st Hn Hg) as H. destruct (tfp_b2a G draw draw_bits d k st) as [[a b] st'].
    destruct H as (Ha & Hb & R & B & _). auto using shared_held.
  Qed.
End Claim.
Print Assumptions C34_triple.
Print Assumptions C34_square.
Print Assumptions C34_binary.
Print Assumptions C34_wrap.
Print Assumptions C34_b2a.

(** A concrete generator; the hypotheses hold after a mixed history of three parties. *)
Definition lcg_bits (g : Z) (k : nat) : list Z * Z := (map (fun i => (g + Z.of_nat i) mod 2) (seq 0 k), wrap (g * 31 + Z.of_nat k)).
Example lcg_ring : draws_ring lcg_draw.
Proof. intros g k. cbn. rewrite map_length, seq_length. split; [reflexivity|]. apply Forall_map, Forall_forall. intros. apply wrap_in64. Qed.
Example lcg_bit : draws_bit lcg_bits.
Proof.
  intros g k. cbn [lcg_bits fst]. rewrite map_length, seq_length. split; [reflexivity|]. apply Forall_map, Forall_forall. intros i _.
  pose proof (Z.mod_pos_bound (g + Z.of_nat i) 2). lia.
Qed.
Definition demo_requests : list request := [RTriple 0 4 4 (matmul_table 2 2 2); ROther (CEnc 0 1 [5; -7]); RSquare 1 3; RBinary 0 2; ROther (CReseed [1; 2; 3] [9; 9; 9]); RWrap 0 2; RB2A 0 5].
Definition demo_world : world Z := match setup_prng Z (fun s => s) [1001; -5; 77] [4; 5; 6] with Some w => w | None => [] end.
Example C34_case_after : exists st, after (fun s => s) lcg_draw lcg_bits [1001; -5; 77] [4; 5; 6] 42 demo_requests st.
Proof. eexists. split; [exact lcg_ring|]. split; [exact lcg_bit|]. split; [cbn; lia|]. exists demo_world. split; [reflexivity|reflexivity]. Qed.
Example C34_case_wrap :
  let '((r, theta), _) := tfp_wrap Z lcg_draw 0 3 (tfp_history Z lcg_draw lcg_bits (fun s => s) demo_requests (42, demo_world)) in
  reveal_arith theta <> [0; 0; 0] /\ length r = 3%nat.
Proof. vm_compute. split; [discriminate|reflexivity]. Qed.
