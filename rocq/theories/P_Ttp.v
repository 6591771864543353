(** Property theorems C35: the trusted-third-party provider. *)
Require Import ZArith List Lia.
From Verif Require Import Ring64 Sharing Arith Beaver Trunc Sharing_proofs Beaver_proofs Provider Tfp_proofs P_Sharing P_Tfp Ttp Ttp_proofs.
Import ListNotations.
Open Scope Z_scope.

(** Requests other than a wrap request for CUDA tensors. *)
Definition supported (r : treq) : Prop := match r with TWrap Cuda _ _ => False | _ => True end.

Section Claim.
  Context {G : Type}.
  Variables (seeded : Z -> G) (draw draw_bits : G -> nat -> list Z * G).
  (** clients and server initialise, then the requests [h] are served *)
  Definition after (seeds : list Z) (h : list treq) : option (ttp_state G) :=
    match setup G seeded seeds with Some st => ttp_history G draw draw_bits h st | None => None end.
  (** [st]: the generators of clients and server after serving the requests [h]. *)
  Definition served (seeds : list Z) (h : list treq) (st : ttp_state G) : Prop :=
    draws_ring draw /\ draws_bit draw_bits /\ (2 <= length seeds)%nat /\ Forall supported h /\ after seeds h = Some st.

  Lemma after_ok seeds h : draws_ring draw -> draws_bit draw_bits -> (2 <= length seeds)%nat -> Forall not_cuda_wrap h ->
    exists st, after seeds h = Some st /\ insync (length seeds) st.
  Proof.
    intros D B Hn F. unfold after. rewrite setup_eq.
    apply (ttp_history_ok draw draw_bits (fun g k => proj1 (D g k)) (fun g k => proj2 (D g k)) (fun g k => proj1 (B g k)) (fun g k => proj2 (B g k)) (length seeds) h);
      [exact Hn| |exact F]. split; [reflexivity|apply server_length].
  Qed.
  Lemma supported_ok h : Forall supported h -> Forall not_cuda_wrap h.
  Proof. apply Forall_impl. intros r. exact (fun H => H). Qed.
  Lemma served_ok seeds h st : served seeds h st ->
    (forall g k, length (fst (draw g k)) = k) /\ (forall g k, Forall in64 (fst (draw g k))) /\
    (forall g k, length (fst (draw_bits g k)) = k) /\ (forall g k, Forall (fun b => b = 0 \/ b = 1) (fst (draw_bits g k))) /\
    (2 <= length seeds)%nat /\ insync (length seeds) st.
  Proof.
    intros (D & B & Hn & F & E). split; [apply D|]. split; [apply D|]. split; [apply B|]. split; [apply B|]. split; [assumption|].
    destruct (after_ok seeds h D B Hn (supported_ok h F)) as (st' & E' & S).
    rewrite E in E'. now inversion E'; subst.
  Qed.
  Lemma shared_held' n k s : shared n k s -> held n k s.
  Proof. intros (L & A & B). split; [assumption|]. rewrite Forall_forall in *. auto. Qed.

  (** No supported history stops the server, and afterwards every party's generators are in the states of the server's copies. *)
  Theorem C35_synchronised : forall seeds h, draws_ring draw -> draws_bit draw_bits -> (2 <= length seeds)%nat -> Forall supported h ->
    exists parties server, after seeds h = Some (parties, server) /\ parties = server /\ length parties = length seeds.
  Proof. intros seeds h D B Hn F. destruct (after_ok seeds h D B Hn (supported_ok h F)) as ([cl sv] & E & S & L). exists cl, sv. auto. Qed.
  Theorem C35_triple : forall seeds h st d k k' T, served seeds h st ->
    exists a b c st', ttp_triple G draw d k k' T st = Some ((a, b, c), st') /\
    held (length seeds) k a /\ held (length seeds) k' b /\ held (length seeds) (length T) c /\ reveal_arith c = bil T (reveal_arith a) (reveal_arith b).
  Proof.
    intros seeds h st d k k' T A. apply served_ok in A as (A1 & A2 & A3 & A4 & Hn & Hs).
    destruct (ttp_triple_ok draw A1 A2 (length seeds) d k k' T st Hn Hs) as (a & b & c & st' & E & _ & Ha & Hb & Hc & R).
    exists a, b, c, st'. eauto 9 using shared_held'.
  Qed.
  Theorem C35_square : forall seeds h st d k, served seeds h st ->
    exists r r2 st', ttp_square G draw d k st = Some ((r, r2), st') /\
    held (length seeds) k r /\ held (length seeds) k r2 /\ reveal_arith r2 = map (fun v => wrap (v * v)) (reveal_arith r).
  Proof.
    intros seeds h st d k A. apply served_ok in A as (A1 & A2 & A3 & A4 & Hn & Hs).
    destruct (ttp_square_ok draw A1 A2 (length seeds) d k st Hn Hs) as (r & r2 & st' & E & _ & Ha & Hb & R).
    rewrite zipw_diag in R. exists r, r2, st'. eauto 9 using shared_held'.
  Qed.
  Theorem C35_binary : forall seeds h st d k k' P, served seeds h st ->
    exists a b c st', ttp_binary G draw d k k' P st = Some ((a, b, c), st') /\
    held (length seeds) k a /\ held (length seeds) k' b /\ held (length seeds) (length P) c /\
    forall j i i', nth_error P j = Some (i, i') -> nth j (reveal_bin c) 0 = Z.land (nth i (reveal_bin a) 0) (nth i' (reveal_bin b) 0).
  Proof.
    intros seeds h st d k k' P A. apply served_ok in A as (A1 & A2 & A3 & A4 & Hn & Hs).
    destruct (ttp_binary_ok draw A1 A2 (length seeds) d k k' P st Hn Hs) as (a & b & c & st' & E & _ & Ha & Hb & Hc & R).
    exists a, b, c, st'. split; [assumption|]. repeat (split; [now apply shared_held'|]). intros j i i' N. rewrite R.
    unfold land_at. apply nth_error_nth. rewrite nth_error_map, N. reflexivity.
  Qed.
  Theorem C35_wrap : forall seeds h st scalar k, served seeds h st ->
    exists r theta st', ttp_wrap G draw Cpu scalar k st = Some ((r, theta), st') /\
    held (length seeds) k r /\ held (length seeds) k theta /\
    reveal_arith theta = map (fun j => count_wraps (map (fun t => nth j t 0) r)) (seq 0 k).
  Proof.
    intros seeds h st sc k A. apply served_ok in A as (A1 & A2 & A3 & A4 & Hn & Hs).
    destruct (ttp_wrap_ok draw A1 A2 (length seeds) sc k st Hn Hs) as (r & th & st' & E & _ & Ha & Hb & R).
    exists r, th, st'. eauto 9 using shared_held'.
  Qed.
  Theorem C35_b2a : forall seeds h st d k, served seeds h st ->
    exists rA rB st', ttp_b2a G draw draw_bits d k st = Some ((rA, rB), st') /\
    held (length seeds) k rA /\ held (length seeds) k rB /\ reveal_arith rA = reveal_bin rB /\ Forall (fun b => b = 0 \/ b = 1) (reveal_bin rB).
  Proof.
    intros seeds h st d k A. apply served_ok in A as (A1 & A2 & A3 & A4 & Hn & Hs).
    destruct (ttp_b2a_ok draw draw_bits A1 A2 A3 A4 (length seeds) d k st Hn Hs) as (rA & rB & st' & E & _ & Ha & Hb & R & B).
    exists rA, rB, st'. eauto 9 using shared_held'.
  Qed.
  (** With one party no request is ever answered: the server fails on its first one. *)
  Theorem C35_single_party : forall seed r h, after [seed] (r :: h) = None.
  Proof. intros. unfold after. rewrite setup_eq. cbn [ttp_history]. now rewrite ttp_step_alone. Qed.
  (** A wrap request for CUDA tensors with a dimension stops the server, whatever came before. *)
  Theorem C35_cuda_wrap_stops : forall k h st, ttp_history G draw draw_bits (TWrap Cuda false k :: h) st = None.
  Proof. intros. cbn [ttp_history]. now rewrite ttp_cuda_wrap_stops. Qed.
  (** Run from synchronised states, the provider meets the specification all protocol theorems assume of a provider. *)
  Theorem C35_provider : forall n (Hn : (2 <= n)%nat) (D : draws_ring draw) (B : draws_bit draw_bits),
    valid n (ttp_provider draw draw_bits (fun g k => proj1 (D g k)) (fun g k => proj2 (D g k)) (fun g k => proj1 (B g k)) (fun g k => proj2 (B g k)) n Hn).
  Proof. intros. apply ttp_provider_valid. Qed.
End Claim.

(** A generator for the counterexample. *)
Definition mixed (g : Z) (k : nat) : list Z * Z :=
  (map (fun i => wrap (g * 6364136223846793005 + Z.of_nat i)) (seq 0 k), wrap (g * 2862933555777941757 + 3037000493)).
Lemma mixed_ring : draws_ring mixed.
Proof. intros g k. cbn [mixed fst]. rewrite map_length, seq_length. split; [reflexivity|]. apply Forall_map, Forall_forall. intros. apply wrap_in64. Qed.
(** A zero-dimensional CUDA wrap request is answered, wrongly, and leaves the CPU generators apart: the square pair handed out next is wrong too. *)
Theorem C35_cuda_scalar_wrap_refuted : exists (draw draw_bits : Z -> nat -> list Z * Z) seeds, draws_ring draw /\ draws_bit draw_bits /\ (2 <= length seeds)%nat /\
  exists st0 r theta st r1 r2 st', setup Z (fun s => s) seeds = Some st0 /\ ttp_wrap Z draw Cuda true 1 st0 = Some ((r, theta), st) /\
  reveal_arith theta <> [count_wraps (map (fun t => nth 0 t 0) r)] /\
  ttp_square Z draw Cpu 1 st = Some ((r1, r2), st') /\ reveal_arith r2 <> map (fun v => wrap (v * v)) (reveal_arith r1).
Proof.
  exists mixed, lcg_bits, [5; 9; 2]. split; [exact mixed_ring|]. split; [exact lcg_bit|]. split; [cbn; lia|].
  destruct (setup Z (fun s => s) [5; 9; 2]) as [st0|] eqn:E0; [|discriminate]. injection E0 as <-. exists (let g := map (fun s => mkDgens s s) [5; 9; 2] in (g, g)).
  assert (H : match ttp_wrap Z mixed Cuda true 1 (let g := map (fun s => mkDgens s s) [5; 9; 2] in (g, g)) with
    | Some ((r, theta), st) => match ttp_square Z mixed Cpu 1 st with
      | Some ((r1, r2), _) => reveal_arith theta <> [count_wraps (map (fun t => nth 0 t 0) r)] /\ reveal_arith r2 <> map (fun v => wrap (v * v)) (reveal_arith r1)
      | None => False end
    | None => False end) by (vm_compute; split; discriminate).
  destruct (ttp_wrap Z mixed Cuda true 1 _) as [[[r theta] st]|]; [|destruct H].
  destruct (ttp_square Z mixed Cpu 1 st) as [[[r1 r2] st']|] eqn:E; [|destruct H]. destruct H as [H1 H2].
  exists r, theta, st, r1, r2, st'. split; [reflexivity|auto].
Qed.
(** The draws from one generator, one after the other. *)
Fixpoint stream {G} (f : G -> nat -> list Z * G) (s : G) (ks : list nat) : list (list Z) := match ks with [] => [] | k :: r => fst (f s k) :: stream f (snd (f s k)) r end.
(** The draws of [l], each on its device, by the holder of both generators. *)
Fixpoint draws_on {G} (f : G -> nat -> list Z * G) (g : dgens G) (l : list (device * nat)) : list (device * list Z) :=
  match l with [] => [] | (d, k) :: r => (d, fst (pull G f d k g)) :: draws_on f (snd (pull G f d k g)) r end.
Definition of_device {A} (d : device) (l : list (device * A)) : list A := flat_map (fun v => match d, fst v with Cpu, Cpu | Cuda, Cuda => [snd v] | _, _ => [] end) l.
(** C35: the two devices do not disturb each other: what is drawn on one is what a generator with the same seed gives alone. *)
Theorem C35_devices : forall G (seeded : Z -> G) (f : G -> nat -> list Z * G) seed d l, of_device d (draws_on f (both_seeded G seeded seed) l) = stream f (seeded seed) (of_device d l).
Proof.
  intros G seeded f seed d l. assert (A : forall l g, of_device d (draws_on f g l) = stream f (match d with Cpu => on_cpu g | Cuda => on_cuda g end) (of_device d l)); [|rewrite A; destruct d; reflexivity].
  clear. induction l as [|[e k] l IH]; intros g; [reflexivity|]. cbn [draws_on]. unfold of_device in *. cbn [flat_map fst snd]. rewrite IH. unfold pull, get_generator, set_generator. destruct d, e; cbn [app stream]; [destruct (f (on_cpu g) k)|destruct (f (on_cuda g) k)|destruct (f (on_cpu g) k)|destruct (f (on_cuda g) k)]; reflexivity.
Qed.
Print Assumptions C35_devices.
Print Assumptions C35_synchronised.
Print Assumptions C35_triple.
Print Assumptions C35_square.
Print Assumptions C35_binary.
Print Assumptions C35_wrap.
Print Assumptions C35_b2a.
Print Assumptions C35_single_party.
Print Assumptions C35_cuda_wrap_stops.
Print Assumptions C35_provider.
Print Assumptions C35_cuda_scalar_wrap_refuted.

(** Three parties, a mixed history on both devices; the wrap tuple handed out next is not trivial. *)
Definition demo_treqs : list treq := [TTriple Cpu 4 4 (matmul_table 2 2 2); TSquare Cuda 3; TBinary Cpu 2 1 [(0, 0); (1, 0)]%nat; TWrap Cpu false 2; TB2A Cuda 5].
Example C35_case : exists st, served (fun s => s) lcg_draw lcg_bits [1001; -5; 77] demo_treqs st.
Proof.
  eexists. split; [exact lcg_ring|]. split; [exact lcg_bit|]. split; [cbn; lia|]. split; [repeat constructor|]. vm_compute. reflexivity.
Qed.
Example C35_case_binary : match after (fun s => s) lcg_draw lcg_bits [1001; -5; 77] demo_treqs with
  | Some st => match ttp_binary Z lcg_draw Cpu 2 1 [(0, 0); (1, 0)]%nat st with
               | Some ((a, b, c), _) => nth 1 (reveal_bin c) 0 = Z.land (nth 1 (reveal_bin a) 0) (nth 0 (reveal_bin b) 0) /\ nth 1 (reveal_bin c) 0 <> 0
               | None => False end
  | None => False end.
Proof. vm_compute. split; [reflexivity|discriminate]. Qed.
