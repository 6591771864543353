(** Property theorems C01, C02, C03, C40 and the sharing part of C14. *)
Require Import ZArith List Lia.
From Verif Require Import Ring64 Sharing Sharing_proofs.
Import ListNotations.
Open Scope Z_scope.

(** What is assumed of torch.randint: it returns as many elements as asked. *)
Definition draws_sized {G} (draw : G -> nat -> list Z * G) : Prop := forall g k, length (fst (draw g k)) = k.

(** C40: after initialisation the parties' seeds are paired around the ring and the global seed is common. *)
Theorem C40_seed_ring : forall next_seeds global_seeds g0, next_seeds <> [] -> nth_error global_seeds 0 = Some g0 ->
  exists l, sync_seeds next_seeds global_seeds = map Some l /\ length l = length next_seeds /\
    (forall i, (i < length l)%nat -> exists s t, nth_error l i = Some s /\ nth_error l ((i + 1) mod length l) = Some t /\
       sd_next s = sd_prev t /\ sd_global s = g0).
Proof.
  intros ns gs g0 Hn Hg. destruct (sync_seeds_some ns gs) as (l & E & Hnx & HL & Hgl & Hpv); [destruct gs; cbn in Hg; congruence|assumption|].
  exists l. split; [assumption|]. split; [assumption|]. intros i Hi.
  assert (n1 : (1 <= length ns)%nat) by (destruct ns; [congruence|cbn; lia]).
  assert (Hm : ((i + 1) mod length l < length l)%nat) by (apply Nat.mod_upper_bound; lia).
  destruct (nth_error l i) as [s|] eqn:Es; [|apply nth_error_None in Es; lia].
  destruct (nth_error l ((i + 1) mod length l)) as [t|] eqn:Et; [|apply nth_error_None in Et; lia].
  exists s, t. repeat split.
  - specialize (Hpv ((i + 1) mod length l)%nat ltac:(lia)).
    rewrite (map_nth_error sd_prev _ _ Et) in Hpv.
    pose proof (map_nth_error sd_next _ _ Es) as Hs. rewrite Hnx in Hs.
    rewrite <- HL in Hpv.
    replace (((i + 1) mod length l + length l - 1) mod length l)%nat with i in Hpv.
    + congruence.
    + destruct (Nat.eq_dec (i + 1) (length l)) as [Ee|Hne].
      * rewrite Ee, Nat.mod_same by lia. rewrite Nat.add_0_l, Nat.mod_small by lia. lia.
      * rewrite (Nat.mod_small (i + 1)) by lia.
        replace (i + 1 + length l - 1)%nat with (i + 1 * length l)%nat by lia.
        rewrite Nat.mod_add by lia. now rewrite Nat.mod_small by lia.
  - specialize (Hgl g0 Hg). rewrite Forall_forall in Hgl. apply Hgl. now apply nth_error_In in Es.
Qed.
Print Assumptions C40_seed_ring.
Example C40_nontrivial : sync_seeds [11; 22; 33] [7; 8; 9] = map Some [mkSeeds 33 11 7; mkSeeds 11 22 7; mkSeeds 22 33 7].
Proof. reflexivity. Qed.

(** C02: whatever the parties did before, the next zero sharing sums to zero in every element. *)
Theorem C02_przs_zero : forall (G : Type) seeded (draw : G -> nat -> list Z * G) next_seeds global_seeds w0 history device size j,
  draws_sized draw -> setup_prng G seeded next_seeds global_seeds = Some w0 -> (j < size)%nat ->
  wrap (zsum (map (fun share => nth j share 0) (fst (przs G draw wsub device size (run G seeded draw history w0))))) = 0.
Proof.
  intros G sd dr ns gs w0 h d k j Hd Hs Hj. apply wrap_unique; [exact in64_0|].
  apply przs_elem_sum; auto. apply run_inv. now apply setup_synced in Hs.
Qed.
Print Assumptions C02_przs_zero.

(** C03 (zero sharing part). *)
Theorem C03_binary_przs_zero : forall (G : Type) seeded (draw : G -> nat -> list Z * G) next_seeds global_seeds w0 history device size j,
  draws_sized draw -> setup_prng G seeded next_seeds global_seeds = Some w0 -> (j < size)%nat ->
  zxor (map (fun share => nth j share 0) (fst (przs G draw Z.lxor device size (run G seeded draw history w0)))) = 0.
Proof.
  intros G sd dr ns gs w0 h d k j Hd Hs Hj.
  apply przs_elem_xor; auto. apply run_inv. now apply setup_synced in Hs.
Qed.
Print Assumptions C03_binary_przs_zero.

(** C01: encrypt with precision 0, then decrypt. *)
Theorem C01_encrypt_decrypt : forall (G : Type) seeded (draw : G -> nat -> list Z * G) next_seeds global_seeds w0 history device src x,
  draws_sized draw -> setup_prng G seeded next_seeds global_seeds = Some w0 ->
  (src < length next_seeds)%nat -> Forall in64 x ->
  reveal_arith (fst (encrypt_arith G draw device src x (run G seeded draw history w0))) = x.
Proof.
  intros G sd dr ns gs w0 h d src x Hd Hs Hsrc Hx. apply setup_synced in Hs as [Hs HL].
  destruct (run_inv sd dr h w0 Hs) as [Hr HrL]. apply encrypt_reveal; auto. rewrite HrL, HL. exact Hsrc.
Qed.
Print Assumptions C01_encrypt_decrypt.

(** C03: binary round trip. *)
Theorem C03_binary_encrypt_decrypt : forall (G : Type) seeded (draw : G -> nat -> list Z * G) next_seeds global_seeds w0 history device src x,
  draws_sized draw -> setup_prng G seeded next_seeds global_seeds = Some w0 ->
  (src < length next_seeds)%nat ->
  reveal_bin (fst (encrypt_bin G draw device src x (run G seeded draw history w0))) = x.
Proof.
  intros G sd dr ns gs w0 h d src x Hd Hs Hsrc. apply setup_synced in Hs as [Hs HL].
  destruct (run_inv sd dr h w0 Hs) as [Hr HrL]. apply encrypt_bin_reveal; auto. rewrite HrL, HL. exact Hsrc.
Qed.
Print Assumptions C03_binary_encrypt_decrypt.

(** C14 (sharing part): every other party's share is the same for any two secrets. *)
Theorem C14_shares_independent : forall (G : Type) (draw : G -> nat -> list Z * G) w device src x y i,
  length x = length y -> i <> src ->
  nth_error (fst (encrypt_arith G draw device src x w)) i = nth_error (fst (encrypt_arith G draw device src y w)) i.
Proof. intros G dr w d src x y i. apply encrypt_arith_other. Qed.
Print Assumptions C14_shares_independent.

(** A concrete generator and a non-trivial history, meeting the hypotheses above. *)
Definition lcg_draw (g : Z) (k : nat) : list Z * Z :=
  (map (fun i => wrap ((g + Z.of_nat i) * 6364136223846793005 + 1442695040888963407)) (seq 0 k), wrap (g * 31 + Z.of_nat k)).
Example lcg_sized : draws_sized lcg_draw.
Proof. intros g k. cbn. now rewrite map_length, seq_length. Qed.
Definition demo_history : list call := [CPrzs 0 2; CBPrzs 1 3; CEnc 0 1 [5; -7]; CReseed [1; 2; 3] [9; 9; 9]; CBEnc 0 2 [1]].
Example demo_setup : exists w0, setup_prng Z (fun s => s) [1001; -5; 77] [4; 5; 6] = Some w0 /\ length w0 = 3%nat.
Proof. eexists. split; [vm_compute; reflexivity|reflexivity]. Qed.
Example C01_nontrivial :
  match setup_prng Z (fun s => s) [1001; -5; 77] [4; 5; 6] with
  | Some w0 => let sh := fst (encrypt_arith Z lcg_draw 0 2 [123456; - H63] (run Z (fun s => s) lcg_draw demo_history w0)) in
               reveal_arith sh = [123456; - H63] /\ nth 0 (nth 2 sh []) 0 <> 123456
  | None => False end.
Proof. vm_compute. split; [reflexivity|discriminate]. Qed.
Example C02_desync_matters :
  (* if one party draws alone, the relation is lost: the theorem is not vacuous *)
  match setup_prng Z (fun s => s) [1001; -5; 77] [4; 5; 6] with
  | Some (g0 :: r) => wrap (zsum (map (fun s => nth 0 s 0) (fst (przs Z lcg_draw wsub 0 1 (snd (przs_party Z lcg_draw wsub 0 1 g0) :: r))))) <> 0
  | _ => False end.
Proof. vm_compute. discriminate. Qed.
