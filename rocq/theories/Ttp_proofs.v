(** Proofs about the trusted-third-party provider. *)
Require Import ZArith List Lia.
From Verif Require Import Ring64 Sharing Sharing_proofs Arith Arith_proofs Beaver Beaver_proofs Trunc Tfp Provider Tfp_proofs Ttp.
Import ListNotations.
Open Scope Z_scope.

Lemma reveal_first_a n k x (vs : list (list Z)) : (0 < n)%nat -> shared n k vs -> length x = k -> Forall in64 x ->
  reveal_arith (zipw wsub x (reveal_arith vs) :: vs) = x.
Proof.
  intros Hn H Hx I. pose proof (shared_ne _ _ _ Hn H) as Ne. destruct H as (L & F & J).
  pose proof (reveal_arith_length vs k Ne F) as RL.
  set (c0 := zipw wsub x (reveal_arith vs)). assert (Lc : length c0 = k) by (unfold c0; rewrite zipw_length; congruence).
  assert (F' : Forall (fun t => length t = k) (c0 :: vs)) by (constructor; assumption).
  assert (Ne' : c0 :: vs <> []) by discriminate. pose proof (reveal_arith_length (c0 :: vs) k Ne' F') as RL'.
  apply list_eq_nth; [congruence|]. intros j Hj. rewrite RL' in Hj.
  apply eqm_in64_eq.
  - assert (Ic : Forall in64 c0) by (apply zipw_all; intros; apply wsub_in64).
    assert (G : Forall in64 (reveal_arith (c0 :: vs))) by (cbn [reveal_arith]; now apply fold_zipw_wadd_in64).
    rewrite Forall_forall in G. apply G, nth_In. now rewrite RL'.
  - rewrite Forall_forall in I. apply I, nth_In. congruence.
  - rewrite (reveal_arith_nth (c0 :: vs) k j Ne' F' Hj). cbn [map]. rewrite zsum_cons.
    unfold c0. rewrite nth_zipw by congruence. rewrite wsub_eqm. rewrite (reveal_arith_nth vs k j Ne F Hj). apply eqm_refl_eq. ring.
Qed.
Lemma reveal_first_b n k x (vs : list (list Z)) : (0 < n)%nat -> shared n k vs -> length x = k ->
  reveal_bin (zipw Z.lxor x (reveal_bin vs) :: vs) = x.
Proof.
  intros Hn H Hx. pose proof (shared_ne _ _ _ Hn H) as Ne. destruct H as (L & F & J).
  pose proof (reveal_bin_length vs k Ne F) as RL.
  set (c0 := zipw Z.lxor x (reveal_bin vs)). assert (Lc : length c0 = k) by (unfold c0; rewrite zipw_length; congruence).
  assert (F' : Forall (fun t => length t = k) (c0 :: vs)) by (constructor; assumption).
  assert (Ne' : c0 :: vs <> []) by discriminate. pose proof (reveal_bin_length (c0 :: vs) k Ne' F') as RL'.
  apply list_eq_nth; [congruence|]. intros j Hj. rewrite RL' in Hj.
  rewrite (reveal_bin_nth (c0 :: vs) k j Ne' F' Hj). cbn [map]. rewrite zxor_cons.
  unfold c0. rewrite nth_zipw by congruence. rewrite (reveal_bin_nth vs k j Ne F Hj).
  rewrite Z.lxor_assoc, Z.lxor_nilpotent. apply Z.lxor_0_r.
Qed.
Lemma reveal_bin_in64 n k s : (0 < n)%nat -> shared n k s -> Forall in64 (reveal_bin s).
Proof.
  intros Hn (L & F & I). destruct s as [|t s]; [constructor|]. cbn. inversion I as [|? ? It Is]; subst. clear - It Is. revert t It.
  induction Is as [|u s Iu Is IH]; intros t It; cbn [fold_left]; [assumption|]. apply IH. now apply zipw_lxor_in64.
Qed.

Section TT.
  Context {gstate : Type}.
  Variable draw draw_bits : gstate -> nat -> list Z * gstate.
  Hypothesis draw_length : forall g k, length (fst (draw g k)) = k.
  Hypothesis draw_in64 : forall g k, Forall in64 (fst (draw g k)).
  Hypothesis bits_length : forall g k, length (fst (draw_bits g k)) = k.
  Hypothesis bits_bit : forall g k, Forall (fun b => b = 0 \/ b = 1) (fst (draw_bits g k)).

  Lemma pull_all_eq f d k (gs : list (dgens gstate)) : pull_all gstate f d k gs = each gstate f d k gs.
  Proof.
    unfold each. induction gs as [|g r IH]; [reflexivity|]. cbn [pull_all map]. rewrite IH. destruct (pull gstate f d k g). reflexivity.
  Qed.
  Definition vals f d k (gs : list (dgens gstate)) : list (list Z) := map (fun g => fst (pull gstate f d k g)) gs.
  Definition nexts f d k (gs : list (dgens gstate)) : list (dgens gstate) := map (fun g => snd (pull gstate f d k g)) gs.
  Lemma each_eq f d k gs : each gstate f d k gs = (vals f d k gs, nexts f d k gs). Proof. reflexivity. Qed.
  Lemma nexts_length f d k gs : length (nexts f d k gs) = length gs. Proof. apply map_length. Qed.
  Lemma pull_fst f d k g : fst (pull gstate f d k g) = fst (f (get_generator gstate d g) k).
  Proof. unfold pull. destruct (f (get_generator gstate d g) k). reflexivity. Qed.

  Lemma prss_eq op f d k gs : prss gstate op f d k gs = (accumulate op (vals f d k gs), nexts f d k gs).
  Proof. unfold prss. rewrite pull_all_eq. reflexivity. Qed.
  Lemma prss_but_eq op f d k g gs : prss_but_first gstate op f d k (g :: gs) = (accumulate op (vals f d k gs), g :: nexts f d k gs).
  Proof. cbn [prss_but_first]. rewrite prss_eq. reflexivity. Qed.
  Lemma acc_a vs : vs <> [] -> accumulate wadd vs = Some (reveal_arith vs).
  Proof. destruct vs; [congruence|reflexivity]. Qed.
  Lemma acc_b vs : vs <> [] -> accumulate Z.lxor vs = Some (reveal_bin vs).
  Proof. destruct vs; [congruence|reflexivity]. Qed.

  Lemma vals_shared d k gs : shared (length gs) k (vals draw d k gs).
  Proof.
    unfold vals. split; [apply map_length|]. split; apply Forall_map, Forall_forall; intros g _; rewrite pull_fst; auto.
  Qed.
  Lemma bvals_bits d k gs : shared (length gs) k (vals draw_bits d k gs) /\ Forall (Forall (fun b => b = 0 \/ b = 1)) (vals draw_bits d k gs).
  Proof.
    unfold vals. split; [split; [apply map_length|]; split|]; apply Forall_map, Forall_forall; intros g _; rewrite pull_fst; auto.
    now apply bits_in64.
  Qed.
  Lemma reveal_bits vs : Forall (Forall (fun b => b = 0 \/ b = 1)) vs -> Forall (fun b => b = 0 \/ b = 1) (reveal_bin vs).
  Proof.
    intros I. destruct I as [|t s It Is]; [constructor|]. cbn. revert t It.
    induction Is as [|u s Iu Is IH]; intros t It; cbn [fold_left]; [assumption|]. apply IH. clear - It Iu.
    revert u Iu. induction It as [|a t Ha It IH]; intros u Iu; [constructor|]. destruct Iu as [|b u Hb Iu]; [constructor|]. rewrite zipw_cons.
    constructor; [|now apply IH]. destruct Ha as [-> | ->], Hb as [-> | ->]; cbn; auto.
  Qed.

  Lemma answered_eq f d k x g gs : answered gstate f d k x (g :: gs) = (x :: vals f d k gs, g :: nexts f d k gs).
  Proof. reflexivity. Qed.
  Lemma answered_shared n k x vs : shared n k vs -> length x = k -> Forall in64 x -> shared (S n) k (x :: vs).
  Proof. intros (A & B & C) L I. split; [cbn [length]; congruence|]. split; constructor; assumption. Qed.

  (** a synchronised state of [n] parties *)
  Definition insync (n : nat) (st : ttp_state gstate) : Prop := fst st = snd st /\ length (fst st) = n.

  Ltac two gs L := destruct gs as [|g gs]; [cbn [length] in L; lia|].

  Lemma ttp_triple_ok n d k k' T st : (2 <= n)%nat -> insync n st ->
    exists a b c st', ttp_triple gstate draw d k k' T st = Some ((a, b, c), st') /\ insync n st' /\
      shared n k a /\ shared n k' b /\ shared n (length T) c /\ reveal_arith c = bil T (reveal_arith a) (reveal_arith b).
  Proof.
    intros Hn [E L]. destruct st as [cl sv]. cbn [fst snd] in E, L. subst sv.
    unfold ttp_triple, server_additive. rewrite !each_eq, !prss_eq.
    pose proof (vals_shared d k cl) as Sa. rewrite L in Sa. set (a := vals draw d k cl) in *.
    assert (L1 : length (nexts draw d k cl) = n) by (now rewrite nexts_length). set (c1 := nexts draw d k cl) in *.
    pose proof (vals_shared d k' c1) as Sb. rewrite L1 in Sb. set (b := vals draw d k' c1) in *.
    assert (L2 : length (nexts draw d k' c1) = n) by (now rewrite nexts_length). set (c2 := nexts draw d k' c1) in *.
    rewrite (acc_a a), (acc_a b) by (eapply shared_ne; [|eassumption]; lia).
    destruct c2 as [|g c2]; [cbn [length] in L2; lia|]. cbn [length] in L2.
    rewrite prss_but_eq. rewrite bil_length.
    pose proof (vals_shared d (length T) c2) as Sc. set (vs := vals draw d (length T) c2) in *.
    assert (Hm : (0 < length c2)%nat) by lia.
    rewrite (acc_a vs) by exact (shared_ne _ _ _ Hm Sc). cbn [minus_opt option_map]. rewrite answered_eq. fold vs.
    exists a, b, (zipw wsub (bil T (reveal_arith a) (reveal_arith b)) (reveal_arith vs) :: vs), (g :: nexts draw d (length T) c2, g :: nexts draw d (length T) c2).
    split; [reflexivity|]. split; [split; [reflexivity|cbn [fst length]; rewrite nexts_length; assumption]|].
    split; [assumption|]. split; [assumption|].
    assert (RL : length (reveal_arith vs) = length T) by (apply reveal_arith_length; [exact (shared_ne _ _ _ Hm Sc)|apply Sc]).
    split.
    - rewrite <- L2. apply answered_shared; [assumption| |].
      + rewrite zipw_length; rewrite bil_length; congruence.
      + apply zipw_all. intros; apply wsub_in64.
    - apply (reveal_first_a (length c2) (length T)); [assumption|assumption|apply bil_length|apply bil_in64].
  Qed.

  Lemma ttp_square_ok n d k st : (2 <= n)%nat -> insync n st ->
    exists r r2 st', ttp_square gstate draw d k st = Some ((r, r2), st') /\ insync n st' /\
      shared n k r /\ shared n k r2 /\ reveal_arith r2 = zipw wmul (reveal_arith r) (reveal_arith r).
  Proof.
    intros Hn [E L]. destruct st as [cl sv]. cbn [fst snd] in E, L. subst sv.
    unfold ttp_square, server_square. rewrite !each_eq, !prss_eq.
    pose proof (vals_shared d k cl) as Sa. rewrite L in Sa. set (a := vals draw d k cl) in *.
    assert (L1 : length (nexts draw d k cl) = n) by (now rewrite nexts_length). set (c1 := nexts draw d k cl) in *.
    rewrite (acc_a a) by (eapply shared_ne; [|eassumption]; lia).
    destruct c1 as [|g c2]; [cbn [length] in L1; lia|]. cbn [length] in L1.
    rewrite prss_but_eq.
    pose proof (vals_shared d k c2) as Sc. set (vs := vals draw d k c2) in *.
    assert (Hm : (0 < length c2)%nat) by lia.
    rewrite (acc_a vs) by exact (shared_ne _ _ _ Hm Sc). cbn [minus_opt option_map]. rewrite answered_eq. fold vs.
    do 3 eexists. split; [reflexivity|]. split; [split; [reflexivity|cbn [fst length]; rewrite nexts_length; assumption]|].
    split; [assumption|].
    assert (RL : length (reveal_arith vs) = k) by (apply reveal_arith_length; [exact (shared_ne _ _ _ Hm Sc)|apply Sc]).
    assert (RA : length (reveal_arith a) = k) by (apply reveal_arith_length; [eapply shared_ne; [|eassumption]; lia|apply Sa]).
    split.
    - rewrite <- L1. apply answered_shared; [assumption| |].
      + rewrite zipw_length; rewrite zipw_length; congruence.
      + apply zipw_all. intros; apply wsub_in64.
    - apply (reveal_first_a (length c2) k); [assumption|assumption|rewrite zipw_length; congruence|]. apply zipw_all. intros; apply wmul_in64.
  Qed.

  Lemma land_in64 u v : in64 u -> in64 v -> in64 (Z.land u v).
  Proof. intros Hu Hv. pose proof (zipw_land_in64 [u] [v] (Forall_cons _ Hu (Forall_nil _)) (Forall_cons _ Hv (Forall_nil _))) as F. now inversion F. Qed.
  Lemma nth_in64 l i : Forall in64 l -> in64 (nth i l 0).
  Proof. intros F. destruct (le_lt_dec (length l) i); [rewrite nth_overflow by assumption; apply in64_0|]. rewrite Forall_forall in F. apply F. now apply nth_In. Qed.
  Lemma land_at_in64 P a b : Forall in64 a -> Forall in64 b -> Forall in64 (land_at P a b).
  Proof. intros Ha Hb. apply Forall_map, Forall_forall. intros p _. apply land_in64; now apply nth_in64. Qed.

  Lemma ttp_binary_ok n d k k' P st : (2 <= n)%nat -> insync n st ->
    exists a b c st', ttp_binary gstate draw d k k' P st = Some ((a, b, c), st') /\ insync n st' /\
      shared n k a /\ shared n k' b /\ shared n (length P) c /\ reveal_bin c = land_at P (reveal_bin a) (reveal_bin b).
  Proof.
    intros Hn [E L]. destruct st as [cl sv]. cbn [fst snd] in E, L. subst sv.
    unfold ttp_binary, server_binary. rewrite !each_eq, !prss_eq.
    pose proof (vals_shared d k cl) as Sa. rewrite L in Sa. set (a := vals draw d k cl) in *.
    assert (L1 : length (nexts draw d k cl) = n) by (now rewrite nexts_length). set (c1 := nexts draw d k cl) in *.
    pose proof (vals_shared d k' c1) as Sb. rewrite L1 in Sb. set (b := vals draw d k' c1) in *.
    assert (L2 : length (nexts draw d k' c1) = n) by (now rewrite nexts_length). set (c2 := nexts draw d k' c1) in *.
    rewrite (acc_b a), (acc_b b) by (eapply shared_ne; [|eassumption]; lia).
    destruct c2 as [|g c2]; [cbn [length] in L2; lia|]. cbn [length] in L2.
    assert (LP : forall x y, length (land_at P x y) = length P) by (intros; apply map_length).
    rewrite prss_but_eq, LP.
    pose proof (vals_shared d (length P) c2) as Sc. set (vs := vals draw d (length P) c2) in *.
    assert (Hm : (0 < length c2)%nat) by lia.
    rewrite (acc_b vs) by exact (shared_ne _ _ _ Hm Sc). cbn [minus_opt option_map]. rewrite answered_eq. fold vs.
    do 4 eexists. split; [reflexivity|]. split; [split; [reflexivity|cbn [fst length]; rewrite nexts_length; assumption]|].
    split; [assumption|]. split; [assumption|].
    assert (RL : length (reveal_bin vs) = length P) by (apply reveal_bin_length; [exact (shared_ne _ _ _ Hm Sc)|apply Sc]).
    assert (Hn0 : (0 < n)%nat) by lia.
    split.
    - rewrite <- L2. apply answered_shared; [assumption| |].
      + rewrite zipw_length; rewrite LP; congruence.
      + apply zipw_lxor_in64; [|now apply (reveal_bin_in64 _ _ _ Hm Sc)].
        apply land_at_in64; [exact (reveal_bin_in64 _ _ _ Hn0 Sa)|exact (reveal_bin_in64 _ _ _ Hn0 Sb)].
    - apply (reveal_first_b (length c2) (length P)); [assumption|assumption|apply LP].
  Qed.

  Lemma ttp_wrap_ok n sc k st : (2 <= n)%nat -> insync n st ->
    exists r th st', ttp_wrap gstate draw Cpu sc k st = Some ((r, th), st') /\ insync n st' /\
      shared n k r /\ shared n k th /\ reveal_arith th = map (fun j => count_wraps (map (fun t => nth j t 0) r)) (seq 0 k).
  Proof.
    intros Hn [E L]. destruct st as [cl sv]. cbn [fst snd] in E, L. subst sv.
    unfold ttp_wrap, server_wraps. rewrite pull_all_eq, !each_eq.
    pose proof (vals_shared Cpu k cl) as Sa. rewrite L in Sa. set (a := vals draw Cpu k cl) in *.
    assert (L1 : length (nexts draw Cpu k cl) = n) by (now rewrite nexts_length). set (c1 := nexts draw Cpu k cl) in *.
    set (theta := map (fun j => count_wraps (map (fun t => nth j t 0) a)) (seq 0 k)).
    assert (I : Forall in64 theta) by (apply Forall_forall; intros z Hz; apply in_map_iff in Hz as (j & <- & _); apply count_wraps_in64).
    assert (Lt : length theta = k) by (unfold theta; now rewrite map_length, seq_length).
    destruct c1 as [|g c2]; [cbn [length] in L1; lia|]. cbn [length] in L1.
    rewrite prss_but_eq.
    pose proof (vals_shared Cpu k c2) as Sc. set (vs := vals draw Cpu k c2) in *.
    assert (Hm : (0 < length c2)%nat) by lia.
    rewrite (acc_a vs) by exact (shared_ne _ _ _ Hm Sc). cbn [minus_opt option_map]. rewrite answered_eq. fold vs.
    do 3 eexists. split; [reflexivity|]. split; [split; [reflexivity|cbn [fst length]; rewrite nexts_length; assumption]|].
    split; [assumption|].
    assert (RL : length (reveal_arith vs) = k) by (apply reveal_arith_length; [exact (shared_ne _ _ _ Hm Sc)|apply Sc]).
    split.
    - rewrite <- L1. apply answered_shared; [assumption| |].
      + rewrite zipw_length; congruence.
      + apply zipw_all. intros; apply wsub_in64.
    - apply (reveal_first_a (length c2) k); assumption.
  Qed.

  Lemma ttp_b2a_ok n d k st : (2 <= n)%nat -> insync n st ->
    exists rA rB st', ttp_b2a gstate draw draw_bits d k st = Some ((rA, rB), st') /\ insync n st' /\
      shared n k rA /\ shared n k rB /\ reveal_arith rA = reveal_bin rB /\ Forall (fun b => b = 0 \/ b = 1) (reveal_bin rB).
  Proof.
    intros Hn [E L]. destruct st as [cl sv]. cbn [fst snd] in E, L. subst sv.
    unfold ttp_b2a, server_b2a. rewrite !each_eq, !prss_eq.
    destruct (bvals_bits d k cl) as [Sa Ba]. rewrite L in Sa. set (a := vals draw_bits d k cl) in *.
    assert (L1 : length (nexts draw_bits d k cl) = n) by (now rewrite nexts_length). set (c1 := nexts draw_bits d k cl) in *.
    rewrite (acc_b a) by (eapply shared_ne; [|eassumption]; lia).
    destruct c1 as [|g c2]; [cbn [length] in L1; lia|]. cbn [length] in L1.
    rewrite prss_but_eq.
    pose proof (vals_shared d k c2) as Sc. set (vs := vals draw d k c2) in *.
    assert (Hm : (0 < length c2)%nat) by lia. assert (Hn0 : (0 < n)%nat) by lia.
    rewrite (acc_a vs) by exact (shared_ne _ _ _ Hm Sc). cbn [minus_opt option_map]. rewrite answered_eq. fold vs.
    do 3 eexists. split; [reflexivity|]. split; [split; [reflexivity|cbn [fst length]; rewrite nexts_length; assumption]|].
    assert (RL : length (reveal_arith vs) = k) by (apply reveal_arith_length; [exact (shared_ne _ _ _ Hm Sc)|apply Sc]).
    assert (RA : length (reveal_bin a) = k) by (apply reveal_bin_length; [eapply shared_ne; [|eassumption]; lia|apply Sa]).
    split; [|split; [assumption|split]].
    - rewrite <- L1. apply answered_shared; [assumption| |].
      + rewrite zipw_length; congruence.
      + apply zipw_all. intros; apply wsub_in64.
    - apply (reveal_first_a (length c2) k); [assumption|assumption|assumption|]. now apply (reveal_bin_in64 _ _ _ Hn0 Sa).
    - now apply reveal_bits.
  Qed.

  Variable seeded : Z -> gstate.
  Lemma setup_from seeds : forall k, all_some (map (client_generators gstate seeded (combine (seq k (length seeds)) seeds)) (seq k (length seeds))) = Some (server_generators gstate seeded seeds).
  Proof.
    induction seeds as [|x seeds IH]; intros k; [reflexivity|]. cbn [length seq map combine all_some]. unfold client_generators at 1. cbn [find fst]. rewrite Nat.eqb_refl. cbn [option_map snd].
    replace (map (client_generators gstate seeded ((k, x) :: combine (seq (S k) (length seeds)) seeds)) (seq (S k) (length seeds)))
      with (map (client_generators gstate seeded (combine (seq (S k) (length seeds)) seeds)) (seq (S k) (length seeds))).
    - rewrite IH. reflexivity.
    - apply map_ext_in. intros i Hi. apply in_seq in Hi. unfold client_generators. cbn [find fst]. destruct (Nat.eqb k i) eqn:E; [apply Nat.eqb_eq in E; lia|reflexivity].
  Qed.
  Lemma setup_eq seeds : setup gstate seeded seeds = Some (server_generators gstate seeded seeds, server_generators gstate seeded seeds).
  Proof. unfold setup, server_sends. now rewrite setup_from. Qed.
  Lemma server_length seeds : length (server_generators gstate seeded seeds) = length seeds. Proof. apply map_length. Qed.
  Definition not_cuda_wrap (r : treq) : Prop := match r with TWrap Cuda _ _ => False | _ => True end.
  Lemma ttp_step_ok n st r : (2 <= n)%nat -> insync n st -> not_cuda_wrap r -> exists st', ttp_step gstate draw draw_bits st r = Some st' /\ insync n st'.
  Proof.
    intros Hn H Hr. destruct r as [d k k' T|d k|d k k' P|d sc k|d k]; cbn [ttp_step].
    - destruct (ttp_triple_ok n d k k' T st Hn H) as (a & b & c & st' & -> & S & _). eexists; split; [reflexivity|exact S].
    - destruct (ttp_square_ok n d k st Hn H) as (a & b & st' & -> & S & _). eexists; split; [reflexivity|exact S].
    - destruct (ttp_binary_ok n d k k' P st Hn H) as (a & b & c & st' & -> & S & _). eexists; split; [reflexivity|exact S].
    - destruct d; [|destruct Hr]. destruct (ttp_wrap_ok n sc k st Hn H) as (a & b & st' & -> & S & _). eexists; split; [reflexivity|exact S].
    - destruct (ttp_b2a_ok n d k st Hn H) as (a & b & st' & -> & S & _). eexists; split; [reflexivity|exact S].
  Qed.
  Lemma ttp_history_ok n h : forall st, (2 <= n)%nat -> insync n st -> Forall not_cuda_wrap h -> exists st', ttp_history gstate draw draw_bits h st = Some st' /\ insync n st'.
  Proof.
    induction h as [|r h IH]; intros st Hn H F; cbn [ttp_history]; [eauto|]. inversion F; subst.
    destruct (ttp_step_ok n st r Hn H) as (st' & -> & S); [assumption|]. now apply IH.
  Qed.

  (** one party: the server's sum over the other parties is None *)
  Lemma ttp_step_alone st r : length (snd st) = 1%nat -> ttp_step gstate draw draw_bits st r = None.
  Proof.
    intros L. destruct st as [cl sv]. cbn [snd] in L. destruct sv as [|g [|]]; cbn [length] in L; try lia.
    destruct r as [d k k' T|d k|d k k' P|d sc k|d k]; cbn [ttp_step].
    - unfold ttp_triple, server_additive. rewrite !each_eq, !prss_eq. cbn [vals nexts map accumulate prss_but_first]. rewrite ?prss_eq. cbn. reflexivity.
    - unfold ttp_square, server_square. rewrite !each_eq, !prss_eq. cbn [vals nexts map accumulate prss_but_first]. rewrite ?prss_eq. cbn. reflexivity.
    - unfold ttp_binary, server_binary. rewrite !each_eq, !prss_eq. cbn [vals nexts map accumulate prss_but_first]. rewrite ?prss_eq. cbn. reflexivity.
    - unfold ttp_wrap, server_wraps. rewrite !each_eq, pull_all_eq, each_eq. cbn [vals nexts map prss_but_first]. rewrite ?prss_eq. cbn [vals map accumulate minus_opt option_map]. destruct d, sc; reflexivity.
    - unfold ttp_b2a, server_b2a. rewrite !each_eq, !prss_eq. cbn [vals nexts map accumulate prss_but_first]. rewrite ?prss_eq. cbn. reflexivity.
  Qed.
  Lemma ttp_cuda_wrap_stops st k : ttp_step gstate draw draw_bits st (TWrap Cuda false k) = None.
  Proof.
    destruct st as [cl sv]. cbn [ttp_step]. unfold ttp_wrap, server_wraps. rewrite each_eq, pull_all_eq, each_eq.
    destruct (prss_but_first gstate wadd draw Cuda k (nexts draw Cpu k sv)). reflexivity.
  Qed.

  (** ** As a provider of single CPU elements *)
  Section P.
    Variable n : nat.
    Hypothesis Hn : (2 <= n)%nat.
    Definition tst : Type := ttp_state gstate * world gstate.
    Definition ok (s : tst) : Prop := insync n (fst s) /\ good n (snd s).
    Definition okst : Type := { s : tst | ok s }.

    (** the answer, or, were the server to have ended, nothing (shown impossible) *)
    Definition take {A} (a0 : A) (m : ttp_state gstate -> option (A * ttp_state gstate)) (s : tst) : A * tst :=
      match m (fst s) with Some (a, st) => (a, (st, snd s)) | None => (a0, s) end.
    Lemma take_ok {A} (a0 : A) m s : (forall st, insync n st -> exists a st', m st = Some (a, st') /\ insync n st') -> ok s -> ok (snd (take a0 m s)).
    Proof. intros H [I G]. destruct (H _ I) as (a & st' & E & I'). unfold take. rewrite E. split; assumption. Qed.

    Definition m_bin := ttp_binary gstate draw Cpu 1 1 [(0, 0)]%nat.
    Definition m_mul := ttp_triple gstate draw Cpu 1 1 (mul_table 1).
    Definition m_sq := ttp_square gstate draw Cpu 1.
    Definition m_wrap := ttp_wrap gstate draw Cpu false 1.
    Definition m_b2a := ttp_b2a gstate draw draw_bits Cpu 1.
    Definition none3 : list (list Z) * list (list Z) * list (list Z) := ([], [], []).
    Definition none2 : list (list Z) * list (list Z) := ([], []).
    Lemma k_bin s : ok s -> ok (snd (take none3 m_bin s)).
    Proof. apply take_ok. intros st I. destruct (ttp_binary_ok n Cpu 1 1 [(0, 0)]%nat st Hn I) as (a & b & c & st' & E & I' & _). eauto. Qed.
    Lemma k_mul s : ok s -> ok (snd (take none3 m_mul s)).
    Proof. apply take_ok. intros st I. destruct (ttp_triple_ok n Cpu 1 1 (mul_table 1) st Hn I) as (a & b & c & st' & E & I' & _). eauto. Qed.
    Lemma k_sq s : ok s -> ok (snd (take none2 m_sq s)).
    Proof. apply take_ok. intros st I. destruct (ttp_square_ok n Cpu 1 st Hn I) as (a & b & st' & E & I' & _). eauto. Qed.
    Lemma k_wrap s : ok s -> ok (snd (take none2 m_wrap s)).
    Proof. apply take_ok. intros st I. destruct (ttp_wrap_ok n false 1 st Hn I) as (a & b & st' & E & I' & _). eauto. Qed.
    Lemma k_b2a s : ok s -> ok (snd (take none2 m_b2a s)).
    Proof. apply take_ok. intros st I. destruct (ttp_b2a_ok n Cpu 1 st Hn I) as (a & b & st' & E & I' & _). eauto. Qed.
    Definition z_a (f : nat -> nat -> world gstate -> list (list Z) * world gstate) (s : tst) : list (list Z) * tst :=
      let (z, w) := f 0%nat 1%nat (snd s) in (z, (fst s, w)).
    Lemma k_zero s : ok s -> ok (snd (z_a (przs _ draw wsub) s)).
    Proof.
      intros [I [Gs Gl]]. unfold z_a. pose proof (przs_synced draw wsub 0 1 (snd s) Gs) as E. pose proof (przs_length draw wsub 0 1 (snd s)) as F.
      destruct (przs gstate draw wsub 0 1 (snd s)) as [z w]. split; [exact I|]. split; [exact E|]. cbn [snd] in *. congruence.
    Qed.
    Lemma k_bzero s : ok s -> ok (snd (z_a (przs _ draw Z.lxor) s)).
    Proof.
      intros [I [Gs Gl]]. unfold z_a. pose proof (przs_synced draw Z.lxor 0 1 (snd s) Gs) as E. pose proof (przs_length draw Z.lxor 0 1 (snd s)) as F.
      destruct (przs gstate draw Z.lxor 0 1 (snd s)) as [z w]. split; [exact I|]. split; [exact E|]. cbn [snd] in *. congruence.
    Qed.

    Definition up3 (f : tst -> (list (list Z) * list (list Z) * list (list Z)) * tst) (Hf : forall s, ok s -> ok (snd (f s))) (s : okst) : (list Z * list Z * list Z) * okst :=
      let '(a, b, c) := fst (f (proj1_sig s)) in ((elem a, elem b, elem c), exist _ (snd (f (proj1_sig s))) (Hf _ (proj2_sig s))).
    Definition up2 (f : tst -> (list (list Z) * list (list Z)) * tst) (Hf : forall s, ok s -> ok (snd (f s))) (s : okst) : (list Z * list Z) * okst :=
      let '(a, b) := fst (f (proj1_sig s)) in ((elem a, elem b), exist _ (snd (f (proj1_sig s))) (Hf _ (proj2_sig s))).
    Definition up1 (f : tst -> list (list Z) * tst) (Hf : forall s, ok s -> ok (snd (f s))) (s : okst) : list Z * okst :=
      (elem (fst (f (proj1_sig s))), exist _ (snd (f (proj1_sig s))) (Hf _ (proj2_sig s))).
    Lemma up3_fst f Hf s : fst (up3 f Hf s) = let '(a, b, c) := fst (f (proj1_sig s)) in (elem a, elem b, elem c).
    Proof. unfold up3. destruct (fst (f (proj1_sig s))) as [[a b] c]. reflexivity. Qed.
    Lemma up2_fst f Hf s : fst (up2 f Hf s) = let '(a, b) := fst (f (proj1_sig s)) in (elem a, elem b).
    Proof. unfold up2. destruct (fst (f (proj1_sig s))) as [a b]. reflexivity. Qed.

    Definition ttp_provider : provider := {|
      pst := okst;
      next_and := up3 _ k_bin; next_mul := up3 _ k_mul; next_square := up2 _ k_sq; next_wrap := up2 _ k_wrap;
      next_b2a := up2 _ k_b2a; next_zero := up1 _ k_zero; next_bzero := up1 _ k_bzero |}.

    Lemma ttp_provider_valid : valid n ttp_provider.
    Proof.
      assert (Hn0 : (0 < n)%nat) by lia.
      constructor; intros [s [I G]]; cbn [next_and next_mul next_square next_wrap next_b2a next_zero next_bzero ttp_provider].
      - rewrite up3_fst. cbn [proj1_sig]. unfold take, m_bin.
        destruct (ttp_binary_ok n Cpu 1 1 [(0, 0)]%nat (fst s) Hn I) as (a & b & c & st' & -> & _ & Ha & Hb & Hc & R). cbn [fst].
        rewrite (elem_open_b n a Hn0 Ha), (elem_open_b n b Hn0 Hb), (elem_open_b n c Hn0 Hc) in R. cbn [land_at map fst snd nth] in R. injection R as R.
        destruct (elem_in64 n a Ha), (elem_in64 n b Hb), (elem_in64 n c Hc). repeat split; assumption.
      - rewrite up3_fst. cbn [proj1_sig]. unfold take, m_mul.
        destruct (ttp_triple_ok n Cpu 1 1 (mul_table 1) (fst s) Hn I) as (a & b & c & st' & -> & _ & Ha & Hb & Hc & R). cbn [fst]. change (length (mul_table 1)) with 1%nat in Hc.
        rewrite (elem_open_a n a Hn0 Ha), (elem_open_a n b Hn0 Hb), (elem_open_a n c Hn0 Hc) in R. cbn [bil mul_table map seq bil_row fold_left fst snd nth] in R. injection R as R.
        destruct (elem_in64 n a Ha), (elem_in64 n b Hb), (elem_in64 n c Hc). repeat split; try assumption. rewrite R. unfold wadd, wmul. rewrite Z.add_0_l. apply wrap_wrap.
      - rewrite up2_fst. cbn [proj1_sig]. unfold take, m_sq.
        destruct (ttp_square_ok n Cpu 1 (fst s) Hn I) as (a & b & st' & -> & _ & Ha & Hb & R). cbn [fst].
        rewrite (elem_open_a n a Hn0 Ha), (elem_open_a n b Hn0 Hb), zipw_cons in R. injection R as R.
        destruct (elem_in64 n a Ha), (elem_in64 n b Hb). repeat split; assumption.
      - rewrite up2_fst. cbn [proj1_sig]. unfold take, m_wrap.
        destruct (ttp_wrap_ok n false 1 (fst s) Hn I) as (a & b & st' & -> & _ & Ha & Hb & R). cbn [fst].
        rewrite (elem_open_a n b Hn0 Hb) in R. cbn [map seq] in R. injection R as R.
        destruct (elem_in64 n a Ha), (elem_in64 n b Hb). repeat split; try assumption. rewrite R. symmetry. apply wrap_id, count_wraps_in64.
      - rewrite up2_fst. cbn [proj1_sig]. unfold take, m_b2a.
        destruct (ttp_b2a_ok n Cpu 1 (fst s) Hn I) as (a & b & st' & -> & _ & Ha & Hb & R & B). cbn [fst].
        rewrite (elem_open_b n b Hn0 Hb) in B, R. rewrite (elem_open_a n a Hn0 Ha) in R. injection R as R. inversion B; subst.
        destruct (elem_in64 n a Ha), (elem_in64 n b Hb). repeat split; assumption.
      - destruct G as [Hs HL]. unfold up1. cbn [proj1_sig fst snd]. unfold z_a.
        pose proof (przs_fst_length draw wsub 0 1 (snd s)) as A. pose proof (przs_shapes draw draw_length wsub 0 1 (snd s)) as B.
        pose proof (przs_arith_in64 draw 0 1 (snd s)) as C. pose proof (przs_elem_sum draw draw_length 0 1 (snd s) 0 Hs ltac:(lia)) as D.
        destruct (przs gstate draw wsub 0 1 (snd s)) as [z w']. cbn [fst snd] in *.
        assert (Sz : shared n 1 z) by (split; [congruence|split; assumption]). destruct (elem_in64 n z Sz). repeat split; try assumption.
        rewrite open_a_eq. apply wrap_unique; [apply in64_0|]. exact D.
      - destruct G as [Hs HL]. unfold up1. cbn [proj1_sig fst snd]. unfold z_a.
        pose proof (przs_fst_length draw Z.lxor 0 1 (snd s)) as A. pose proof (przs_shapes draw draw_length Z.lxor 0 1 (snd s)) as B.
        pose proof (przs_xor_in64 draw draw_in64 0 1 (snd s)) as C. pose proof (przs_elem_xor draw draw_length 0 1 (snd s) 0 Hs ltac:(lia)) as D.
        destruct (przs gstate draw Z.lxor 0 1 (snd s)) as [z w']. cbn [fst snd] in *.
        assert (Sz : shared n 1 z) by (split; [congruence|split; assumption]). destruct (elem_in64 n z Sz). repeat split; try assumption.
        rewrite open_b_eq. exact D.
    Qed.
  End P.
End TT.
