(** Proofs of C31, C32, C33, C59: maxima, arg-maxima, shared random numbers, weighted sampling. *)
Require Import ZArith QArith List Lia.
From Verif Require Import Ring64 Encoder Arith Arith_proofs Trunc Provider Binary Binary_proofs Convert_proofs Compare Compare_proofs Compare_claims Maximum Maximum_proofs P_Binary.
Import ListNotations.
Open Scope Z_scope.


(** A non-empty encrypted vector at scale [s]; the values it reveals; no difference of two of them overflows. *)
Definition vector (n : nat) (s : Z) (xs : list num) : Prop := xs <> [] /\ Forall (fun x => sharing n x /\ n_sc x = s) xs.
Definition reveals (xs : list num) : list Z := map (fun x => open_a (n_sh x)) xs.
Definition differences_fit (xs : list num) : Prop := forall a b, In a (reveals xs) -> In b (reveals xs) -> in64 (a - b).
Definition greatest (m : Z) (vs : list Z) : Prop := In m vs /\ forall v, In v vs -> v <= m.
Definition least (m : Z) (vs : list Z) : Prop := In m vs /\ forall v, In v vs -> m <= v.
(** [a] reveals (at scale 1) the indicator of position [k] among [len]. *)
Definition indicator (len k : nat) (a : list num) : Prop :=
  reveals a = map (fun i => if Nat.eqb i k then 1 else 0) (seq 0 len) /\ Forall (fun x => n_sc x = 1) a.

(** Bound on the length: the tie-break multiplies a weight sum by a random number. *)
Definition short (n : nat) (D s : Z) (xs : list num) : Prop := (if Nat.eqb n 2 then D / s else 1) * Z.of_nat (length xs) * D < H63.

Lemma reps n s xs : Forall (fun x => sharing n x /\ n_sc x = s) xs -> forall V, incl (reveals xs) V -> Forall2 (rep n s V) (reveals xs) xs.
Proof.
  intros F V. induction F as [|x xs [Hx Sx] F IH]; intros I; [constructor|]. cbn [reveals map]. constructor.
  - split; [apply I; now left|]. rewrite <- Sx. now apply nshare_of.
  - apply IH. intros v Hv. apply I. now right.
Qed.
Lemma neg_reps n s xs : Forall (fun x => sharing n x /\ n_sc x = s) xs -> forall V, incl (map Z.opp (reveals xs)) V -> Forall2 (rep n s V) (map Z.opp (reveals xs)) (map neg_num xs).
Proof.
  intros F V. induction F as [|x xs [Hx Sx] F IH]; intros I; [constructor|]. cbn [reveals map]. constructor.
  - split; [apply I; now left|]. apply neg_num_ok. rewrite <- Sx. now apply nshare_of.
  - apply IH. intros v Hv. apply I. now right.
Qed.
Lemma indicator_of n len k a : Forall2 (fun v x => nshare n v 1 x) (one_hot len k) a -> indicator len k a.
Proof.
  unfold indicator, one_hot. generalize (seq 0 len). intros l H. remember (map (fun i => if Nat.eqb i k then 1 else 0) l) as vs eqn:E.
  assert (B : Forall (fun v => v = 0 \/ v = 1) vs) by (rewrite E; apply Forall_forall; intros v Hv; apply in_map_iff in Hv; destruct Hv as (i & <- & _); destruct (Nat.eqb i k); auto).
  clear E. induction H as [|v x vs a [Hx Sx] H IH]; [split; [reflexivity|constructor]|]. destruct (IH (Forall_inv_tail B)) as [E F]. split; [|now constructor].
  cbn [reveals map]. fold (reveals a). rewrite E. f_equal. rewrite (ashare_open _ _ _ Hx). apply wrap_id. destruct (Forall_inv B) as [-> | ->]; unfold in64, H63; lia.
Qed.

Section Claims.
  Variables (n : nat) (pr : provider) (D : Z) (p : nat) (local_bits : run pr (list Z)) (log_steps cascade_steps isqrt : nat -> nat).
  Hypothesis Hn : (0 < n)%nat.
  Hypothesis HV : valid n pr.
  Hypothesis Hp : (1 <= p <= 62)%nat.
  Hypothesis HD : D = 2 ^ Z.of_nat p.
  (** every party's local draw is one of the 2^p values *)
  Hypothesis Hlocal : forall st, let u := fst (local_bits st) in length u = n /\ Forall (fun z => 0 <= z < D) u.
  (** int(math.sqrt(m)) lies strictly between 0 and m for m >= 2 (nothing else is assumed of it) *)
  Hypothesis Hsqrt : forall m, (2 <= m)%nat -> (1 <= isqrt m < m)%nat.

  Lemma D_pos : 0 < D. Proof. rewrite HD. apply Z.pow_pos_nonneg; lia. Qed.
  Lemma Hloc : yields local_bits (fun u => length u = n /\ Forall (fun z => 0 <= z < D) u /\ True).
  Proof. intros st. destruct (Hlocal st). auto. Qed.
  Lemma reveals_ne xs : xs <> [] -> reveals xs <> []. Proof. destruct xs; [contradiction|discriminate]. Qed.
  Lemma reveals_len xs : length (reveals xs) = length xs. Proof. apply map_length. Qed.
  Lemma in64_reveals xs v : In v (reveals xs) -> in64 v.
  Proof. intros H. apply in_map_iff in H. destruct H as (x & <- & _). apply open_a_in64. Qed.
  Lemma neg_fit xs : differences_fit xs -> forall a b, In a (map Z.opp (reveals xs)) -> In b (map Z.opp (reveals xs)) -> in64 (a - b).
  Proof.
    intros F a b Ha Hb. apply in_map_iff in Ha, Hb. destruct Ha as (a' & <- & Ha), Hb as (b' & <- & Hb). replace (- a' - - b') with (b' - a') by ring. auto.
  Qed.
  Lemma least_of k vs : (k < length vs)%nat -> is_max (nth k (map Z.opp vs) 0) (map Z.opp vs) -> least (nth k vs 0) vs.
  Proof.
    intros Hk [_ M]. change 0 with (- 0) in M at 1. rewrite map_nth in M. split; [now apply nth_In|]. intros v Hv. specialize (M (- v) (in_map Z.opp _ _ Hv)). lia.
  Qed.
  Lemma opp_nth k vs : nth k (map Z.opp vs) 0 = - nth k vs 0. Proof. change 0 with (- 0) at 1. apply map_nth. Qed.

  (** C31, C32: with [dim] given, every method returns the greatest element and the indicator of a position holding it. *)
  Lemma k_C31_max : forall me xs s st, s = 1 \/ s = D -> vector n s xs -> differences_fit xs -> short n D s xs ->
    let r := fst (max_dim D p local_bits log_steps cascade_steps isqrt me xs st) in
    greatest (open_a (n_sh (fst r))) (reveals xs) /\ n_sc (fst r) = s /\
    exists k, (k < length xs)%nat /\ nth k (reveals xs) 0 = open_a (n_sh (fst r)) /\ indicator (length xs) k (snd r).
  Proof using All.
    intros me xs s st Hs [N F] HF B r. unfold short in B. rewrite <- reveals_len in B. pose proof (max_dim_ok n Hn pr HV D D_pos p Hp HD local_bits (fun _ => True) Hloc s Hs (reveals xs) HF isqrt Hsqrt log_steps cascade_steps me (reveals xs) xs (reps n s xs F _ (incl_refl _)) (reveals_ne xs N) B st) as H.
    fold r in H. destruct H as (k & Hk & M & [Hv Sv] & Ha). assert (Ev : open_a (n_sh (fst r)) = nth k (reveals xs) 0) by (rewrite (ashare_open _ _ _ Hv); apply wrap_id, (in64_reveals xs), M).
    rewrite Ev. split; [exact M|]. split; [exact Sv|]. rewrite reveals_len in *. exists k. split; [assumption|]. split; [reflexivity|]. now apply (indicator_of n).
  Qed.
  Lemma k_C31_max_all : forall me xs s st, s = 1 \/ s = D -> vector n s xs -> differences_fit xs -> short n D s xs ->
    let r := fst (max_all D p local_bits log_steps cascade_steps isqrt me xs st) in greatest (open_a (n_sh r)) (reveals xs) /\ n_sc r = s.
  Proof using All.
    intros me xs s st Hs [N F] HF B r. unfold short in B. rewrite <- reveals_len in B. pose proof (max_all_ok n Hn pr HV D D_pos p Hp HD local_bits (fun _ => True) Hloc s Hs (reveals xs) HF isqrt Hsqrt log_steps cascade_steps me (reveals xs) xs (reps n s xs F _ (incl_refl _)) (reveals_ne xs N) B st) as H.
    fold r in H. destruct H as (m & M & [Hv Sv]). rewrite (ashare_open _ _ _ Hv), wrap_id by apply (in64_reveals xs), M. split; assumption.
  Qed.
  Lemma k_C31_min : forall me xs s st, s = 1 \/ s = D -> vector n s xs -> differences_fit xs -> short n D s xs ->
    let r := fst (min_dim D p local_bits log_steps cascade_steps isqrt me xs st) in
    least (open_a (n_sh (fst r))) (reveals xs) /\ n_sc (fst r) = s /\
    exists k, (k < length xs)%nat /\ nth k (reveals xs) 0 = open_a (n_sh (fst r)) /\ indicator (length xs) k (snd r).
  Proof using All.
    intros me xs s st Hs [N F] HF B r.
    assert (N' : map Z.opp (reveals xs) <> []) by (destruct xs; [contradiction|discriminate]).
    assert (LL : length (map Z.opp (reveals xs)) = length xs) by (now rewrite map_length, reveals_len). unfold short in B. rewrite <- LL in B.
    pose proof (max_dim_ok n Hn pr HV D D_pos p Hp HD local_bits (fun _ => True) Hloc s Hs _ (neg_fit xs HF) isqrt Hsqrt log_steps cascade_steps me _ _ (neg_reps n s xs F _ (incl_refl _)) N' B st) as H.
    unfold r, min_dim, bind. destruct (max_dim D p local_bits log_steps cascade_steps isqrt me (map neg_num xs) st) as [r0 st']. cbn [fst snd ret] in *.
    destruct H as (k & Hk & M & Hv & Ha). rewrite LL in *. apply neg_num_ok in Hv. destruct Hv as [Hv Sv]. rewrite opp_nth, Z.opp_involutive in Hv.
    assert (Hk' : (k < length (reveals xs))%nat) by (now rewrite reveals_len). assert (Ev : open_a (n_sh (neg_num (fst r0))) = nth k (reveals xs) 0) by (rewrite (ashare_open _ _ _ Hv); apply wrap_id, (in64_reveals xs), nth_In, Hk').
    rewrite Ev. split; [now apply least_of|]. split; [exact Sv|]. exists k. split; [assumption|]. split; [reflexivity|]. now apply (indicator_of n).
  Qed.
  Lemma k_C31_min_all : forall me xs s st, s = 1 \/ s = D -> vector n s xs -> differences_fit xs -> short n D s xs ->
    let r := fst (min_all D p local_bits log_steps cascade_steps isqrt me xs st) in least (open_a (n_sh r)) (reveals xs) /\ n_sc r = s.
  Proof using All.
    intros me xs s st Hs [N F] HF B r.
    assert (N' : map Z.opp (reveals xs) <> []) by (destruct xs; [contradiction|discriminate]).
    assert (LL : length (map Z.opp (reveals xs)) = length xs) by (now rewrite map_length, reveals_len). unfold short in B. rewrite <- LL in B.
    pose proof (max_all_ok n Hn pr HV D D_pos p Hp HD local_bits (fun _ => True) Hloc s Hs _ (neg_fit xs HF) isqrt Hsqrt log_steps cascade_steps me _ _ (neg_reps n s xs F _ (incl_refl _)) N' B st) as H.
    unfold r, min_all, bind. destruct (max_all D p local_bits log_steps cascade_steps isqrt me (map neg_num xs) st) as [r0 st']. cbn [fst snd ret] in *.
    destruct H as (m & M & Hv). apply neg_num_ok in Hv. destruct Hv as [Hv Sv]. destruct M as [I M]. apply in_map_iff in I. destruct I as (v & <- & Iv). rewrite Z.opp_involutive in Hv.
    rewrite (ashare_open _ _ _ Hv), wrap_id by (now apply (in64_reveals xs)). split; [|exact Sv]. split; [assumption|]. intros w Hw. specialize (M (- w) (in_map Z.opp _ _ Hw)). lia.
  Qed.

  (** C32 *)
  Lemma k_C32_argmax : forall me xs s st, s = 1 \/ s = D -> vector n s xs -> differences_fit xs -> short n D s xs ->
    exists k, (k < length xs)%nat /\ greatest (nth k (reveals xs) 0) (reveals xs) /\ indicator (length xs) k (fst (argmax D p local_bits log_steps cascade_steps isqrt me xs st)).
  Proof using All.
    intros me xs s st Hs [N F] HF B. unfold short in B. rewrite <- reveals_len in B. pose proof (argmax_ok n Hn pr HV D D_pos p Hp HD local_bits (fun _ => True) Hloc s Hs (reveals xs) HF isqrt Hsqrt log_steps cascade_steps me (reveals xs) xs (reps n s xs F _ (incl_refl _)) (reveals_ne xs N) B st) as H.
    destruct H as (k & Hk & M & Ha). rewrite reveals_len in *. exists k. split; [assumption|]. split; [exact M|]. now apply (indicator_of n).
  Qed.
  Lemma k_C32_argmin : forall me xs s st, s = 1 \/ s = D -> vector n s xs -> differences_fit xs -> short n D s xs ->
    exists k, (k < length xs)%nat /\ least (nth k (reveals xs) 0) (reveals xs) /\ indicator (length xs) k (fst (argmin D p local_bits log_steps cascade_steps isqrt me xs st)).
  Proof using All.
    intros me xs s st Hs [N F] HF B.
    assert (N' : map Z.opp (reveals xs) <> []) by (destruct xs; [contradiction|discriminate]).
    assert (LL : length (map Z.opp (reveals xs)) = length xs) by (now rewrite map_length, reveals_len). unfold short in B. rewrite <- LL in B.
    pose proof (argmax_ok n Hn pr HV D D_pos p Hp HD local_bits (fun _ => True) Hloc s Hs _ (neg_fit xs HF) isqrt Hsqrt log_steps cascade_steps me _ _ (neg_reps n s xs F _ (incl_refl _)) N' B st) as H.
    destruct H as (k & Hk & M & Ha). rewrite LL in *. exists k. split; [assumption|]. split; [apply least_of; [now rewrite reveals_len|exact M]|]. now apply (indicator_of n).
  Qed.
  Lemma k_C32_argmax_index : forall me xs s st, s = 1 \/ s = D -> vector n s xs -> differences_fit xs -> short n D s xs ->
    exists k, (k < length xs)%nat /\ greatest (nth k (reveals xs) 0) (reveals xs) /\
      let r := fst (argmax_index D p local_bits log_steps cascade_steps isqrt me xs st) in open_a (n_sh r) = Z.of_nat k /\ n_sc r = 1.
  Proof using All.
    intros me xs s st Hs [N F] HF B. pose proof B as B0. unfold short in B. rewrite <- reveals_len in B. pose proof (argmax_index_ok n Hn pr HV D D_pos p Hp HD local_bits (fun _ => True) Hloc s Hs (reveals xs) HF isqrt Hsqrt log_steps cascade_steps me (reveals xs) xs (reps n s xs F _ (incl_refl _)) (reveals_ne xs N) B st) as H.
    destruct H as (k & Hk & M & [Hv Sv]). rewrite reveals_len in *. exists k. split; [assumption|]. split; [exact M|]. split; [|exact Sv]. rewrite (ashare_open _ _ _ Hv). apply wrap_id.
    pose proof D_pos. pose proof (eqf_range n Hn D D_pos p Hp HD s Hs) as EB. unfold eqf in EB. set (e := if Nat.eqb n 2 then D / s else 1) in *.
    assert (Z.of_nat (length xs) <= e * Z.of_nat (length xs)) by nia. assert (e * Z.of_nat (length xs) <= e * Z.of_nat (length xs) * D) by nia. unfold in64, H63 in *. lia.
  Qed.

  (** C33: whatever the local draws, the revealed number is u / 2^p with 0 <= u < 2^p, u being the exclusive or of the draws ... *)
  Lemma k_C33_rand_range : forall us st, length us = n -> Forall (fun z => 0 <= z < D) us ->
    let r := fst (rand_num (pr := pr) D p (ret us) st) in open_a (n_sh r) = fold_right Z.lxor 0 us /\ 0 <= open_a (n_sh r) < 2 ^ Z.of_nat p /\ n_sc r = 2 ^ Z.of_nat p.
  Proof using All.
    intros us st L F r. assert (HL : yields (pr := pr) (ret us) (fun u => length u = n /\ Forall (fun z => 0 <= z < D) u /\ zxor u = zxor us)) by (apply yields_ret; auto).
    destruct (rand_ok n Hn pr HV D D_pos p Hp HD _ (fun v => v = zxor us) HL st) as (v & R & -> & [Hv Sv]). fold r in Hv, Sv. rewrite (ashare_open _ _ _ Hv).
    pose proof (D_bound n Hn D p Hp HD). rewrite wrap_id by (unfold in64, H63; lia). rewrite <- HD. auto.
  Qed.
  (** ... so, the other parties' draws being fixed, each of the 2^p values is produced by exactly one draw of party i. *)
  Lemma k_C33_rand_uniform : forall us i v st, (i < n)%nat -> length us = n -> Forall (fun z => 0 <= z < D) us -> 0 <= v < D ->
    exists! z, 0 <= z < D /\ open_a (n_sh (fst (rand_num (pr := pr) D p (ret (firstn i us ++ z :: skipn (S i) us)) st))) = v.
  Proof using All.
    intros us i v st Hi L F Rv. assert (X : forall a b, 0 <= a < D -> 0 <= b < D -> 0 <= Z.lxor a b < D).
    { intros a b Ha Hb. pose proof (zxor_range n Hn D p Hp HD [a; b]) as R. cbn in R. rewrite Z.lxor_0_r in R. apply R. repeat constructor; lia. }
    set (o := Z.lxor (zxor (firstn i us)) (zxor (skipn (S i) us))).
    assert (Ro : 0 <= o < D) by (apply X; apply (zxor_range n Hn D p Hp HD); [now apply Forall_firstn'|now apply Forall_skipn']).
    assert (Op : forall z, 0 <= z < D -> open_a (n_sh (fst (rand_num (pr := pr) D p (ret (firstn i us ++ z :: skipn (S i) us)) st))) = Z.lxor o z).
    { intros z Rz. destruct (k_C33_rand_range (firstn i us ++ z :: skipn (S i) us) st) as [E _].
      - rewrite app_length, firstn_length. cbn [length]. rewrite skipn_length. lia.
      - apply Forall_app. split; [now apply Forall_firstn'|]. constructor; [assumption|now apply Forall_skipn'].
      - rewrite E. clear. unfold o. generalize (skipn (S i) us). intros t. induction (firstn i us) as [|a l IH]; cbn [app fold_right]; [change (zxor []) with 0; rewrite Z.lxor_0_l; unfold zxor; apply Z.lxor_comm|].
        rewrite IH. change (zxor (a :: l)) with (Z.lxor a (zxor l)). now rewrite !Z.lxor_assoc. }
    exists (Z.lxor o v). split.
    - split; [now apply X|]. rewrite Op by (now apply X). now rewrite <- Z.lxor_assoc, Z.lxor_nilpotent, Z.lxor_0_l.
    - intros z [Rz Ez]. rewrite Op in Ez by assumption. rewrite <- Ez. now rewrite <- Z.lxor_assoc, Z.lxor_nilpotent, Z.lxor_0_l.
  Qed.

  (** C59: weighted sampling with integer weights w (scale 1) picks the index k whose weight interval contains u * W / 2^p, where u is the
      shared random number and W the sum of the weights; a zero weight is never picked. *)
  Lemma k_C59_weighted_index : forall ws us st, vector n 1 ws -> Forall (fun w => 0 <= w) (reveals ws) -> 0 < zsum (reveals ws) -> zsum (reveals ws) * D < H63 ->
    length us = n -> Forall (fun z => 0 <= z < D) us -> let W := zsum (reveals ws) in let u := fold_right Z.lxor 0 us in
    exists k, (k < length ws)%nat /\ 0 < nth k (reveals ws) 0 /\ zsum (firstn k (reveals ws)) * D <= u * W < zsum (firstn (S k) (reveals ws)) * D /\
      indicator (length ws) k (fst (weighted_index (pr := pr) D p (ret us) ws st)).
  Proof using All.
    intros ws us st [N F] NN P B L Fu W u. assert (HL : yields (pr := pr) (ret us) (fun x => length x = n /\ Forall (fun z => 0 <= z < D) x /\ zxor x = zxor us)) by (apply yields_ret; auto).
    assert (H : Forall2 (fun v x => nshare n v 1 x) (reveals ws) ws) by exact (rep_num n 1 _ _ _ (reps n 1 ws F _ (incl_refl _))).
    destruct (weighted_index_ok n Hn pr HV D D_pos p Hp HD _ (fun v => v = zxor us) HL (reveals ws) ws H NN P B st) as (u' & k & Ru & -> & Hk & Hw & R & Ha). rewrite reveals_len in *.
    exists k. split; [assumption|]. split; [assumption|]. split; [exact R|]. now apply (indicator_of n).
  Qed.
  (** Hence the number of draws u that pick k differs from the ideal w_k * 2^p / W by less than one: u picks k iff it lies between two ceilings. *)
  Lemma k_C59_interval : forall u a w W, 0 < W -> 0 <= w -> (a * D <= u * W < (a + w) * D <-> - ((- (a * D)) / W) <= u < - ((- ((a + w) * D)) / W)) /\
    (w * D - W < (- ((- ((a + w) * D)) / W) - - ((- (a * D)) / W)) * W < w * D + W).
  Proof using All.
    intros u a w W HW Hw. pose proof (Z.div_mod (- (a * D)) W ltac:(lia)) as E1. pose proof (Z.mod_pos_bound (- (a * D)) W HW) as B1.
    pose proof (Z.div_mod (- ((a + w) * D)) W ltac:(lia)) as E2. pose proof (Z.mod_pos_bound (- ((a + w) * D)) W HW) as B2.
    set (q1 := - (a * D) / W) in *. set (q2 := - ((a + w) * D) / W) in *. set (x1 := a * D) in *. set (x2 := (a + w) * D) in *. assert (Ex : x2 - x1 = w * D) by (unfold x1, x2; ring). split; [split; intros; nia|]. nia.
  Qed.
End Claims.
