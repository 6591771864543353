Require Import ZArith List Lia Bool QArith Qround.
From Verif Require Import Ring64 Sharing Sharing_proofs Encoder Arith Arith_proofs Beaver.
Import ListNotations.
Open Scope Z_scope.

(** ** Bilinear forms over index functions *)
Definition B (row : list (nat * nat)) (f g : nat -> Z) : Z := zsum (map (fun p => f (fst p) * g (snd p)) row).

Lemma B_add_l row f1 f2 g : B row (fun i => f1 i + f2 i) g = B row f1 g + B row f2 g.
Proof. unfold B. rewrite <- zsum_map_add. f_equal. apply map_ext. intros; ring. Qed.
Lemma B_add_r row f g1 g2 : B row f (fun i => g1 i + g2 i) = B row f g1 + B row f g2.
Proof. unfold B. rewrite <- zsum_map_add. f_equal. apply map_ext. intros; ring. Qed.
Lemma B_opp_l row f g : B row (fun i => - f i) g = - B row f g.
Proof. unfold B. rewrite <- zsum_map_opp, map_map. f_equal. apply map_ext. intros; ring. Qed.
Lemma B_opp_r row f g : B row f (fun i => - g i) = - B row f g.
Proof. unfold B. rewrite <- zsum_map_opp, map_map. f_equal. apply map_ext. intros; ring. Qed.
Lemma B_proper row f1 f2 g1 g2 : (forall p, In p row -> f1 (fst p) == f2 (fst p)) -> (forall p, In p row -> g1 (snd p) == g2 (snd p)) -> B row f1 g1 == B row f2 g2.
Proof. intros H1 H2. apply zsum_map_eqm. intros p Hp. now rewrite H1, H2. Qed.
Lemma B_sum_r {A} row f (g : A -> nat -> Z) l : zsum (map (fun a => B row f (g a)) l) = B row f (fun i => zsum (map (fun a => g a i) l)).
Proof. unfold B. rewrite zsum_swap. f_equal. apply map_ext. intros p. rewrite <- zsum_map_mul, map_map. reflexivity. Qed.
Lemma B_sum_l {A} row (f : A -> nat -> Z) g l : zsum (map (fun a => B row (f a) g) l) = B row (fun i => zsum (map (fun a => f a i) l)) g.
Proof.
  unfold B. rewrite zsum_swap. f_equal. apply map_ext. intros p. rewrite Z.mul_comm, <- zsum_map_mul, map_map.
  f_equal. apply map_ext. intros; ring.
Qed.

Definition at_ (x : list Z) : nat -> Z := fun i => nth i x 0.

Lemma bil_row_eqm row x y : bil_row row x y == B row (at_ x) (at_ y).
Proof.
  unfold bil_row, B, at_.
  assert (G : forall acc, fold_left (fun acc p => wadd acc (wmul (nth (fst p) x 0) (nth (snd p) y 0))) row acc ==
    acc + zsum (map (fun p => nth (fst p) x 0 * nth (snd p) y 0) row)).
  { induction row as [|p row IH]; intros acc; cbn [fold_left map]; [cbn; rewrite Z.add_0_r; reflexivity|].
    rewrite IH, wadd_eqm, wmul_eqm, zsum_cons. apply eqm_refl_eq; ring. }
  rewrite G. reflexivity.
Qed.
Lemma bil_row_in64 row x y : in64 (bil_row row x y).
Proof.
  unfold bil_row. assert (G : forall acc, in64 acc -> in64 (fold_left (fun acc p => wadd acc (wmul (nth (fst p) x 0) (nth (snd p) y 0))) row acc)).
  { induction row; intros; cbn; auto. apply IHrow, wadd_in64. } apply G, in64_0.
Qed.
Lemma bil_row_eq row x y : bil_row row x y = wrap (zsum (map (fun p => nth (fst p) x 0 * nth (snd p) y 0) row)).
Proof. symmetry. apply wrap_unique; [apply bil_row_in64|]. rewrite bil_row_eqm. reflexivity. Qed.

Lemma nth_bil T x y k : (k < length T)%nat -> nth k (bil T x y) 0 = bil_row (nth k T []) x y.
Proof.
  intros Hk. unfold bil. rewrite (nth_indep _ 0 (bil_row [] x y)) by (now rewrite map_length). apply (map_nth (fun row => bil_row row x y)).
Qed.
Lemma bil_length T x y : length (bil T x y) = length T. Proof. apply map_length. Qed.

(** ** Shapes *)
Definition shaped (n k : nat) (sh : list (list Z)) : Prop := length sh = n /\ Forall (fun t => length t = k) sh.
Definition col (sh : list (list Z)) (i : nat) : list Z := map (fun t => nth i t 0) sh.

Lemma shaped_ne n k sh : (0 < n)%nat -> shaped n k sh -> sh <> [].
Proof. intros Hn [H _]. destruct sh; cbn in H; [lia|congruence]. Qed.

Lemma nth_default_ge (t : list Z) i : (length t <= i)%nat -> nth i t 0 = 0.
Proof. apply nth_overflow. Qed.

(** Every index: in range the revealed element; out of range 0 on both sides. *)
Lemma reveal_nth n k sh i : (0 < n)%nat -> shaped n k sh -> nth i (reveal_arith sh) 0 == zsum (col sh i).
Proof.
  intros Hn Hs. destruct (le_lt_dec k i) as [H|H].
  - rewrite nth_overflow by (rewrite (reveal_arith_length _ k); [assumption|eapply shaped_ne; eauto|apply Hs]).
    unfold col. rewrite (map_ext_in _ (fun _ => 0)).
    + clear. induction sh; cbn [map]; [reflexivity|]. rewrite zsum_cons, <- IHsh. reflexivity.
    + intros t Ht. apply nth_overflow. destruct Hs as [_ Hf]. rewrite Forall_forall in Hf. rewrite (Hf t Ht). assumption.
  - apply (reveal_arith_nth sh k i); [eapply shaped_ne; eauto|apply Hs|assumption].
Qed.

Lemma zipw_forall {A B C} (f : A -> B -> C) (P : A -> Prop) (Q : B -> Prop) (R : C -> Prop) l m :
  (forall a b, P a -> Q b -> R (f a b)) -> Forall P l -> Forall Q m -> Forall R (zipw f l m).
Proof.
  intros H Hl. revert m. induction Hl; intros m Hm; [constructor|]. destruct Hm; [constructor|]. rewrite zipw_cons. constructor; auto.
Qed.

Lemma shaped_zip f n k x a : shaped n k x -> shaped n k a -> shaped n k (zipw (zipw f) x a).
Proof.
  intros [H1 H2] [H3 H4]. split; [rewrite zipw_length; congruence|].
  apply (zipw_forall _ (fun t => length t = k) (fun t => length t = k)); auto.
  intros. rewrite zipw_length; congruence.
Qed.

Lemma col_zip_wsub n k x a i : (i < k)%nat -> shaped n k x -> shaped n k a -> zsum (col (zipw (zipw wsub) x a) i) == zsum (col x i) - zsum (col a i).
Proof.
  intros Hi [L1 F1] [L2 F2]. subst n. symmetry in L2. revert a L2 F2. induction F1 as [|t x Ht F1 IH]; intros [|u a] L2 F2; cbn in L2; try discriminate; [reflexivity|].
  inversion F2; subst. rewrite zipw_cons. cbn [col map]. rewrite !zsum_cons. fold (col (zipw (zipw wsub) x a) i) (col x i) (col a i).
  rewrite IH by (auto; congruence). rewrite (nth_zipw wsub) by (congruence || lia). rewrite wsub_eqm. apply eqm_refl_eq; ring.
Qed.

Lemma col_zip_wsub_all n k x a i : shaped n k x -> shaped n k a -> zsum (col (zipw (zipw wsub) x a) i) == zsum (col x i) - zsum (col a i).
Proof.
  intros Hx Ha. destruct (le_lt_dec k i) as [H|H]; [|now apply (col_zip_wsub n k)].
  assert (Z0 : forall s, shaped n k s -> zsum (col s i) = 0).
  { intros s [_ Hf]. unfold col. rewrite (map_ext_in _ (fun _ => 0)).
    - clear. induction s; cbn [map]; [reflexivity|]. rewrite zsum_cons, IHs. reflexivity.
    - intros t Ht. apply nth_overflow. rewrite Forall_forall in Hf. rewrite (Hf t Ht). assumption. }
  rewrite (Z0 x), (Z0 a), (Z0 _ (shaped_zip _ _ _ _ _ Hx Ha)) by assumption. reflexivity.
Qed.

(** Party-wise update [c_p := c_p + F p] where [F] depends on another share. *)
Lemma col_zip_add n k (F : list Z -> list Z) c b i : (i < k)%nat -> shaped n k c -> length b = n -> (forall t, length (F t) = k) ->
  shaped n k (zipw (fun cp bp => zipw wadd cp (F bp)) c b) /\
  zsum (col (zipw (fun cp bp => zipw wadd cp (F bp)) c b) i) == zsum (col c i) + zsum (map (fun bp => nth i (F bp) 0) b).
Proof.
  intros Hi [L1 F1] L2 HF. split.
  - split; [rewrite zipw_length; congruence|].
    apply (zipw_forall _ (fun t => length t = k) (fun t => True)); auto.
    + intros. rewrite zipw_length; rewrite ?HF; congruence.
    + apply Forall_forall; auto.
  - subst n. revert b L2. induction F1 as [|t c Ht F1 IH]; intros [|u b] L2; cbn in L2; try discriminate; [reflexivity|].
    rewrite zipw_cons. cbn [col map]. rewrite !zsum_cons.
    fold (col (zipw (fun cp bp => zipw wadd cp (F bp)) c b) i) (col c i).
    rewrite IH by congruence. rewrite (nth_zipw wadd) by (rewrite ?HF; congruence || lia). rewrite wadd_eqm. apply eqm_refl_eq; ring.
Qed.

Lemma col_rank0 n k y c i : (0 < n)%nat -> (i < k)%nat -> shaped n k c -> length y = k ->
  shaped n k (rank0 (fun s => zipw wadd s y) c) /\ zsum (col (rank0 (fun s => zipw wadd s y) c) i) == zsum (col c i) + nth i y 0.
Proof.
  intros Hn Hi [L F] Hy. destruct c as [|s r]; cbn [length] in L; [lia|]. inversion F; subst. cbn [rank0]. split.
  - split; [reflexivity|]. constructor; [|assumption]. rewrite zipw_length; congruence.
  - cbn [col map]. rewrite !zsum_cons. rewrite (nth_zipw wadd) by (congruence || lia). rewrite wadd_eqm. apply eqm_refl_eq; ring.
Qed.

Lemma reveal_in64 n k sh i : (0 < n)%nat -> shaped n k sh -> Forall (Forall in64) sh -> in64 (nth i (reveal_arith sh) 0).
Proof.
  intros Hn Hs H. destruct sh as [|s r]; [destruct Hs; cbn in *; lia|]. cbn [reveal_arith].
  inversion H; subst. pose proof (fold_zipw_wadd_in64 r s H2) as G.
  destruct (le_lt_dec (length (fold_left (zipw wadd) r s)) i); [rewrite nth_overflow by assumption; exact in64_0|].
  rewrite Forall_forall in G. apply G, nth_In. assumption.
Qed.

(** A valid triple for the operation [T]. *)
Definition valid_triple (T : list (list (nat * nat))) (a b c : list (list Z)) : Prop :=
  forall i, (i < length T)%nat -> nth i (reveal_arith c) 0 == zsum (map (fun p => nth (fst p) (reveal_arith a) 0 * nth (snd p) (reveal_arith b) 0) (nth i T [])).

Lemma beaver_ok n ka kb T a b c x y : (0 < n)%nat ->
  shaped n ka a -> shaped n ka x -> shaped n kb b -> shaped n kb y -> shaped n (length T) c -> valid_triple T a b c ->
  shaped n (length T) (beaver T a b c x y) /\
  forall i, (i < length T)%nat -> nth i (reveal_arith (beaver T a b c x y)) 0 == bil_row (nth i T []) (reveal_arith x) (reveal_arith y).
Proof.
  intros Hn Ha Hx Hb Hy Hc HV. unfold beaver.
  set (eps := reveal_arith (zipw (zipw wsub) x a)). set (del := reveal_arith (zipw (zipw wsub) y b)).
  set (c1 := zipw (fun cp bp => zipw wadd cp (bil T eps bp)) c b).
  set (c2 := zipw (fun cp ap => zipw wadd cp (bil T ap del)) c1 a).
  assert (Key : forall i, (i < length T)%nat -> shaped n (length T) (rank0 (fun s => zipw wadd s (bil T eps del)) c2) /\
     zsum (col (rank0 (fun s => zipw wadd s (bil T eps del)) c2) i) == bil_row (nth i T []) (reveal_arith x) (reveal_arith y)).
  { intros i Hi.
    destruct (col_zip_add n (length T) (fun bp => bil T eps bp) c b i Hi Hc (proj1 Hb) (fun t => bil_length T eps t)) as [S1 E1].
    fold c1 in S1, E1.
    destruct (col_zip_add n (length T) (fun ap => bil T ap del) c1 a i Hi S1 (proj1 Ha) (fun t => bil_length T t del)) as [S2 E2].
    fold c2 in S2, E2.
    destruct (col_rank0 n (length T) (bil T eps del) c2 i Hn Hi S2 (bil_length _ _ _)) as [S3 E3].
    split; [assumption|]. rewrite E3, E2, E1, nth_bil by assumption. clear E1 E2 E3 S1 S2 S3.
    set (row := nth i T []).
    rewrite (map_ext (fun bp => nth i (bil T eps bp) 0) (fun bp => bil_row row eps bp)) by (intros; now apply nth_bil).
    rewrite (map_ext (fun ap => nth i (bil T ap del) 0) (fun ap => bil_row row ap del)) by (intros; now apply nth_bil).
    rewrite <- (reveal_nth n (length T)) by assumption. rewrite (HV i Hi). fold row.
    change (zsum (map (fun p => nth (fst p) (reveal_arith a) 0 * nth (snd p) (reveal_arith b) 0) row)) with (B row (at_ (reveal_arith a)) (at_ (reveal_arith b))).
    rewrite (zsum_map_eqm (fun bp => bil_row row eps bp) (fun bp => B row (at_ eps) (at_ bp))) by (intros; apply bil_row_eqm).
    rewrite (zsum_map_eqm (fun ap => bil_row row ap del) (fun ap => B row (at_ ap) (at_ del))) by (intros; apply bil_row_eqm).
    rewrite B_sum_r, B_sum_l, !bil_row_eqm.
    set (X := at_ (reveal_arith x)). set (Y := at_ (reveal_arith y)). set (A := at_ (reveal_arith a)). set (Bb := at_ (reveal_arith b)).
    assert (HA : forall j, zsum (map (fun ap => at_ ap j) a) == A j).
    { intros j. unfold A, at_ at 2. rewrite (reveal_nth n ka) by assumption. reflexivity. }
    assert (HB : forall j, zsum (map (fun ap => at_ ap j) b) == Bb j).
    { intros j. unfold Bb, at_ at 2. rewrite (reveal_nth n kb) by assumption. reflexivity. }
    assert (HE : forall j, at_ eps j == X j + - A j).
    { intros j. unfold eps, at_. rewrite (reveal_nth n ka) by (auto using shaped_zip). rewrite (col_zip_wsub_all n ka) by assumption.
      unfold X, A, at_. rewrite !(reveal_nth n ka) by assumption. reflexivity. }
    assert (HD : forall j, at_ del j == Y j + - Bb j).
    { intros j. unfold del, at_. rewrite (reveal_nth n kb) by (auto using shaped_zip). rewrite (col_zip_wsub_all n kb) by assumption.
      unfold Y, Bb, at_. rewrite !(reveal_nth n kb) by assumption. reflexivity. }
    rewrite (B_proper row (at_ eps) (fun j => X j + - A j) (fun j => zsum (map (fun ap => at_ ap j) b)) Bb) by auto.
    rewrite (B_proper row (fun j => zsum (map (fun ap => at_ ap j) a)) A (at_ del) (fun j => Y j + - Bb j)) by auto.
    rewrite (B_proper row (at_ eps) (fun j => X j + - A j) (at_ del) (fun j => Y j + - Bb j)) by auto.
    rewrite ?B_add_l, ?B_add_r, ?B_opp_l, ?B_opp_r, ?B_add_l, ?B_add_r, ?B_opp_l, ?B_opp_r. apply eqm_refl_eq. ring. }
  destruct T as [|r0 T']; [|split; [exact (proj1 (Key 0%nat ltac:(cbn; lia)))|]].
  - split; [|cbn; intros; lia]. assert (Hc2 : length c2 = n).
    { unfold c2. rewrite zipw_length; [unfold c1; rewrite zipw_length|unfold c1; rewrite zipw_length]; destruct Ha, Hb, Hc; congruence. }
    split; [destruct c2; cbn in *; assumption|]. 
    apply Forall_forall. intros t Ht.
    assert (Forall (fun t => length t = 0%nat) c2).
    { unfold c2. apply (zipw_forall _ (fun t => length t = 0%nat) (fun _ => True)).
      - intros u v Hu _. destruct u; [reflexivity|discriminate].
      - unfold c1. apply (zipw_forall _ (fun t => length t = 0%nat) (fun _ => True)); [intros u v Hu _; destruct u; [reflexivity|discriminate]|exact (proj2 Hc)|apply Forall_forall; auto].
      - apply Forall_forall; auto. }
    destruct c2 as [|s r]; cbn [rank0] in Ht; [contradiction|]. inversion H; subst. destruct Ht as [<-|Ht].
    + destruct s; [reflexivity|discriminate].
    + rewrite Forall_forall in H3. now apply H3.
  - intros i Hi. destruct (Key i Hi) as [S E]. rewrite (reveal_nth n (length (r0 :: T'))) by assumption. exact E.
Qed.

Lemma zipw_wadd_in64 (l m : list Z) : Forall in64 (zipw wadd l m).
Proof. apply Forall_forall. intros z Hz. apply in_map_iff in Hz as (p & <- & _). apply wadd_in64. Qed.

Lemma zipw_all {A B C} (f : A -> B -> C) (P : C -> Prop) l m : (forall a b, P (f a b)) -> Forall P (zipw f l m).
Proof. intros H. apply Forall_forall. intros z Hz. apply in_map_iff in Hz as (p & <- & _). apply H. Qed.

Lemma beaver_reveal n ka kb T a b c x y : (0 < n)%nat ->
  shaped n ka a -> shaped n ka x -> shaped n kb b -> shaped n kb y -> shaped n (length T) c -> valid_triple T a b c ->
  reveal_arith (beaver T a b c x y) = bil T (reveal_arith x) (reveal_arith y).
Proof.
  intros Hn Ha Hx Hb Hy Hc HV. destruct (beaver_ok n ka kb T a b c x y) as [S E]; auto.
  assert (L : length (reveal_arith (beaver T a b c x y)) = length T) by (apply reveal_arith_length; [eapply shaped_ne; eauto|apply S]).
  apply list_eq_nth; [rewrite bil_length; assumption|]. intros i Hi. rewrite L in Hi. rewrite nth_bil by assumption.
  apply eqm_in64_eq; [|apply bil_row_in64|apply E; assumption].
  apply (reveal_in64 n (length T)); auto. unfold beaver.
  match goal with |- context [rank0 _ ?z] => set (c2 := z) end.
  assert (Forall (Forall in64) c2) by (apply zipw_all; intros; apply zipw_wadd_in64).
  destruct c2; cbn [rank0]; [constructor|]. inversion H; subst. constructor; [apply zipw_wadd_in64|assumption].
Qed.

(** ** Tables *)
Lemma mul_table_spec n x y i : (i < n)%nat -> nth i (bil (mul_table n) x y) 0 = wmul (nth i x 0) (nth i y 0).
Proof.
  intros Hi. rewrite nth_bil by (unfold mul_table; rewrite map_length, seq_length; assumption).
  replace (nth i (mul_table n) []) with [(i, i)].
  - rewrite bil_row_eq. cbn. unfold wmul. now rewrite Z.add_0_r.
  - unfold mul_table. rewrite (nth_indep _ [] [(0%nat, 0%nat)]) by (rewrite map_length, seq_length; assumption).
    change [(0%nat, 0%nat)] with ((fun i => [(i, i)]) 0%nat). rewrite map_nth, seq_nth by assumption. reflexivity.
Qed.

Lemma nth_flat_map_const {A B} (f : A -> list B) m l d dA r c : (forall a, In a l -> length (f a) = m) -> (r < length l)%nat -> (c < m)%nat ->
  nth (r * m + c) (flat_map f l) d = nth c (f (nth r l dA)) d.
Proof.
  revert r. induction l as [|a l IH]; intros r Hf Hr Hc; cbn [length] in Hr; [lia|]. cbn [flat_map].
  destruct r as [|r].
  - cbn [Nat.mul nth]. rewrite app_nth1; [reflexivity|]. rewrite Hf by (now left). lia.
  - rewrite app_nth2 by (rewrite Hf by (now left); lia). rewrite Hf by (now left).
    replace (S r * m + c - m)%nat with (r * m + c)%nat by lia. cbn [nth]. apply IH; [intros; apply Hf; now right|lia|lia].
Qed.

Lemma nth_map_seq {B} (f : nat -> B) n i d : (i < n)%nat -> nth i (map f (seq 0 n)) d = f i.
Proof. intros H. rewrite (nth_indep _ d (f 0%nat)) by (rewrite map_length, seq_length; assumption). rewrite map_nth, seq_nth by assumption. reflexivity. Qed.

Lemma matmul_table_spec n k m x y r c : (r < n)%nat -> (c < m)%nat ->
  nth (r * m + c) (bil (matmul_table n k m) x y) 0 = wrap (zsum (map (fun l => nth (r * k + l) x 0 * nth (l * m + c) y 0) (seq 0 k))).
Proof.
  intros Hr Hc.
  assert (Hlen : forall a, In a (seq 0 n) -> length ((fun r => map (fun c => map (fun l => (r * k + l, l * m + c))%nat (seq 0 k)) (seq 0 m)) a) = m)
    by (intros; now rewrite map_length, seq_length).
  assert (HT : length (matmul_table n k m) = (n * m)%nat).
  { unfold matmul_table. clear. rewrite <- (seq_length n 0) at 2. induction (seq 0 n) as [|a l IH]; cbn [flat_map length]; [reflexivity|].
    rewrite app_length, IH, map_length, seq_length. lia. }
  rewrite nth_bil by (rewrite HT; nia). unfold matmul_table.
  rewrite (nth_flat_map_const _ m _ _ 0%nat) by (rewrite ?seq_length; auto).
  rewrite seq_nth by assumption. cbn [Nat.add]. rewrite nth_map_seq by assumption.
  rewrite bil_row_eq, map_map. reflexivity.
Qed.

(** ** Square *)
Lemma square_ok r r2 x : length r = length x -> length r2 = length x -> (0 < length x)%nat ->
  open_a r2 == open_a r * open_a r -> open_a (square r r2 x) = wmul (open_a x) (open_a x).
Proof.
  intros L1 L2 Hn Hv. unfold square. rewrite open_a_eq. unfold wmul at 2. apply eqm_wrap_eq.
  rewrite zsum_add_pub. 2:{ eapply length_ne; [exact Hn|]. unfold add_priv. rewrite zipw_length; rewrite ?mul_int_length; congruence. }
  unfold add_priv. rewrite zsum_zipw_wadd by (rewrite ?mul_int_length; congruence). rewrite !zsum_mul_int, wmul_eqm.
  rewrite <- (open_a_eqm r2), <- (open_a_eqm r), Hv.
  assert (E : open_a (sub_priv x r) == open_a x - open_a r).
  { rewrite open_a_eqm. unfold sub_priv. rewrite zsum_zipw_wsub by congruence. now rewrite <- !open_a_eqm. }
  rewrite E. apply eqm_refl_eq. ring.
Qed.

(** ** AND *)
Lemma zxor_zipw l m : length l = length m -> zxor (zipw Z.lxor l m) = Z.lxor (zxor l) (zxor m).
Proof.
  revert m. induction l as [|a l IH]; intros [|b m] HL; cbn in HL; try discriminate; [reflexivity|].
  rewrite zipw_cons, !zxor_cons, IH by congruence. apply Z.bits_inj'. intros i Hi. rewrite !Z.lxor_spec.
  destruct (Z.testbit a i), (Z.testbit b i), (Z.testbit (zxor l) i), (Z.testbit (zxor m) i); reflexivity.
Qed.
Lemma zxor_map_land k l : zxor (map (fun s => Z.land s k) l) = Z.land (zxor l) k.
Proof.
  induction l as [|a l IH]; [reflexivity|]. cbn [map]. rewrite !zxor_cons, IH. apply Z.bits_inj'. intros i Hi.
  rewrite !Z.lxor_spec, !Z.land_spec, !Z.lxor_spec. destruct (Z.testbit a i), (Z.testbit k i), (Z.testbit (zxor l) i); reflexivity.
Qed.
Lemma zxor_on_rank0 k l : l <> [] -> zxor (on_rank0 (fun s => Z.lxor s k) l) = Z.lxor (zxor l) k.
Proof.
  destruct l as [|a l]; [congruence|]. intros _. cbn [on_rank0]. rewrite !zxor_cons. apply Z.bits_inj'. intros i Hi. rewrite !Z.lxor_spec.
  destruct (Z.testbit a i), (Z.testbit k i), (Z.testbit (zxor l) i); reflexivity.
Qed.

Lemma and_beaver_ok n a b c x y : (0 < n)%nat -> length a = n -> length b = n -> length c = n -> length x = n -> length y = n ->
  open_b c = Z.land (open_b a) (open_b b) ->
  length (and_beaver a b c x y) = n /\ open_b (and_beaver a b c x y) = Z.land (open_b x) (open_b y).
Proof.
  intros Hn La Lb Lc Lx Ly Hv. rewrite !open_b_eq in *. unfold and_beaver. rewrite !open_b_eq.
  split.
  - rewrite zipw_length; rewrite on_rank0_length, zipw_length; rewrite !map_length; congruence.
  - rewrite zxor_zipw by (rewrite on_rank0_length, zipw_length; rewrite !map_length; congruence).
    rewrite zxor_on_rank0 by (eapply length_ne; [exact Hn|]; rewrite zipw_length; rewrite !map_length; congruence).
    rewrite !zxor_zipw, !zxor_map_land, Hv by (rewrite ?map_length; congruence). apply Z.bits_inj'. intros i Hi.
    rewrite ?Z.lxor_spec, ?Z.land_spec, ?Z.lxor_spec.
    destruct (Z.testbit (zxor a) i), (Z.testbit (zxor b) i), (Z.testbit (zxor x) i), (Z.testbit (zxor y) i); reflexivity.
Qed.

(** ** B2A single bit *)
Lemma b2a_single_ok n rA rB xB : (0 < n)%nat -> length rA = n -> length rB = n -> length xB = n ->
  (open_b xB = 0 \/ open_b xB = 1) -> (open_b rB = 0 \/ open_b rB = 1) -> open_a rA = open_b rB ->
  length (b2a_single_bit rA rB xB) = n /\ open_a (b2a_single_bit rA rB xB) = open_b xB.
Proof.
  intros Hn LA LB LX Hx Hr He. unfold b2a_single_bit. split; [unfold add_pub; rewrite on_rank0_length, mul_int_length; assumption|].
  rewrite open_a_eq. apply wrap_unique; [destruct Hx as [-> | ->]; unfold in64, H63; lia|].
  rewrite zsum_add_pub by (eapply length_ne; [exact Hn|]; rewrite mul_int_length; assumption).
  rewrite zsum_mul_int, <- open_a_eqm, He. rewrite !open_b_eq in *. rewrite zxor_zipw by congruence.
  rewrite wsub_eqm, wmul_eqm. destruct Hx as [-> | ->], Hr as [-> | ->]; reflexivity.
Qed.

(** ** Triple verification *)
Lemma zsum_sub_priv x y : length x = length y -> zsum (sub_priv x y) == zsum x - zsum y.
Proof. apply zsum_zipw_wsub. Qed.

Lemma triples_check_eq n t a b c f g h : (0 < n)%nat -> length a = n -> length b = n -> length c = n -> length f = n -> length g = n -> length h = n ->
  triples_check t a b c f g h = wrap (t * (open_a c - open_a a * open_a b) - (open_a h - open_a f * open_a g)).
Proof.
  intros Hn La Lb Lc Lf Lg Lh. unfold triples_check. rewrite open_a_eq. apply eqm_wrap_eq.
  assert (Ls : forall u v, length u = n -> length v = n -> length (sub_priv u v) = n) by (intros; unfold sub_priv; rewrite zipw_length; congruence).
  rewrite zsum_sub_pub by (eapply length_ne; [exact Hn|]; repeat apply Ls; rewrite ?mul_int_length; assumption).
  rewrite !zsum_sub_priv by (rewrite ?mul_int_length, ?Ls; rewrite ?Ls; rewrite ?mul_int_length; congruence).
  rewrite !zsum_mul_int, wmul_eqm.
  assert (Er : open_a (sub_priv (mul_int t a) f) == open_a a * t - open_a f).
  { rewrite open_a_eqm, zsum_sub_priv by (rewrite mul_int_length; congruence). rewrite zsum_mul_int, <- !open_a_eqm. reflexivity. }
  assert (Es : open_a (sub_priv b g) == open_a b - open_a g).
  { rewrite open_a_eqm, zsum_sub_priv by congruence. rewrite <- !open_a_eqm. reflexivity. }
  rewrite Er, Es, <- !open_a_eqm. apply eqm_refl_eq. ring.
Qed.

(** ** Masks *)
Lemma wsub_invol x e : in64 e -> wsub x (wsub x e) = e.
Proof. intros He. apply wrap_unique; [assumption|]. rewrite wsub_eqm. apply eqm_refl_eq; ring. Qed.
Lemma wsub_inj x a b : in64 a -> in64 b -> wsub x a = wsub x b -> a = b.
Proof. intros Ha Hb H. rewrite <- (wsub_invol x a), <- (wsub_invol x b), H by assumption. reflexivity. Qed.

(** ** conv1d *)
Lemma zsum_flat_map {A C} (f : C -> Z) (g : A -> list C) l : zsum (map f (flat_map g l)) = zsum (map (fun a => zsum (map f (g a))) l).
Proof. induction l as [|a l IH]; [reflexivity|]. cbn [flat_map map]. rewrite map_app, zsum_app, zsum_cons, IH. reflexivity. Qed.

Lemma flat_map_length_const {A C} (f : A -> list C) m l : (forall a, In a l -> length (f a) = m) -> length (flat_map f l) = (length l * m)%nat.
Proof. induction l as [|a l IH]; intros H; [reflexivity|]. cbn [flat_map length]. rewrite app_length, IH, H by (auto with datatypes). lia. Qed.

(** Zero-padded input access. *)
Definition padded (x : list Z) (len pad c q : nat) : Z :=
  if (Nat.leb pad q && Nat.ltb (q - pad) len)%bool then nth (c * len + (q - pad)) x 0 else 0.

Lemma conv1d_spec cin len cout kw stride pad x w o p :
  let lout := (S ((len + 2 * pad - kw) / stride))%nat in
  (o < cout)%nat -> (p < lout)%nat ->
  nth (o * lout + p) (bil (conv1d_table cin len cout kw stride pad) x w) 0 =
  wrap (zsum (map (fun c => zsum (map (fun t => padded x len pad c (p * stride + t) * nth ((o * cin + c) * kw + t) w 0) (seq 0 kw))) (seq 0 cin))).
Proof.
  intros lout Ho Hp. unfold conv1d_table. fold lout.
  set (F := fun o => map (fun p => flat_map (fun c => flat_map (fun t =>
        let pos := (p * stride + t)%nat in
        if (Nat.leb pad pos && Nat.ltb (pos - pad) len)%bool
        then [((c * len + (pos - pad))%nat, ((o * cin + c) * kw + t)%nat)] else []) (seq 0 kw)) (seq 0 cin)) (seq 0 lout)).
  assert (HF : forall a, In a (seq 0 cout) -> length (F a) = lout) by (intros; unfold F; now rewrite map_length, seq_length).
  rewrite nth_bil by (rewrite (flat_map_length_const F lout) by assumption; rewrite seq_length; nia).
  rewrite (nth_flat_map_const F lout _ _ 0%nat) by (rewrite ?seq_length; auto).
  rewrite seq_nth by assumption. cbn [Nat.add]. unfold F at 1. rewrite nth_map_seq by assumption.
  rewrite bil_row_eq, zsum_flat_map. f_equal. f_equal. apply map_ext. intros c. rewrite zsum_flat_map. f_equal. apply map_ext. intros t.
  cbv zeta. unfold padded. destruct (_ && _)%bool; cbn; ring.
Qed.

(** ** Float multiplier *)
Lemma rne_ge q z : (inject_Z z <= q)%Q -> z <= rne q.
Proof.
  intros H. assert (z <= Qfloor q). { pose proof (Qfloor_resp_le _ _ H) as G. now rewrite Qfloor_Z in G. }
  unfold rne. destruct (Qcompare _ _); [destruct (Z.even _)|..]; lia.
Qed.
Lemma f32_big_ge q j : 23 <= j -> (inject_Z (2 ^ j) <= q)%Q -> (exists m, f32_big q = m * 2 ^ (j - 23)) /\ 2 ^ j <= f32_big q.
Proof.
  intros Hj H. unfold f32_big. set (k := Z.log2 (Qfloor q) - 23).
  assert (Hf : 2 ^ j <= Qfloor q). { pose proof (Qfloor_resp_le _ _ H) as G. now rewrite Qfloor_Z in G. }
  assert (P0 : 0 < 2 ^ j) by (apply Z.pow_pos_nonneg; lia).
  assert (Hl : j <= Z.log2 (Qfloor q)). { rewrite <- (Z.log2_pow2 j) by lia. now apply Z.log2_le_mono. }
  assert (Pk : 0 < 2 ^ k) by (apply Z.pow_pos_nonneg; unfold k; lia).
  split.
  - exists (rne (q / inject_Z (2 ^ k)) * 2 ^ (k - (j - 23))). rewrite <- Z.mul_assoc, <- Z.pow_add_r by (unfold k; lia). do 2 f_equal. ring.
  - assert (G : 2 ^ 23 <= rne (q / inject_Z (2 ^ k))).
    { apply rne_ge. apply Qle_shift_div_l; [rewrite <- (Qmult_0_l 0); change 0%Q with (inject_Z 0); unfold Qlt; cbn; lia|].
      rewrite <- inject_Z_mult, <- Z.pow_add_r by (unfold k; lia). replace (23 + k) with (Z.log2 (Qfloor q)) by (unfold k; ring).
      eapply Qle_trans; [|apply Qfloor_le]. rewrite <- Zle_Qle. apply Z.log2_spec. lia. }
    assert (2 ^ j <= 2 ^ 23 * 2 ^ k) by (rewrite <- Z.pow_add_r by (unfold k; lia); apply Z.pow_le_mono_r; unfold k; lia).
    nia.
Qed.

Lemma f32_multiplier_multiple j t_raw : 23 <= j -> 2 ^ (j + 16) <= t_raw -> exists m, f32_multiplier t_raw = m * 2 ^ (j - 23).
Proof.
  intros Hj Ht. unfold f32_multiplier.
  assert (Hd : 2 ^ j <= t_raw / 65536).
  { apply Z.div_le_lower_bound; [lia|]. change 65536 with (2 ^ 16). rewrite <- Z.pow_add_r by lia. rewrite Z.add_comm. assumption. }
  destruct (f32_big_ge (inject_Z (t_raw / 65536)) j Hj) as [_ G]; [rewrite <- Zle_Qle; assumption|].
  apply f32_big_ge; [assumption|]. rewrite <- (Qplus_0_r (inject_Z (2 ^ j))). apply Qplus_le_compat; [rewrite <- Zle_Qle; assumption|].
  unfold Qle; cbn. pose proof (Z.mod_pos_bound t_raw 65536). lia.
Qed.

Lemma triples_check_pass n t a b c f g h : (0 < n)%nat -> length a = n -> length b = n -> length c = n -> length f = n -> length g = n -> length h = n ->
  (triples_check t a b c f g h = 0 <-> t * (open_a c - open_a a * open_a b) == open_a h - open_a f * open_a g).
Proof.
  intros. rewrite (triples_check_eq n) by assumption. set (e := t * _). set (e' := open_a h - _). split; intros H6.
  - assert (E : e - e' == 0) by (apply wrap_eq_eqm; rewrite H6; reflexivity).
    transitivity (e - e' + e'); [apply eqm_refl_eq; ring|]. rewrite E. reflexivity.
  - apply wrap_unique; [exact in64_0|]. rewrite H6. apply eqm_refl_eq; ring.
Qed.

Lemma triples_check_honest n t a b c f g h : (0 < n)%nat -> length a = n -> length b = n -> length c = n -> length f = n -> length g = n -> length h = n ->
  open_a c == open_a a * open_a b -> open_a h == open_a f * open_a g -> triples_check t a b c f g h = 0.
Proof.
  intros. apply (triples_check_pass n); auto. rewrite H6, H7. apply eqm_refl_eq; ring.
Qed.

Lemma triples_check_blind n j t_raw k a b c f g h : (0 < n)%nat -> length a = n -> length b = n -> length c = n -> length f = n -> length g = n -> length h = n ->
  23 <= j <= 87 -> 2 ^ (j + 16) <= t_raw ->
  open_a c == open_a a * open_a b + k * 2 ^ (87 - j) -> open_a h == open_a f * open_a g ->
  triples_check (f32_multiplier t_raw) a b c f g h = 0.
Proof.
  intros. apply (triples_check_pass n); auto. rewrite H8, H9.
  destruct (f32_multiplier_multiple j t_raw) as [m ->]; [lia|assumption|].
  transitivity (m * k * (2 ^ (j - 23) * 2 ^ (87 - j))); [apply eqm_refl_eq; ring|].
  rewrite <- Z.pow_add_r by lia. replace (j - 23 + (87 - j)) with 64 by ring. transitivity 0; [|apply eqm_refl_eq; ring].
  apply eqm_iff. exists (m * k). rewrite M64_eq. ring.
Qed.

Lemma half_error_even t : t * 2 ^ 63 == 0 <-> Z.even t = true.
Proof.
  rewrite Z.even_spec. split.
  - intros H. apply eqm_iff in H as [k Hk]. exists k. rewrite M64_eq in Hk. lia.
  - intros [k ->]. apply eqm_iff. exists k. rewrite M64_eq. lia.
Qed.
