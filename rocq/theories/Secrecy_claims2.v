(** C87: the operations of Secrecy.v are the protocols of beaver.py proved correct elsewhere. *)
Require Import List ZArith Bool Arith Lia.
From Verif Require Import Ring64 Sharing Arith Arith_proofs Beaver Beaver_proofs Trunc Trunc_proofs Binary_proofs Secrecy Secrecy_claims.
Import ListNotations.
Local Open Scope Z_scope.

(** party shares as a table *)
Definition tab {A} (n : nat) (f : nat -> A) : list A := map f (seq 0 n).
Lemma tab_zipw {A B C} (g : A -> B -> C) n f1 f2 : zipw g (tab n f1) (tab n f2) = tab n (fun i => g (f1 i) (f2 i)).
Proof. unfold tab. induction (seq 0 n) as [|i l IH]; [reflexivity|]. cbn [map]. now rewrite zipw_cons, IH. Qed.
Lemma tab_map {A B} (g : A -> B) n f : map g (tab n f) = tab n (fun i => g (f i)).
Proof. unfold tab. now rewrite map_map. Qed.
Lemma tab_rank0 g n f : on_rank0 g (tab n f) = tab n (fun i => if Nat.eqb i 0 then g (f i) else f i).
Proof. unfold tab. destruct n as [|n]; [reflexivity|]. cbn [seq map on_rank0 Nat.eqb]. f_equal. apply map_ext_in. intros i H. apply in_seq in H. destruct i; [lia|reflexivity]. Qed.
Lemma tab_ext {A} n (f g : nat -> A) : (forall i, (i < n)%nat -> f i = g i) -> tab n f = tab n g.
Proof. intros H. apply map_ext_in. intros i Hi. apply in_seq in Hi. apply H. lia. Qed.
Lemma tab_list {A} (d : A) l : l = tab (length l) (fun i => nth i l d).
Proof. apply nth_ext with (d := d) (d' := d); [unfold tab; now rewrite map_length, seq_length|]. intros i Hi. unfold tab. now rewrite map_seq_nth. Qed.
Lemma nth_concat_tab {A} (d : A) n w f q j : (forall i, (i < n)%nat -> length (f i) = w) -> (q < n)%nat -> (j < w)%nat -> nth (w * q + j) (concat (tab n f)) d = nth j (f q) d.
Proof.
  unfold tab. intros L Q J. assert (X : forall m b, (forall i, (b <= i < b + m)%nat -> length (f i) = w) -> forall q, (q < m)%nat -> nth (w * q + j) (concat (map f (seq b m))) d = nth j (f (b + q)%nat) d).
  { clear - J. induction m as [|m IH]; intros b L q Q; [lia|]. cbn [seq map concat]. destruct q as [|q].
    - rewrite Nat.mul_0_r, Nat.add_0_r. cbn [Nat.add]. apply app_nth1. rewrite L; lia.
    - rewrite app_nth2 by (rewrite L; nia). rewrite L by lia. replace (w * S q + j - w)%nat with (w * q + j)%nat by lia. rewrite IH by (try lia; intros i Hi; apply L; lia). f_equal. f_equal. lia. }
  apply (X n O); [intros; apply L; lia|assumption].
Qed.
Lemma concat_tab_length {A} n w (f : nat -> list A) : (forall i, (i < n)%nat -> length (f i) = w) -> length (concat (tab n f)) = (w * n)%nat.
Proof.
  unfold tab. intros L. assert (X : forall m b, (forall i, (b <= i < b + m)%nat -> length (f i) = w) -> length (concat (map f (seq b m))) = (w * m)%nat).
  { induction m as [|m IH]; intros b Lb; [cbn; lia|]. cbn [seq map concat]. rewrite app_length, Lb, IH by (try lia; intros i Hi; apply Lb; lia). lia. }
  apply X. intros; apply L; lia.
Qed.

(** the state in which every party has [k] registers *)
Definition regs_ok (n k : nat) (st : list (list Z)) : Prop := state_ok n st /\ Forall (fun regs => length regs = k) st.
(** the shares the draws give: the masks [j] and the correlated value [l] *)
Definition mask_shares (n j : nat) (d : draws) : list Z := map (fun i => nth j (masks_of d i) 0) (seq 0 n).
Definition corr_shares (n l : nat) (d : draws) (c : bool * (list (list Z) -> Z)) : list Z := map (fun i => if Nat.eqb i 0 then answer n d l c else nth l (corr_of d i) 0) (seq 0 n).

(** the shares of the correlated value add up to it *)
Lemma corr_sum n (d : draws) (c : bool * (list (list Z) -> Z)) : (1 <= n)%nat -> if fst c then zxor (corr_shares n 0 d c) = wrap (snd c (map fst d)) else zsum (corr_shares n 0 d c) == snd c (map fst d).
Proof.
  intros N. unfold corr_shares. destruct n as [|m] eqn:En; [lia|]. cbn [seq map Nat.eqb].
  assert (X : map (fun i => if Nat.eqb i 0 then answer (S m) d 0 c else nth 0 (corr_of d i) 0) (seq 1 m) = map (fun i => nth 0 (corr_of d i) 0) (seq 1 m)).
  { apply map_ext_in. intros i Hi. apply in_seq in Hi. destruct i; [lia|reflexivity]. }
  rewrite X, zxor_cons, zsum_cons. unfold answer. replace (S m - 1)%nat with m by lia. destruct (fst c).
  - rewrite Z.lxor_assoc, Z.lxor_nilpotent. apply Z.lxor_0_r.
  - rewrite wrap_eqm. apply eqm_refl_eq. ring.
Qed.

Lemma map_fst_masks n d xs cs j : draws_ok n xs cs d -> map (fun m => nth j m 0) (map fst d) = mask_shares n j d.
Proof. intros D. destruct D as [L _]. rewrite map_map. rewrite (tab_list ([], []) d) at 1. rewrite tab_map, L. reflexivity. Qed.

Section Round.
  Variable n k : nat.
  Variable st : list (list Z).
  Variable d : draws.
  Variable xs : list (kind * nat).
  Variable c : bool * (list (list Z) -> Z).
  Hypothesis S : regs_ok n k st.
  Hypothesis D : draws_ok n xs [c] d.
  Let w := length xs.
  Definition after (i : nat) : list Z := nth i st [] ++ masks_of d i ++ concat (tab n (fun q => messages xs (nth q st []) (masks_of d q))) ++ (if Nat.eqb i 0 then answers n d [c] else corr_of d i).
  Lemma step_after : step (Masked xs [c]) d st = tab n after.
  Proof.
    destruct S as [[L _] _]. cbn [step]. rewrite !(mapi_seq _ []), L. reflexivity.
  Qed.
  Lemma row_len i : (i < n)%nat -> length (nth i st []) = k.
  Proof. intros Hi. destruct S as [[L _] F]. rewrite Forall_nth in F. apply F. now rewrite L. Qed.
  Lemma mask_len i : (i < n)%nat -> length (masks_of d i) = w.
  Proof. intros Hi. now apply D. Qed.
  Lemma sent_len i : (i < n)%nat -> length (messages xs (nth i st []) (masks_of d i)) = w.
  Proof. intros Hi. apply messages_length. now apply mask_len. Qed.
  Lemma after_old i x : (i < n)%nat -> (x < k)%nat -> reg x (after i) = reg x (nth i st []).
  Proof. intros Hi Hx. unfold reg, after. apply app_nth1. now rewrite row_len. Qed.
  Lemma after_mask i j : (i < n)%nat -> (j < w)%nat -> reg (k + j) (after i) = nth j (masks_of d i) 0.
  Proof. intros Hi Hj. unfold reg, after. rewrite app_nth2; rewrite row_len by assumption; [|lia]. replace (k + j - k)%nat with j by lia. apply app_nth1. now rewrite mask_len. Qed.
  Lemma after_sent i j : (i < n)%nat -> (j < w)%nat -> sent_at n k w j (after i) = tab n (fun q => message (fst (nth j xs (KSub, O))) (reg (snd (nth j xs (KSub, O))) (nth q st [])) (nth j (masks_of d q) 0)).
  Proof.
    intros Hi Hj. unfold sent_at. apply map_ext_in. intros q Hq. apply in_seq in Hq. unfold reg at 1, after.
    rewrite app_nth2; rewrite row_len by assumption; [|lia]. rewrite app_nth2; rewrite mask_len by assumption; [|lia].
    replace (k + w + w * q + j - k - w)%nat with (w * q + j)%nat by lia. rewrite app_nth1 by (rewrite (concat_tab_length n w) by exact sent_len; nia).
    rewrite (nth_concat_tab 0 n w) by (try exact sent_len; try assumption; lia). apply messages_nth; [apply mask_len; lia|assumption].
  Qed.
  Lemma after_corr i : (i < n)%nat -> reg (k + w + w * n) (after i) = if Nat.eqb i 0 then answer n d 0 c else nth 0 (corr_of d i) 0.
  Proof.
    intros Hi. unfold reg, after. rewrite app_nth2; rewrite row_len by assumption; [|lia]. rewrite app_nth2; rewrite mask_len by assumption; [|lia]. rewrite app_nth2; rewrite (concat_tab_length n w) by exact sent_len; [|lia].
    replace (k + w + w * n - k - w - w * n)%nat with O by lia. destruct (Nat.eqb i 0); reflexivity.
  Qed.
  Lemma local_last f : column (k + w + w * n + 1) (step (Local f) [] (tab n after)) = tab n (fun i => wrap (f i (after i))).
  Proof.
    cbn [step]. rewrite (mapi_seq _ []). unfold column. rewrite map_map. unfold tab. rewrite map_length, seq_length. apply map_ext_in. intros i Hi. apply in_seq in Hi. rewrite map_seq_nth by lia. unfold reg. rewrite app_nth2.
    - assert (LA : length (after i) = (k + w + w * n + 1)%nat). { unfold after. rewrite !app_length, row_len, mask_len, (concat_tab_length n w) by (try exact sent_len; lia). destruct (Nat.eqb i 0); [rewrite answers_length; cbn [length]; lia|]. destruct D as [_ D']. destruct (D' i ltac:(lia)) as (_ & C & _). rewrite C. cbn [length]. lia. }
      rewrite LA, Nat.sub_diag. reflexivity.
    - unfold after. rewrite !app_length, row_len, mask_len, (concat_tab_length n w) by (try exact sent_len; lia). destruct (Nat.eqb i 0); [rewrite answers_length; cbn [length]; lia|]. destruct D as [_ D']. destruct (D' i ltac:(lia)) as (_ & C & _). rewrite C. cbn [length]. lia.
  Qed.
  Lemma column_tab x : column x st = tab n (fun i => reg x (nth i st [])).
  Proof. destruct S as [[L _] _]. unfold column. rewrite (tab_list [] st) at 1. rewrite tab_map, L. reflexivity. Qed.
End Round.
Lemma two_step a f d st : uses_draws a = true -> exec [a; Local f] [d] st = step (Local f) [] (step a d st).
Proof. intros U. cbn [exec]. rewrite U. reflexivity. Qed.

(** C87: p_mul is the multiplication of beaver.py with a correct triple *)
Lemma k_C87_mul : forall n k x y d st, (1 <= n)%nat -> regs_ok n k st -> (x < k)%nat -> (y < k)%nat -> draws_ok n [(KSub, x); (KSub, y)] [(false, product_of)] d ->
  let a := mask_shares n 0 d in let b := mask_shares n 1 d in let c := corr_shares n 0 d (false, product_of) in
  column (k + 2 + 2 * n + 1) (exec (p_mul n k x y) [d] st) = mul1 a b c (column x st) (column y st) /\ zsum c == zsum a * zsum b.
Proof.
  intros n k x y d st N S X Y D a b c. split.
  - unfold p_mul. rewrite two_step by reflexivity. rewrite (step_after n k st d _ _ S). rewrite (local_last n k st d _ _ S D).
    unfold mul1, add_pub, add_priv, sub_priv, mul_int. rewrite !(column_tab n k st S). unfold a, b, c, mask_shares, corr_shares. fold (tab n (fun i => nth 0 (masks_of d i) 0)). fold (tab n (fun i => nth 1 (masks_of d i) 0)).
    match goal with |- context [map ?f (seq 0 n)] => fold (tab n f) end. rewrite !tab_zipw, !tab_map, !tab_zipw, tab_rank0. apply tab_ext. intros i Hi.
    rewrite !(after_sent n k st d _ _ S D) by (cbn; lia). replace (k + 2 + 2 * n)%nat with (k + length [(KSub, x); (KSub, y)] + length [(KSub, x); (KSub, y)] * n)%nat by (cbn; lia). rewrite (after_corr n k st d _ _ S D) by assumption.
    rewrite (after_mask n k st d _ _ S D) by (cbn; lia). rewrite <- (Nat.add_0_r k). rewrite (after_mask n k st d _ _ S D) by (cbn; lia). cbn [nth fst snd message]. destruct (Nat.eqb i 0); apply wrap_wrap.
  - pose proof (corr_sum n d (false, product_of) N) as E. cbn [fst snd] in E. unfold c. rewrite E. unfold product_of. rewrite !(map_fst_masks n d _ _ _ D). reflexivity.
Qed.
(** C87: p_square is the squaring of beaver.py with a correct pair *)
Lemma k_C87_square : forall n k x d st, (1 <= n)%nat -> regs_ok n k st -> (x < k)%nat -> draws_ok n [(KSub, x)] [(false, square_of)] d ->
  let r := mask_shares n 0 d in let r2 := corr_shares n 0 d (false, square_of) in
  column (k + 1 + n + 1) (exec (p_square n k x) [d] st) = square r r2 (column x st) /\ zsum r2 == zsum r * zsum r.
Proof.
  intros n k x d st N S X D r r2. split.
  - unfold p_square. rewrite two_step by reflexivity. rewrite (step_after n k st d _ _ S). replace (k + 1 + n + 1)%nat with (k + length [(KSub, x)] + length [(KSub, x)] * n + 1)%nat by (cbn; lia). rewrite (local_last n k st d _ _ S D).
    unfold square, add_pub, add_priv, sub_priv, mul_int. rewrite !(column_tab n k st S). unfold r, r2, mask_shares, corr_shares. fold (tab n (fun i => nth 0 (masks_of d i) 0)).
    match goal with |- context [map ?f (seq 0 n)] => fold (tab n f) end. rewrite !tab_zipw, !tab_map, !tab_zipw, tab_rank0. apply tab_ext. intros i Hi.
    replace (sent_at n k 1 0 (after n st d [(KSub, x)] (false, square_of) i)) with (tab n (fun q => wsub (reg x (nth q st [])) (nth 0 (masks_of d q) 0))) by (symmetry; apply (after_sent n k st d _ _ S D i 0 Hi); cbn; lia).
    replace (k + 1 + n)%nat with (k + length [(KSub, x)] + length [(KSub, x)] * n)%nat by (cbn; lia). rewrite (after_corr n k st d _ _ S D) by assumption.
    rewrite <- (Nat.add_0_r k). rewrite (after_mask n k st d _ _ S D) by (cbn; lia). destruct (Nat.eqb i 0); apply wrap_wrap.
  - pose proof (corr_sum n d (false, square_of) N) as E. cbn [fst snd] in E. unfold r2. rewrite E. unfold square_of. rewrite !(map_fst_masks n d _ _ _ D). reflexivity.
Qed.
(** C87: p_and is the bitwise and of beaver.py with a correct triple *)
Lemma k_C87_and : forall n k x y d st, (1 <= n)%nat -> regs_ok n k st -> (x < k)%nat -> (y < k)%nat -> draws_ok n [(KXor, x); (KXor, y)] [(true, and_of)] d ->
  let a := mask_shares n 0 d in let b := mask_shares n 1 d in let c := corr_shares n 0 d (true, and_of) in
  column (k + 2 + 2 * n + 1) (exec (p_and n k x y) [d] st) = and_beaver a b c (column x st) (column y st) /\ zxor c = Z.land (zxor a) (zxor b).
Proof.
  intros n k x y d st N S X Y D a b c. assert (IN : forall j i, (j < 2)%nat -> (i < n)%nat -> in64 (nth j (masks_of d i) 0)).
  { intros j i Hj Hi. pose proof D as [_ D']. destruct (D' i Hi) as (_ & _ & M & _). destruct j as [|[|j]]; [exact (M O _ eq_refl)|exact (M 1%nat _ eq_refl)|lia]. }
  assert (IM : forall j i, (j < 2)%nat -> (i < n)%nat -> in64 (nth j [reg x (nth i st []); reg y (nth i st [])] 0)).
  { intros j i Hj Hi. assert (F : Forall in64 (nth i st [])) by (apply (state_regs n); apply S). destruct j as [|[|j]]; [now apply reg_in64|now apply reg_in64|lia]. }
  split.
  - unfold p_and. rewrite two_step by reflexivity. rewrite (step_after n k st d _ _ S). rewrite (local_last n k st d _ _ S D).
    unfold and_beaver. rewrite !(column_tab n k st S). unfold a, b, c, mask_shares, corr_shares. fold (tab n (fun i => nth 0 (masks_of d i) 0)). fold (tab n (fun i => nth 1 (masks_of d i) 0)).
    match goal with |- context [map ?f (seq 0 n)] => fold (tab n f) end. rewrite !tab_zipw, !tab_map, !tab_zipw, tab_rank0, tab_zipw. apply tab_ext. intros i Hi.
    rewrite !(after_sent n k st d _ _ S D) by (cbn; lia). replace (k + 2 + 2 * n)%nat with (k + length [(KXor, x); (KXor, y)] + length [(KXor, x); (KXor, y)] * n)%nat by (cbn; lia). rewrite (after_corr n k st d _ _ S D) by assumption.
    rewrite (after_mask n k st d _ _ S D) by (cbn; lia). rewrite <- (Nat.add_0_r k). rewrite (after_mask n k st d _ _ S D) by (cbn; lia). cbn [nth fst snd message].
    assert (I1 : forall j, (j < 2)%nat -> in64 (open_b (tab n (fun q => Z.lxor (nth j [reg x (nth q st []); reg y (nth q st [])] 0) (nth j (masks_of d q) 0))))).
    { intros j Hj. rewrite open_b_eq. apply in64_zxor. unfold tab. apply Forall_map, Forall_forall. intros q Hq. apply in_seq in Hq. apply in64_lxor; [apply IM|apply IN]; lia. }
    pose proof (I1 O ltac:(lia)) as I2. pose proof (I1 1%nat ltac:(lia)) as I3. cbn [nth] in I2, I3.
    assert (I4 : in64 (if Nat.eqb i 0 then answer n d 0 (true, and_of) else nth 0 (corr_of d i) 0)). { destruct (Nat.eqb i 0); [apply (answer_in64 n _ _ d 0 _ D); cbn; lia|]. destruct D as [_ D']. apply (D' i Hi). cbn; lia. }
    pose proof (IN O i ltac:(lia) Hi). pose proof (IN 1%nat i ltac:(lia) Hi). apply wrap_id. destruct (Nat.eqb i 0); repeat first [exact I2 | exact I3 | exact I4 | apply in64_lxor | apply in64_land]; assumption.
  - pose proof (corr_sum n d (true, and_of) N) as E. cbn [fst snd] in E. unfold c. rewrite E. unfold and_of. rewrite !(map_fst_masks n d _ _ _ D). apply wrap_id. apply in64_land; apply in64_zxor; unfold mask_shares; apply Forall_map, Forall_forall; intros q Hq; apply in_seq in Hq; apply IN; lia.
Qed.
(** C87: p_b2a is the conversion of one bit in beaver.py with a correct pair *)
Lemma k_C87_b2a : forall n k x d st, (1 <= n)%nat -> regs_ok n k st -> (x < k)%nat -> draws_ok n [(KBit, x)] [(false, bit_of)] d ->
  let rB := mask_shares n 0 d in let rA := corr_shares n 0 d (false, bit_of) in
  column (k + 1 + n + 1) (exec (p_b2a n k x) [d] st) = b2a_single_bit rA rB (map (fun s => Z.land s 1) (column x st)) /\ zsum rA == zxor rB.
Proof.
  intros n k x d st N S X D rB rA. split.
  - unfold p_b2a. rewrite two_step by reflexivity. rewrite (step_after n k st d _ _ S). replace (k + 1 + n + 1)%nat with (k + length [(KBit, x)] + length [(KBit, x)] * n + 1)%nat by (cbn; lia). rewrite (local_last n k st d _ _ S D).
    unfold b2a_single_bit, add_pub, mul_int. rewrite !(column_tab n k st S). unfold rB, rA, mask_shares, corr_shares. fold (tab n (fun i => nth 0 (masks_of d i) 0)).
    match goal with |- context [map ?f (seq 0 n)] => fold (tab n f) end. rewrite !tab_map, !tab_zipw, tab_rank0. apply tab_ext. intros i Hi.
    replace (sent_at n k 1 0 (after n st d [(KBit, x)] (false, bit_of) i)) with (tab n (fun q => Z.lxor (Z.land (reg x (nth q st [])) 1) (nth 0 (masks_of d q) 0))) by (symmetry; apply (after_sent n k st d _ _ S D i 0 Hi); cbn; lia).
    replace (k + 1 + n)%nat with (k + length [(KBit, x)] + length [(KBit, x)] * n)%nat by (cbn; lia). rewrite (after_corr n k st d _ _ S D) by assumption. destruct (Nat.eqb i 0); apply wrap_wrap.
  - pose proof (corr_sum n d (false, bit_of) N) as E. cbn [fst snd] in E. unfold rA. rewrite E. unfold bit_of. rewrite !(map_fst_masks n d _ _ _ D). reflexivity.
Qed.
(** C87: p_wraps is the wrap count of beaver.py with a correct pair *)
Lemma k_C87_wraps : forall n k x d st, (1 <= n)%nat -> regs_ok n k st -> (x < k)%nat -> draws_ok n [(KAdd, x)] [(false, wraps_of)] d ->
  let r := mask_shares n 0 d in let theta := corr_shares n 0 d (false, wraps_of) in
  column (k + 1 + n + 1) (exec (p_wraps n k x) [d] st) = wraps r theta (column x st) /\ zsum theta == count_wraps r.
Proof.
  intros n k x d st N S X D r theta. split.
  - unfold p_wraps. rewrite two_step by reflexivity. rewrite (step_after n k st d _ _ S). replace (k + 1 + n + 1)%nat with (k + length [(KAdd, x)] + length [(KAdd, x)] * n + 1)%nat by (cbn; lia). rewrite (local_last n k st d _ _ S D).
    unfold wraps, sub_priv. rewrite !(column_tab n k st S). unfold r, theta, mask_shares, corr_shares. fold (tab n (fun i => nth 0 (masks_of d i) 0)).
    match goal with |- context [map ?f (seq 0 n)] => fold (tab n f) end. rewrite !tab_zipw, tab_rank0. apply tab_ext. intros i Hi.
    replace (sent_at n k 1 0 (after n st d [(KAdd, x)] (false, wraps_of) i)) with (tab n (fun q => wadd (reg x (nth q st [])) (nth 0 (masks_of d q) 0))) by (symmetry; apply (after_sent n k st d _ _ S D i 0 Hi); cbn; lia).
    replace (k + 1 + n)%nat with (k + length [(KAdd, x)] + length [(KAdd, x)] * n)%nat by (cbn; lia). rewrite (after_corr n k st d _ _ S D) by assumption. rewrite (after_old n k st d _ _ S) by assumption.
    rewrite <- (Nat.add_0_r k). rewrite (after_mask n k st d _ _ S D) by (cbn; lia). destruct (Nat.eqb i 0); apply wrap_wrap.
  - pose proof (corr_sum n d (false, wraps_of) N) as E. cbn [fst snd] in E. unfold theta. rewrite E. unfold wraps_of. rewrite !(map_fst_masks n d _ _ _ D). reflexivity.
Qed.

(** *** A whole program: parties 0 and 1 encrypt one number each, the product is computed and revealed *)
Definition p_product (n : nat) (z1 z2 : list Z) : list instr := [Share false 0 z1 0; Share false 1 z2 0] ++ p_mul n 3 1 2 ++ [Reveal false (3 + 2 + 2 * n + 1)].
Definition inputs (n : nat) (x y : Z) : list (list Z) := map (fun i => [match i with O => x | S O => y | _ => 0 end]) (seq 0 n).
Lemma share_column n src z st r m : length st = n -> length z = n -> (src < n)%nat -> Forall (fun regs => length regs = m) st -> zsum z == 0 -> zsum (column m (step (Share false src z r) [] st)) == reg r (nth src st []).
Proof.
  intros L Lz Hs F Z0. cbn [step]. unfold column. rewrite map_mapi, (mapi_seq _ []), L.
  assert (E : map (fun i => reg m (nth i st [] ++ [wrap (nth i z 0 + (if Nat.eqb i src then reg r (nth i st []) else 0))])) (seq 0 n) = map (fun i => wrap (nth i z 0 + (if Nat.eqb i src then reg r (nth i st []) else 0))) (seq 0 n)).
  { apply map_ext_in. intros i Hi. apply in_seq in Hi. unfold reg at 1. assert (Li : length (nth i st []) = m) by (rewrite Forall_nth in F; apply F; lia). rewrite app_nth2; rewrite Li; [|lia]. rewrite Nat.sub_diag. reflexivity. }
  rewrite E, (zsum_map_eqm _ (fun i => nth i z 0 + (if Nat.eqb i src then reg r (nth i st []) else 0))) by (intros; apply wrap_eqm).
  assert (E2 : forall l, zsum (map (fun i => nth i z 0 + (if Nat.eqb i src then reg r (nth i st []) else 0)) l) = zsum (map (fun i => nth i z 0) l) + zsum (map (fun i => if Nat.eqb i src then reg r (nth i st []) else 0) l)). { induction l as [|a l IH]; [reflexivity|]. cbn [map]. rewrite !zsum_cons, IH. ring. }
  rewrite E2. replace (map (fun i => nth i z 0) (seq 0 n)) with z by (rewrite (tab_list 0 z) at 1; unfold tab; now rewrite Lz). rewrite Z0.
  destruct (split_at (seq 0 n) src (fun i => if Nat.eqb i src then reg r (nth i st []) else 0) (seq_NoDup _ _) ltac:(apply in_seq; lia)) as [-> _]. rewrite Nat.eqb_refl.
  assert (E3 : forall l, zsum (map (fun i => if Nat.eqb i src then reg r (nth i st []) else 0) (filter (fun j => negb (Nat.eqb j src)) l)) = 0). { induction l as [|a l IH]; [reflexivity|]. cbn [filter]. destruct (Nat.eqb a src) eqn:Ea; cbn [negb]; [exact IH|]. cbn [map]. rewrite zsum_cons, Ea, IH. reflexivity. }
  rewrite E3. apply eqm_refl_eq. ring.
Qed.
Lemma share_rows n src z st r k : regs_ok n k st -> regs_ok n (S k) (step (Share false src z r) [] st).
Proof.
  intros [S F]. split; [apply step_ok; [assumption|congruence]|]. cbn [step]. apply (Forall_mapi _ _ []). intros i Hi. rewrite app_length. cbn [length]. rewrite Forall_nth in F. rewrite F by assumption. lia.
Qed.
Lemma share_keeps n src z st r k c : regs_ok n k st -> (c < k)%nat -> column c (step (Share false src z r) [] st) = column c st.
Proof.
  intros [S F] C. cbn [step]. unfold column. rewrite map_mapi, map_as_mapi. apply (mapi_ext _ _ []). intros i Hi. unfold reg at 1. rewrite Forall_nth in F. rewrite app_nth1 by (now rewrite F). reflexivity.
Qed.
Lemma inputs_ok n x y : in64 x -> in64 y -> regs_ok n 1 (inputs n x y).
Proof.
  intros X Y. unfold inputs. split; [split|].
  - now rewrite map_length, seq_length.
  - apply Forall_map, Forall_forall. intros i _. constructor; [|constructor]. destruct i as [|[|i]]; auto using in64_0.
  - apply Forall_map, Forall_forall. reflexivity.
Qed.
Lemma product_opened n z1 z2 x y rnd : (2 <= n)%nat -> in64 x -> in64 y -> length z1 = n -> length z2 = n -> zsum z1 == 0 -> zsum z2 == 0 -> random_ok n (p_product n z1 z2) rnd -> opened (p_product n z1 z2) rnd (inputs n x y) = [wmul x y].
Proof.
  intros N X Y L1 L2 Z1 Z2 R. pose proof (inputs_ok n x y X Y) as I0. pose proof (share_rows n 0 z1 _ 0 1 I0) as I1. pose proof (share_rows n 1 z2 _ 0 2 I1) as I2.
  unfold p_product, p_mul in R. cbn [app random_ok] in R. destruct rnd as [|d rnd]; [destruct R|]. destruct R as [D ->].
  set (st2 := step (Share false 1 z2 0) [] (step (Share false 0 z1 0) [] (inputs n x y))) in *.
  assert (E : opened (p_product n z1 z2) [d] (inputs n x y) = [total false (column (3 + 2 + 2 * n + 1) (exec (p_mul n 3 1 2) [d] st2))]) by reflexivity.
  rewrite E. destruct (k_C87_mul n 3 1 2 d st2 ltac:(lia) I2 ltac:(lia) ltac:(lia) D) as [M T]. rewrite M. unfold total. rewrite <- open_a_eq. f_equal.
  assert (LX : forall c, length (column c st2) = n) by (intros c; unfold column; rewrite map_length; apply I2).
  destruct (mul1_ok n (mask_shares n 0 d) (mask_shares n 1 d) (corr_shares n 0 d (false, product_of)) (column 1 st2) (column 2 st2)) as [_ O]; try (unfold mask_shares, corr_shares; rewrite map_length; apply seq_length); try apply LX; try lia.
  { rewrite !open_a_eqm. exact T. }
  rewrite O. assert (NI : forall j, (j < n)%nat -> nth j (inputs n x y) [] = [match j with O => x | S O => y | _ => 0 end]) by (intros j J; unfold inputs; now rewrite map_seq_nth).
  assert (C1 : zsum (column 1 st2) == x). { unfold st2. rewrite (share_keeps n 1 z2 _ 0 2 1 I1) by lia. rewrite (share_column n 0 z1 _ 0 1) by (try assumption; try lia; apply I0). rewrite NI by lia. reflexivity. }
  assert (C2 : zsum (column 2 st2) == y). { unfold st2. rewrite (share_column n 1 z2 _ 0 2) by (try assumption; try lia; apply I1). cbn [step]. rewrite (mapi_nth _ _ 1 []) by (unfold inputs; rewrite map_length, seq_length; lia). rewrite NI by lia. reflexivity. }
  unfold wmul. apply eqm_wrap_eq. rewrite !open_a_eqm, C1, C2. reflexivity.
Qed.
(** C87: in that program all parties but party 0 see the same for any two numbers of party 0 with the same product, however the zero sharings were drawn *)
Lemma k_C87_product : forall n z1 z2 x x' y, (2 <= n)%nat -> in64 x -> in64 x' -> in64 y -> length z1 = n -> length z2 = n -> zsum z1 == 0 -> zsum z2 == 0 -> x * y == x' * y ->
  exists f g, bijection (random_ok n (p_product n z1 z2)) f g /\ forall rnd, random_ok n (p_product n z1 z2) rnd ->
  opened (p_product n z1 z2) rnd (inputs n x y) = [wmul x y] /\
  view (Nat.eqb 0) (exec (p_product n z1 z2) rnd (inputs n x y)) = view (Nat.eqb 0) (exec (p_product n z1 z2) (f rnd) (inputs n x' y)).
Proof.
  intros n z1 z2 x x' y N X X' Y L1 L2 Z1 Z2 E. assert (E' : wmul x' y = wmul x y) by (unfold wmul; symmetry; now apply eqm_wrap_eq).
  destruct (k_C87_same_outputs n 0 (p_product n z1 z2) (inputs n x y) (inputs n x' y) [wmul x y]) as (f & g & B & H); [lia|now apply inputs_ok|now apply inputs_ok| | |].
  - unfold view, inputs. rewrite !(mapi_seq _ []), !map_length, seq_length. apply map_ext_in. intros i Hi. apply in_seq in Hi. rewrite !map_seq_nth by lia. destruct i; reflexivity.
  - intros rnd R. split; [now apply product_opened|]. rewrite <- E'. now apply product_opened.
  - exists f, g. split; [assumption|]. intros rnd R. split; [now apply product_opened|now apply H].
Qed.
