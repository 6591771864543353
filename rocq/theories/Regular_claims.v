(** Proofs of C43, C44, C45, C46, C47, C62: powers, products, polynomials, means, variances, concatenation, padding, validation mode. *)
Require Import ZArith QArith Qabs Qpower List Lia Lqa Bool.
From Verif Require Import Ring64 Sharing Sharing_proofs Encoder Arith Arith_proofs Beaver Beaver_proofs Trunc Provider Binary Binary_proofs Convert_proofs Compare Compare_proofs Compare_claims Maximum Maximum_proofs Maximum_claims P_Maximum Regular Regular_proofs Regular_num_proofs.
Import ListNotations.
Open Scope Z_scope.


(** Exponents of the form 2^k or 3 * 2^k: [simple_exponent].  A number [m] of units in the last place: *)
Definition ulps (m s : Z) : Q := (inject_Z m / inject_Z s)%Q.
(** c_1 x + c_2 x^2 + ... *)
Fixpoint polyQ (cs : list Q) (x : Q) : Q := match cs with [] => 0 | c :: r => x * (c + polyQ r x) end%Q.
Definition prodQ (l : list Q) : Q := fold_right Qmult 1%Q l.
Definition sumQ (l : list Q) : Q := fold_right Qplus 0%Q l.
(** the value of a coefficient for a variable of scale [s]; a valid one does not overflow when multiplied by a number below 1 *)
Definition qcoeff (s : Z) (c : coeff) : Q := match c with KInt k => inject_Z k | KFloat q => ulps (encodeQ s q) s | KEnc y => qval y end.
Definition coefficient (n : nat) (s : Z) (c : coeff) : Prop :=
  match c with KEnc y => length (n_sh y) = n /\ Forall in64 (n_sh y) /\ n_sc y = s | _ => True end /\ (Qabs (qcoeff s c) * inject_Z (s * s) < inject_Z H63)%Q.
Definition zcoeff (c : coeff) : Z := match c with KInt k => k | KFloat q => encodeQ 1 q | KEnc y => open_a (n_sh y) end.
(** error bound for [polynomial], in units of E/s: one per term and (i-1) times the i-th coefficient *)
Fixpoint poly_error (i : Z) (cs : list Q) : Q := match cs with [] => 0 | c :: r => 1 + Qabs c * inject_Z i + poly_error (i + 1) r end%Q.
(** encrypted rows of equal length [N] *)
Definition table (n : nat) (s : Z) (N : nat) (rows : list (list num)) : Prop :=
  rows <> [] /\ Forall (fun r => length r = N /\ Forall (fun x => sharing n x /\ n_sc x = s) r) rows.

(** ** Lemmas *)
Lemma nshare_sharing n v s x : 0 < s -> nshare n v s x -> in64 v -> open_a (n_sh x) = v.
Proof. intros _ [H _] I. rewrite (ashare_open _ _ _ H). now apply wrap_id. Qed.
Lemma sharing_nshare n s x : sharing n x -> n_sc x = s -> nshare n (open_a (n_sh x)) s x.
Proof. intros H <-. now apply nshare_of. Qed.
Lemma yo_some {pr A} T (m : runo pr A) Q st z : yo T m Q -> fst (m st) = Some z -> Q z.
Proof. intros H E. specialize (H st). rewrite E in H. exact H. Qed.
Lemma yo_true {pr A} (m : runo pr A) Q st : yo true m Q -> exists z, fst (m st) = Some z /\ Q z.
Proof. intros H. specialize (H st). destruct (fst (m st)) as [z|]; [exists z; split; [reflexivity|exact H]|discriminate]. Qed.
Lemma weaker_fst {pr A} (m m' : runo pr A) st z : weaker m m' -> fst (m st) = Some z -> fst (m' st) = Some z.
Proof. intros H E. destruct (m st) as [o s'] eqn:M. cbn [fst] in E. subst o. now rewrite (H _ _ _ M). Qed.
Lemma injZ_nz s : 0 < s -> ~ (inject_Z s == 0)%Q.
Proof. intros H E. change 0%Q with (inject_Z 0) in E. apply (proj1 (inject_Z_injective s 0)) in E. lia. Qed.
Lemma injZ_pos s : 0 < s -> (0 < inject_Z s)%Q.
Proof. intros H. change 0%Q with (inject_Z 0). now rewrite <- Zlt_Qlt. Qed.
Lemma Qabs_injZ z : (Qabs (inject_Z z) == inject_Z (Z.abs z))%Q.
Proof. reflexivity. Qed.
(** [|a*k - b| <= m*k] in integers is [|a - b/k| <= m] in rationals *)
Lemma Qabs_div a b k m t : 0 < k -> 0 < t -> Z.abs (a * k - b) <= m * k -> (Qabs (inject_Z a / inject_Z t - inject_Z b / inject_Z (t * k)) <= ulps m t)%Q.
Proof.
  intros Hk Ht H. unfold ulps. assert (E : (inject_Z a / inject_Z t - inject_Z b / inject_Z (t * k) == inject_Z (a * k - b) / inject_Z (t * k))%Q).
  { unfold Z.sub. rewrite inject_Z_plus, inject_Z_opp, !inject_Z_mult. field. split; now apply injZ_nz. }
  rewrite E. assert (Htk : 0 < t * k) by nia. unfold Qdiv. rewrite Qabs_Qmult, Qabs_injZ.
  rewrite (Qabs_pos (/ inject_Z (t * k))) by (apply Qlt_le_weak, Qinv_lt_0_compat, injZ_pos, Htk).
  apply Qle_shift_div_r; [now apply injZ_pos|].
  setoid_replace (inject_Z m * / inject_Z t * inject_Z (t * k))%Q with (inject_Z (m * k)) by (rewrite !inject_Z_mult; field; now apply injZ_nz).
  rewrite <- Zle_Qle. exact H.
Qed.
Lemma Qabs_div_lt a b k m t : 0 < k -> 0 < t -> Z.abs (a * k - b) < m * k -> (Qabs (inject_Z a / inject_Z t - inject_Z b / inject_Z (t * k)) < ulps m t)%Q.
Proof.
  intros Hk Ht H. unfold ulps. assert (E : (inject_Z a / inject_Z t - inject_Z b / inject_Z (t * k) == inject_Z (a * k - b) / inject_Z (t * k))%Q).
  { unfold Z.sub. rewrite inject_Z_plus, inject_Z_opp, !inject_Z_mult. field. split; now apply injZ_nz. }
  rewrite E. assert (Htk : 0 < t * k) by nia. unfold Qdiv. rewrite Qabs_Qmult, Qabs_injZ.
  rewrite (Qabs_pos (/ inject_Z (t * k))) by (apply Qlt_le_weak, Qinv_lt_0_compat, injZ_pos, Htk).
  apply Qlt_shift_div_r; [now apply injZ_pos|].
  setoid_replace (inject_Z m * / inject_Z t * inject_Z (t * k))%Q with (inject_Z (m * k)) by (rewrite !inject_Z_mult; field; now apply injZ_nz).
  rewrite <- Zlt_Qlt. exact H.
Qed.

Lemma approx_qval n s E e X z : (0 < n)%nat -> 1 <= E -> 4 * E <= s -> s <= 2 ^ 31 -> approx n s E e X z ->
  (Qabs (qval z - inject_Z X / inject_Z (s ^ e)) <= ulps ((e - 1) * E) s)%Q.
Proof.
  intros Hn HE Hs Hs2 (He & a & Ha & Ba & Ea & _). unfold qval. rewrite (proj2 Ha).
  assert (I : in64 a) by (change (2 ^ 31) with 2147483648 in *; unfold in64, H63; lia). rewrite (nshare_sharing n a s z ltac:(lia) Ha I).
  rewrite (pow_pred s e He). apply Qabs_div; [apply Z.pow_pos_nonneg; lia|lia|exact Ea].
Qed.
Lemma qpow_div v s q : 0 < s -> 0 <= q -> (inject_Z (v ^ q) / inject_Z (s ^ q) == (inject_Z v / inject_Z s) ^ q)%Q.
Proof. intros Hs Hq. rewrite !Zpower_Qpower by assumption. symmetry. apply Qdiv_power. Qed.
Lemma qprod_div s xs : 0 < s -> Forall (fun x => n_sc x = s) xs -> (inject_Z (fold_right Z.mul 1%Z (reveals xs)) / inject_Z (s ^ Z.of_nat (length xs)) == prodQ (map qval xs))%Q.
Proof.
  intros Hs F. induction F as [|x xs Sx F IH]; [reflexivity|]. cbn [reveals map fold_right prodQ length]. fold (reveals xs). fold (prodQ (map qval xs)). rewrite <- IH. unfold qval. rewrite Sx.
  rewrite Nat2Z.inj_succ, Z.pow_succ_r, !inject_Z_mult by lia. field. split; apply injZ_nz; [apply Z.pow_pos_nonneg; lia|assumption].
Qed.
Lemma reveals_length xs : length (reveals xs) = length xs. Proof. apply map_length. Qed.
Lemma vector_nshare n s xs : Forall (fun x => sharing n x /\ n_sc x = s) xs -> Forall2 (fun v x => nshare n v s x) (reveals xs) xs.
Proof. intros F. induction F as [|x xs [Hx Sx] F IH]; [constructor|]. cbn [reveals map]. constructor; [now apply sharing_nshare|exact IH]. Qed.
Lemma small_abs x s E : 0 < s -> n_sc x = s -> (Qabs (qval x) <= 1 - ulps (2 * E) s)%Q -> Z.abs (open_a (n_sh x)) <= s - 2 * E.
Proof.
  intros Hs Sx H. unfold qval, ulps in H. rewrite Sx in H. unfold Qdiv in H. rewrite Qabs_Qmult, Qabs_injZ, (Qabs_pos (/ inject_Z s)) in H by (apply Qlt_le_weak, Qinv_lt_0_compat, injZ_pos, Hs).
  setoid_replace (1 - inject_Z (2 * E) * / inject_Z s)%Q with (inject_Z (s - 2 * E) * / inject_Z s)%Q in H by (unfold Z.sub; rewrite inject_Z_plus, inject_Z_opp; field; now apply injZ_nz).
  apply Qmult_le_r in H; [|apply Qinv_lt_0_compat, injZ_pos, Hs]. now rewrite <- Zle_Qle in H.
Qed.

Lemma cval_q n s c : 0 < s -> wf_coeff n s c -> (inject_Z (cval s c) / inject_Z s == qcoeff s c)%Q.
Proof.
  intros Hs H. destruct c as [k|q|y]; cbn [cval qcoeff].
  - rewrite inject_Z_mult. field. now apply injZ_nz.
  - reflexivity.
  - destruct H as (_ & _ & S). unfold qval. now rewrite S.
Qed.
Lemma coefficient_fits n s c : 0 < s -> coefficient n s c -> wf_coeff n s c /\ Z.abs (cval s c) * s < H63.
Proof.
  intros Hs [W B]. assert (W' : wf_coeff n s c) by (destruct c; exact W). split; [exact W'|]. rewrite <- (cval_q n s c Hs W') in B. unfold Qdiv in B.
  rewrite Qabs_Qmult, Qabs_injZ, (Qabs_pos (/ inject_Z s)) in B by (apply Qlt_le_weak, Qinv_lt_0_compat, injZ_pos, Hs).
  setoid_replace (inject_Z (Z.abs (cval s c)) * / inject_Z s * inject_Z (s * s))%Q with (inject_Z (Z.abs (cval s c) * s)) in B by (rewrite !inject_Z_mult; field; now apply injZ_nz).
  now rewrite <- Zlt_Qlt in B.
Qed.
Lemma term_q s E i r c v : 0 < s -> 0 <= i -> Z.abs (r * s ^ (i + 1) - c * v ^ (i + 1)) <= (s + Z.abs c * i) * E * s ^ i ->
  (Qabs (inject_Z r / inject_Z s - inject_Z c / inject_Z s * (inject_Z v / inject_Z s) ^ (i + 1)) <= ulps E s * (1 + Qabs (inject_Z c / inject_Z s) * inject_Z i))%Q.
Proof.
  intros Hs Hi H. rewrite <- qpow_div by lia. assert (HP : 0 < s ^ i) by (apply Z.pow_pos_nonneg; lia). assert (HP1 : s ^ (i + 1) = s * s ^ i) by (rewrite Z.pow_add_r, Z.pow_1_r by lia; ring).
  assert (E1 : (inject_Z r / inject_Z s - inject_Z c / inject_Z s * (inject_Z (v ^ (i + 1)) / inject_Z (s ^ (i + 1))) == inject_Z (r * s ^ (i + 1) - c * v ^ (i + 1)) / inject_Z (s * s ^ (i + 1)))%Q).
  { unfold Z.sub. rewrite inject_Z_plus, inject_Z_opp, HP1, !inject_Z_mult. field. split; [now apply injZ_nz|now apply injZ_nz]. }
  rewrite E1. unfold Qdiv. rewrite !Qabs_Qmult, !Qabs_injZ. rewrite !Qabs_pos by (apply Qlt_le_weak, Qinv_lt_0_compat, injZ_pos; rewrite ?HP1; nia).
  apply Qle_shift_div_r; [apply injZ_pos; rewrite HP1; nia|]. unfold ulps.
  setoid_replace (inject_Z E / inject_Z s * (1 + inject_Z (Z.abs c) * / inject_Z s * inject_Z i) * inject_Z (s * s ^ (i + 1)))%Q with (inject_Z ((s + Z.abs c * i) * E * s ^ i)).
  - rewrite <- Zle_Qle. exact H.
  - rewrite HP1, !inject_Z_mult, inject_Z_plus, !inject_Z_mult. field. now apply injZ_nz.
Qed.
Lemma poly_sum n s E v : 0 < s -> forall cs rs i, 0 <= i -> Forall (wf_coeff n s) cs ->
  Forall2 (fun ic r => Z.abs (r * s ^ Z.of_nat (fst ic) - cval s (snd ic) * v ^ Z.of_nat (fst ic)) <= (s + Z.abs (cval s (snd ic)) * (Z.of_nat (fst ic) - 1)) * E * s ^ (Z.of_nat (fst ic) - 1)) (combine (seq (S (Z.to_nat i)) (length cs)) cs) rs ->
  (Qabs (inject_Z (zsum rs) / inject_Z s - (inject_Z v / inject_Z s) ^ i * polyQ (map (qcoeff s) cs) (inject_Z v / inject_Z s)) <= ulps E s * poly_error i (map (qcoeff s) cs))%Q.
Proof.
  intros Hs. induction cs as [|c cs IH]; intros rs i Hi W H; cbn [length seq combine] in H.
  - apply Forall2_nil_l in H. subst. cbn [zsum fold_right map polyQ poly_error]. setoid_replace (inject_Z 0 / inject_Z s - (inject_Z v / inject_Z s) ^ i * 0)%Q with 0%Q by (field; now apply injZ_nz). rewrite Qmult_0_r. apply Qle_refl.
  - apply Forall2_cons_l in H as (r & rs' & -> & Hr & H). cbn [fst snd] in Hr. replace (Z.of_nat (S (Z.to_nat i))) with (i + 1) in Hr by lia. replace (i + 1 - 1) with i in Hr by ring.
    specialize (IH rs' (i + 1) ltac:(lia) (Forall_inv_tail W)). replace (S (Z.to_nat (i + 1))) with (S (S (Z.to_nat i))) in IH by lia. specialize (IH H). pose proof (term_q s E i r _ v Hs Hi Hr) as Ht.
    cbn [zsum fold_right map polyQ poly_error]. fold (zsum rs'). rewrite (cval_q n s c Hs (Forall_inv W)) in Ht. set (x := (inject_Z v / inject_Z s)%Q) in *. set (p := polyQ (map (qcoeff s) cs) x) in *. set (cq := qcoeff s c) in *.
    setoid_replace (inject_Z (r + zsum rs') / inject_Z s - x ^ i * (x * (cq + p)))%Q with ((inject_Z r / inject_Z s - cq * x ^ (i + 1)) + (inject_Z (zsum rs') / inject_Z s - x ^ (i + 1) * p))%Q.
    + eapply Qle_trans; [apply Qabs_triangle|]. rewrite Qmult_plus_distr_r. apply Qplus_le_compat; assumption.
    + assert (XP : (x ^ (i + 1) == x ^ i * x)%Q).
      { destruct (Z.eq_dec i 0) as [->|]; [cbn; ring|]. destruct (Qeq_dec x 0) as [Z0|Z0]; [rewrite Z0 at 1 3; rewrite !Qpower_0 by lia; ring|]. rewrite Qpower_plus by assumption. reflexivity. }
      rewrite XP, inject_Z_plus. field. now apply injZ_nz.
Qed.

(** tables *)
Lemma table_lengths n s N rows : table n s N rows -> map reveals rows <> [] /\ Forall (fun r => length r = N) (map reveals rows) /\ Forall2 (Forall2 (fun v x => nshare n v s x)) (map reveals rows) rows.
Proof.
  intros [Hne F]. split; [destruct rows; [congruence|discriminate]|]. clear Hne. induction F as [|r rows [L H] F [I1 I2]]; cbn [map]; split; constructor; try assumption; [now rewrite reveals_length|now apply vector_nshare].
Qed.
Lemma sum_reveals s xs : 0 < s -> Forall (fun x => n_sc x = s) xs -> (sumQ (map qval xs) == inject_Z (zsum (reveals xs)) / inject_Z s)%Q.
Proof.
  intros Hs F. induction F as [|x xs Sx F IH]; [cbn; field; now apply injZ_nz|]. cbn [map sumQ fold_right reveals zsum]. fold (sumQ (map qval xs)). fold (reveals xs). fold (zsum (reveals xs)). rewrite IH, inject_Z_plus. unfold qval. rewrite Sx. field. now apply injZ_nz.
Qed.
Lemma sqdev_reveals s m xs : 0 < s -> Forall (fun x => n_sc x = s) xs -> (sumQ (map (fun x => (qval x - inject_Z m / inject_Z s) ^ 2) xs) == inject_Z (sqdev (reveals xs) m) / inject_Z (s * s))%Q.
Proof.
  intros Hs F. unfold sqdev. induction F as [|x xs Sx F IH]; [cbn [map sumQ fold_right zsum reveals]; rewrite inject_Z_mult; field; now apply injZ_nz|]. cbn [map sumQ fold_right reveals zsum].
  fold (sumQ (map (fun x => (qval x - inject_Z m / inject_Z s) ^ 2)%Q xs)). fold (reveals xs). fold (zsum (map (fun v => (v - m) * (v - m)) (reveals xs))). rewrite IH, inject_Z_plus. unfold qval. rewrite Sx.
  set (v := open_a (n_sh x)). replace ((v - m) * (v - m)) with ((v + - m) * (v + - m)) by ring. rewrite !inject_Z_mult, inject_Z_plus, inject_Z_opp. field. now apply injZ_nz.
Qed.
Lemma qval_bound x s B : 0 < s -> n_sc x = s -> (Qabs (qval x) <= ulps B s)%Q -> Z.abs (open_a (n_sh x)) <= B.
Proof.
  intros Hs Sx H. unfold qval, ulps in H. rewrite Sx in H. unfold Qdiv in H. rewrite Qabs_Qmult, Qabs_injZ, (Qabs_pos (/ inject_Z s)) in H by (apply Qlt_le_weak, Qinv_lt_0_compat, injZ_pos, Hs).
  apply Qmult_le_r in H; [|apply Qinv_lt_0_compat, injZ_pos, Hs]. now rewrite <- Zle_Qle in H.
Qed.

(** concatenation *)
Lemma skipn_next {A} (l : list A) k t ts : skipn k l = t :: ts -> skipn (S k) l = ts.
Proof. revert k. induction l as [|a l IH]; intros [|k] H; cbn [skipn] in *; try discriminate; [congruence|]. apply IH in H. exact H. Qed.
Lemma coordinate_keeps new : forall ts i l l', coordinate new i ts l = Some l' -> skipn (S i) l = ts -> forallb is_enc ts = true -> l' = l.
Proof.
  induction ts as [|t ts IH]; intros i l l' E K F; cbn [coordinate] in E; [congruence|]. cbn [forallb] in F. apply andb_true_iff in F as [F1 F2]. destruct t; [|discriminate].
  destruct (is_enc _); [|discriminate]. eapply IH; [exact E| |exact F2]. exact (skipn_next _ _ _ _ K).
Qed.
Lemma set_nth_length {A} i (v : A) l : length (set_nth i v l) = length l.
Proof. revert i. induction l as [|a l IH]; intros [|i]; cbn; auto. Qed.
Lemma skipn_set_nth {A} i (v : A) l k : (i < k)%nat -> skipn k (set_nth i v l) = skipn k l.
Proof. revert i k. induction l as [|a l IH]; intros [|i] [|k] H; try lia; cbn; auto. apply IH. lia. Qed.
Lemma coordinate_plain new : forall ts i l l', coordinate new i ts l = Some l' -> skipn (S i) l = ts -> forallb is_enc ts = false -> forallb is_enc l' = false.
Proof.
  induction ts as [|t ts IH]; intros i l l' E K F; [discriminate|]. cbn [coordinate] in E. set (l1 := match t with TEnc _ _ => l | TPlain v => set_nth i (new v) l end) in *.
  destruct (is_enc _); [|discriminate]. assert (S1 : skipn (S i) l1 = t :: ts) by (unfold l1; destruct t; [exact K|rewrite skipn_set_nth by lia; exact K]).
  assert (S2 : skipn (S (S i)) l1 = ts) by exact (skipn_next _ _ _ _ S1).
  destruct (forallb is_enc ts) eqn:F2; [|exact (IH (S i) l1 l' E S2 eq_refl)]. pose proof (coordinate_keeps new ts (S i) l1 l' E S2 F2) as ->.
  cbn [forallb] in F. rewrite F2, andb_true_r in F. rewrite <- (firstn_skipn (S i) l1), forallb_app, S1. cbn [forallb]. rewrite F. cbn. apply andb_false_r.
Qed.
Lemma coordinate_all new : forall ts i l, skipn (S i) l = ts -> forallb is_enc ts = true -> forallb is_enc l = true -> (i < length l)%nat -> coordinate new i ts l = Some l.
Proof.
  induction ts as [|t ts IH]; intros i l K F FL L; [reflexivity|]. cbn [coordinate forallb] in *. apply andb_true_iff in F as [F1 F2]. destruct t; [|discriminate].
  assert (E : is_enc (nth i l (TPlain [])) = true) by (rewrite forallb_forall in FL; apply FL, nth_In; assumption). rewrite E. apply IH; try assumption.
  - exact (skipn_next _ _ _ _ K).
  - destruct (Nat.eq_dec (S i) (length l)) as [El|]; [|lia]. rewrite El, skipn_all in K. discriminate.
Qed.

(** padding *)
Lemma zipw_repeat {A B C} (f : A -> B -> C) a b k : zipw f (repeat a k) (repeat b k) = repeat (f a b) k.
Proof. induction k as [|k IH]; [reflexivity|]. cbn [repeat]. rewrite zipw_cons. now rewrite IH. Qed.
Lemma zipw_app {A B C} (f : A -> B -> C) l1 l2 m1 m2 : length l1 = length m1 -> zipw f (l1 ++ l2) (m1 ++ m2) = zipw f l1 m1 ++ zipw f l2 m2.
Proof. revert m1. induction l1 as [|a l1 IH]; intros [|b m1] L; try discriminate; [reflexivity|]. cbn [app]. rewrite !zipw_cons. cbn [app]. f_equal. apply IH. now injection L. Qed.
Lemma pad1_add l r u v x y : length x = length y -> zipw wadd (pad1 l r u x) (pad1 l r v y) = pad1 l r (wadd u v) (zipw wadd x y).
Proof. intros L. unfold pad1. rewrite !zipw_app, !zipw_repeat by (rewrite ?repeat_length; congruence). reflexivity. Qed.
Lemma pads_fold l r k xs : forall vs u x, length vs = length xs -> length x = k -> Forall (fun t => length t = k) xs ->
  fold_left (zipw wadd) (zipw (pad1 l r) vs xs) (pad1 l r u x) = pad1 l r (fold_left wadd vs u) (fold_left (zipw wadd) xs x).
Proof.
  induction xs as [|y xs IH]; intros [|v vs] u x L Lx F; try discriminate; [reflexivity|]. rewrite zipw_cons. cbn [fold_left]. rewrite pad1_add by (rewrite Lx; symmetry; exact (Forall_inv F)). apply IH; [now injection L| |exact (Forall_inv_tail F)].
  rewrite zipw_length; [exact Lx|]. rewrite Lx. symmetry. exact (Forall_inv F).
Qed.
Lemma wadd_0_l a : in64 a -> wadd 0 a = a. Proof. intros H. unfold wadd. rewrite Z.add_0_l. now apply wrap_id. Qed.
Lemma wadd_0_r a : in64 a -> wadd a 0 = a. Proof. intros H. unfold wadd. rewrite Z.add_0_r. now apply wrap_id. Qed.
Lemma zipw_map_const {A B C} (f : A -> B -> C) a (l : list B) : zipw f (repeat a (length l)) l = map (f a) l.
Proof. induction l as [|b l IH]; [reflexivity|]. cbn [length repeat map]. now rewrite zipw_cons, IH. Qed.

(** [x] holds, for each of [n] parties, a share of a one-dimensional tensor of [k] elements *)
Definition tensor (n k : nat) (x : list (list Z)) : Prop := length x = n /\ Forall (fun t => length t = k) x.
(** [v], [l] times before and [r] times after *)
Definition padded (l r : nat) (v : Z) (x : list Z) : list Z := repeat v l ++ x ++ repeat v r.

Section Claims.
  Variables (n : nat) (pr : provider) (D : Z).
  Hypothesis Hn : (0 < n)%nat.
  Hypothesis HV : valid n pr.
  Hypothesis HD : 0 < D < H63.

  (** C43.  [pow(p)] for p > 0 computes a q-th power with q = p exactly when p is 2^k or 3*2^k, and q > p otherwise.  At scale 1 the result is exact modulo 2^64 ... *)
  Lemma k_C43_pow : forall p, 0 < p -> exists q, p <= q /\ (q = p <-> exists k, 0 <= k /\ (p = 2 ^ k \/ p = 3 * 2 ^ k)) /\
    (forall x st, sharing n x -> n_sc x = 1 -> exists z, fst (pow_num (pr := pr) D no_check x p st) = Some z /\ open_a (n_sh z) = wrap (open_a (n_sh x) ^ q) /\ n_sc z = 1) /\
    (* ... and at scale s, a run in which every truncation is off by less than E units in the last place is a run of the default configuration and is accurate to (q-1)*E units *)
    (forall s E x st z, 1 <= E -> 4 * E <= s -> s <= 2 ^ 31 -> sharing n x -> n_sc x = s -> (Qabs (qval x) <= 1 - ulps (2 * E) s)%Q ->
      fst (pow_num (pr := pr) D (within E) x p st) = Some z ->
      fst (pow_num (pr := pr) D no_check x p st) = Some z /\ n_sc z = s /\ (Qabs (qval z - qval x ^ q) <= ulps ((q - 1) * E) s)%Q) /\
    (* with a single party there is no such assumption to make *)
    (forall s x st, n = 1%nat -> 4 <= s -> s <= 2 ^ 31 -> sharing n x -> n_sc x = s -> (Qabs (qval x) <= 1 - ulps 2 s)%Q ->
      exists z, fst (pow_num (pr := pr) D no_check x p st) = Some z /\ n_sc z = s /\ (Qabs (qval z - qval x ^ q) <= ulps (q - 1) s)%Q).
  Proof using All.
    intros p Hp. set (f := Z.to_nat (p + 1)). assert (Hf : 1 <= p < Z.of_nat f) by (unfold f; lia). destruct (pow_exp_spec f p Hf) as [Q1 Q2]. exists (pow_exp f p).
    split; [exact Q1|]. split; [exact Q2|].
    assert (FX : forall s E T x, 1 <= E -> 4 * E <= s -> s <= 2 ^ 31 -> sharing n x -> n_sc x = s -> (Qabs (qval x) <= 1 - ulps (2 * E) s)%Q -> (T = true -> n = 1%nat) ->
      yo T (pow_num (pr := pr) D (within E) x p) (fun z => n_sc z = s /\ (Qabs (qval z - qval x ^ pow_exp f p) <= ulps ((pow_exp f p - 1) * E) s)%Q)).
    { intros s E T x HE Hs Hs2 Hx Sx Bx HT. assert (S0 : 0 < s) by lia. pose proof (small_abs x s E S0 Sx Bx) as Ba. pose proof (sharing_nshare n s x Hx Sx) as Hv.
      eapply yo_weaken; [apply (powv_approx n Hn pr HV D s E T HE Hs Hs2 HT f p 1 (open_a (n_sh x)) x Hf); exact (approx_1 n Hn s E T HE HT _ x Hv Ba)|].
      intros z Hz. split; [destruct Hz as (_ & a & Ha & _); exact (proj2 Ha)|]. pose proof (approx_qval n s E _ _ z Hn HE Hs Hs2 Hz) as A. rewrite Z.mul_1_r in A. rewrite qpow_div in A by lia. unfold qval in *. rewrite Sx. exact A. }
    split; [|split].
    - intros x st Hx Sx. pose proof (sharing_nshare n 1 x Hx Sx) as Hv. destruct (yo_true _ _ st (powv_1 n Hn pr HV D no_check (fun _ => eq_refl) f p _ x Hf Hv)) as (z & Ez & Hz & Sz). exists z. split; [exact Ez|]. split; [now rewrite (ashare_open _ _ _ Hz)|exact Sz].
    - intros s E x st z HE Hs Hs2 Hx Sx Bx Hz. split; [eapply weaker_fst; [apply powv_weak|exact Hz]|]. assert (HF : false = true -> n = 1%nat) by discriminate. exact (yo_some false _ _ st z (FX s E false x HE Hs Hs2 Hx Sx Bx HF) Hz).
    - intros s x st H1 Hs Hs2 Hx Sx Bx. destruct (yo_true _ _ st (FX s 1 true x ltac:(lia) ltac:(lia) Hs2 Hx Sx Bx (fun _ => H1))) as (z & Ez & Hz). exists z. split; [eapply weaker_fst; [apply powv_weak|exact Ez]|]. rewrite Z.mul_1_r in Hz. exact Hz.
  Qed.
  (** [pow(0)] is an encryption of one. *)
  Lemma k_C43_pow_zero : forall x st, exists z, fst (pow_num (pr := pr) D no_check x 0 st) = Some z /\ (qval z == 1)%Q.
  Proof using All.
    intros x st. unfold pow_num. change (Z.to_nat (0 + 1)) with 1%nat. cbn [powv]. rewrite Z.eqb_refl. unfold onesv, lift, bindo, bind, okr, ret. pose proof (v_zero n pr HV st) as H. destruct (next_zero pr st) as [z st']. cbn [fst] in *. eexists. split; [reflexivity|].
    unfold qval. cbn [n_sh n_sc]. destruct H as (L & F & E). destruct z as [|a r]; [cbn in L; lia|]. unfold on_rank0.
    assert (EO : open_a (wadd a D :: r) = D).
    { rewrite open_a_eq. cbn [zsum fold_right]. fold (zsum r). rewrite open_a_eq in E. cbn [zsum fold_right] in E. fold (zsum r) in E.
      transitivity (wrap D); [apply eqm_wrap_eq; rewrite wadd_eqm; replace (a + D + zsum r) with (a + zsum r + D) by ring; rewrite <- (wrap_eqm (a + zsum r)), E; reflexivity|apply wrap_id; unfold in64; lia]. }
    rewrite EO. field. apply injZ_nz; lia.
  Qed.

  (** C44.  [prod] over a dimension: exact modulo 2^64 at scale 1 ... *)
  Lemma k_C44_prod_integer : forall xs st, vector n 1 xs -> exists z, fst (prodv (pr := pr) no_check xs st) = Some z /\ open_a (n_sh z) = wrap (fold_right Z.mul 1 (reveals xs)) /\ n_sc z = 1.
  Proof using All.
    intros xs st [Hne F]. destruct (yo_true _ _ st (prodv_1 n Hn pr HV no_check (reveals xs) xs ltac:(destruct xs; [congruence|discriminate]) (vector_nshare n 1 xs F))) as (z & Ez & Hz & Sz). exists z. split; [exact Ez|]. split; [now rewrite (ashare_open _ _ _ Hz)|exact Sz].
  Qed.
  (** ... and accurate to (k-1)*E units for k factors below 1 when every truncation is within E units. *)
  Lemma k_C44_prod_fixed : forall s E xs st z, 1 <= E -> 4 * E <= s -> s <= 2 ^ 31 -> vector n s xs -> Forall (fun x => (Qabs (qval x) <= 1 - ulps (2 * E) s)%Q) xs ->
    fst (prodv (pr := pr) (within E) xs st) = Some z ->
    fst (prodv (pr := pr) no_check xs st) = Some z /\ n_sc z = s /\ (Qabs (qval z - prodQ (map qval xs)) <= ulps ((Z.of_nat (length xs) - 1) * E) s)%Q.
  Proof using All.
    intros s E xs st z HE Hs Hs2 [Hne F] B Hz. split; [eapply weaker_fst; [apply prodv_weak|exact Hz]|]. assert (S0 : 0 < s) by lia.
    assert (B' : Forall (fun v => Z.abs v <= s - 2 * E) (reveals xs)).
    { apply Forall_forall. intros v Hv. apply in_map_iff in Hv as (x & <- & Hx). rewrite Forall_forall in F, B. apply small_abs; [exact S0|apply F, Hx|apply B, Hx]. }
    pose proof (yo_some false _ _ st z (prodv_approx n Hn pr HV s E false HE Hs Hs2 ltac:(discriminate) (reveals xs) xs ltac:(destruct xs; [congruence|discriminate]) (vector_nshare n s xs F) B') Hz) as A.
    split; [destruct A as (_ & a & Ha & _); exact (proj2 Ha)|]. apply (approx_qval n s E _ _ z Hn HE Hs Hs2) in A. rewrite reveals_length in A. rewrite (qprod_div s xs S0) in A; [exact A|]. eapply Forall_impl; [|exact F]. intros x Hx. apply Hx.
  Qed.
  (** [polynomial(c)] evaluates c_1 x + c_2 x^2 + ... for any number of coefficients: exactly, modulo 2^64, at scale 1 ... *)
  Lemma k_C44_polynomial_integer : forall x cs st, sharing n x -> n_sc x = 1 -> cs <> [] ->
    Forall (fun c => match c with KEnc y => length (n_sh y) = n /\ Forall in64 (n_sh y) /\ n_sc y = 1 | _ => True end) cs ->
    exists z, fst (polynomial (pr := pr) no_check x cs st) = Some z /\ n_sc z = 1 /\
      open_a (n_sh z) = wrap (fold_right (fun c r => open_a (n_sh x) * (c + r)) 0 (map zcoeff cs)).
  Proof using All.
    intros x cs st Hx Sx Hne HC. pose proof (sharing_nshare n 1 x Hx Sx) as Hv. assert (HC' : Forall (wf_coeff n 1) cs) by (eapply Forall_impl; [|exact HC]; intros []; exact (fun H => H)).
    destruct (yo_true _ _ st (polynomial_1 n Hn pr HV no_check (fun _ => eq_refl) _ x cs Hne HC' Hv)) as (z & Ez & Hz & Sz). exists z. split; [exact Ez|]. split; [exact Sz|]. rewrite (ashare_open _ _ _ Hz). f_equal. change (map zcoeff cs) with (map cval1 cs).
    generalize (map cval1 cs). intros l. induction l as [|c l IH]; [reflexivity|]. cbn [horner fold_right]. now rewrite IH.
  Qed.
  (** ... and accurate to (1 + (i-1) |c_i|) E units per term when every truncation is within E units. *)
  Lemma k_C44_polynomial_fixed : forall s E x cs st z, 1 <= E -> 4 * E <= s -> s <= 2 ^ 31 -> sharing n x -> n_sc x = s -> (Qabs (qval x) <= 1 - ulps (2 * E) s)%Q ->
    cs <> [] -> Forall (coefficient n s) cs ->
    (inject_Z s * (Qabs (polyQ (map (qcoeff s) cs) (qval x)) + ulps E s * poly_error 0 (map (qcoeff s) cs)) < inject_Z H63)%Q ->
    fst (polynomial (pr := pr) (within E) x cs st) = Some z ->
    fst (polynomial (pr := pr) no_check x cs st) = Some z /\ n_sc z = s /\
      (Qabs (qval z - polyQ (map (qcoeff s) cs) (qval x)) <= ulps E s * poly_error 0 (map (qcoeff s) cs))%Q.
  Proof using All.
    intros s E x cs st z HE Hs Hs2 Hx Sx Bx Hne HC Fit Hz. split; [eapply weaker_fst; [apply polynomial_weak|exact Hz]|]. assert (S0 : 0 < s) by lia. pose proof (sharing_nshare n s x Hx Sx) as Hv.
    assert (HC' : Forall (fun c => wf_coeff n s c /\ Z.abs (cval s c) * s < H63) cs) by (eapply Forall_impl; [|exact HC]; intros c Hc; now apply coefficient_fits).
    destruct (yo_some false _ _ st z (polynomial_approx n Hn pr HV s E false HE Hs Hs2 ltac:(discriminate) _ x cs Hne HC' Hv (small_abs x s E S0 Sx Bx)) Hz) as (rs & Hr & G).
    split; [exact (proj2 Hr)|]. pose proof (poly_sum n s E (open_a (n_sh x)) S0 cs rs 0 ltac:(lia)) as P. change (S (Z.to_nat 0)) with 1%nat in P. specialize (P ltac:(eapply Forall_impl; [|exact HC']; intros c Hc; apply Hc) G).
    change ((inject_Z (open_a (n_sh x)) / inject_Z s) ^ 0)%Q with 1%Q in P. rewrite Qmult_1_l in P. assert (EX : (inject_Z (open_a (n_sh x)) / inject_Z s)%Q = qval x) by (unfold qval; now rewrite Sx). rewrite EX in P.
    assert (I : in64 (zsum rs)).
    { set (p := polyQ _ _) in *. set (e := (ulps E s * _)%Q) in *. assert (A : (Qabs (inject_Z (zsum rs) / inject_Z s) <= Qabs p + e)%Q).
      { setoid_replace (inject_Z (zsum rs) / inject_Z s)%Q with (p + (inject_Z (zsum rs) / inject_Z s - p))%Q by ring. eapply Qle_trans; [apply Qabs_triangle|]. apply Qplus_le_compat; [apply Qle_refl|exact P]. }
      assert (B : (Qabs (inject_Z (zsum rs)) < inject_Z H63)%Q).
      { eapply Qle_lt_trans; [|exact Fit]. setoid_replace (Qabs (inject_Z (zsum rs))) with (inject_Z s * Qabs (inject_Z (zsum rs) / inject_Z s))%Q.
        - apply Qmult_le_l; [now apply injZ_pos|exact A].
        - unfold Qdiv. rewrite Qabs_Qmult, (Qabs_pos (/ inject_Z s)) by (apply Qlt_le_weak, Qinv_lt_0_compat, injZ_pos, S0). field. now apply injZ_nz. }
      rewrite Qabs_injZ, <- Zlt_Qlt in B. unfold in64. lia. }
    unfold qval at 1. rewrite (proj2 Hr), (nshare_sharing n (zsum rs) s z S0 Hr I). exact P.
  Qed.

  (** C45.  [mean] along a dimension of size N is the average, to within E units, when every truncation is within E units. *)
  Lemma k_C45_mean : forall s E N rows st zs, 1 <= E -> 1 <= s -> (0 < N)%nat -> table n s N rows -> Forall (fun r => in64 (zsum (reveals r))) rows ->
    fst (meanv (pr := pr) (within E) rows st) = Some zs ->
    fst (meanv (pr := pr) no_check rows st) = Some zs /\
    Forall2 (fun r z => n_sc z = s /\ (Qabs (qval z - sumQ (map qval r) / inject_Z (Z.of_nat N)) < ulps E s)%Q) rows zs.
  Proof using All.
    intros s E N rows st zs HE Hs HN Tb FI Hz. split; [eapply weaker_fst; [apply meanv_weak|exact Hz]|]. destruct (table_lengths n s N rows Tb) as (Hne & FN & H2). destruct Tb as [_ F]. assert (S0 : 0 < s) by lia.
    pose proof (yo_some false _ _ st zs (meanv_acc n Hn pr HV s E false HE ltac:(discriminate) N HN (map reveals rows) rows Hne FN ltac:(apply Forall_forall; intros v Hv; apply in_map_iff in Hv as (r & <- & Hr); rewrite Forall_forall in FI; now apply FI) H2) Hz) as A.
    assert (K : forall rs, Forall2 (fun vs z => exists m, nshare n m s z /\ in64 m /\ Z.abs (m * Z.of_nat N - zsum vs) < E * Z.of_nat N) (map reveals rs) zs -> Forall (fun r => Forall (fun x => n_sc x = s) r) rs ->
      Forall2 (fun r z => n_sc z = s /\ (Qabs (qval z - sumQ (map qval r) / inject_Z (Z.of_nat N)) < ulps E s)%Q) rs zs).
    { clear - S0 HN. revert zs. intros zs rs. revert zs. induction rs as [|r rs IH]; intros zs A F; cbn [map] in A; [apply Forall2_nil_l in A; subst; constructor|].
      apply Forall2_cons_l in A as (z & zs' & -> & (m & Hm & I & B) & A). constructor; [|apply IH; [exact A|exact (Forall_inv_tail F)]]. split; [exact (proj2 Hm)|].
      unfold qval at 1. rewrite (proj2 Hm), (nshare_sharing n m s z S0 Hm I), (sum_reveals s r S0 (Forall_inv F)).
      setoid_replace (inject_Z (zsum (reveals r)) / inject_Z s / inject_Z (Z.of_nat N))%Q with (inject_Z (zsum (reveals r)) / inject_Z (s * Z.of_nat N))%Q by (rewrite inject_Z_mult; field; split; apply injZ_nz; lia).
      apply Qabs_div_lt; [lia|exact S0|exact B]. }
    apply K; [exact A|]. eapply Forall_impl; [|exact F]. intros r [_ Hr]. eapply Forall_impl; [|exact Hr]. intros x Hx. apply Hx.
  Qed.
  (** [var(dim, unbiased)]: the squared deviations from a mean accurate to E units are summed and divided by N when [unbiased] is true and by N - 1 when it is
      false (nothing is divided when that is 0 or 1). *)
  Lemma k_C45_var : forall s E N B rows unbiased st zs, 1 <= E -> 1 <= s -> (0 < N)%nat -> 0 <= B -> Z.of_nat N * ((2 * B + 2 * E) * (2 * B + 2 * E)) < H63 ->
    table n s N rows -> Forall (Forall (fun x => (Qabs (qval x) <= ulps B s)%Q)) rows ->
    fst (varv (pr := pr) (within E) unbiased rows st) = Some zs ->
    fst (varv (pr := pr) no_check unbiased rows st) = Some zs /\
    let divisor := if unbiased then Z.of_nat N else Z.of_nat N - 1 in
    Forall2 (fun r z => n_sc z = s /\ exists m, (Qabs (m - sumQ (map qval r) / inject_Z (Z.of_nat N)) < ulps E s)%Q /\
      let squares := sumQ (map (fun x => (qval x - m) ^ 2)%Q r) in
      if divisor <=? 1 then (Qabs (qval z - squares) <= ulps (Z.of_nat N * E) s)%Q
      else (Qabs (inject_Z divisor * qval z - squares) <= ulps ((Z.of_nat N + divisor) * E) s)%Q) rows zs.
  Proof using All.
    intros s E N B rows u st zs HE Hs HN HB Fit Tb FB Hz. split; [eapply weaker_fst; [apply varv_weak|exact Hz]|]. destruct (table_lengths n s N rows Tb) as (Hne & FN & H2). destruct Tb as [_ F]. assert (S0 : 0 < s) by lia.
    assert (FB' : Forall (Forall (fun v => Z.abs v <= B)) (map reveals rows)).
    { apply Forall_forall. intros vs Hv. apply in_map_iff in Hv as (r & <- & Hr). apply Forall_forall. intros v Hv. apply in_map_iff in Hv as (x & <- & Hx). rewrite Forall_forall in F, FB. destruct (F r Hr) as [_ Fr]. specialize (FB r Hr). rewrite Forall_forall in Fr, FB. apply (qval_bound x s B S0); [apply Fr, Hx|apply FB, Hx]. }
    pose proof (yo_some false _ _ st zs (varv_acc n Hn pr HV s E false HE Hs ltac:(discriminate) N HN B HB Fit u (map reveals rows) rows Hne FN FB' H2) Hz) as A. cbv zeta.
    set (dv := if u then Z.of_nat N else Z.of_nat N - 1) in *. assert (Hdv : 0 <= dv) by (unfold dv; destruct u; lia).
    assert (SF : Forall (Forall (fun x => n_sc x = s)) rows) by (eapply Forall_impl; [|exact F]; intros r [_ Hr]; eapply Forall_impl; [|exact Hr]; intros x Hx; apply Hx).
    clear - A SF S0 HN Hdv. revert zs A. induction rows as [|r rs IH]; intros zs A; cbn [map] in A; [apply Forall2_nil_l in A; subst; constructor|].
    apply Forall2_cons_l in A as (z & zs' & -> & (m & q & Bm & Hq & I & Bq) & A). constructor; [|apply IH; [exact (Forall_inv_tail SF)|exact A]]. split; [exact (proj2 Hq)|].
    exists (inject_Z m / inject_Z s)%Q. split.
    - rewrite (sum_reveals s r S0 (Forall_inv SF)). setoid_replace (inject_Z (zsum (reveals r)) / inject_Z s / inject_Z (Z.of_nat N))%Q with (inject_Z (zsum (reveals r)) / inject_Z (s * Z.of_nat N))%Q by (rewrite inject_Z_mult; field; split; apply injZ_nz; lia).
      apply Qabs_div_lt; [lia|exact S0|exact Bm].
    - assert (EZ : (qval z == inject_Z q / inject_Z s)%Q) by (unfold qval; rewrite (proj2 Hq), (nshare_sharing n q s z S0 Hq I); reflexivity).
      destruct (Z.leb_spec dv 1) as [L|L].
      + replace ((dv =? 0) || (dv =? 1)) with true in Bq by (symmetry; apply orb_true_iff; rewrite !Z.eqb_eq; lia). rewrite EZ, (sqdev_reveals s m r S0 (Forall_inv SF)). apply Qabs_div; assumption.
      + replace ((dv =? 0) || (dv =? 1)) with false in Bq by (symmetry; apply orb_false_iff; rewrite !Z.eqb_neq; lia). rewrite EZ, (sqdev_reveals s m r S0 (Forall_inv SF)).
        setoid_replace (inject_Z dv * (inject_Z q / inject_Z s))%Q with (inject_Z (q * dv) / inject_Z s)%Q by (rewrite inject_Z_mult; field; now apply injZ_nz).
        apply Qabs_div; [exact S0|exact S0|]. replace (q * dv * s) with (q * s * dv) by ring. exact Bq.
  Qed.

  (** C46.  Concatenating encrypted tensors of one scale keeps every operand, in order ... *)
  Lemma k_C46_cat : forall new s x xs, cat_helper new (map (fun t => TEnc t s) (x :: xs)) = Some (concat (x :: xs), s).
  Proof using All.
    intros new s x xs. set (l := map (fun t => TEnc t s) (x :: xs)). assert (FL : forall ys, forallb is_enc (map (fun t => TEnc t s) ys) = true) by (induction ys; auto).
    unfold cat_helper. change l with (TEnc x s :: map (fun t => TEnc t s) xs) at 1. cbv iota. rewrite (coordinate_all new (map (fun t => TEnc t s) xs) 0 l eq_refl (FL xs) (FL (x :: xs))) by (cbn; lia).
    change l with (TEnc x s :: map (fun t => TEnc t s) xs) at 1. cbv iota. unfold l. rewrite FL. f_equal. f_equal. rewrite flat_map_concat_map, map_map. f_equal. apply map_id.
  Qed.
  (** ... and a list with a plain tensor or number anywhere in it is always refused, although the code means to encrypt it. *)
  Lemma k_C46_cat_plain_raises : forall new ts, Exists (fun t => is_enc t = false) ts -> cat_helper new ts = None.
  Proof using All.
    intros new ts H. destruct ts as [|[sh sc|v] rest]; [reflexivity| |reflexivity]. cbn [cat_helper].
    assert (F : forallb is_enc rest = false).
    { apply Exists_cons in H as [H|H]; [discriminate|]. clear sh sc. induction H as [t l Ht|t l H IH]; cbn [forallb]; [now rewrite Ht|]. rewrite IH. apply andb_false_r. }
    destruct (coordinate new 0 rest (TEnc sh sc :: rest)) as [l'|] eqn:E; [|reflexivity]. rewrite (coordinate_plain new rest 0 _ l' E eq_refl F). destruct l' as [|[] l']; reflexivity.
  Qed.

  (** C47.  [pad] with a public value reveals that value (encoded) at every new position and leaves the rest; so does a private value. *)
  Lemma k_C47_pad_public : forall l r v k x, in64 v -> tensor n k x -> reveal_arith (pad_public l r v x) = padded l r v (reveal_arith x).
  Proof using All.
    intros l r v k x Iv [L F]. destruct x as [|s rest]; [cbn in L; lia|]. cbn [pad_public reveal_arith]. rewrite <- zipw_map_const. rewrite (pads_fold l r k); [|apply repeat_length|exact (Forall_inv F)|exact (Forall_inv_tail F)].
    unfold pad1, padded. replace (fold_left wadd (repeat 0 (length rest)) v) with v; [reflexivity|]. generalize (length rest). intros m. induction m as [|m IH]; [reflexivity|]. cbn [repeat fold_left]. rewrite wadd_0_r by assumption. exact IH.
  Qed.
  Lemma k_C47_pad_private : forall l r v k x, length v = n -> Forall in64 v -> tensor n k x -> reveal_arith (pad_private l r v x) = padded l r (open_a v) (reveal_arith x).
  Proof using All.
    intros l r v k x Lv Fv [L F]. destruct x as [|s rest]; [cbn in L; lia|]. destruct v as [|u v]; [cbn in Lv; lia|]. unfold pad_private. rewrite zipw_cons. cbn [reveal_arith].
    rewrite (pads_fold l r k); [|cbn in L, Lv; lia|exact (Forall_inv F)|exact (Forall_inv_tail F)]. unfold open_a. cbn [fold_left]. rewrite wadd_0_l by exact (Forall_inv Fv). reflexivity.
  Qed.
  (** [max_pool2d] instead writes -2^24 into every party's share: what it compares the real elements with is -2^24 times the number of parties, undivided by the scale. *)
  Lemma k_C47_pool_pad : forall l r k x, Z.of_nat n * 2 ^ 24 < H63 -> tensor n k x -> reveal_arith (pool_pad l r x) = padded l r (- Z.of_nat n * 2 ^ 24) (reveal_arith x).
  Proof using All.
    intros l r k x Hb [L F]. destruct x as [|s rest]; [cbn in L; lia|]. unfold pool_pad. cbn [map reveal_arith]. rewrite <- zipw_map_const. rewrite (pads_fold l r k); [|apply repeat_length|exact (Forall_inv F)|exact (Forall_inv_tail F)].
    unfold pad1, padded. replace (fold_left wadd (repeat pool_pad_value (length rest)) pool_pad_value) with (- Z.of_nat n * 2 ^ 24); [reflexivity|].
    cbn [length] in L. rewrite <- L in *. clear F L. set (m := length rest) in *. clearbody m. assert (G : forall j u, in64 u -> in64 (u - Z.of_nat j * 2 ^ 24) -> u <= 0 -> fold_left wadd (repeat pool_pad_value j) u = u - Z.of_nat j * 2 ^ 24).
    { induction j as [|j IH]; intros u I1 I2 U; cbn [repeat fold_left]; [cbn; lia|]. rewrite Nat2Z.inj_succ in I2. assert (E1 : wadd u pool_pad_value = u - 2 ^ 24) by (unfold wadd, pool_pad_value; rewrite wrap_id; [lia|unfold in64 in *; change (2 ^ 24) with 16777216 in *; lia]). rewrite E1, IH; rewrite ?Nat2Z.inj_succ; unfold in64 in *; change (2 ^ 24) with 16777216 in *; lia. }
    rewrite G; unfold pool_pad_value, in64, H63 in *; rewrite Nat2Z.inj_succ in *; change (2 ^ 24) with 16777216 in *; lia.
  Qed.

  (** C62.  In validation mode [square] raises unless the square is representable exactly at the scale of the tensor (and so [pow], [var], [norm] raise), ... *)
  Lemma k_C62_square_validation : forall s x st, 0 < s -> sharing n x -> n_sc x = s -> in64 (open_a (n_sh x) * open_a (n_sh x)) -> ~ (s | open_a (n_sh x) * open_a (n_sh x)) ->
    fst (squarev (pr := pr) validation_mode x st) = None.
  Proof using All.
    intros s x st Hs Hx Sx I ND. pose proof (sharing_nshare n s x Hx Sx) as [Hv _]. unfold squarev, lift, bindo, bind, ret, okr. pose proof (v_square n pr HV st) as Hr. destruct (next_square pr st) as [[r r2] st']. cbn [fst] in *.
    pose proof (square_share n Hn r r2 _ _ Hr Hv) as Hq. rewrite Sx. unfold divv, bind, ret, okr, raise. destruct (divi_num (n_sh (mkNum (square r r2 (n_sh x)) 1)) s st') as [q st2]. cbn [n_sh n_sc].
    rewrite (ashare_open _ _ _ Hq), wrap_id by exact I. unfold validation_mode. destruct (Z.ltb_spec (Z.abs (open_a q * s - open_a (n_sh x) * open_a (n_sh x))) 1) as [B|B]; [|reflexivity].
    exfalso. apply ND. exists (open_a q). lia.
  Qed.
  (** ... while multiplying a tensor by itself is accepted whenever the truncation is off by less than one unit, as it always is with a single party. *)
  Lemma k_C62_mul_validation : forall s x y st, n = 1%nat -> 1 < s -> sharing n x -> n_sc x = s -> sharing n y -> n_sc y = s -> in64 (open_a (n_sh x) * open_a (n_sh y)) ->
    exists z, fst (mulv (pr := pr) validation_mode x y st) = Some z /\ fst (mulv (pr := pr) no_check x y st) = Some z /\ n_sc z = s /\
      Z.abs (open_a (n_sh z) * s - open_a (n_sh x) * open_a (n_sh y)) < s.
  Proof using All.
    intros s x y st H1 Hs Hx Sx Hy Sy I. pose proof (sharing_nshare n s x Hx Sx) as [Hv _]. pose proof (sharing_nshare n s y Hy Sy) as [Hw _]. assert (S0 : 0 < s) by lia.
    assert (K : yo true (mulv (pr := pr) (within 1) x y) (fun z => n_sc z = s /\ Z.abs (open_a (n_sh z) * s - open_a (n_sh x) * open_a (n_sh y)) < s)).
    { unfold mulv. eapply (yo_lift _ _ _ (fun t => let '(a, b, c) := t in _)); [intros st'; exact (v_mul n pr HV st')|]. intros [[ta tb] tc] Ht. rewrite Sx, Sy. cbv zeta.
      unfold mul_rescale. replace (1 <? s) with true by (symmetry; apply Z.ltb_lt; lia). cbn [andb].
      eapply yo_weaken; [eapply (divv_acc n Hn pr HV 1 true ltac:(lia) (fun _ => H1)); [exact S0|exact I|cbn [n_sh]; eapply (mul1_share n Hn); eassumption]|]. cbn [n_sc]. intros z (q & A & Iq & B). split; [exact (proj2 A)|]. rewrite (nshare_sharing n q s z S0 A Iq). lia. }
    destruct (yo_true _ _ st K) as (z & Ez & Sz & Bz). exists z. split; [|split; [eapply weaker_fst; [apply mulv_weak|exact Ez]|split; assumption]].
    rewrite <- Ez. unfold mulv. unfold lift, bindo, bind, ret. destruct (next_mul pr st) as [[[ta tb] tc] st']. cbn [fst]. rewrite Sx, Sy. cbv zeta. unfold mul_rescale. replace (1 <? s) with true by (symmetry; apply Z.ltb_lt; lia). cbn [andb].
    unfold divv, bind. cbn [n_sh n_sc]. destruct (divi_num _ _ st') as [q st2]. unfold validation_mode, within. rewrite Z.mul_1_l. reflexivity.
  Qed.
End Claims.
