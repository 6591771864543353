(** Lemmas about powers, products, polynomials, means and variances. *)
Require Import ZArith QArith List Lia Bool.
From Verif Require Import Ring64 Encoder Arith Arith_proofs Beaver Beaver_proofs Trunc Trunc_proofs Provider Binary Binary_proofs Circuit_proofs Convert_proofs Compare Compare_proofs Maximum Maximum_proofs Regular.
Import ListNotations.
Open Scope Z_scope.

(** ** Runs that may raise.  [T = true] claims that the run does not raise. *)
Definition res {A} (T : bool) (Q : A -> Prop) (o : option A) : Prop := match o with Some a => Q a | None => T = false end.
Definition yo {pr A} (T : bool) (m : runo pr A) (Q : A -> Prop) : Prop := yields m (res T Q).

Lemma yo_ok {pr A} T (a : A) (Q : A -> Prop) : Q a -> yo (pr := pr) T (okr a) Q.
Proof. intros H s. exact H. Qed.
Lemma yo_raise {pr A} T (Q : A -> Prop) : T = false -> yo (pr := pr) T (raise (A := A)) Q.
Proof. intros H s. exact H. Qed.
Lemma yo_bind {pr A B} T (m : runo pr A) (f : A -> runo pr B) (Q : A -> Prop) (R : B -> Prop) :
  yo T m Q -> (forall a, Q a -> yo T (f a) R) -> yo T (bindo m f) R.
Proof. intros H K. eapply yields_bind; [exact H|]. intros [a|] Ha; [apply K, Ha|]. apply yields_ret. exact Ha. Qed.
Lemma yo_lift {pr A B} T (m : run pr A) (f : A -> runo pr B) (Q : A -> Prop) (R : B -> Prop) :
  yields m Q -> (forall a, Q a -> yo T (f a) R) -> yo T (bindo (lift m) f) R.
Proof. intros H K. eapply yo_bind; [|exact K]. eapply yields_bind; [exact H|]. intros a Ha. apply yields_ret. exact Ha. Qed.
Lemma yo_weaken {pr A} T (m : runo pr A) (Q R : A -> Prop) : yo T m Q -> (forall a, Q a -> R a) -> yo T m R.
Proof. intros H K. eapply yields_weaken; [exact H|]. intros [a|] Ha; [apply K, Ha|exact Ha]. Qed.
Lemma yo_map {pr A A' B} T (f : A' -> runo pr B) (R : A -> A' -> Prop) (R' : A -> B -> Prop) vs xs :
  Forall2 R vs xs -> (forall v x, R v x -> yo T (f x) (R' v)) -> yo T (mapO f xs) (Forall2 R' vs).
Proof.
  intros H K. induction H as [|v x vs xs Hv H IH]; cbn [mapO]; [apply yo_ok; constructor|].
  eapply yo_bind; [apply K, Hv|]. intros b Hb. eapply yo_bind; [exact IH|]. intros bs Hbs. apply yo_ok. now constructor.
Qed.
Lemma yo_zip {pr A A' B B' C} T (f : A' -> B' -> runo pr C) (R1 : A -> A' -> Prop) (R2 : B -> B' -> Prop) (R3 : A -> B -> C -> Prop) vs xs ws ys :
  Forall2 R1 vs xs -> Forall2 R2 ws ys -> length vs = length ws -> (forall v x w y, R1 v x -> R2 w y -> yo T (f x y) (R3 v w)) ->
  yo T (zipO f xs ys) (fun zs => Forall2 (fun vw z => R3 (fst vw) (snd vw) z) (combine vs ws) zs).
Proof.
  intros H. revert ws ys. induction H as [|v x vs xs Hv H IH]; intros ws ys H2 L K; destruct H2 as [|w y ws ys Hw H2]; cbn [length] in L; try discriminate; cbn [zipO combine]; [apply yo_ok; constructor|].
  eapply yo_bind; [apply K; [exact Hv|exact Hw]|]. intros c Hc. eapply yo_bind; [apply IH; [exact H2|lia|exact K]|]. intros cs Hcs. apply yo_ok. constructor; [exact Hc|exact Hcs].
Qed.

(** ** Removing a check does not change the runs that pass it. *)
Definition weaker {pr A} (m m' : runo pr A) : Prop := forall s a s', m s = (Some a, s') -> m' s = (Some a, s').
Lemma weaker_refl {pr A} (m : runo pr A) : weaker m m. Proof. intros s a s' H. exact H. Qed.
Lemma weaker_bind {pr A B} (m m' : runo pr A) (f f' : A -> runo pr B) : weaker m m' -> (forall a, weaker (f a) (f' a)) -> weaker (bindo m f) (bindo m' f').
Proof.
  intros H K s b s' E. unfold bindo, bind in *. destruct (m s) as [[a|] s1] eqn:M; [|discriminate]. rewrite (H _ _ _ M). exact (K a _ _ _ E).
Qed.
Lemma weaker_map {pr A B} (f f' : A -> runo pr B) l : (forall a, weaker (f a) (f' a)) -> weaker (mapO f l) (mapO f' l).
Proof. intros K. induction l as [|a l IH]; cbn [mapO]; [apply weaker_refl|]. apply weaker_bind; [apply K|]. intros b. apply weaker_bind; [exact IH|]. intros bs. apply weaker_refl. Qed.
Lemma weaker_zip {pr A B C} (f f' : A -> B -> runo pr C) l : forall m, (forall a b, weaker (f a b) (f' a b)) -> weaker (zipO f l m) (zipO f' l m).
Proof.
  induction l as [|a l IH]; intros [|b m] K; cbn [zipO]; try apply weaker_refl. apply weaker_bind; [apply K|]. intros c. apply weaker_bind; [apply IH, K|]. intros cs. apply weaker_refl.
Qed.

Section Weak.
  Context {pr : provider}.
  Variables (D : Z) (chk : check).
  Notation nc := no_check.
  Lemma divv_weak x d : weaker (divv (pr := pr) chk x d) (divv nc x d).
  Proof. intros s a s' E. unfold divv, bind, okr, raise, ret, no_check in *. destruct (divi_num (n_sh x) d s) as [r s1]. destruct (chk _ _ _ _); [exact E|discriminate]. Qed.
  Ltac wk := repeat first [apply weaker_refl | apply divv_weak | apply weaker_bind; [|intros]].
  Lemma mulv_weak x y : weaker (mulv (pr := pr) chk x y) (mulv nc x y).
  Proof. unfold mulv. wk. destruct a as [[a b] c]. cbv zeta. destruct (mul_rescale _ _) as [[d|] s]; wk. Qed.
  Lemma mulpv_weak x e : weaker (mulpv (pr := pr) chk x e) (mulpv nc x e).
  Proof. unfold mulpv. cbv zeta. destruct (mul_pub_rescale _) as [[d|] s]; wk. Qed.
  Lemma squarev_weak x : weaker (squarev (pr := pr) chk x) (squarev nc x).
  Proof. unfold squarev. apply weaker_bind; [apply weaker_refl|]. intros [r r2]. wk. Qed.
  Lemma powv_weak fuel : forall x p, weaker (powv (pr := pr) D chk fuel x p) (powv D nc fuel x p).
  Proof.
    induction fuel as [|f IH]; intros x p; cbn [powv]; [wk|]. destruct (p =? 0); [wk|]. destruct (p =? 1); [wk|]. destruct (p =? 2); [apply squarev_weak|].
    destruct (p mod 2 =? 0); (apply weaker_bind; [apply squarev_weak|]; intros y); [apply IH|]. apply weaker_bind; [apply mulv_weak|]. intros z. apply IH.
  Qed.
  Lemma prodv_weak xs : weaker (prodv (pr := pr) chk xs) (prodv nc xs).
  Proof.
    unfold prodv. apply weaker_bind; [|intros; apply weaker_refl]. generalize (length xs). intros fuel. revert xs. induction fuel as [|f IH]; intros xs; cbn [prodv_loop]; [apply weaker_refl|].
    destruct (Nat.ltb 1 (length xs)); [|apply weaker_refl]. apply weaker_bind; [|intros; apply IH]. unfold prodv_round. destruct (halves xs) as [[x y] r]. apply weaker_bind; [|intros; apply weaker_refl].
    apply weaker_zip. intros. apply mulv_weak.
  Qed.
  Lemma mulc_weak x c : weaker (mulc (pr := pr) chk x c) (mulc nc x c).
  Proof. destruct c; [apply mulpv_weak|apply mulpv_weak|apply mulv_weak]. Qed.
  Lemma polynomial_weak x cs : weaker (polynomial (pr := pr) chk x cs) (polynomial nc x cs).
  Proof.
    assert (G : forall fuel k ts, weaker (grow (pr := pr) chk fuel k ts) (grow nc fuel k ts)).
    { induction fuel as [|f IH]; intros k ts; cbn [grow]; [apply weaker_refl|]. destruct (Nat.ltb (length ts) k); [|apply weaker_refl]. apply weaker_bind; [|intros; apply IH]. apply weaker_map. intros. apply mulv_weak. }
    unfold polynomial. assert (K : weaker (x2 <~ squarev (pr := pr) chk x;; terms <~ grow chk (length cs) (length cs) [x; x2];; ys <~ zipO (mulc chk) (firstn (length cs) terms) cs;; okr (sum_num ys))
       (x2 <~ squarev nc x;; terms <~ grow nc (length cs) (length cs) [x; x2];; ys <~ zipO (mulc nc) (firstn (length cs) terms) cs;; okr (sum_num ys))).
    { apply weaker_bind; [apply squarev_weak|]. intros x2. apply weaker_bind; [apply G|]. intros ts. apply weaker_bind; [|intros; apply weaker_refl]. apply weaker_zip. intros. apply mulc_weak. }
    destruct cs as [|c [|]]; [exact K|apply mulc_weak|exact K].
  Qed.
  Lemma meanv_weak rows : weaker (meanv (pr := pr) chk rows) (meanv nc rows).
  Proof. unfold meanv. cbv zeta. destruct (Nat.eqb _ 0); [apply weaker_refl|]. apply weaker_map. intros. apply divv_weak. Qed.
  Lemma varv_weak u rows : weaker (varv (pr := pr) chk u rows) (varv nc u rows).
  Proof.
    unfold varv. apply weaker_bind; [apply meanv_weak|]. intros ms. apply weaker_bind; [apply weaker_zip; intros; apply weaker_map; intros; apply squarev_weak|]. intros sq. cbv zeta.
    destruct (_ || _); [apply weaker_refl|]. apply weaker_map. intros. apply divv_weak.
  Qed.
End Weak.

(** ** Division *)
(** The check that holds of a run in which every truncation is off by less than [E] units in the last place. *)
Definition within (E : Z) : check := fun _ d before after => Z.abs (after * d - before) <? E * d.

Lemma tdiv_in64 a d : in64 (tdiv a d). Proof. apply wrap_in64. Qed.

Section N.
  Variable n : nat.
  Hypothesis Hn : (0 < n)%nat.
  Variable pr : provider.
  Hypothesis HV : valid n pr.

  Lemma divi_shape x d : length x = n -> Forall in64 x -> yields (divi_num (pr := pr) x d) (fun r => length r = n /\ Forall in64 r).
  Proof.
    intros L F. unfold divi_num. destruct (Nat.ltb_spec 2 (length x)) as [H|H].
    - eapply (yields_bind _ _ (fun t => let '(r, th) := t in _)); [intros s; exact (v_wrap n pr HV s)|]. intros [r th] (Lr & Lt & Fr & Ft & Et). apply yields_ret. unfold truncate. split.
      + rewrite zipw_length; rewrite ?map_length; unfold mul_int; rewrite ?map_length; [assumption|]. unfold wraps, sub_priv. rewrite L. unfold on_rank0. 
        assert (W : length (zipw wsub (zipw (fun xp rp => count_wraps [xp; rp]) x r) th) = n) by (rewrite !zipw_length; rewrite ?zipw_length; congruence).
        destruct (zipw wsub _ th); cbn [length] in *; congruence.
      + fold (sub_priv (map (fun s => tdiv s d) x) (mul_int (2 ^ 62 / d) (mul_int 4 (wraps r th x)))). apply sub_priv_in64.
    - apply yields_ret. unfold div_local. rewrite map_length. split; [assumption|]. apply Forall_forall. intros z Hz. apply in_map_iff in Hz as (a & <- & _). apply tdiv_in64.
  Qed.

  Lemma divi_one v x : ashare n v x -> yields (divi_num (pr := pr) x 1) (ashare n v).
  Proof.
    intros (L & F & E). unfold divi_num. destruct (Nat.ltb_spec 2 (length x)) as [H|H].
    - eapply (yields_bind _ _ (fun t => let '(r, th) := t in _)); [intros s; exact (v_wrap n pr HV s)|]. intros [r th] (Lr & Lt & Fr & Ft & Et). apply yields_ret.
      assert (Hne : x <> []) by (intros ->; cbn in H; lia).
      destruct (truncate_ok r th x 1 Hne ltac:(congruence) ltac:(congruence) F Fr ltac:(rewrite Et; apply wrap_eqm) ltac:(lia)) as (Q & LT & O & B).
      rewrite Z.mod_1_r in B. assert (Q = open_a x) by lia. subst Q. split; [congruence|]. split; [apply sub_priv_in64|]. rewrite <- open_a_eqm, O, wrap_eqm.
      rewrite <- E, <- open_a_eqm. set (k := wraps_of _ + _). rewrite Z.div_1_r. change (4 * 2 ^ 62) with M64. unfold eqm. replace (open_a x - k * M64) with (open_a x + (- k) * M64) by ring. apply Z.mod_add. unfold M64. lia.
    - apply yields_ret. unfold div_local. replace (map (fun s => tdiv s 1) x) with x; [split; [|split]; assumption|].
      symmetry. rewrite <- (map_id x) at 2. apply map_ext_in. intros a Ha. rewrite Forall_forall in F. unfold tdiv. rewrite Z.quot_1_r. apply wrap_id. auto.
  Qed.

  Lemma ashare_open v x : ashare n v x -> open_a x = wrap v.
  Proof. intros (_ & _ & E). rewrite open_a_eq. now apply eqm_wrap_eq. Qed.

  (** squares *)
  Lemma square_share r r2 x v : length r = n /\ length r2 = n /\ Forall in64 r /\ Forall in64 r2 /\ open_a r2 = wmul (open_a r) (open_a r) ->
    ashare n v x -> ashare n (v * v) (square r r2 x).
  Proof.
    intros (L1 & L2 & F1 & F2 & E) (L & F & Ex). split; [|split].
    - unfold square, add_pub, on_rank0, add_priv. assert (W : length (zipw wadd r2 (mul_int (open_a (sub_priv x r)) (mul_int 2 r))) = n) by (rewrite zipw_length; unfold mul_int; rewrite ?map_length; congruence).
      destruct (zipw wadd r2 _); cbn [length] in *; congruence.
    - unfold square. apply add_pub_in64, add_priv_in64.
    - rewrite <- open_a_eqm, square_ok; [|congruence|congruence|lia|rewrite E; apply wmul_eqm]. rewrite wmul_eqm, !open_a_eqm, Ex. reflexivity.
  Qed.

  (** *** Scale 1 *)
  Section One.
    Variable D : Z.
    Variable chk : check.
    Hypothesis Hchk : forall v, chk 1 1 v v = true.
    Lemma squarev_1 v x : nshare n v 1 x -> yo true (squarev (pr := pr) chk x) (nshare n (v * v) 1).
    Proof.
      intros [Hx Sx]. unfold squarev. eapply (yo_lift _ _ _ (fun t => let '(r, r2) := t in _)); [intros s; exact (v_square n pr HV s)|]. intros [r r2] Hr. rewrite Sx.
      eapply yo_bind; [|intros q Hq; apply yo_ok; exact Hq]. unfold divv. cbn [n_sh n_sc]. pose proof (square_share r r2 _ v Hr Hx) as Hs.
      eapply yields_bind; [apply divi_one; exact Hs|]. intros q Hq. rewrite (ashare_open _ _ Hs), (ashare_open _ _ Hq), Hchk. apply yields_ret. split; [exact Hq|reflexivity].
    Qed.
    Lemma mulv_1 v w x y : nshare n v 1 x -> nshare n w 1 y -> yo true (mulv (pr := pr) chk x y) (nshare n (v * w) 1).
    Proof.
      intros [Hx Sx] [Hy Sy]. unfold mulv. eapply (yo_lift _ _ _ (fun t => let '(a, b, c) := t in _)); [intros s; exact (v_mul n pr HV s)|]. intros [[a b] c] Ht. rewrite Sx, Sy. cbv zeta.
      unfold mul_rescale. cbn [Z.ltb Z.compare Pos.compare Pos.compare_cont andb]. apply yo_ok. split; [|reflexivity]. cbn [n_sh]. eapply (mul1_share n Hn); eassumption.
    Qed.
    Lemma mulpv_1 v k x : nshare n v 1 x -> yo true (mulpv (pr := pr) chk x k) (nshare n (v * k) 1).
    Proof.
      intros [Hx Sx]. unfold mulpv. rewrite Sx. cbv zeta. unfold mul_pub_rescale. cbn [Z.ltb Z.compare Pos.compare Pos.compare_cont]. apply yo_ok.
      split; [exact (proj1 (muli_num_ok n k v 1 x (conj Hx Sx)))|reflexivity].
    Qed.
  End One.

  (** *** A division known to be accurate *)
  Section Acc.
    Variables (E : Z) (T : bool).
    Hypothesis HE : 1 <= E.
    Hypothesis HT : T = true -> n = 1%nat.
    Lemma divv_acc v x d : 0 < d -> in64 v -> ashare n v (n_sh x) ->
      yo T (divv (pr := pr) (within E) x d) (fun z => exists q, nshare n q (n_sc x) z /\ in64 q /\ Z.abs (q * d - v) < E * d).
    Proof.
      intros Hd Iv Hx. assert (Ov : open_a (n_sh x) = v) by (rewrite (ashare_open _ _ Hx); apply wrap_id, Iv). unfold divv.
      eapply (yields_bind _ _ (fun r => (length r = n /\ Forall in64 r) /\ (n = 1%nat -> open_a r = Z.quot v d))).
      - intros s. split; [apply (divi_shape (n_sh x) d); apply Hx|]. intros H1. destruct Hx as (L & F & _). unfold divi_num. rewrite L, H1. cbn [Nat.ltb Nat.leb].
        destruct (n_sh x) as [|a [|? ?]]; cbn [length] in L; try lia. cbn [ret fst]. rewrite div_local_one; [|assumption|now apply Forall_inv in F].
        f_equal. rewrite <- Ov, open_a_eq. cbn [zsum fold_right]. rewrite Z.add_0_r. symmetry. apply wrap_id. now apply Forall_inv in F.
      - intros r ((L & F) & Q). rewrite Ov. unfold within. destruct (Z.ltb_spec (Z.abs (open_a r * d - v)) (E * d)) as [B|B].
        + apply yields_ret. exists (open_a r). split; [|split; [apply open_a_in64|exact B]]. split; [|reflexivity]. cbn [n_sh]. now apply ashare_of.
        + apply yields_ret. cbn [res]. destruct T eqn:ET; [|reflexivity]. exfalso. rewrite Q in B by auto. destruct (quot_bound v d Hd) as (e & E1 & E2 & _). nia.
    Qed.
  End Acc.

  (** *** Products of approximations *)
  Section Fixed.
    Variables (s E : Z) (T : bool) (D : Z).
    Hypothesis HE : 1 <= E.
    Hypothesis Hs : 4 * E <= s.
    Hypothesis Hs2 : s <= 2 ^ 31.
    Hypothesis HT : T = true -> n = 1%nat.
    (** [x] represents [X / s^e] with an error of at most [(e-1)*E] units in the last place *)
    Definition approx (e X : Z) (x : num) : Prop :=
      1 <= e /\ exists a, nshare n a s x /\ Z.abs a <= s - 2 * E /\ Z.abs (a * s ^ (e - 1) - X) <= (e - 1) * E * s ^ (e - 1) /\ Z.abs X <= s ^ e.

    Lemma s_gt1 : 1 < s. Proof. lia. Qed.
    Lemma s_gt0 : 0 < s. Proof. lia. Qed.
    Lemma plus_ge1 e f : 1 <= e -> 1 <= f -> 1 <= e + f. Proof. lia. Qed.
    Lemma product_bound_size a b r : Z.abs a <= s - 2 * E -> Z.abs b <= s - 2 * E -> Z.abs (r * s - a * b) < E * s -> Z.abs r <= s - 2 * E.
    Proof.
      intros Ha Hb Hr. clear - HE Hs Ha Hb Hr.
      assert (Hab : Z.abs (a * b) <= (s - 2 * E) * (s - 2 * E)) by (rewrite Z.abs_mul; clear Hr; apply Z.mul_le_mono_nonneg; lia).
      assert (Hrs : Z.abs r * s = Z.abs (r * s)) by (rewrite Z.abs_mul, (Z.abs_eq s); [reflexivity|clear - HE Hs; lia]).
      assert (H : Z.abs r * s < (s - 2 * E) * (s - 2 * E) + E * s) by (rewrite Hrs; clear - Hr Hab; lia).
      assert (H0 : 4 * E * E <= s * E) by (clear - HE Hs; apply Z.mul_le_mono_nonneg_r; lia).
      clear - H H0 HE Hs. assert (Z.abs r * s < (s - 2 * E) * s) by (clear - H H0; lia). apply Z.lt_le_incl. apply (Z.mul_lt_mono_pos_r s); [clear - HE Hs; lia|assumption].
    Qed.
    Lemma product_error a b r X Y P Q c d : 0 < P -> 0 < Q -> 0 <= c -> 0 <= d -> Z.abs a <= s ->
      Z.abs (a * P - X) <= c * E * P -> Z.abs (b * Q - Y) <= d * E * Q -> Z.abs Y <= s * Q -> Z.abs (r * s - a * b) < E * s ->
      Z.abs (r * (s * P * Q) - X * Y) <= (c + d + 1) * E * (s * P * Q).
    Proof.
      intros HP HQ Hc Hd Ha Ea Eb BY Hr.
      replace (r * (s * P * Q) - X * Y) with ((r * s - a * b) * (P * Q) + (a * P * (b * Q - Y) + Y * (a * P - X))) by ring.
      assert (A1 : Z.abs ((r * s - a * b) * (P * Q)) <= E * s * (P * Q)).
      { assert (HPQ : 0 <= P * Q) by (apply Z.mul_nonneg_nonneg; lia). rewrite Z.abs_mul, (Z.abs_eq (P * Q)) by exact HPQ. apply Z.mul_le_mono_nonneg_r; [exact HPQ|clear - Hr; lia]. }
      assert (A2 : Z.abs (a * P * (b * Q - Y)) <= s * P * (d * E * Q)).
      { rewrite !Z.abs_mul, (Z.abs_eq P) by (clear - HP; lia). apply Z.mul_le_mono_nonneg; [apply Z.mul_nonneg_nonneg; [apply Z.abs_nonneg|clear - HP; lia]|apply Z.mul_le_mono_nonneg_r; [clear - HP; lia|exact Ha]|apply Z.abs_nonneg|exact Eb]. }
      assert (A3 : Z.abs (Y * (a * P - X)) <= s * Q * (c * E * P)).
      { rewrite Z.abs_mul. apply Z.mul_le_mono_nonneg; [apply Z.abs_nonneg|exact BY|apply Z.abs_nonneg|exact Ea]. }
      replace ((c + d + 1) * E * (s * P * Q)) with (E * s * (P * Q) + (s * P * (d * E * Q) + s * Q * (c * E * P))) by ring.
      clear - A1 A2 A3. lia.
    Qed.
    Lemma pow_pred e : 1 <= e -> s ^ e = s * s ^ (e - 1).
    Proof. clear. intros H. replace e with (Z.succ (e - 1)) at 1 by lia. rewrite Z.pow_succ_r by lia. reflexivity. Qed.
    Lemma product_bound a b r X Y e f : 1 <= e -> 1 <= f -> Z.abs a <= s - 2 * E -> Z.abs b <= s - 2 * E ->
      Z.abs (a * s ^ (e - 1) - X) <= (e - 1) * E * s ^ (e - 1) -> Z.abs (b * s ^ (f - 1) - Y) <= (f - 1) * E * s ^ (f - 1) -> Z.abs X <= s ^ e -> Z.abs Y <= s ^ f ->
      Z.abs (r * s - a * b) < E * s ->
      Z.abs r <= s - 2 * E /\ Z.abs (r * s ^ (e + f - 1) - X * Y) <= (e + f - 1) * E * s ^ (e + f - 1) /\ Z.abs (X * Y) <= s ^ (e + f).
    Proof.
      intros He Hf Ha Hb Ea Eb BX BY Hr. split; [exact (product_bound_size a b r Ha Hb Hr)|]. split.
      - assert (HP : 0 < s ^ (e - 1)) by (apply Z.pow_pos_nonneg; clear - HE Hs He; lia). assert (HQ : 0 < s ^ (f - 1)) by (apply Z.pow_pos_nonneg; clear - HE Hs Hf; lia).
        assert (E1 : s ^ (e + f - 1) = s * s ^ (e - 1) * s ^ (f - 1)) by (replace (e + f - 1) with (e + (f - 1)) by ring; rewrite Z.pow_add_r, (pow_pred e) by (clear - He Hf; lia); reflexivity).
        rewrite E1. rewrite (pow_pred f Hf) in BY. replace (e + f - 1) with (e - 1 + (f - 1) + 1) by ring.
        apply product_error with (a := a) (b := b); try assumption; clear - He Hf Ha HE; lia.
      - rewrite Z.abs_mul, Z.pow_add_r by (clear - He Hf; lia). apply Z.mul_le_mono_nonneg; [apply Z.abs_nonneg|exact BX|apply Z.abs_nonneg|exact BY].
    Qed.

    Lemma small_in64 a b : Z.abs a <= s - 2 * E -> Z.abs b <= s - 2 * E -> in64 (a * b).
    Proof. intros Ha Hb. assert (Z.abs (a * b) <= 2 ^ 31 * 2 ^ 31) by (rewrite Z.abs_mul; apply Z.mul_le_mono_nonneg; lia). change (2 ^ 31 * 2 ^ 31) with 4611686018427387904 in *. unfold in64, H63. lia. Qed.

    Lemma mulv_approx e f X Y x y : approx e X x -> approx f Y y -> yo T (mulv (pr := pr) (within E) x y) (approx (e + f) (X * Y)).
    Proof.
      intros (He & a & [Ha Sa] & Ba & Ea & BX) (Hf & b & [Hb Sb] & Bb & Eb & BY). unfold mulv.
      eapply (yo_lift _ _ _ (fun t => let '(a, b, c) := t in _)); [intros st; exact (v_mul n pr HV st)|]. intros [[ta tb] tc] Ht. rewrite Sa, Sb. cbv zeta.
      unfold mul_rescale. replace (1 <? s) with true by (symmetry; apply Z.ltb_lt, s_gt1). cbn [andb].
      eapply yo_weaken; [eapply (divv_acc E T HE HT (a * b)); [exact s_gt0|now apply small_in64|cbn [n_sh]; eapply (mul1_share n Hn); eassumption]|].
      cbn [n_sc]. intros z (q & Hq & _ & Bq). split; [apply plus_ge1; assumption|]. exists q. split; [exact Hq|]. now apply (product_bound a b).
    Qed.
    Lemma squarev_approx e X x : approx e X x -> yo T (squarev (pr := pr) (within E) x) (approx (e + e) (X * X)).
    Proof.
      intros (He & a & [Ha Sa] & Ba & Ea & BX). unfold squarev.
      eapply (yo_lift _ _ _ (fun t => let '(r, r2) := t in _)); [intros st; exact (v_square n pr HV st)|]. intros [r r2] Hr. rewrite Sa.
      eapply yo_bind; [eapply (divv_acc E T HE HT (a * a)); [exact s_gt0|now apply small_in64|cbn [n_sh]; apply square_share; assumption]|].
      intros z (q & [Hq _] & _ & Bq). apply yo_ok. split; [apply plus_ge1; assumption|]. exists q. split; [split; [exact Hq|reflexivity]|]. now apply (product_bound a a).
    Qed.
  End Fixed.
End N.

(** ** The exponent [pow] actually computes *)
Fixpoint pow_exp (fuel : nat) (p : Z) : Z :=
  match fuel with
  | O => 0
  | S f => if p =? 0 then 0 else if p =? 1 then 1 else if p =? 2 then 2 else if p mod 2 =? 0 then 2 * pow_exp f (p / 2) else 3 * pow_exp f ((p - 1) / 2)
  end.
Definition simple_exponent (p : Z) : Prop := exists k, 0 <= k /\ (p = 2 ^ k \/ p = 3 * 2 ^ k).

Lemma simple_half p : p mod 2 = 0 -> simple_exponent p <-> simple_exponent (p / 2).
Proof.
  intros H. pose proof (Z.div_mod p 2 ltac:(lia)) as DM. rewrite H, Z.add_0_r in DM. split.
  - intros (k & Hk & [E|E]); destruct (Z.eq_dec k 0) as [->|K0]; try (rewrite Z.pow_0_r in E; rewrite E in H; discriminate);
      exists (k - 1); (split; [lia|]); replace k with (Z.succ (k - 1)) in E by lia; rewrite Z.pow_succ_r in E by lia; [left|right]; lia.
  - intros (k & Hk & [E|E]); exists (k + 1); (split; [lia|]); rewrite Z.pow_add_r, Z.pow_1_r by lia; [left|right]; lia.
Qed.
Lemma simple_odd p : p mod 2 = 1 -> simple_exponent p <-> p = 1 \/ p = 3.
Proof.
  intros H. split.
  - intros (k & Hk & [E|E]); destruct (Z.eq_dec k 0) as [->|K0]; try (rewrite Z.pow_0_r in E; lia); exfalso;
      replace k with (Z.succ (k - 1)) in E by lia; rewrite Z.pow_succ_r in E by lia; [|replace (3 * (2 * 2 ^ (k - 1))) with (2 * (3 * 2 ^ (k - 1))) in E by ring]; rewrite E, Z.mul_comm, Z.mod_mul in H; lia.
  - intros [-> | ->]; exists 0; (split; [lia|]); [left|right]; reflexivity.
Qed.

Lemma pow_exp_spec fuel : forall p, 1 <= p < Z.of_nat fuel -> p <= pow_exp fuel p /\ (pow_exp fuel p = p <-> simple_exponent p).
Proof.
  induction fuel as [|f IH]; intros p Hp; [lia|]. cbn [pow_exp]. destruct (Z.eqb_spec p 0); [lia|].
  destruct (Z.eqb_spec p 1) as [->|H1]; [split; [lia|split; [intros _; exists 0; split; [lia|left; reflexivity]|reflexivity]]|].
  destruct (Z.eqb_spec p 2) as [->|H2]; [split; [lia|split; [intros _; exists 1; split; [lia|left; reflexivity]|reflexivity]]|].
  pose proof (Z.div_mod p 2 ltac:(lia)) as DM. pose proof (Z.mod_pos_bound p 2 ltac:(lia)) as MB.
  destruct (Z.eqb_spec (p mod 2) 0) as [M|M].
  - destruct (IH (p / 2) ltac:(lia)) as [I1 I2]. rewrite (simple_half p M). split; [lia|]. rewrite <- I2. lia.
  - assert (M1 : p mod 2 = 1) by lia. replace ((p - 1) / 2) with (p / 2) by (apply Z.div_unique with (r := 0); lia).
    destruct (IH (p / 2) ltac:(lia)) as [I1 I2]. rewrite (simple_odd p M1). split; [lia|]. split; [intros; lia|]. intros [->| ->]; [lia|]. change (3 / 2) with 1 in *. 
    assert (pow_exp f 1 = 1); [|lia]. apply I2. exists 0. split; [lia|left; reflexivity].
Qed.

Section Pow.
  Variable n : nat.
  Hypothesis Hn : (0 < n)%nat.
  Variable pr : provider.
  Hypothesis HV : valid n pr.
  Variable D : Z.

  Lemma pow_pos f p : 1 <= p < Z.of_nat f -> 1 <= pow_exp f p. Proof. intros H. pose proof (pow_exp_spec f p H). lia. Qed.

  Lemma powv_1 chk (Hchk : forall v, chk 1 1 v v = true) fuel : forall p v x, 1 <= p < Z.of_nat fuel -> nshare n v 1 x ->
    yo true (powv (pr := pr) D chk fuel x p) (nshare n (v ^ pow_exp fuel p) 1).
  Proof.
    induction fuel as [|f IH]; intros p v x Hp Hx; [lia|]. cbn [powv pow_exp]. destruct (Z.eqb_spec p 0); [lia|].
    destruct (Z.eqb_spec p 1); [apply yo_ok; rewrite Z.pow_1_r; assumption|].
    destruct (Z.eqb_spec p 2); [rewrite Z.pow_2_r; now apply (squarev_1 n Hn pr HV)|].
    pose proof (Z.div_mod p 2 ltac:(lia)) as DM. pose proof (Z.mod_pos_bound p 2 ltac:(lia)) as MB.
    destruct (Z.eqb_spec (p mod 2) 0) as [M|M].
    - assert (R : 1 <= p / 2 < Z.of_nat f) by lia. pose proof (pow_pos f _ R) as PP. eapply yo_bind; [apply (squarev_1 n Hn pr HV chk Hchk); exact Hx|]. intros y Hy. rewrite Z.pow_mul_r, Z.pow_2_r by lia. now apply IH.
    - replace ((p - 1) / 2) with (p / 2) by (apply Z.div_unique with (r := 0); lia). assert (R : 1 <= p / 2 < Z.of_nat f) by lia. pose proof (pow_pos f _ R) as PP.
      eapply yo_bind; [apply (squarev_1 n Hn pr HV chk Hchk); exact Hx|]. intros y Hy. eapply yo_bind; [apply (mulv_1 n Hn pr HV chk); [exact Hy|exact Hx]|]. intros z Hz.
      rewrite Z.pow_mul_r by lia. replace (v ^ 3) with (v * v * v) by ring. now apply IH.
  Qed.

  Variables (s E : Z) (T : bool).
  Hypothesis HE : 1 <= E.
  Hypothesis Hs : 4 * E <= s.
  Hypothesis Hs2 : s <= 2 ^ 31.
  Hypothesis HT : T = true -> n = 1%nat.
  Notation appr := (approx n s E).

  Lemma powv_approx fuel : forall p e X x, 1 <= p < Z.of_nat fuel -> appr e X x ->
    yo T (powv (pr := pr) D (within E) fuel x p) (appr (pow_exp fuel p * e) (X ^ pow_exp fuel p)).
  Proof.
    induction fuel as [|f IH]; intros p e X x Hp Hx; [lia|]. cbn [powv pow_exp]. destruct (Z.eqb_spec p 0); [lia|].
    destruct (Z.eqb_spec p 1); [apply yo_ok; rewrite Z.pow_1_r, Z.mul_1_l; assumption|].
    destruct (Z.eqb_spec p 2); [rewrite Z.pow_2_r; replace (2 * e) with (e + e) by ring; now apply (squarev_approx n Hn pr HV s E T HE Hs Hs2 HT)|].
    pose proof (Z.div_mod p 2 ltac:(lia)) as DM. pose proof (Z.mod_pos_bound p 2 ltac:(lia)) as MB.
    destruct (Z.eqb_spec (p mod 2) 0) as [M|M].
    - assert (R : 1 <= p / 2 < Z.of_nat f) by lia. pose proof (pow_pos f _ R) as PP. eapply yo_bind; [apply (squarev_approx n Hn pr HV s E T HE Hs Hs2 HT); exact Hx|]. intros y Hy.
      rewrite Z.pow_mul_r, Z.pow_2_r by lia. replace (2 * pow_exp f (p / 2) * e) with (pow_exp f (p / 2) * (e + e)) by ring. now apply IH.
    - replace ((p - 1) / 2) with (p / 2) by (apply Z.div_unique with (r := 0); lia). assert (R : 1 <= p / 2 < Z.of_nat f) by lia. pose proof (pow_pos f _ R) as PP.
      eapply yo_bind; [apply (squarev_approx n Hn pr HV s E T HE Hs Hs2 HT); exact Hx|]. intros y Hy. eapply yo_bind; [apply (mulv_approx n Hn pr HV s E T HE Hs Hs2 HT); [exact Hy|exact Hx]|]. intros z Hz.
      rewrite Z.pow_mul_r by lia. replace (X ^ 3) with (X * X * X) by ring. replace (3 * pow_exp f (p / 2) * e) with (pow_exp f (p / 2) * (e + e + e)) by ring. now apply IH.
  Qed.
End Pow.

Lemma seq_shift_by a m k : map (fun i => (i + k)%nat) (seq a m) = seq (a + k) m.
Proof. revert a. induction m as [|m IH]; intros a; [reflexivity|]. cbn [seq map]. now rewrite IH. Qed.
Lemma Forall2_map_l {A B C} (R : B -> C -> Prop) (f : A -> B) l m : Forall2 (fun a c => R (f a) c) l m -> Forall2 R (map f l) m.
Proof. intros H. induction H; cbn [map]; constructor; auto. Qed.

Lemma Forall2_nil_l {A B} (R : A -> B -> Prop) l : Forall2 R [] l -> l = [].
Proof. intros H. inversion H. reflexivity. Qed.
Lemma Forall2_cons_l {A B} (R : A -> B -> Prop) a l m : Forall2 R (a :: l) m -> exists b m', m = b :: m' /\ R a b /\ Forall2 R l m'.
Proof. intros H. inversion H as [|? b ? m' H1 H2]; subst. exists b, m'. auto. Qed.

(** ** Products and powers over any representation of a commutative monoid *)
Section Gen.
  Context {pr : provider}.
  Variables (T : bool) (chk : check).
  Variables (V : Type) (op : V -> V -> V) (e0 : V) (R : V -> num -> Prop).
  Hypothesis op_comm : forall a b, op a b = op b a.
  Hypothesis op_assoc : forall a b c, op a (op b c) = op (op a b) c.
  Hypothesis op_e0 : forall a, op a e0 = a.
  Hypothesis Rmul : forall v w x y, R v x -> R w y -> yo T (mulv (pr := pr) chk x y) (R (op v w)).

  Definition big (l : list V) : V := fold_right op e0 l.
  Lemma big_cons a l : big (a :: l) = op a (big l). Proof. reflexivity. Qed.
  Lemma big_app l m : big (l ++ m) = op (big l) (big m).
  Proof. induction l as [|a l IH]; cbn [app]; [change (big []) with e0; now rewrite op_comm, op_e0|]. rewrite !big_cons, IH. apply op_assoc. Qed.
  Lemma big_zip l : forall m, length l = length m -> big (map (fun vw => op (fst vw) (snd vw)) (combine l m)) = op (big l) (big m).
  Proof.
    induction l as [|a l IH]; intros [|b m] L; try discriminate; [symmetry; apply op_e0|]. cbn [combine map fst snd]. rewrite !big_cons, IH by (cbn in L; lia).
    rewrite <- !op_assoc. f_equal. rewrite !op_assoc. f_equal. apply op_comm.
  Qed.

  Lemma prodv_round_gen vs xs : Forall2 R vs xs ->
    yo T (prodv_round (pr := pr) chk xs) (fun ys => exists us, Forall2 R us ys /\ big us = big vs /\ (length ys = length xs - length xs / 2)%nat).
  Proof.
    intros H. pose proof (halves_rel R vs xs H) as HH. pose proof (halves_app vs) as HA. pose proof (halves_app xs) as HB. unfold prodv_round. destruct (halves xs) as [[x y] r], (halves vs) as [[vx vy] vr].
    destruct HH as (H1 & H2 & H3). destruct HA as (EA & LA & LA'). destruct HB as (EB & LB & LB').
    eapply yo_bind; [eapply (yo_zip T _ R R (fun v w z => R (op v w) z)); [exact H1|exact H2|exact LA|]|].
    - intros v a w b Hv Hw. exact (Rmul _ _ _ _ Hv Hw).
    - intros z Hz. apply yo_ok. exists (map (fun vw => op (fst vw) (snd vw)) (combine vx vy) ++ vr). split; [|split].
      + apply Forall2_app; [|exact H3]. apply Forall2_map_l. exact Hz.
      + rewrite big_app, big_zip, EA, !big_app by assumption. now rewrite op_assoc.
      + apply Forall2_length in Hz, H1. rewrite combine_length in Hz. rewrite app_length. rewrite EB in *. rewrite !app_length in *. lia.
  Qed.
  Lemma prodv_loop_gen fuel : forall vs xs, (1 <= length vs <= S fuel)%nat -> Forall2 R vs xs ->
    yo T (prodv_loop (pr := pr) chk fuel xs) (fun ys => exists y, ys = [y] /\ R (big vs) y).
  Proof.
    assert (One : forall v x, R v x -> R (big [v]) x) by (intros v x Hx; unfold big; cbn [fold_right]; rewrite op_e0; exact Hx).
    induction fuel as [|f IH]; intros vs xs L H; pose proof (Forall2_length _ _ _ H) as LL; cbn [prodv_loop].
    - destruct H as [|v x vs xs Hv H]; cbn [length] in L; [lia|]. destruct H; cbn [length] in L; [|lia]. apply yo_ok. exists x. split; [reflexivity|now apply One].
    - destruct (Nat.ltb_spec 1 (length xs)).
      + eapply yo_bind; [apply prodv_round_gen; exact H|]. intros ys (us & Hu & Pu & Ly). rewrite <- Pu. apply IH; [|exact Hu]. rewrite (Forall2_length _ _ _ Hu), Ly.
        assert (1 <= length xs / 2)%nat by (apply Nat.div_le_lower_bound; lia). assert (length xs / 2 < length xs)%nat by (apply Nat.div_lt; lia). lia.
      + destruct H as [|v x vs xs Hv H']; cbn [length] in *; [lia|]. destruct H'; cbn [length] in *; [|lia]. apply yo_ok. exists x. split; [reflexivity|now apply One].
  Qed.
  Lemma prodv_gen vs xs : vs <> [] -> Forall2 R vs xs -> yo T (prodv (pr := pr) chk xs) (R (big vs)).
  Proof.
    intros Hne H. unfold prodv. eapply yo_bind; [apply prodv_loop_gen; [|exact H]; rewrite <- (Forall2_length _ _ _ H); destruct vs; [congruence|]; cbn [length] in *; lia|].
    intros ys (y & -> & Hy). apply yo_ok. exact Hy.
  Qed.

  (** the terms of [polynomial] *)
  Variable pw : nat -> V.
  Hypothesis pw_op : forall i j, op (pw i) (pw j) = pw (i + j)%nat.
  Lemma last_map_seq d0 m : (1 <= m)%nat -> last (map pw (seq 1 m)) d0 = pw m.
  Proof. intros H. destruct m as [|m]; [lia|]. rewrite seq_S, map_app. cbn [map]. rewrite last_last. f_equal. Qed.
  Lemma grow_gen fuel k : forall m xs, (1 <= m)%nat -> Forall2 R (map pw (seq 1 m)) xs ->
    yo T (grow (pr := pr) chk fuel k xs) (fun ys => exists m', (m <= m')%nat /\ (Nat.min k (fuel + m) <= m')%nat /\ Forall2 R (map pw (seq 1 m')) ys).
  Proof.
    induction fuel as [|f IH]; intros m xs Hm H; pose proof (Forall2_length _ _ _ H) as LL; rewrite map_length, seq_length in LL; cbn [grow].
    - apply yo_ok. exists m. split; [lia|]. split; [lia|exact H].
    - destruct (Nat.ltb_spec (length xs) k); [|apply yo_ok; exists m; split; [lia|]; split; [lia|exact H]].
      assert (Hl : R (pw m) (last xs nil_num)).
      { rewrite <- (last_map_seq (pw 0) m Hm). apply Forall2_last; [|exact H]. intros E0. apply (f_equal (@length V)) in E0. rewrite map_length, seq_length in E0. cbn in E0. lia. }
      eapply yo_bind; [eapply (yo_map T _ R (fun v y => R (op v (pw m)) y)); [exact H|]; intros v x Hv; apply Rmul; [exact Hv|exact Hl]|].
      intros ys Hys. eapply yo_weaken; [apply (IH (m + m)%nat (xs ++ ys)); [lia|]|].
      + rewrite seq_app, map_app. apply Forall2_app; [exact H|]. apply Forall2_map_l in Hys. rewrite map_map in Hys.
        replace (map pw (seq (1 + m) m)) with (map (fun i => op (pw i) (pw m)) (seq 1 m)); [exact Hys|]. rewrite <- (seq_shift_by 1 m m). rewrite map_map. apply map_ext. intros i. rewrite pw_op. f_equal.
      + intros zs (m' & A & B & C). exists m'. split; [lia|]. split; [lia|exact C].
  Qed.

  Variables (C : coeff -> Prop) (Q : nat -> coeff -> num -> Prop).
  Hypothesis Rsq : forall x, R (pw 1) x -> yo T (squarev (pr := pr) chk x) (R (pw 2)).
  Hypothesis Rc : forall i c x, (1 <= i)%nat -> C c -> R (pw i) x -> yo T (mulc (pr := pr) chk x c) (Q i c).
  Lemma polynomial_gen x cs : cs <> [] -> Forall C cs -> R (pw 1) x ->
    yo T (polynomial (pr := pr) chk x cs) (fun z => exists zs, (z = sum_num zs \/ zs = [z]) /\ Forall2 (fun ic z => Q (fst ic) (snd ic) z) (combine (seq 1 (length cs)) cs) zs).
  Proof.
    intros Hne HC Hx. assert (K : (2 <= length cs)%nat -> yo T (x2 <~ squarev (pr := pr) chk x ;; terms <~ grow chk (length cs) (length cs) [x; x2] ;; ys <~ zipO (mulc chk) (firstn (length cs) terms) cs ;; okr (sum_num ys))
      (fun z => exists zs, (z = sum_num zs \/ zs = [z]) /\ Forall2 (fun ic z => Q (fst ic) (snd ic) z) (combine (seq 1 (length cs)) cs) zs)).
    { intros L2. eapply yo_bind; [apply Rsq, Hx|]. intros x2 Hx2.
      eapply yo_bind; [apply (grow_gen (length cs) (length cs) 2 [x; x2]); [lia|]; cbn [seq map]; constructor; [exact Hx|constructor; [exact Hx2|constructor]]|].
      intros ts (m' & _ & Hm & Hts). apply (Forall2_firstn _ (length cs)) in Hts.
      assert (E1 : firstn (length cs) (map pw (seq 1 m')) = map pw (seq 1 (length cs))).
      { rewrite firstn_map. f_equal. replace m' with (length cs + (m' - length cs))%nat by lia. rewrite seq_app, firstn_app, seq_length, Nat.sub_diag. cbn [firstn]. rewrite app_nil_r. apply firstn_all2. rewrite seq_length. lia. }
      rewrite E1 in Hts. eapply yo_bind.
      - eapply (yo_zip T _ (fun i x => (1 <= i)%nat /\ R (pw i) x) (fun c c' => c = c' /\ C c) (fun i c z => Q i c z) (seq 1 (length cs)) _ cs cs).
        + clear - Hts. remember (firstn (length cs) ts) as l. clear Heql. revert l Hts. generalize (length cs). intros k. assert (G : forall a l, (1 <= a)%nat -> Forall2 R (map pw (seq a k)) l -> Forall2 (fun i x => (1 <= i)%nat /\ R (pw i) x) (seq a k) l).
          { induction k as [|k IH]; intros a l Ha H; cbn [seq map] in H; [apply Forall2_nil_l in H; subst; constructor|]. apply Forall2_cons_l in H as (y & l' & -> & Hy & H). cbn [seq]. constructor; [split; assumption|]. apply IH; [lia|exact H]. }
          intros l H. now apply G.
        + clear - HC. induction HC; constructor; auto.
        + apply seq_length.
        + intros i y c c' [Hi Hy] [<- Hc]. now apply Rc.
      - intros ys Hys. apply yo_ok. exists ys. split; [now left|exact Hys]. }
    destruct cs as [|c [|c2 cs]]; [congruence| |apply K; cbn; lia]. cbn [polynomial]. eapply yo_weaken; [apply (Rc 1%nat); [lia|now apply Forall_inv in HC|exact Hx]|].
    intros z Hz. exists [z]. split; [now right|]. cbn. constructor; [exact Hz|constructor].
  Qed.
End Gen.
