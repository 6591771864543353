(** Proofs of C93: what programs of encrypted operations compute. *)
Require Import ZArith QArith Qabs List Lia Lqa Bool.
From Verif Require Import Ring64 Encoder Arith Arith_proofs Beaver Trunc Trunc_proofs Provider Binary Binary_proofs Convert_proofs Compare Compare_proofs Compare_claims Maximum Maximum_proofs Maximum_claims Regular Regular_proofs Regular_num_proofs Regular_claims Program.
Import ListNotations.
Open Scope Z_scope.

(** ** What the program means
    The exact value of every register, over the rationals. *)
Definition qrelu (x : Q) : Q := if Qle_bool 0 x then x else 0%Q.
Definition qclamp (lo hi x : Q) : Q := if Qle_bool x lo then lo else if Qle_bool hi x then hi else x.
Definition qmax (a b : Q) : Q := if Qle_bool a b then b else a.
Definition qmaximum (l : list Q) : Q := match l with [] => 0%Q | x :: r => fold_right qmax x r end.
Definition value (qs : list Q) (i : nat) : Q := nth i qs 0%Q.
Definition ideal (x : instr) (qs : list Q) : Q :=
  let v := value qs in
  match x with
  | IAdd i j => v i + v j
  | ISub i j => v i - v j
  | INeg i => - v i
  | IAddZ i k => v i + inject_Z k
  | IAddQ i q => v i + q
  | IMulZ i k => v i * inject_Z k
  | IMulQ i q => v i * q
  | IMul i j => v i * v j
  | ISquare i => v i * v i
  | IDiv i d => v i / inject_Z d
  | IDot l => sumQ (map (fun ij => v (fst ij) * v (snd ij)) l)
  | IDotQ l => sumQ (map (fun iq => v (fst iq) * snd iq) l)
  | ISum l => sumQ (map v l)
  | IRelu i => qrelu (v i)
  | IAbs i => Qabs (v i)
  | IClamp i lo hi => qclamp lo hi (v i)
  | IMax l => qmaximum (map v l)
  end%Q.
Fixpoint ideals (prog : list instr) (qs : list Q) : list Q := match prog with [] => qs | x :: r => ideals r (qs ++ [ideal x qs]) end.

(** ** How far rounding can take it
    For every register a magnitude and an error, both in units of 1/s.  [E]: a truncation is wrong by less than E units. *)
Notation bound := (Z * Z)%type.
Definition cdiv (a b : Z) : Z := (a + b - 1) / b.
Definition top (b : bound) : Z := fst b + snd b.
Definition zmax (l : list Z) : Z := fold_right Z.max 0 l.
Fixpoint all_some {A} (l : list (option A)) : option (list A) :=
  match l with [] => Some [] | None :: _ => None | Some a :: r => match all_some r with Some b => Some (a :: b) | None => None end end.
Definition both {A B} (a : option A) (b : option B) : option (A * B) := match a, b with Some x, Some y => Some (x, y) | _, _ => None end.
(** the error of a product of two numbers, in units of 1/s^2 *)
Definition product_error (b c : bound) : Z := top b * snd c + fst c * snd b.
Definition scaled_error (b : bound) (k : Z) : Z := Z.abs k * snd b + fst b.

Definition rule (s E : Z) (x : instr) (bs : list bound) : option bound :=
  let get := nth_error bs in
  match x with
  | IAdd i j | ISub i j => match both (get i) (get j) with Some (b, c) => Some (fst b + fst c, snd b + snd c) | None => None end
  | INeg i | IRelu i | IAbs i => get i
  | IAddZ i k => match get i with Some b => Some (fst b + s * Z.abs k, snd b) | None => None end
  | IAddQ i q => match get i with Some b => Some (fst b + Z.abs (encodeQ s q) + 1, snd b + 1) | None => None end
  | IMulZ i k => match get i with Some b => Some (fst b * Z.abs k, snd b * Z.abs k) | None => None end
  | IMulQ i q =>
      match get i with
      | Some b => let k := encodeQ s q in
          if top b * Z.abs k <? H63 then Some (cdiv (fst b * (Z.abs k + 1)) s, cdiv (scaled_error b k) s + E) else None
      | None => None
      end
  | IMul i j =>
      match both (get i) (get j) with
      | Some (b, c) => if top b * top c <? H63 then Some (cdiv (fst b * fst c) s, cdiv (product_error b c) s + E) else None
      | None => None
      end
  | ISquare i =>
      match get i with
      | Some b => if top b * top b <? H63 then Some (cdiv (fst b * fst b) s, cdiv (product_error b b) s + E) else None
      | None => None
      end
  | IDiv i d => match get i with Some b => if 0 <? d then Some (cdiv (fst b) d, cdiv (snd b) d + E) else None | None => None end
  | IDot l =>
      match l, all_some (map (fun ij => both (get (fst ij)) (get (snd ij))) l) with
      | _ :: _, Some t =>
          if zsum (map (fun bc => top (fst bc) * top (snd bc)) t) <? H63 then
            Some (cdiv (zsum (map (fun bc => fst (fst bc) * fst (snd bc)) t)) s, cdiv (zsum (map (fun bc => product_error (fst bc) (snd bc)) t)) s + E)
          else None
      | _, _ => None
      end
  | IDotQ l =>
      match l, all_some (map (fun iq => both (get (fst iq)) (Some (encodeQ s (snd iq)))) l) with
      | _ :: _, Some t =>
          if zsum (map (fun bk => top (fst bk) * Z.abs (snd bk)) t) <? H63 then
            Some (cdiv (zsum (map (fun bk => fst (fst bk) * (Z.abs (snd bk) + 1)) t)) s, cdiv (zsum (map (fun bk => scaled_error (fst bk) (snd bk)) t)) s + E)
          else None
      | _, _ => None
      end
  | ISum l =>
      match l, all_some (map get l) with _ :: _, Some t => Some (zsum (map fst t), zsum (map snd t)) | _, _ => None end
  | IClamp i lo hi =>
      match get i with
      | Some b => let k := Z.max (Z.abs (encodeQ s lo)) (Z.abs (encodeQ s hi)) in
          if Qle_bool lo hi && (encodeQ s lo <=? encodeQ s hi) && (top b + k <? H63) then Some (k + 1, Z.max (snd b) 1) else None
      | None => None
      end
  | IMax l =>
      match l, all_some (map get l) with
      | _ :: _, Some t =>
          if (2 * zmax (map top t) <? H63) && (Z.of_nat (length l) * s <? H63) then Some (zmax (map fst t), zmax (map snd t)) else None
      | _, _ => None
      end
  end.
(** The analysis of a program; a hint replaces the magnitude computed by the rule.  [None]: a number may not fit 64 bits. *)
Definition settle (hint : option Z) (b : bound) : option bound :=
  let m := match hint with Some m => m | None => fst b end in if m + snd b <? H63 then Some (m, snd b) else None.
Fixpoint analyse (s E : Z) (hints : list (option Z)) (prog : list instr) (bs : list bound) : option (list bound) :=
  match prog with
  | [] => Some bs
  | x :: r =>
      match rule s E x bs with
      | Some b => match settle (hd None hints) b with Some b' => analyse s E (tl hints) r (bs ++ [b']) | None => None end
      | None => None
      end
  end.
(** the hints bound the exact values *)
Fixpoint sound_hints (s : Z) (hints : list (option Z)) (prog : list instr) (qs : list Q) : Prop :=
  match prog with
  | [] => True
  | x :: r => match hd None hints with Some m => (Qabs (ideal x qs) <= ulps m s)%Q | None => True end /\ sound_hints s (tl hints) r (qs ++ [ideal x qs])
  end.
(** inputs: encrypted numbers of the default scale, what they stand for, magnitudes and errors *)
Definition represents (n : nat) (s : Z) (b : bound) (q : Q) (x : num) : Prop :=
  sharing n x /\ n_sc x = s /\ (Qabs (qval x - q) <= ulps (snd b) s)%Q /\ (Qabs q <= ulps (fst b) s)%Q /\ top b < H63.
Definition all_represent (n : nat) (s : Z) (bs : list bound) (qs : list Q) (xs : list num) : Prop :=
  length bs = length xs /\ length qs = length xs /\ forall i b, nth_error bs i = Some b -> represents n s b (nth i qs 0%Q) (nth i xs nil_num).

(** ** Lemmas on rational errors *)
Definition near (e v : Z) (X : Q) : Prop := (- inject_Z e <= inject_Z v - X <= inject_Z e)%Q.
Definition small (m : Z) (X : Q) : Prop := (- inject_Z m <= X <= inject_Z m)%Q.
Lemma small_abs_q m X : small m X <-> (Qabs X <= inject_Z m)%Q. Proof. unfold small. symmetry. apply Qabs_Qle_condition. Qed.
Lemma near_abs_q e v X : near e v X <-> (Qabs (inject_Z v - X) <= inject_Z e)%Q. Proof. unfold near. symmetry. apply Qabs_Qle_condition. Qed.
Lemma inject_sub a b : (inject_Z (a - b) == inject_Z a - inject_Z b)%Q.
Proof. unfold Z.sub. rewrite inject_Z_plus, inject_Z_opp. ring. Qed.
Lemma Zabs_inject v m : (- inject_Z m <= inject_Z v <= inject_Z m)%Q -> Z.abs v <= m.
Proof. rewrite <- inject_Z_opp, <- !Zle_Qle. lia. Qed.
Lemma near_top e m v X : near e v X -> small m X -> Z.abs v <= m + e.
Proof. unfold near, small. intros H H'. apply Zabs_inject. rewrite inject_Z_plus. lra. Qed.
Lemma small_nonneg m X : small m X -> 0 <= m.
Proof. unfold small. intros H. rewrite Zle_Qle. change (inject_Z 0) with 0%Q. lra. Qed.
Lemma near_nonneg e v X : near e v X -> 0 <= e.
Proof. unfold near. intros H. rewrite Zle_Qle. change (inject_Z 0) with 0%Q. lra. Qed.
Lemma small_ext m X Y : (X == Y)%Q -> small m X -> small m Y. Proof. unfold small. intros E H. rewrite <- E. exact H. Qed.
Lemma near_ext e v X Y : (X == Y)%Q -> near e v X -> near e v Y. Proof. unfold near. intros E H. rewrite <- E. exact H. Qed.
Lemma small_mul m m' X Y : small m X -> small m' Y -> small (m * m') (X * Y).
Proof.
  intros H H'. pose proof (small_nonneg _ _ H) as P. pose proof (small_nonneg _ _ H') as P'. rewrite small_abs_q in *. rewrite Qabs_Qmult, inject_Z_mult. apply Qle_trans with (Qabs X * inject_Z m')%Q.
  - rewrite (Qmult_comm (Qabs X)), (Qmult_comm (Qabs X)). apply Qmult_le_compat_r; [assumption|apply Qabs_nonneg].
  - apply Qmult_le_compat_r; [assumption|]. change 0%Q with (inject_Z 0). now rewrite <- Zle_Qle.
Qed.
Lemma small_int v : small (Z.abs v) (inject_Z v).
Proof. unfold small. rewrite <- inject_Z_opp, <- !Zle_Qle. lia. Qed.
Lemma small_weaken m m' X : small m X -> m <= m' -> small m' X.
Proof. unfold small. intros H L. rewrite Zle_Qle in L. lra. Qed.
Lemma near_mul e m v X f m' w Y : near e v X -> small m X -> near f w Y -> small m' Y -> near ((m + e) * f + m' * e) (v * w) (X * Y).
Proof.
  intros N S N' S'. pose proof (near_top _ _ _ _ N S) as T. pose proof (near_nonneg _ _ _ N') as F.
  assert (A : small ((m + e) * f) (inject_Z v * (inject_Z w - Y))) by (apply small_mul; [eapply small_weaken; [apply small_int|exact T]|exact N']).
  assert (B : small (m' * e) (Y * (inject_Z v - X))) by (apply small_mul; assumption).
  unfold near, small in *. rewrite inject_Z_mult, !inject_Z_plus. generalize dependent (inject_Z ((m + e) * f)). generalize dependent (inject_Z (m' * e)). intros b B a A.
  assert (R : (inject_Z v * inject_Z w - X * Y == inject_Z v * (inject_Z w - Y) + Y * (inject_Z v - X))%Q) by ring. rewrite R. lra.
Qed.
Lemma cdiv_ok a b : 0 < b -> a <= cdiv a b * b.
Proof. intros H. unfold cdiv. pose proof (Z.mul_succ_div_gt (a + b - 1) b H). nia. Qed.
(** a truncation: [q * d] is [v] within [E * d], and [v] is [d * X] within [B] *)
Lemma near_round q d v X E B : 0 < d -> Z.abs (q * d - v) < E * d -> near B v (inject_Z d * X) -> near (cdiv B d + E) q X.
Proof.
  intros Hd H N. pose proof (cdiv_ok B d Hd) as C. assert (P : (0 < inject_Z d)%Q) by now apply injZ_pos.
  assert (H1 : (- inject_Z (E * d) <= inject_Z q * inject_Z d - inject_Z v <= inject_Z (E * d))%Q) by (rewrite <- inject_Z_mult, <- inject_sub, <- inject_Z_opp, <- !Zle_Qle; lia).
  rewrite inject_Z_mult in H1. rewrite Zle_Qle, inject_Z_mult in C. unfold near in *. rewrite inject_Z_plus. set (c := inject_Z (cdiv B d)) in *. set (f := inject_Z E) in *. set (t := inject_Z d) in *. set (u := inject_Z q) in *. set (w := inject_Z v) in *.
  split.
  - apply (Qmult_le_r _ _ t P). setoid_replace ((u - X) * t)%Q with ((u * t - w) + (w - t * X))%Q by ring. setoid_replace (- (c + f) * t)%Q with (- (c * t) - f * t)%Q by ring. lra.
  - apply (Qmult_le_r _ _ t P). setoid_replace ((u - X) * t)%Q with ((u * t - w) + (w - t * X))%Q by ring. setoid_replace ((c + f) * t)%Q with (c * t + f * t)%Q by ring. lra.
Qed.
Lemma small_round m d X : 0 < d -> small m (inject_Z d * X) -> small (cdiv m d) X.
Proof.
  intros Hd S. pose proof (cdiv_ok m d Hd) as C. assert (P : (0 < inject_Z d)%Q) by now apply injZ_pos. rewrite Zle_Qle, inject_Z_mult in C. unfold small in *. set (c := inject_Z (cdiv m d)) in *. set (t := inject_Z d) in *. split.
  - apply (Qmult_le_r _ _ t P). setoid_replace (- c * t)%Q with (- (c * t))%Q by ring. setoid_replace (X * t)%Q with (t * X)%Q by ring. lra.
  - apply (Qmult_le_r _ _ t P). setoid_replace (X * t)%Q with (t * X)%Q by ring. lra.
Qed.
(** encoding a public number *)
Lemma near_encode s q : 0 < s -> near 1 (encodeQ s q) (inject_Z s * q).
Proof.
  intros Hs. destruct q as [a b]. unfold encodeQ. cbn [Qnum Qden]. destruct (quot_bound (s * a) (Z.pos b) ltac:(lia)) as (r & E1 & E2 & _). set (k := Z.quot (s * a) (Z.pos b)) in *.
  assert (F : (inject_Z k - inject_Z s * (a # b) == - (r # b))%Q) by (unfold Qeq, Qminus, Qplus, Qopp, Qmult, inject_Z; cbn [Qnum Qden]; rewrite !Pos.mul_1_l; nia).
  unfold near. rewrite F. split; unfold Qle, Qopp, inject_Z; cbn [Qnum Qden]; lia.
Qed.
Lemma weaker_lift {pr A} (m : run pr A) : weaker (lift m) (lift m). Proof. apply weaker_refl. Qed.

(** ** The rules are sound *)
Lemma all_some_spec {A} (l : list (option A)) t : all_some l = Some t -> l = map Some t.
Proof.
  revert t. induction l as [|[a|] l IH]; intros t H; cbn in H; [now injection H as <-| |discriminate]. destruct (all_some l) as [b|]; [|discriminate]. injection H as <-. cbn. f_equal. now apply IH.
Qed.
Lemma both_spec {A B} (a : option A) (b : option B) c : both a b = Some c -> a = Some (fst c) /\ b = Some (snd c).
Proof. destruct a, b; cbn; try discriminate. intros H. now injection H as <-. Qed.
Lemma zmax_ge l a : In a l -> a <= zmax l.
Proof. induction l as [|b l IH]; intros H; [contradiction|]. cbn [zmax fold_right]. fold (zmax l). destruct H as [->|H]; [lia|]. specialize (IH H). lia. Qed.
Lemma Qle_bool_false a b : Qle_bool a b = false -> (b < a)%Q.
Proof. intros H. apply Qnot_le_lt. intros H'. apply Qle_bool_iff in H'. congruence. Qed.
Ltac qcase := repeat match goal with
  | |- context [Qle_bool ?a ?b] => let Q := fresh in destruct (Qle_bool a b) eqn:Q; [apply Qle_bool_iff in Q|apply Qle_bool_false in Q]
  end.
Lemma qmaximum_spec l : l <> [] -> In (qmaximum l) l /\ forall a, In a l -> (a <= qmaximum l)%Q.
Proof.
  destruct l as [|x r]; [contradiction|]. intros _. cbn [qmaximum]. induction r as [|y r IH].
  - cbn. split; [now left|]. intros a [<-|[]]. apply Qle_refl.
  - destruct IH as [I M]. cbn [fold_right]. unfold qmax at 1 3. set (f := fold_right qmax x r) in *. qcase; (split; [cbn in *; tauto|]).
    + intros a [<-|[<-|Ha]]; [apply M; now left|assumption|apply M; now right].
    + intros a [<-|[<-|Ha]]; [|apply Qle_refl|]; apply Qlt_le_weak, (Qle_lt_trans _ f); try assumption; apply M; [now left|now right].
Qed.

Section Sound.
  Variable n : nat.
  Hypothesis Hn : (0 < n)%nat.
  Variable pr : provider.
  Hypothesis HV : valid n pr.
  Variables (s E : Z) (p : nat) (T : bool).
  Hypothesis HE : 1 <= E.
  Hypothesis HT : T = true -> n = 1%nat.
  Hypothesis Hp : (1 <= p <= 62)%nat.
  Hypothesis Hs : s = 2 ^ Z.of_nat p.
  Variable local_bits : run pr (list Z).
  Hypothesis Hlocal : yields local_bits (fun u => length u = n /\ Forall (fun z => 0 <= z < s) u /\ True).
  Variables log_steps cascade_steps isqrt : nat -> nat.
  Hypothesis Hsqrt : forall m, (2 <= m)%nat -> (1 <= isqrt m < m)%nat.
  Variable me : method.
  Local Notation st := (step (pr := pr) s p local_bits log_steps cascade_steps isqrt me (within E)).

  Lemma s1 : 1 < s.
  Proof. rewrite Hs. apply (Z.pow_gt_1 2); lia. Qed.
  Lemma s_ratio1 : ratio s s = 1.
  Proof. pose proof s1. unfold ratio. destruct (Z.eqb_spec s 1); [lia|]. apply Z.div_same. lia. Qed.
  Notation S := (inject_Z s).
  (** a number holding [v], close to [q] *)
  Definition holds (b : bound) (q : Q) (v : Z) : Prop := near (snd b) v (S * q) /\ small (fst b) (S * q) /\ top b < H63.
  Definition good (b : bound) (q : Q) (z : num) : Prop := exists v, nshare n v s z /\ holds b q v.
  Definition pre (b : bound) (q : Q) (z : num) : Prop := exists v, nshare n v s z /\ near (snd b) v (S * q) /\ small (fst b) (S * q).
  Lemma holds_top b q v : holds b q v -> Z.abs v <= top b. Proof. intros (N & M & _). exact (near_top _ _ _ _ N M). Qed.
  Lemma holds_in64 b q v : holds b q v -> in64 v.
  Proof. intros H. pose proof (holds_top _ _ _ H). destruct H as (_ & _ & F). unfold in64. lia. Qed.
  Lemma holds_pos b q v : holds b q v -> 0 <= fst b /\ 0 <= snd b /\ 0 <= top b.
  Proof. intros (N & M & _). pose proof (small_nonneg _ _ M). pose proof (near_nonneg _ _ _ N). unfold top. lia. Qed.

  Definition state (bs : list bound) (qs : list Q) (rs : list num) : Prop :=
    length bs = length rs /\ length qs = length rs /\ forall i b, nth_error bs i = Some b -> good b (value qs i) (reg rs i).

  Lemma hold_mul b q v c r w : holds b q v -> holds c r w -> near (product_error b c) (v * w) (S * (S * (q * r))) /\ small (fst b * fst c) (S * (S * (q * r))).
  Proof.
    intros (N & M & _) (N' & M' & _). assert (X : ((S * q) * (S * r) == S * (S * (q * r)))%Q) by ring. split.
    - eapply near_ext; [exact X|]. unfold product_error, top. now apply near_mul.
    - eapply small_ext; [exact X|]. now apply small_mul.
  Qed.
  Lemma small_encode q : small (Z.abs (encodeQ s q) + 1) (S * q).
  Proof. pose proof s1. pose proof (near_encode s q ltac:(lia)) as N. pose proof (small_int (encodeQ s q)) as M. unfold near, small in *. rewrite inject_Z_plus. change (inject_Z 1) with 1%Q in *. lra. Qed.
  Lemma hold_scale b q v r : holds b q v -> near (scaled_error b (encodeQ s r)) (v * encodeQ s r) (S * (S * (q * r))) /\ small (fst b * (Z.abs (encodeQ s r) + 1)) (S * (S * (q * r))).
  Proof.
    intros (N & M & _). pose proof s1. pose proof (near_encode s r ltac:(lia)) as N'. pose proof (small_encode r) as M'. assert (X : ((S * q) * (S * r) == S * (S * (q * r)))%Q) by ring. split.
    - eapply near_ext; [exact X|]. unfold scaled_error. set (k := encodeQ s r) in *.
      assert (A : small (Z.abs k * snd b) (inject_Z k * (inject_Z v - S * q))) by (apply small_mul; [apply small_int|exact N]).
      assert (B : small (fst b * 1) (S * q * (inject_Z k - S * r))) by (apply small_mul; assumption). rewrite Z.mul_1_r in B.
      unfold near, small in *. rewrite inject_Z_mult, inject_Z_plus. assert (R : (inject_Z v * inject_Z k - S * q * (S * r) == inject_Z k * (inject_Z v - S * q) + S * q * (inject_Z k - S * r))%Q) by ring. rewrite R. lra.
    - eapply small_ext; [exact X|]. now apply small_mul.
  Qed.

  (** products, already divided *)
  Lemma divv_good v z (Q0 : Q) B m : nshare n v s z -> in64 v -> near B v (S * (S * Q0)) -> small m (S * (S * Q0)) -> yo T (divv (pr := pr) (within E) z s) (pre (cdiv m s, cdiv B s + E) Q0).
  Proof.
    intros [Hz Sz] I N M. pose proof s1. eapply yo_weaken; [apply (divv_acc n Hn pr HV E T HE HT v z s); [lia|exact I|exact Hz]|]. rewrite Sz. intros y (q & Hq & _ & Bq). exists q. split; [exact Hq|]. cbn [fst snd]. split.
    - eapply near_round; [lia|exact Bq|exact N].
    - apply small_round; [lia|exact M].
  Qed.
  Lemma in64_abs v M : Z.abs v <= M -> M < H63 -> in64 v. Proof. unfold in64. lia. Qed.
  Lemma mulv_good b q c r x y : good b q x -> good c r y -> top b * top c < H63 -> yo T (mulv (pr := pr) (within E) x y) (pre (cdiv (fst b * fst c) s, cdiv (product_error b c) s + E) (q * r)).
  Proof.
    intros (v & [Hx Sx] & Hv) (w & [Hy Sy] & Hw) B. pose proof s1. unfold mulv. eapply (yo_lift _ _ _ (fun t => let '(a, b, c) := t in _)); [intros st0; exact (v_mul n pr HV st0)|]. intros [[a0 b0] c0] Ht. rewrite Sx, Sy. cbv zeta.
    unfold mul_rescale. replace (1 <? s) with true by (symmetry; apply Z.ltb_lt; lia). cbn [andb]. destruct (hold_mul _ _ _ _ _ _ Hv Hw) as [N M].
    apply (divv_good (v * w)); [split; [cbn [n_sh]; eapply (mul1_share n Hn); eassumption|reflexivity]| |exact N|exact M].
    apply (in64_abs _ (top b * top c)); [|exact B]. rewrite Z.abs_mul. pose proof (holds_top _ _ _ Hv). pose proof (holds_top _ _ _ Hw). apply Z.mul_le_mono_nonneg; lia.
  Qed.
  Lemma squarev_good b q x : good b q x -> top b * top b < H63 -> yo T (squarev (pr := pr) (within E) x) (pre (cdiv (fst b * fst b) s, cdiv (product_error b b) s + E) (q * q)).
  Proof.
    intros (v & [Hx Sx] & Hv) B. pose proof s1. unfold squarev. eapply (yo_lift _ _ _ (fun t => let '(r, r2) := t in _)); [intros st0; exact (v_square n pr HV st0)|]. intros [r r2] Hr. rewrite Sx. destruct (hold_mul _ _ _ _ _ _ Hv Hv) as [N M].
    assert (I : in64 (v * v)). { apply (in64_abs _ (top b * top b)); [|exact B]. rewrite Z.abs_mul. pose proof (holds_top _ _ _ Hv). apply Z.mul_le_mono_nonneg; lia. }
    eapply yo_bind; [eapply (divv_acc n Hn pr HV E T HE HT (v * v)); [lia|exact I|cbn [n_sh]; apply (square_share n Hn); assumption]|].
    intros z (k & [Hk _] & _ & Bk). apply yo_ok. exists k. split; [split; [exact Hk|reflexivity]|]. cbn [fst snd]. split; [eapply near_round; [lia|exact Bk|exact N]|apply small_round; [lia|exact M]].
  Qed.
  Lemma mulpv_good b q r x : good b q x -> top b * Z.abs (encodeQ s r) < H63 ->
    yo T (mulpv (pr := pr) (within E) x (encodeQ s r)) (pre (cdiv (fst b * (Z.abs (encodeQ s r) + 1)) s, cdiv (scaled_error b (encodeQ s r)) s + E) (q * r)).
  Proof.
    intros (v & [Hx Sx] & Hv) B. pose proof s1. unfold mulpv. cbv zeta. unfold mul_pub_rescale. rewrite Sx. replace (1 <? s) with true by (symmetry; apply Z.ltb_lt; lia). destruct (hold_scale _ _ _ r Hv) as [N M].
    apply (divv_good (v * encodeQ s r)); [split; [exact (proj1 (muli_num_ok n _ v s x (conj Hx Sx)))|reflexivity]| |exact N|exact M].
    apply (in64_abs _ _) with (2 := B). rewrite Z.abs_mul. apply Z.mul_le_mono_nonneg; try lia. exact (holds_top _ _ _ Hv).
  Qed.

  (** sums of products *)
  Record term := mkTerm { t_v : Z; t_top : Z; t_m : Z; t_e : Z; t_q : Q }.
  Definition okterm (t : term) : Prop := Z.abs (t_v t) <= t_top t /\ near (t_e t) (t_v t) (S * (S * t_q t)) /\ small (t_m t) (S * (S * t_q t)).
  Lemma terms_top l : Forall okterm l -> Z.abs (zsum (map t_v l)) <= zsum (map t_top l).
  Proof. induction 1 as [|t l (H & _) _ IH]; cbn [map zsum fold_right]; [lia|]. fold (zsum (map t_v l)). fold (zsum (map t_top l)). lia. Qed.
  Lemma terms_near l : Forall okterm l -> near (zsum (map t_e l)) (zsum (map t_v l)) (S * (S * sumQ (map t_q l))) /\ small (zsum (map t_m l)) (S * (S * sumQ (map t_q l))).
  Proof.
    induction 1 as [|t l (_ & N & M) _ [IN IM]]; cbn [map zsum fold_right sumQ].
    - split; [eapply (near_ext _ _ 0%Q); [ring|unfold near; change (inject_Z 0) with 0%Q; lra]|eapply (small_ext _ 0%Q); [ring|unfold small; change (inject_Z 0) with 0%Q; lra]].
    - fold (zsum (map t_v l)). fold (zsum (map t_e l)). fold (zsum (map t_m l)). fold (sumQ (map t_q l)). assert (X : (S * (S * t_q t) + S * (S * sumQ (map t_q l)) == S * (S * (t_q t + sumQ (map t_q l))))%Q) by ring.
      split; [eapply near_ext; [exact X|]|eapply small_ext; [exact X|]]; unfold near, small in *; rewrite !inject_Z_plus; lra.
  Qed.
  Lemma sum_terms ts zs : ts <> [] -> Forall okterm ts -> Forall2 (fun t z => nshare n (t_v t) s z) ts zs -> zsum (map t_top ts) < H63 ->
    yo T (divv (pr := pr) (within E) (mkNum (n_sh (sum_num zs)) s) s) (pre (cdiv (zsum (map t_m ts)) s, cdiv (zsum (map t_e ts)) s + E) (sumQ (map t_q ts))).
  Proof.
    intros Ne F F2 B. destruct (terms_near _ F) as [N M]. pose proof (terms_top _ F) as A. apply (divv_good (zsum (map t_v ts))); [|unfold in64; lia|exact N|exact M].
    assert (G : Forall2 (fun v x => nshare n v s x) (map t_v ts) zs) by now apply Forall2_map_l.
    assert (Ne' : map t_v ts <> []) by (destruct ts; [contradiction|discriminate]). split; [|reflexivity]. exact (proj1 (sum_num_ok n s _ _ Ne' G)).
  Qed.

  Lemma state_get bs qs rs i b : state bs qs rs -> nth_error bs i = Some b -> good b (value qs i) (reg rs i).
  Proof. intros (_ & _ & H). apply H. Qed.
  Lemma pre_ok b q v z : nshare n v s z -> near (snd b) v (S * q) -> small (fst b) (S * q) -> pre b q z. Proof. intros. exists v. auto. Qed.
  (** the facts about a list of registers *)
  Lemma gets bs qs rs : state bs qs rs -> forall l t, map (nth_error bs) l = map Some t ->
    exists vs, Forall2 (fun v z => nshare n v s z) vs (map (reg rs) l) /\ Forall2 (fun bq v => holds (fst bq) (snd bq) v) (combine t (map (value qs) l)) vs /\ length t = length l.
  Proof.
    intros H. induction l as [|i l IH]; intros [|b t] Hl; cbn in Hl; try discriminate; [exists []; repeat constructor|]. injection Hl as Hi Hl. destruct (IH t Hl) as (vs & A & B & L). destruct (state_get _ _ _ _ _ H Hi) as (v & Hv & Gv).
    exists (v :: vs). cbn [map combine]. split; [now constructor|]. split; [constructor; [exact Gv|exact B]|cbn; congruence].
  Qed.
  Lemma dotv_good bs qs rs l t : state bs qs rs -> map (fun ij => both (nth_error bs (fst ij)) (nth_error bs (snd ij))) l = map Some t ->
    exists ts, Forall okterm ts /\ map t_top ts = map (fun bc => top (fst bc) * top (snd bc)) t /\ map t_m ts = map (fun bc => fst (fst bc) * fst (snd bc)) t /\ map t_e ts = map (fun bc => product_error (fst bc) (snd bc)) t /\
      map t_q ts = map (fun ij => value qs (fst ij) * value qs (snd ij))%Q l /\
      yo T (mapO (rawv (pr := pr)) (map (fun ij => (reg rs (fst ij), reg rs (snd ij))) l)) (fun zs => Forall2 (fun t z => nshare n (t_v t) s z) ts zs).
  Proof.
    intros H. revert t. induction l as [|[i j] l IH]; intros [|[b c] t] Hl; cbn [map fst snd] in Hl; try discriminate.
    - exists []. repeat split; [constructor|]. cbn [map mapO]. apply yo_ok. constructor.
    - injection Hl as Hb Hl. destruct (both_spec _ _ _ Hb) as [Hi Hj]. cbn [fst snd] in Hi, Hj. destruct (IH t Hl) as (ts & F & A1 & A2 & A3 & A4 & Y). clear IH.
      destruct (state_get _ _ _ _ _ H Hi) as (v & [Hx Sx] & Gv). destruct (state_get _ _ _ _ _ H Hj) as (w & [Hy Sy] & Gw). destruct (hold_mul _ _ _ _ _ _ Gv Gw) as [N M].
      exists (mkTerm (v * w) (top b * top c) (fst b * fst c) (product_error b c) (value qs i * value qs j) :: ts). cbn [map fst snd t_top t_m t_e t_q]. rewrite A1, A2, A3, A4.
      split. { constructor; [|exact F]. split; [|split; assumption]. cbn [t_v t_top]. rewrite Z.abs_mul. pose proof (holds_top _ _ _ Gv). pose proof (holds_top _ _ _ Gw). apply Z.mul_le_mono_nonneg; lia. }
      do 4 (split; [reflexivity|]). cbn [mapO]. eapply (yo_bind _ _ _ (fun z => nshare n (v * w) s z)).
      + unfold rawv. cbn [fst snd]. eapply (yo_lift _ _ _ (fun t => let '(a, b, c) := t in _)); [intros st0; exact (v_mul n pr HV st0)|]. intros [[a0 b0] c0] Ht. apply yo_ok. split; [cbn [n_sh]; eapply (mul1_share n Hn); eassumption|exact Sx].
      + intros z Hz. eapply yo_bind; [exact Y|]. intros zs Hzs. apply yo_ok. constructor; [exact Hz|exact Hzs].
  Qed.
  Lemma dotpv_good bs qs rs l t : state bs qs rs -> map (fun iq : nat * Q => both (nth_error bs (fst iq)) (Some (encodeQ s (snd iq)))) l = map Some t ->
    exists ts, Forall okterm ts /\ map t_top ts = map (fun bk => top (fst bk) * Z.abs (snd bk)) t /\ map t_m ts = map (fun bk => fst (fst bk) * (Z.abs (snd bk) + 1)) t /\ map t_e ts = map (fun bk => scaled_error (fst bk) (snd bk)) t /\
      map t_q ts = map (fun iq => value qs (fst iq) * snd iq)%Q l /\
      Forall2 (fun t z => nshare n (t_v t) s z) ts (map (fun xq => mkNum (mul_int (encodeQ s (snd xq)) (n_sh (fst xq))) s) (map (fun iq => (reg rs (fst iq), snd iq)) l)).
  Proof.
    intros H. revert t. induction l as [|[i q] l IH]; intros [|[b k] t] Hl; cbn [map fst snd] in Hl; try discriminate.
    - exists []. repeat split; constructor.
    - injection Hl as Hb Hl. destruct (both_spec _ _ _ Hb) as [Hi Hk]. cbn [fst snd] in Hi, Hk. injection Hk as <-. destruct (IH t Hl) as (ts & F & A1 & A2 & A3 & A4 & Y). clear IH.
      destruct (state_get _ _ _ _ _ H Hi) as (v & [Hx Sx] & Gv). destruct (hold_scale _ _ _ q Gv) as [N M].
      exists (mkTerm (v * encodeQ s q) (top b * Z.abs (encodeQ s q)) (fst b * (Z.abs (encodeQ s q) + 1)) (scaled_error b (encodeQ s q)) (value qs i * q) :: ts). cbn [map fst snd t_top t_m t_e t_q]. rewrite A1, A2, A3, A4.
      split. { constructor; [|exact F]. split; [|split; assumption]. cbn [t_v t_top]. rewrite Z.abs_mul. apply Z.mul_le_mono_nonneg; try lia. exact (holds_top _ _ _ Gv). }
      do 4 (split; [reflexivity|]). constructor; [|exact Y]. cbn [t_v]. split; [|reflexivity]. exact (proj1 (muli_num_ok n _ v s _ (conj Hx Sx))).
  Qed.
  Lemma sum_facts t : forall qs vs, length t = length qs -> Forall2 (fun bq v => holds (fst bq) (snd bq) v) (combine t qs) vs ->
    near (zsum (map snd t)) (zsum vs) (S * sumQ qs) /\ small (zsum (map fst t)) (S * sumQ qs).
  Proof.
    induction t as [|b t IH]; intros [|q qs] vs L F; try discriminate; cbn [combine] in F.
    - inversion F; subst. cbn [map zsum fold_right sumQ]. split; [eapply (near_ext _ _ 0%Q); [ring|unfold near; change (inject_Z 0) with 0%Q; lra]|eapply (small_ext _ 0%Q); [ring|unfold small; change (inject_Z 0) with 0%Q; lra]].
    - inversion F as [|? v ? vs' (N & M & _) F']; subst. cbn [fst snd] in N, M. destruct (IH qs vs' ltac:(cbn in L; congruence) F') as [IN IM]. cbn [map zsum fold_right sumQ].
      fold (zsum (map snd t)). fold (zsum (map fst t)). fold (zsum vs'). fold (sumQ qs). assert (X : (S * q + S * sumQ qs == S * (q + sumQ qs))%Q) by ring.
      split; [eapply near_ext; [exact X|]|eapply small_ext; [exact X|]]; unfold near, small in *; rewrite !inject_Z_plus; lra.
  Qed.
  Lemma max_facts t qs vs m : length t = length qs -> Forall2 (fun bq v => holds (fst bq) (snd bq) v) (combine t qs) vs -> vs <> [] -> is_max m vs ->
    near (zmax (map snd t)) m (S * qmaximum qs) /\ small (zmax (map fst t)) (S * qmaximum qs).
  Proof.
    intros L F Ne [I M]. assert (P : (0 < S)%Q) by (apply injZ_pos; pose proof s1; lia).
    assert (Nq : qs <> []) by (destruct qs; [destruct t; [inversion F; subst; contradiction|discriminate]|discriminate]). destruct (qmaximum_spec qs Nq) as [Iq Mq]. set (Q0 := qmaximum qs) in *.
    assert (G : forall k, (k < length vs)%nat -> near (zmax (map snd t)) (nth k vs 0) (S * nth k qs 0%Q) /\ small (zmax (map fst t)) (S * nth k qs 0%Q) /\ In (nth k qs 0%Q) qs).
    { intros k Hk. assert (Lv : length vs = length t) by (rewrite <- (Forall2_length _ _ _ F), combine_length; lia).
      assert (H : holds (fst (nth k (combine t qs) ((0, 0), 0%Q))) (snd (nth k (combine t qs) ((0, 0), 0%Q))) (nth k vs 0)).
      { clear - F Hk. revert k Hk. induction F as [|a v l vs H F IH]; intros k Hk; [cbn in Hk; lia|]. destruct k; [exact H|]. cbn. apply IH. cbn in Hk. lia. }
      rewrite combine_nth in H by assumption. cbn [fst snd] in H. destruct H as (N & M' & _). 
      assert (In (nth k t (0, 0)) t) as It by (apply nth_In; lia).
      pose proof (zmax_ge _ _ (in_map snd _ _ It)) as Z1. pose proof (zmax_ge _ _ (in_map fst _ _ It)) as Z2. rewrite Zle_Qle in Z1, Z2. unfold near, small in *. split; [lra|]. split; [lra|]. apply nth_In. lia. }
    destruct (In_nth _ _ 0 I) as (k & Hk & Ek). destruct (G k Hk) as (N & _ & Ik). rewrite Ek in N. destruct (In_nth _ _ 0%Q Iq) as (j & Hj & Ej).
    assert (Hj' : (j < length vs)%nat) by (rewrite <- (Forall2_length _ _ _ F), combine_length; lia). destruct (G j Hj') as (N' & S' & _). rewrite Ej in N', S'. split; [|exact S'].
    specialize (M (nth j vs 0) (nth_In _ _ Hj')). rewrite Zle_Qle in M. pose proof (Mq _ Ik) as L1. apply (Qmult_le_l _ _ _ P) in L1. unfold near in *. lra.
  Qed.

  Lemma yo_lift1 {A} (m : run pr A) (P : A -> Prop) : yields m P -> yo T (lift m) P.
  Proof. intros H st0. specialize (H st0). unfold lift, bind. destruct (m st0). exact H. Qed.
  Lemma rule_ok x bs qs rs b : state bs qs rs -> rule s E x bs = Some b -> yo T (st x rs) (pre b (ideal x qs)).
  Proof.
    intros H R. pose proof s1 as S1. assert (P : (0 < S)%Q) by (apply injZ_pos; lia).
    destruct x as [i j|i j|i|i k|i q|i k|i q|i j|i|i d|l|l|l|i|i|i lo hi|l]; cbn [rule] in R; cbn [step ideal].
    - destruct (both _ _) as [[b1 b2]|] eqn:Eb; [|discriminate]. injection R as <-. apply both_spec in Eb as [Hi Hj]. cbn [fst snd] in Hi, Hj.
      destruct (state_get _ _ _ _ _ H Hi) as (v & Hx & (Nv & Mv & _)). destruct (state_get _ _ _ _ _ H Hj) as (w & Hy & (Nw & Mw & _)). apply yo_ok, (pre_ok _ _ (v + w)); [now apply add_enc_ok| |]; cbn [fst snd].
      + eapply (near_ext _ _ (S * value qs i + S * value qs j)%Q); [ring|]. unfold near in *. rewrite !inject_Z_plus. lra.
      + eapply (small_ext _ (S * value qs i + S * value qs j)%Q); [ring|]. unfold small in *. rewrite !inject_Z_plus. lra.
    - destruct (both _ _) as [[b1 b2]|] eqn:Eb; [|discriminate]. injection R as <-. apply both_spec in Eb as [Hi Hj]. cbn [fst snd] in Hi, Hj.
      destruct (state_get _ _ _ _ _ H Hi) as (v & Hx & (Nv & Mv & _)). destruct (state_get _ _ _ _ _ H Hj) as (w & Hy & (Nw & Mw & _)). apply yo_ok, (pre_ok _ _ (v - w)); [now apply sub_enc_ok| |]; cbn [fst snd].
      + eapply (near_ext _ _ (S * value qs i - S * value qs j)%Q); [ring|]. unfold near in *. rewrite inject_sub, !inject_Z_plus. lra.
      + eapply (small_ext _ (S * value qs i - S * value qs j)%Q); [ring|]. unfold small in *. rewrite !inject_Z_plus. lra.
    - destruct (state_get _ _ _ _ _ H R) as (v & Hx & (Nv & Mv & _)). apply yo_ok, (pre_ok _ _ (- v)); [now apply neg_num_ok| |].
      + eapply (near_ext _ _ (- (S * value qs i))%Q); [ring|]. unfold near in *. rewrite inject_Z_opp. lra.
      + eapply (small_ext _ (- (S * value qs i))%Q); [ring|]. unfold small in *. lra.
    - destruct (nth_error bs i) as [b1|] eqn:Hi; [|discriminate]. injection R as <-. destruct (state_get _ _ _ _ _ H Hi) as (v & Hx & (Nv & Mv & _)). apply yo_ok, (pre_ok _ _ (v + k * s)); [now apply add_int_ok| |]; cbn [fst snd].
      + eapply (near_ext _ _ (S * value qs i + S * inject_Z k)%Q); [ring|]. unfold near in *. rewrite inject_Z_plus, inject_Z_mult. setoid_replace (inject_Z k * S)%Q with (S * inject_Z k)%Q by ring. lra.
      + eapply (small_ext _ (S * value qs i + S * inject_Z k)%Q); [ring|]. pose proof (small_mul _ _ _ _ (small_int s) (small_int k)) as Mk. rewrite (Z.abs_eq s) in Mk by lia. unfold small in *. rewrite inject_Z_plus. lra.
    - destruct (nth_error bs i) as [b1|] eqn:Hi; [|discriminate]. injection R as <-. destruct (state_get _ _ _ _ _ H Hi) as (v & Hx & (Nv & Mv & _)). apply yo_ok, (pre_ok _ _ (v + encodeQ s q)); [exact (add_public n Hn v s _ (AFloat q) I Hx)| |]; cbn [fst snd].
      + pose proof (near_encode s q ltac:(lia)) as Nq. eapply (near_ext _ _ (S * value qs i + S * q)%Q); [ring|]. unfold near in *. rewrite !inject_Z_plus. lra.
      + pose proof (small_encode q) as Mq. eapply (small_ext _ (S * value qs i + S * q)%Q); [ring|]. unfold small in *. rewrite !inject_Z_plus in *. lra.
    - destruct (nth_error bs i) as [b1|] eqn:Hi; [|discriminate]. injection R as <-. destruct (state_get _ _ _ _ _ H Hi) as (v & Hx & (Nv & Mv & _)). apply yo_ok, (pre_ok _ _ (v * k)); [now apply muli_num_ok| |]; cbn [fst snd].
      + pose proof (small_mul _ _ _ _ Nv (small_int k)) as Nk. eapply (near_ext _ _ (S * value qs i * inject_Z k)%Q); [ring|]. unfold near, small in *. rewrite !inject_Z_mult in *. setoid_replace (inject_Z v * inject_Z k - S * value qs i * inject_Z k)%Q with ((inject_Z v - S * value qs i) * inject_Z k)%Q by ring. exact Nk.
      + eapply (small_ext _ (S * value qs i * inject_Z k)%Q); [ring|]. apply small_mul; [exact Mv|apply small_int].
    - destruct (nth_error bs i) as [b1|] eqn:Hi; [|discriminate]. destruct (Z.ltb_spec (top b1 * Z.abs (encodeQ s q)) H63) as [B|]; [|discriminate]. injection R as <-. pose proof (state_get _ _ _ _ _ H Hi) as G.
      assert (Sx : n_sc (reg rs i) = s) by (destruct G as (v & [_ Sx] & _); exact Sx). rewrite Sx. now apply mulpv_good.
    - destruct (both _ _) as [[b1 b2]|] eqn:Eb; [|discriminate]. destruct (Z.ltb_spec (top b1 * top b2) H63) as [B|]; [|discriminate]. injection R as <-. apply both_spec in Eb as [Hi Hj]. cbn [fst snd] in Hi, Hj. apply mulv_good; [now apply (state_get bs)|now apply (state_get bs)|exact B].
    - destruct (nth_error bs i) as [b1|] eqn:Hi; [|discriminate]. destruct (Z.ltb_spec (top b1 * top b1) H63) as [B|]; [|discriminate]. injection R as <-. apply squarev_good; [now apply (state_get bs)|exact B].
    - destruct (nth_error bs i) as [b1|] eqn:Hi; [|discriminate]. destruct (Z.ltb_spec 0 d) as [Hd|]; [|discriminate]. injection R as <-. destruct (state_get _ _ _ _ _ H Hi) as (v & [Hx Sx] & Hv). pose proof (holds_in64 _ _ _ Hv) as Iv. destruct Hv as (Nv & Mv & _).
      assert (X : (S * value qs i == inject_Z d * (S * (value qs i / inject_Z d)))%Q) by (field; apply injZ_nz, Hd).
      eapply yo_weaken; [apply (divv_acc n Hn pr HV E T HE HT v _ d); [exact Hd|exact Iv|exact Hx]|]. rewrite Sx. intros y (q & Hq & _ & Bq). apply (pre_ok _ _ q); [exact Hq| |]; cbn [fst snd].
      + eapply near_round; [exact Hd|exact Bq|]. eapply near_ext; [exact X|exact Nv].
      + apply small_round; [exact Hd|]. eapply small_ext; [exact X|exact Mv].
    - destruct l as [|ij l]; [discriminate|]. destruct (all_some _) as [t|] eqn:Et; [|discriminate]. destruct (Z.ltb_spec (zsum (map (fun bc => top (fst bc) * top (snd bc)) t)) H63) as [B|]; [|discriminate]. injection R as <-.
      apply all_some_spec in Et. destruct (dotv_good bs qs rs (ij :: l) t H Et) as (ts & F & A1 & A2 & A3 & A4 & Y). rewrite <- A1 in B. rewrite <- A2, <- A3, <- A4.
      unfold dotv. eapply yo_bind; [exact Y|]. intros zs Hzs. cbn [map]. destruct (state_get bs qs rs (fst ij) (fst (hd ((0,0),(0,0)) t)) H) as (v1 & [_ Sx1] & _); [destruct t; [discriminate|]; injection Et as Eb _; apply both_spec in Eb; apply Eb|].
      destruct (state_get bs qs rs (snd ij) (snd (hd ((0,0),(0,0)) t)) H) as (v2 & [_ Sx2] & _); [destruct t; [discriminate|]; injection Et as Eb _; apply both_spec in Eb; apply Eb|].
      rewrite Sx1, Sx2. unfold mul_rescale. replace (1 <? s) with true by (symmetry; apply Z.ltb_lt; lia). cbn [andb]. apply sum_terms; [|exact F|exact Hzs|exact B]. destruct ts; [destruct t; discriminate|discriminate].
    - destruct l as [|ij l]; [discriminate|]. destruct (all_some _) as [t|] eqn:Et; [|discriminate]. destruct (Z.ltb_spec (zsum (map (fun bc => top (fst bc) * Z.abs (snd bc)) t)) H63) as [B|]; [|discriminate]. injection R as <-.
      apply all_some_spec in Et. destruct (dotpv_good bs qs rs (ij :: l) t H Et) as (ts & F & A1 & A2 & A3 & A4 & Y). rewrite <- A1 in B. rewrite <- A2, <- A3, <- A4.
      unfold dotpv. cbn [map] in Y |- *. destruct (state_get bs qs rs (fst ij) (fst (hd ((0,0),0) t)) H) as (v1 & [_ Sx1] & _); [destruct t; [discriminate|]; injection Et as Eb _; apply both_spec in Eb; apply Eb|].
      rewrite Sx1. cbv zeta. cbn [map fst snd] in Y |- *. unfold mul_pub_rescale. replace (1 <? s) with true by (symmetry; apply Z.ltb_lt; lia). apply sum_terms; [|exact F|exact Y|exact B]. destruct ts; [destruct t; discriminate|discriminate].
    - destruct l as [|i l]; [discriminate|]. destruct (all_some _) as [t|] eqn:Et; [|discriminate]. injection R as <-. apply all_some_spec in Et. destruct (gets bs qs rs H (i :: l) t Et) as (vs & A & B & L).
      destruct (sum_facts t (map (value qs) (i :: l)) vs ltac:(now rewrite map_length) B) as [N M]. apply yo_ok, (pre_ok _ _ (zsum vs)); [apply sum_num_ok; [inversion A; discriminate|exact A]|exact N|exact M].
    - pose proof (state_get _ _ _ _ _ H R) as (v & Hx & Hv). pose proof (holds_in64 _ _ _ Hv) as Iv. destruct Hv as (Nv & Mv & _). apply yo_lift1. eapply yields_weaken; [apply (n_relu_ok n Hn pr HV s v s); [lia|apply s_ratio1|exact Iv|exact Hx]|].
      intros z Hz. apply (pre_ok _ _ _ _ Hz); unfold qrelu.
      + unfold near in *. destruct (Z.max_spec v 0) as [[L ->]|[L ->]]; qcase.
        * rewrite Zlt_Qlt in L. change (inject_Z 0) with 0%Q in *. apply (Qmult_le_l _ _ _ P) in H0. rewrite Qmult_0_r in H0. lra.
        * setoid_replace (S * 0)%Q with 0%Q by ring. change (inject_Z 0) with 0%Q. lra.
        * exact Nv.
        * rewrite Zle_Qle in L. change (inject_Z 0) with 0%Q in *. apply (Qmult_lt_l _ _ _ P) in H0. rewrite Qmult_0_r in H0. setoid_replace (S * 0)%Q with 0%Q by ring. lra.
      + unfold small in *. qcase; [exact Mv|]. setoid_replace (S * 0)%Q with 0%Q by ring. lra.
    - pose proof (state_get _ _ _ _ _ H R) as (v & Hx & Hv). pose proof (holds_in64 _ _ _ Hv) as Iv. destruct Hv as (Nv & Mv & _). apply yo_lift1. eapply yields_weaken; [apply (n_abs_ok n Hn pr HV s v s); [lia|apply s_ratio1|exact Iv|exact Hx]|].
      intros z Hz. apply (pre_ok _ _ _ _ Hz).
      + unfold near in *. rewrite <- Qabs_injZ. assert (X : (S * Qabs (value qs i) == Qabs (S * value qs i))%Q) by (rewrite Qabs_Qmult, (Qabs_pos S) by lra; reflexivity). rewrite X.
        apply Qabs_Qle_condition. apply Qabs_Qle_condition in Nv. eapply Qle_trans; [|exact Nv]. apply Qabs_Qle_condition. split; [|apply Qabs_triangle_reverse].
        pose proof (Qabs_triangle_reverse (S * value qs i) (inject_Z v)) as Y. assert (Z0 : (Qabs (S * value qs i - inject_Z v) == Qabs (inject_Z v - S * value qs i))%Q) by (rewrite Qabs_Qminus; reflexivity). rewrite Z0 in Y. lra.
      + apply (proj2 (small_abs_q _ _)). assert (X : (S * Qabs (value qs i) == Qabs (S * value qs i))%Q) by (rewrite Qabs_Qmult, (Qabs_pos S) by lra; reflexivity). rewrite X, (Qabs_pos (Qabs (S * value qs i)) (Qabs_nonneg _)). apply (proj1 (small_abs_q _ _)). exact Mv.
    - destruct (nth_error bs i) as [b1|] eqn:Hi; [|discriminate]. set (k := Z.max (Z.abs (encodeQ s lo)) (Z.abs (encodeQ s hi))) in *. destruct (Qle_bool lo hi) eqn:QL; [apply Qle_bool_iff in QL|discriminate]. destruct (Z.leb_spec (encodeQ s lo) (encodeQ s hi)) as [EL|]; [|discriminate]. cbn [andb] in R.
      destruct (Z.ltb_spec (top b1 + k) H63) as [B|]; [|discriminate]. injection R as <-. destruct (state_get _ _ _ _ _ H Hi) as (v & Hx & Hv). pose proof (holds_top _ _ _ Hv) as Tv. destruct Hv as (Nv & Mv & _).
      pose proof (near_encode s lo ltac:(lia)) as Nl. pose proof (near_encode s hi ltac:(lia)) as Nh. pose proof (small_encode lo) as Ml. pose proof (small_encode hi) as Mh. set (a := encodeQ s lo) in *. set (h := encodeQ s hi) in *.
      apply yo_lift1. eapply yields_weaken; [apply (hardtanh_ok n Hn pr HV s v s _ (AFloat lo) (AFloat hi)); [lia|apply s_ratio1|exact Hx|exact I|exact I| |]; cbn [aval]; fold a h; unfold in64; lia|]. cbn [aval]. fold a h.
      intros z Hz. apply (pre_ok _ _ _ _ Hz); cbn [fst snd].
      + set (m := Z.max (snd b1) 1). assert (m1 : (1 <= inject_Z m)%Q) by (change 1%Q with (inject_Z 1); rewrite <- Zle_Qle; lia). assert (m2 : (inject_Z (snd b1) <= inject_Z m)%Q) by (rewrite <- Zle_Qle; lia).
        apply (Qmult_le_l _ _ _ P) in QL. rewrite Zle_Qle in EL. unfold near in *. change (inject_Z 1) with 1%Q in *. unfold qclamp.
        assert (C : Z.max (v - a) 0 - Z.max (v - h) 0 + a = a /\ v <= a \/ Z.max (v - a) 0 - Z.max (v - h) 0 + a = h /\ h <= v \/ Z.max (v - a) 0 - Z.max (v - h) 0 + a = v /\ a <= v <= h) by (rewrite <- Zle_Qle in EL; lia).
        rewrite !Zle_Qle in C. qcase; repeat match goal with K : (_ <= _)%Q |- _ => match type of K with (?x <= ?y)%Q => match x with value _ _ => apply (Qmult_le_l _ _ _ P) in K | hi => apply (Qmult_le_l _ _ _ P) in K end end | K : (_ < _)%Q |- _ => match type of K with (?x < ?y)%Q => match x with value _ _ => apply (Qmult_lt_l _ _ _ P) in K | lo => apply (Qmult_lt_l _ _ _ P) in K end end end;
        destruct C as [[-> C]|[[-> C]|[-> C]]]; lra.
      + unfold qclamp, k. assert (k1 : (inject_Z (Z.abs a + 1) <= inject_Z (Z.max (Z.abs a) (Z.abs h) + 1))%Q) by (rewrite <- Zle_Qle; lia). assert (k2 : (inject_Z (Z.abs h + 1) <= inject_Z (Z.max (Z.abs a) (Z.abs h) + 1))%Q) by (rewrite <- Zle_Qle; lia). unfold small in *. qcase; try lra.
        apply (Qmult_lt_l _ _ _ P) in H0, H1. lra.
    - destruct l as [|i l]; [discriminate|]. destruct (all_some _) as [t|] eqn:Et; [|discriminate]. destruct (Z.ltb_spec (2 * zmax (map top t)) H63) as [B1|]; [|discriminate]. destruct (Z.ltb_spec (Z.of_nat (length (i :: l)) * s) H63) as [B2|]; [|discriminate]. injection R as <-. apply all_some_spec in Et. destruct (gets bs qs rs H (i :: l) t Et) as (vs & A & B & L).
      assert (Ne : vs <> []) by (inversion A; discriminate). assert (Lv : length vs = length (i :: l)) by (apply Forall2_length in A; now rewrite map_length in A).
      assert (Bv : forall v, In v vs -> Z.abs v <= zmax (map top t)).
      { clear - B L. revert B. generalize (map_length (value qs) (i :: l)). generalize (map (value qs) (i :: l)). rewrite <- L. clear L. intros q0 Lq F. revert q0 Lq vs F. induction t as [|b t IH]; intros [|q q0] Lq vs F; try discriminate; cbn [combine] in F; inversion F as [|? w ? vs' Hw F']; subst; intros v Hv; [contradiction|].
        cbn [map zmax fold_right]. fold (zmax (map top t)). destruct Hv as [->|Hv]; [pose proof (holds_top _ _ _ Hw); cbn [fst] in *; lia|]. specialize (IH q0 ltac:(cbn in Lq; congruence) vs' F' v Hv). lia. }
      eapply (yo_lift _ _ _ (fun r => exists k, (k < length vs)%nat /\ is_max (nth k vs 0) vs /\ nshare n (nth k vs 0) s (fst r))).
      + eapply yields_weaken; [apply (max_dim_ok n Hn pr HV s ltac:(lia) p Hp Hs local_bits (fun _ => True) Hlocal s (or_intror eq_refl) vs) with (vs := vs)|].
        * intros a c Ha Hc. pose proof (Bv a Ha). pose proof (Bv c Hc). unfold in64. lia.
        * exact Hsqrt.
        * clear - A. assert (forall V, incl vs V -> Forall2 (rep n s V) vs (map (reg rs) (i :: l))) as G; [|apply G, incl_refl]. induction A as [|v z vs zs Hv A IH]; intros V HI; constructor; [split; [apply HI; now left|exact Hv]|apply IH; intros a Ha; apply HI; now right].
        * exact Ne.
        * rewrite Lv. unfold eqf. destruct (Nat.eqb n 2); [rewrite Z.div_same by lia|]; lia.
        * intros r (k & Hk & M & Hz & _). exists k. auto.
      + intros r (k & Hk & M & Hz). apply yo_ok. destruct (max_facts t (map (value qs) (i :: l)) vs _ ltac:(now rewrite map_length) B Ne M) as [N0 M0]. exact (pre_ok (zmax (map fst t), zmax (map snd t)) _ _ _ Hz N0 M0).
  Qed.

  Lemma state_push bs qs rs b q z : state bs qs rs -> good b q z -> state (bs ++ [b]) (qs ++ [q]) (rs ++ [z]).
  Proof.
    intros (L1 & L2 & H) G. split; [rewrite !app_length; cbn; lia|]. split; [rewrite !app_length; cbn; lia|]. intros i c Hc. unfold value, reg. destruct (Nat.lt_ge_cases i (length bs)) as [Hi|Hi].
    - rewrite nth_error_app1 in Hc by assumption. rewrite !app_nth1 by lia. now apply H.
    - rewrite nth_error_app2 in Hc by assumption. rewrite !app_nth2 by lia. replace (length qs) with (length bs) by lia. replace (length rs) with (length bs) by lia. destruct (i - length bs)%nat; [|destruct n0; discriminate]. injection Hc as <-. exact G.
  Qed.
  Lemma settle_good hint b b' q z : settle hint b = Some b' -> match hint with Some m => (Qabs q <= ulps m s)%Q | None => True end -> pre b q z -> good b' q z.
  Proof.
    unfold settle. intros R Hh (v & Hz & N & M). cbv zeta in R. destruct (Z.ltb_spec ((match hint with Some m => m | None => fst b end) + snd b) H63) as [F|]; [|discriminate]. injection R as <-. exists v. split; [exact Hz|]. split; [exact N|]. split; [|exact F]. cbn [fst].
    destruct hint as [m|]; [|exact M]. apply (proj2 (small_abs_q _ _)). pose proof s1. assert (P : (0 < S)%Q) by (apply injZ_pos; lia). rewrite Qabs_Qmult, (Qabs_pos S) by lra.
    apply (Qmult_le_l _ _ _ P) in Hh. unfold ulps in Hh. setoid_replace (S * (inject_Z m / S))%Q with (inject_Z m) in Hh by (field; lra). exact Hh.
  Qed.
  Lemma exec_good prog : forall hints bs qs rs bs', state bs qs rs -> analyse s E hints prog bs = Some bs' -> sound_hints s hints prog qs ->
    yo T (exec (pr := pr) s p local_bits log_steps cascade_steps isqrt me (within E) prog rs) (state bs' (ideals prog qs)).
  Proof.
    induction prog as [|x prog IH]; intros hints bs qs rs bs' H A Hh; cbn [analyse exec ideals sound_hints] in *; [injection A as <-; now apply yo_ok|].
    destruct (rule s E x bs) as [b|] eqn:R; [|discriminate]. destruct (settle (hd None hints) b) as [b'|] eqn:Rs; [|discriminate]. destruct Hh as [Hh1 Hh2].
    eapply yo_bind; [exact (rule_ok x bs qs rs b H R)|]. intros z Hz. apply (IH (tl hints) (bs ++ [b'])); [|exact A|exact Hh2]. apply state_push; [exact H|]. now apply (settle_good (hd None hints) b).
  Qed.
  Lemma represents_good b q x : represents n s b q x <-> good b q x.
  Proof.
    pose proof s1. assert (P : (0 < S)%Q) by (apply injZ_pos; lia).
    assert (C : forall k (Y : Q), (Qabs Y <= ulps k s)%Q <-> (Qabs (S * Y) <= inject_Z k)%Q).
    { intros k Y. rewrite Qabs_Qmult, (Qabs_pos S) by lra. rewrite <- (Qmult_le_l (Qabs Y) (ulps k s) S P). unfold ulps. setoid_replace (S * (inject_Z k / S))%Q with (inject_Z k) by (field; lra). reflexivity. }
    assert (Dv : forall v, n_sc x = s -> open_a (n_sh x) = v -> (S * (qval x - q) == inject_Z v - S * q)%Q) by (intros v E1 E2; unfold qval; rewrite E1, E2; field; lra).
    split.
    - intros (Hx & Sx & N & M & F). exists (open_a (n_sh x)). split; [now apply sharing_nshare|]. apply C in N, M. rewrite (Dv _ Sx eq_refl) in N. split; [exact (proj2 (near_abs_q _ _ _) N)|]. split; [exact (proj2 (small_abs_q _ _) M)|exact F].
    - intros (v & Hx & Hv). pose proof (nshare_sharing n v s x ltac:(lia) Hx (holds_in64 _ _ _ Hv)) as O. destruct Hv as (N & M & F). destruct Hx as [(L & F0 & _) Sx]. split; [split; [exact L|split; [exact F0|lia]]|]. split; [exact Sx|].
      split; [apply C; rewrite (Dv _ Sx O); exact (proj1 (near_abs_q _ _ _) N)|]. split; [apply C; exact (proj1 (small_abs_q _ _) M)|exact F].
  Qed.
  Lemma all_represent_state bs qs xs : all_represent n s bs qs xs <-> state bs qs xs.
  Proof. unfold all_represent, state, value, reg. split; intros (A & B & C); (split; [exact A|split; [exact B|]]); intros i b Hi; apply represents_good; now apply C. Qed.
End Sound.

(** ** A run that passes the checks is a run of the default configuration *)
Section Weak.
  Context {pr : provider}.
  Variables (D : Z) (p : nat) (local_bits : run pr (list Z)) (log_steps cascade_steps isqrt : nat -> nat) (me : method) (chk : check).
  Lemma step_weak x rs : weaker (step D p local_bits log_steps cascade_steps isqrt me chk x rs) (step D p local_bits log_steps cascade_steps isqrt me no_check x rs).
  Proof.
    destruct x; cbn [step]; try apply weaker_refl; try apply mulpv_weak; try apply mulv_weak; try apply squarev_weak; try apply divv_weak.
    - unfold dotv. apply weaker_bind; [apply weaker_refl|]. intros raws. destruct (map _ l) as [|[x y] r]; [apply weaker_refl|]. destruct (mul_rescale _ _) as [[d|] s']; [apply divv_weak|apply weaker_refl].
    - unfold dotpv. destruct (map _ l) as [|[x y] r]; [apply weaker_refl|]. cbv zeta. destruct (mul_pub_rescale _) as [[d|] s']; [apply divv_weak|apply weaker_refl].
  Qed.
  Lemma exec_weak prog : forall rs, weaker (exec D p local_bits log_steps cascade_steps isqrt me chk prog rs) (exec D p local_bits log_steps cascade_steps isqrt me no_check prog rs).
  Proof. induction prog as [|x prog IH]; intros rs; cbn [exec]; [apply weaker_refl|]. apply weaker_bind; [apply step_weak|]. intros z. apply IH. Qed.
End Weak.

(** ** What a network computes *)
Definition entry (x : list Q) (i : nat) : Q := nth i x 0%Q.
(** [w]: the encrypted parameters *)
Definition layer_value (w : nat -> Q) (l : layer) (x : list Q) : list Q :=
  match l with
  | Affine rows => map (fun r => sumQ (map (fun iw => entry x (fst iw) * w (snd iw)) (fst r)) + w (snd r)) rows
  | AffineQ rows => map (fun r => sumQ (map (fun iw => entry x (fst iw) * snd iw) (fst r)) + snd r) rows
  | Relu => map qrelu x
  | AvgPool size windows => map (fun win => sumQ (map (entry x) win) / inject_Z size) windows
  | MaxPool windows => map (fun win => qmaximum (map (entry x) win)) windows
  end%Q.
Definition network_value (w : nat -> Q) (ls : list layer) (x : list Q) : list Q := fold_left (fun x l => layer_value w l x) ls x.
(** the sizes of the layers' inputs fit; the parameters are among the first [m] registers *)
Definition outputs (k : nat) (l : layer) : nat := match l with Affine rows => length rows | AffineQ rows => length rows | Relu => k | AvgPool _ ws | MaxPool ws => length ws end.
Definition layer_fits (m k : nat) (l : layer) : Prop :=
  match l with
  | Affine rows => forall r, In r rows -> (snd r < m)%nat /\ forall iw, In iw (fst r) -> (fst iw < k /\ snd iw < m)%nat
  | AffineQ rows => forall r iw, In r rows -> In iw (fst r) -> (fst iw < k)%nat
  | Relu => True
  | AvgPool _ ws | MaxPool ws => forall win i, In win ws -> In i win -> (i < k)%nat
  end.
Fixpoint network_fits (m k : nat) (ls : list layer) : Prop := match ls with [] => True | l :: r => layer_fits m k l /\ network_fits m (outputs k l) r end.

Definition reads (x : instr) : list nat :=
  match x with
  | IAdd i j | ISub i j | IMul i j => [i; j]
  | INeg i | IAddZ i _ | IAddQ i _ | IMulZ i _ | IMulQ i _ | ISquare i | IDiv i _ | IRelu i | IAbs i | IClamp i _ _ => [i]
  | IDot l => map fst l ++ map snd l
  | IDotQ l => map fst l
  | ISum l | IMax l => l
  end.
Lemma value_app qs e i : (i < length qs)%nat -> value (qs ++ e) i = value qs i. Proof. intros H. unfold value. now apply app_nth1. Qed.
Lemma ideal_local x qs e : Forall (fun i => i < length qs)%nat (reads x) -> ideal x (qs ++ e) = ideal x qs.
Proof.
  intros F. assert (V : forall i, In i (reads x) -> value (qs ++ e) i = value qs i) by (rewrite Forall_forall in F; intros i Hi; now apply value_app, F).
  destruct x; cbn [reads ideal] in *; rewrite ?V by (cbn; auto); try reflexivity.
  - f_equal. apply map_ext_in. intros [i j] Hij. cbn [fst snd]. rewrite !V; [reflexivity| |]; apply in_or_app; [right|left]; apply in_map_iff; exists (i, j); auto.
  - f_equal. apply map_ext_in. intros [i q] Hij. cbn [fst snd]. rewrite !V; [reflexivity|]. apply in_map_iff; exists (i, q); auto.
  - f_equal. apply map_ext_in. auto.
  - f_equal. apply map_ext_in. auto.
Qed.
Lemma ideals_app p1 : forall p2 qs, ideals (p1 ++ p2) qs = ideals p2 (ideals p1 qs).
Proof. induction p1 as [|x p1 IH]; intros p2 qs; cbn [app ideals]; [reflexivity|apply IH]. Qed.
(** a block of instructions that do not read one another's results *)
Lemma ideals_block l : forall qs e, Forall (fun x => Forall (fun i => i < length qs)%nat (reads x)) l -> ideals l (qs ++ e) = qs ++ e ++ map (fun x => ideal x qs) l.
Proof.
  induction l as [|x l IH]; intros qs e F; cbn [ideals map]; [now rewrite app_nil_r|]. rewrite (ideal_local x qs e (Forall_inv F)). rewrite <- app_assoc. rewrite IH by exact (Forall_inv_tail F). now rewrite <- app_assoc.
Qed.
Lemma ideals_block0 l qs : Forall (fun x => Forall (fun i => i < length qs)%nat (reads x)) l -> ideals l qs = qs ++ map (fun x => ideal x qs) l.
Proof. intros F. pose proof (ideals_block l qs [] F) as H. rewrite app_nil_r in H. exact H. Qed.
Lemma value_seq qs e : map (value (qs ++ e)) (seq (length qs) (length e)) = e.
Proof.
  apply nth_ext with (d := value (qs ++ e) 0) (d' := 0%Q); [now rewrite map_length, seq_length|]. intros k Hk. rewrite map_length, seq_length in Hk.
  rewrite (map_nth (value (qs ++ e)) (seq (length qs) (length e)) 0%nat k). rewrite seq_nth by exact Hk. unfold value. rewrite app_nth2 by lia. f_equal. lia.
Qed.

Lemma value_at cur i qs : (i < length cur)%nat -> value qs (at_pos cur i) = entry (map (value qs) cur) i.
Proof. intros H. unfold entry, at_pos. rewrite (nth_indep _ 0%Q (value qs 0)) by (now rewrite map_length). now rewrite map_nth. Qed.
Lemma at_in cur i : (i < length cur)%nat -> In (at_pos cur i) cur. Proof. apply nth_In. Qed.
Lemma map_value_ext qs e cur : Forall (fun i => i < length qs)%nat cur -> map (value (qs ++ e)) cur = map (value qs) cur.
Proof. intros F. apply map_ext_in. intros i Hi. rewrite Forall_forall in F. now apply value_app, F. Qed.
Lemma mid_value (qs e f : list Q) j d : (j < length e)%nat -> value (qs ++ e ++ f) (length qs + j) = nth j e d.
Proof. intros H. unfold value. rewrite app_nth2 by lia. rewrite app_nth1 by lia. replace (length qs + j - length qs)%nat with j by lia. now apply nth_indep. Qed.
(** two blocks: the second reads the [j]-th result of the first, and old registers *)
Lemma two_blocks {A} (f : A -> instr) (g : nat -> A -> instr) (rows : list A) qs (v : A -> Q) :
  Forall (fun r => Forall (fun i => i < length qs)%nat (reads (f r))) rows ->
  (forall j r, In r rows -> (j < length rows)%nat -> Forall (fun i => i < length qs + length rows)%nat (reads (g j r))) ->
  (forall j r, (j < length rows)%nat -> nth_error rows j = Some r -> forall e, length e = length rows -> nth j e 0%Q = ideal (f r) qs -> ideal (g j r) (qs ++ e) = v r) ->
  ideals (map f rows ++ map (fun jr => g (fst jr) (snd jr)) (combine (seq 0 (length rows)) rows)) qs = (qs ++ map (fun r => ideal (f r) qs) rows) ++ map v rows.
Proof.
  intros F1 F2 V. rewrite ideals_app. rewrite (ideals_block0 (map f rows)) by (apply Forall_map; exact F1). rewrite map_map. set (e := map (fun r => ideal (f r) qs) rows). assert (Le : length e = length rows) by (unfold e; now rewrite map_length).
  rewrite ideals_block0.
  - f_equal. rewrite map_map. apply nth_ext with (d := 0%Q) (d' := 0%Q); [rewrite !map_length, combine_length, seq_length; lia|]. intros j Hj. rewrite map_length, combine_length, seq_length, Nat.min_id in Hj.
    destruct (nth_error rows j) as [r|] eqn:Er; [|apply nth_error_None in Er; lia].
    assert (Ec : nth_error (combine (seq 0 (length rows)) rows) j = Some (j, r)).
    { clear - Er Hj. assert (G : forall a, nth_error (combine (seq a (length rows)) rows) j = Some (a + j, r)%nat); [|apply (G 0%nat)]. revert j r Er Hj. induction rows as [|r0 rows IH]; intros j r Er Hj a; [cbn in Hj; lia|]. destruct j; cbn in *; [injection Er as ->; now rewrite Nat.add_0_r|]. rewrite (IH j r Er ltac:(lia) (S a)). f_equal. f_equal. lia. }
    rewrite (nth_error_nth _ _ _ (map_nth_error (fun x => ideal (g (fst x) (snd x)) (qs ++ e)) _ _ Ec)), (nth_error_nth _ _ _ (map_nth_error v _ _ Er)). cbn [fst snd]. apply V; [exact Hj|exact Er|exact Le|]. unfold e. exact (nth_error_nth _ _ _ (map_nth_error (fun r => ideal (f r) qs) _ _ Er)).
  - apply Forall_map, Forall_forall. intros [j r] Hjr. cbn [fst snd]. rewrite app_length, Le. apply F2; [exact (in_combine_r _ _ _ _ Hjr)|apply in_combine_l, in_seq in Hjr; lia].
Qed.
Lemma compile1_ok m cur l qs : Forall (fun i => i < length qs)%nat cur -> (m <= length qs)%nat -> layer_fits m (length cur) l ->
  let '(c, out) := compile1 cur (length qs) l in
  exists e, ideals c qs = qs ++ e /\ length e = length c /\ map (value (qs ++ e)) out = layer_value (value qs) l (map (value qs) cur) /\ Forall (fun i => i < length (qs ++ e))%nat out /\ length out = outputs (length cur) l.
Proof.
  intros Fc Hm L. assert (Ac : forall i, (i < length cur)%nat -> (at_pos cur i < length qs)%nat) by (rewrite Forall_forall in Fc; intros i Hi; now apply Fc, at_in).
  assert (Out : forall (e1 e2 : list Q) k, length e1 = k -> length e2 = k -> forall c, ideals c qs = (qs ++ e1) ++ e2 -> length c = (k + k)%nat -> forall W, e2 = W ->
    exists e, ideals c qs = qs ++ e /\ length e = length c /\ map (value (qs ++ e)) (seq (length qs + k) k) = W /\ Forall (fun i => i < length (qs ++ e))%nat (seq (length qs + k) k) /\ length (seq (length qs + k) k) = k).
  { intros e1 e2 k L1 L2 c Ec Lc W <-. exists (e1 ++ e2). rewrite app_assoc. split; [exact Ec|]. split; [rewrite app_length; lia|]. split; [replace (length qs + k)%nat with (length (qs ++ e1)) by (rewrite app_length; lia); rewrite <- L2; apply value_seq|]. split; [|apply seq_length]. apply Forall_forall. intros i Hi. apply in_seq in Hi. rewrite !app_length. lia. }
  assert (Out1 : forall c k, Forall (fun x => Forall (fun i => i < length qs)%nat (reads x)) c -> length c = k -> forall W, map (fun x => ideal x qs) c = W ->
    exists e, ideals c qs = qs ++ e /\ length e = length c /\ map (value (qs ++ e)) (seq (length qs) k) = W /\ Forall (fun i => i < length (qs ++ e))%nat (seq (length qs) k) /\ length (seq (length qs) k) = k).
  { intros c k F Lc W <-. exists (map (fun x => ideal x qs) c). split; [now apply ideals_block0|]. rewrite map_length. split; [reflexivity|]. split; [|split; [|apply seq_length]].
    - assert (Lk : length (map (fun x => ideal x qs) c) = k) by now rewrite map_length. rewrite <- Lk. apply value_seq.
    - apply Forall_forall. intros i Hi. apply in_seq in Hi. rewrite app_length, map_length. lia. }
  destruct l as [rows|rows| |size ws|ws]; cbn [compile1 layer_fits layer_value outputs] in *.
  - pose proof (two_blocks (fun r : list (nat * nat) * nat => IDot (map (fun iw => (at_pos cur (fst iw), snd iw)) (fst r))) (fun j r => IAdd (length qs + j) (snd r)) rows qs
      (fun r => sumQ (map (fun iw => entry (map (value qs) cur) (fst iw) * value qs (snd iw)) (fst r)) + value qs (snd r))%Q) as B.
    eapply Out; [| |apply B| |reflexivity].
    + now rewrite map_length.
    + now rewrite map_length.
    + apply Forall_forall. intros r Hr. destruct (L r Hr) as [_ Lr]. cbn [reads]. rewrite !map_map. cbn [fst snd]. apply Forall_app. split; apply Forall_map, Forall_forall; intros iw Hi; destruct (Lr iw Hi); [now apply Ac|lia].
    + intros j r Hr Hj. cbn [reads]. destruct (L r Hr). repeat apply Forall_cons; try apply Forall_nil; lia.
    + intros j r Hj Hr e Le He. apply nth_error_In in Hr. destruct (L r Hr) as [Lb Lr]. cbn [ideal]. rewrite (value_app qs e (snd r)) by lia. pose proof (mid_value qs e [] j 0%Q ltac:(lia)) as Mv. rewrite app_nil_r in Mv. rewrite Mv, He. cbn [ideal]. f_equal. f_equal. rewrite map_map. apply map_ext_in. intros iw Hi. cbn [fst snd]. destruct (Lr iw Hi). now rewrite value_at.
    + rewrite app_length, !map_length, combine_length, seq_length. lia.
  - pose proof (two_blocks (fun r : list (nat * Q) * Q => IDotQ (map (fun iw => (at_pos cur (fst iw), snd iw)) (fst r))) (fun j r => IAddQ (length qs + j) (snd r)) rows qs
      (fun r => sumQ (map (fun iw => entry (map (value qs) cur) (fst iw) * snd iw) (fst r)) + snd r)%Q) as B.
    eapply Out; [| |apply B| |reflexivity].
    + now rewrite map_length.
    + now rewrite map_length.
    + apply Forall_forall. intros r Hr. cbn [reads]. rewrite !map_map. cbn [fst snd]. apply Forall_map, Forall_forall; intros iw Hi. apply Ac. now apply (L r iw).
    + intros j r Hr Hj. cbn [reads]. repeat apply Forall_cons; try apply Forall_nil; lia.
    + intros j r Hj Hr e Le He. apply nth_error_In in Hr. cbn [ideal]. pose proof (mid_value qs e [] j 0%Q ltac:(lia)) as Mv. rewrite app_nil_r in Mv. rewrite Mv, He. cbn [ideal]. f_equal. f_equal. rewrite map_map. apply map_ext_in. intros iw Hi. cbn [fst snd]. rewrite value_at by (now apply (L r iw)). reflexivity.
    + rewrite app_length, !map_length, combine_length, seq_length. lia.
  - apply Out1; [apply Forall_map; cbn [reads]; rewrite Forall_forall in *; intros i Hi; repeat constructor; now apply Fc|now rewrite map_length|]. rewrite !map_map. reflexivity.
  - pose proof (two_blocks (fun w : list nat => ISum (map (at_pos cur) w)) (fun j _ => IDiv (length qs + j) size) ws qs (fun win => sumQ (map (entry (map (value qs) cur)) win) / inject_Z size)%Q) as B.
    assert (Ecomb : map (fun j => IDiv (length qs + j) size) (seq 0 (length ws)) = map (fun jr : nat * list nat => IDiv (length qs + fst jr) size) (combine (seq 0 (length ws)) ws)).
    { clear. generalize 0%nat. induction ws as [|w ws IH]; intros a; [reflexivity|]. cbn. f_equal. apply IH. }
    rewrite Ecomb. eapply Out; [| |apply B| |reflexivity].
    + now rewrite map_length.
    + now rewrite map_length.
    + apply Forall_forall. intros w Hw. cbn [reads]. apply Forall_map, Forall_forall. intros i Hi. apply Ac. now apply (L w).
    + intros j r Hr Hj. cbn [reads]. repeat apply Forall_cons; try apply Forall_nil; lia.
    + intros j w Hj Hw e Le He. apply nth_error_In in Hw. cbn [ideal]. pose proof (mid_value qs e [] j 0%Q ltac:(lia)) as Mv. rewrite app_nil_r in Mv. rewrite Mv, He. cbn [ideal]. f_equal. f_equal. rewrite map_map. apply map_ext_in. intros i Hi. rewrite value_at by (now apply (L w)). reflexivity.
    + rewrite app_length, !map_length, combine_length, seq_length. lia.
  - apply Out1; [|now rewrite map_length|].
    + apply Forall_map, Forall_forall. intros w Hw. cbn [reads]. apply Forall_map, Forall_forall. intros i Hi. apply Ac. now apply (L w).
    + rewrite !map_map. apply map_ext_in. intros w Hw. cbn [ideal]. f_equal. rewrite map_map. apply map_ext_in. intros i Hi. apply value_at. now apply (L w).
Qed.
Lemma layer_value_ext w w' m k l x : (forall i, (i < m)%nat -> w i = w' i) -> layer_fits m k l -> layer_value w l x = layer_value w' l x.
Proof.
  intros W L. destruct l; cbn [layer_value layer_fits] in *; try reflexivity. apply map_ext_in. intros r Hr. destruct (L r Hr) as [Lb Lr]. rewrite (W _ Lb). f_equal. f_equal. apply map_ext_in. intros iw Hi. now rewrite (W _ (proj2 (Lr iw Hi))).
Qed.
Lemma network_value_ext w w' m ls : forall k x, (forall i, (i < m)%nat -> w i = w' i) -> network_fits m k ls -> network_value w ls x = network_value w' ls x.
Proof.
  induction ls as [|l ls IH]; intros k x W L; [reflexivity|]. destruct L as [L1 L2]. unfold network_value. cbn [fold_left]. fold (network_value w ls (layer_value w l x)). fold (network_value w' ls (layer_value w' l x)). rewrite (layer_value_ext w w' m k l x W L1). now apply (IH (outputs k l)).
Qed.
Lemma compile_ok m ls : forall cur qs, Forall (fun i => i < length qs)%nat cur -> (m <= length qs)%nat -> network_fits m (length cur) ls ->
  let '(c, out) := compile cur (length qs) ls in map (value (ideals c qs)) out = network_value (value qs) ls (map (value qs) cur) /\ Forall (fun i => i < length (ideals c qs))%nat out.
Proof.
  induction ls as [|l ls IH]; intros cur qs Fc Hm L; cbn [compile]; [split; [reflexivity|exact Fc]|]. destruct L as [L1 L2]. pose proof (compile1_ok m cur l qs Fc Hm L1) as H1. destruct (compile1 cur (length qs) l) as [c out]. destruct H1 as (e & E1 & E2 & E3 & E4 & E5).
  specialize (IH out (qs ++ e) E4 ltac:(rewrite app_length; lia)). rewrite E5 in IH. specialize (IH L2). rewrite app_length, E2 in IH. destruct (compile out (length qs + length c) ls) as [c' out']. rewrite ideals_app, E1. destruct IH as [A B]. split; [|exact B]. rewrite A, E3.
  unfold network_value at 2. cbn [fold_left]. apply (network_value_ext _ _ m ls (outputs (length cur) l)); [|exact L2]. intros i Hi. apply value_app. lia.
Qed.

(** ** The claims *)
Section Claims.
  Variables (n : nat) (pr : provider) (s : Z) (p : nat) (local_bits : run pr (list Z)) (log_steps cascade_steps isqrt : nat -> nat) (me : method).
  Hypothesis Hn : (0 < n)%nat.
  Hypothesis HV : valid n pr.
  Hypothesis Hp : (1 <= p <= 62)%nat.
  Hypothesis Hs : s = 2 ^ Z.of_nat p.
  Hypothesis Hlocal : forall st, let u := fst (local_bits st) in length u = n /\ Forall (fun z => 0 <= z < s) u.
  Hypothesis Hsqrt : forall m, (2 <= m)%nat -> (1 <= isqrt m < m)%nat.
  Local Notation run := (exec (pr := pr) s p local_bits log_steps cascade_steps isqrt me).


  Lemma bits_ok : yields local_bits (fun u => length u = n /\ Forall (fun z => 0 <= z < s) u /\ True).
  Proof using Hlocal. intros st. destruct (Hlocal st). auto. Qed.
  Lemma state_of bs qs xs : all_represent n s bs qs xs <-> state n s bs qs xs.
  Proof using Hn Hp Hs. apply (all_represent_state n Hn s p false ltac:(discriminate) Hp Hs). Qed.
  (** C93: a program run on encrypted inputs computes every value of the same program over the rationals, up to the error the analysis gives. *)
  Lemma k_C93_program : forall E prog hints bs qs xs bs' st zs, 1 <= E -> all_represent n s bs qs xs -> analyse s E hints prog bs = Some bs' -> sound_hints s hints prog qs ->
    fst (run (within E) prog xs st) = Some zs -> fst (run no_check prog xs st) = Some zs /\ all_represent n s bs' (ideals prog qs) zs.
  Proof using Hn HV Hp Hs Hlocal Hsqrt.
    intros E prog hints bs qs xs bs' st zs HE H A Hh Hz. split; [eapply weaker_fst; [apply exec_weak|exact Hz]|]. apply state_of in H. apply state_of. refine (yo_some false _ _ st zs _ Hz).
    eapply (exec_good n Hn pr HV s E p false HE ltac:(discriminate) Hp Hs local_bits bits_ok log_steps cascade_steps isqrt Hsqrt me); eassumption.
  Qed.
  (** C93: with one party every run does, with errors of less than one unit per truncation. *)
  Lemma k_C93_one_party : forall prog hints bs qs xs bs' st, n = 1%nat -> all_represent n s bs qs xs -> analyse s 1 hints prog bs = Some bs' -> sound_hints s hints prog qs ->
    exists zs, fst (run no_check prog xs st) = Some zs /\ all_represent n s bs' (ideals prog qs) zs.
  Proof using Hn HV Hp Hs Hlocal Hsqrt.
    intros prog hints bs qs xs bs' st H1 H A Hh. apply state_of in H.
    destruct (yo_true _ _ st (exec_good n Hn pr HV s 1 p true ltac:(lia) (fun _ => H1) Hp Hs local_bits bits_ok log_steps cascade_steps isqrt Hsqrt me prog hints bs qs xs bs' H A Hh)) as (zs & Ez & Hz).
    exists zs. split; [eapply weaker_fst; [apply exec_weak|exact Ez]|now apply state_of].
  Qed.
  (** C93: the forward pass of a network on encrypted inputs (and encrypted or public parameters) computes the network's function. *)
  Lemma k_C93_network : forall E hints ls bs qs xs bs' cur prog out st zs, 1 <= E -> all_represent n s bs qs xs -> Forall (fun i => i < length xs)%nat cur -> network_fits (length xs) (length cur) ls ->
    compile cur (length xs) ls = (prog, out) -> analyse s E hints prog bs = Some bs' -> sound_hints s hints prog qs -> fst (run (within E) prog xs st) = Some zs ->
    fst (run no_check prog xs st) = Some zs /\
    let result := network_value (value qs) ls (map (value qs) cur) in
    length out = length result /\ forall k i, nth_error out k = Some i -> exists b, nth_error bs' i = Some b /\ represents n s b (entry result k) (nth i zs nil_num).
  Proof using Hn HV Hp Hs Hlocal Hsqrt.
    intros E hints ls bs qs xs bs' cur prog out st zs HE H Fc Fn Ec A Hh Hz. destruct (k_C93_program E prog hints bs qs xs bs' st zs HE H A Hh Hz) as [R (L1 & L2 & G)]. split; [exact R|]. destruct H as (_ & Lq & _). rewrite <- Lq in *. cbv zeta.
    pose proof (compile_ok (length qs) ls cur qs Fc (le_n _) Fn) as C. rewrite Ec in C. destruct C as [C1 C2]. rewrite <- C1, map_length. split; [reflexivity|]. intros k i Hk.
    assert (Hi : (i < length bs')%nat) by (rewrite Forall_forall in C2; specialize (C2 i (nth_error_In _ _ Hk)); lia). destruct (nth_error bs' i) as [b|] eqn:Eb; [|apply nth_error_None in Eb; lia]. exists b. split; [reflexivity|]. specialize (G i b Eb).
    unfold entry. rewrite (nth_error_nth _ _ _ (map_nth_error (value (ideals prog qs)) _ _ Hk)). exact G.
  Qed.
End Claims.
(** C93: so the decrypted scores order two classes as the network does whenever its scores differ by more than the two errors. *)
Lemma k_C93_prediction : forall n s b c q r x y, represents n s b q x -> represents n s c r y -> (q + ulps (snd b + snd c) s < r)%Q -> (qval x < qval y)%Q.
Proof.
  intros n s b c q r x y (_ & _ & N & _) (_ & _ & N' & _) H. apply Qabs_Qle_condition in N, N'. assert (X : (ulps (snd b + snd c) s == ulps (snd b) s + ulps (snd c) s)%Q) by (unfold ulps; rewrite inject_Z_plus; unfold Qdiv; ring). rewrite X in H. lra.
Qed.
Definition alone : provider := mkProvider unit (fun s => (([0], [0], [0]), s)) (fun s => (([3], [5], [15]), s)) (fun s => (([3], [9]), s)) (fun s => (([0], [0]), s)) (fun s => (([0], [0]), s)) (fun s => ([0], s)) (fun s => ([0], s)).
Lemma alone_valid : valid 1 alone.
Proof. constructor; intros []; cbn -[H63 wmul Z.lxor Z.land]; repeat split; try (repeat constructor; unfold in64, H63; vm_compute; intuition discriminate); try (vm_compute; reflexivity); try lia; auto. Qed.
(** C93: a product that overflows. *)
Lemma k_C93_unchecked_refuted : exists pr local_bits st x z, valid 1 pr /\ represents 1 65536 (2 ^ 40, 0) (inject_Z (2 ^ 24)) x /\ analyse 65536 1 [] [ISquare 0] [(2 ^ 40, 0)] = None /\
  fst (exec (pr := pr) 65536 16 local_bits (fun _ => 1%nat) (fun _ => 1%nat) Nat.sqrt LogReduction no_check [ISquare 0] [x] st) = Some [x; z] /\ (qval z == 0)%Q.
Proof.
  exists alone, (fun s => ([0], s)), tt, (mkNum [2 ^ 40] 65536), (mkNum [0] 65536). split; [exact alone_valid|]. split; [|split; [vm_compute; reflexivity|split; [vm_compute; reflexivity|vm_compute; reflexivity]]].
  split; [split; [reflexivity|split; [constructor; [unfold in64, H63; lia|constructor]|reflexivity]]|]. split; [reflexivity|]. split; [vm_compute; congruence|]. split; [vm_compute; congruence|vm_compute; reflexivity].
Qed.
