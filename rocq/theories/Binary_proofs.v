(** Proofs about XOR sharings and circuits. *)
Require Import ZArith List Lia Bool.
From Verif Require Import Ring64 Sharing_proofs Arith Arith_proofs Beaver Beaver_proofs Trunc Provider Binary.
Import ListNotations.
Open Scope Z_scope.

(** ** Runs *)
Definition yields {pr A} (m : run pr A) (Q : A -> Prop) : Prop := forall s, Q (fst (m s)).

Lemma yields_ret {pr A} (a : A) (Q : A -> Prop) : Q a -> yields (pr := pr) (ret a) Q.
Proof. intros H s. exact H. Qed.
Lemma yields_bind {pr A B} (m : run pr A) (f : A -> run pr B) (Q : A -> Prop) (R : B -> Prop) :
  yields m Q -> (forall a, Q a -> yields (f a) R) -> yields (bind m f) R.
Proof. intros H K s. unfold bind. specialize (H s). destruct (m s) as [a s']. exact (K a H s'). Qed.
Lemma yields_weaken {pr A} (m : run pr A) (Q R : A -> Prop) : yields m Q -> (forall a, Q a -> R a) -> yields m R.
Proof. intros H K s. apply K, H. Qed.

Lemma yields_mapM {pr A B} (f : A -> run pr B) (R : A -> B -> Prop) l :
  (forall a, In a l -> yields (f a) (R a)) -> yields (mapM f l) (Forall2 R l).
Proof.
  induction l as [|a l IH]; intros H; cbn [mapM]; [apply yields_ret; constructor|].
  eapply yields_bind; [apply H; now left|]. intros b Hb. eapply yields_bind; [apply IH; intros; apply H; now right|].
  intros bs Hbs. apply yields_ret. now constructor.
Qed.

Lemma yields_zipM {pr A B C} (f : A -> B -> run pr C) (Q : A -> Prop) (Q' : B -> Prop) (R : A -> B -> C -> Prop) l m :
  (forall a b, Q a -> Q' b -> yields (f a b) (R a b)) -> Forall Q l -> Forall Q' m -> length l = length m ->
  yields (zipM f l m) (fun cs => length cs = length l /\ forall i da db dc, (i < length l)%nat -> R (nth i l da) (nth i m db) (nth i cs dc)).
Proof.
  intros H. revert m. induction l as [|a l IH]; intros [|b m] Hl Hm L; cbn [length] in L; try discriminate; cbn [zipM].
  - apply yields_ret. split; [reflexivity|]. cbn. intros; lia.
  - inversion Hl; inversion Hm; subst. eapply yields_bind; [apply H; eassumption|]. intros c Hc.
    eapply yields_bind; [apply IH; auto|]. intros cs [Lc Hcs]. apply yields_ret. split; [cbn [length]; congruence|].
    intros [|i] da db dc Hi; cbn [nth]; [assumption|]. apply Hcs. cbn [length] in Hi. lia.
Qed.

(** ** Representation: [sh] is an XOR sharing of [v] among [n] parties *)
Definition bshare (n : nat) (v : Z) (sh : list Z) : Prop := length sh = n /\ Forall in64 sh /\ zxor sh = v.
Definition ashare (n : nat) (v : Z) (sh : list Z) : Prop := length sh = n /\ Forall in64 sh /\ zsum sh == v.

Lemma bshare_open n v sh : bshare n v sh -> open_b sh = v.
Proof. intros (_ & _ & H). now rewrite open_b_eq. Qed.
Lemma bshare_in64 n v sh : bshare n v sh -> in64 v.
Proof. intros (_ & H & <-). now apply in64_zxor. Qed.
Lemma bshare_of n sh : length sh = n -> Forall in64 sh -> bshare n (open_b sh) sh.
Proof. intros H1 H2. repeat split; auto. now rewrite open_b_eq. Qed.
Lemma ashare_open n v sh : ashare n v sh -> open_a sh = wrap v.
Proof. intros (_ & _ & H). rewrite open_a_eq. now apply eqm_wrap_eq. Qed.
Lemma ashare_of n sh : length sh = n -> Forall in64 sh -> ashare n (open_a sh) sh.
Proof. intros H1 H2. repeat split; auto. symmetry. apply open_a_eqm. Qed.
Lemma ashare_eqm n v w sh : ashare n v sh -> v == w -> ashare n w sh.
Proof. intros (H1 & H2 & H3) E. repeat split; auto. now rewrite H3. Qed.

Lemma Forall_zipw {A B C} (P : A -> Prop) (Q : B -> Prop) (R : C -> Prop) (f : A -> B -> C) l m :
  (forall a b, P a -> Q b -> R (f a b)) -> Forall P l -> Forall Q m -> Forall R (zipw f l m).
Proof.
  intros H Hl. revert m. induction Hl as [|a l Ha Hl IH]; intros m Hm; [constructor|].
  destruct Hm as [|b m Hb Hm]; [constructor|]. rewrite zipw_cons. constructor; auto.
Qed.
Lemma Forall_on_rank0 (P : Z -> Prop) f l : (forall a, P a -> P (f a)) -> Forall P l -> Forall P (on_rank0 f l).
Proof. intros H [|a r Ha Hr]; constructor; auto. Qed.

(** operands *)
Definition opval (n : nat) (y : operand) (v : Z) : Prop := match y with Pub z => in64 z /\ z = v | Priv sh => bshare n v sh end.
Lemma opval_in64 n y v : opval n y v -> in64 v.
Proof. destruct y; cbn [opval]; [intros [H <-]; exact H|apply bshare_in64]. Qed.

Section Ops.
  Variable n : nat.
  Variable pr : provider.
  Hypothesis Hn : (0 < n)%nat.
  Hypothesis HV : valid n pr.

  Lemma bxor_ok x vx y vy : bshare n vx x -> opval n y vy -> bshare n (Z.lxor vx vy) (bxor x y).
  Proof.
    intros (L & F & E) Hy. destruct y as [z|sh]; cbn [opval bxor] in *.
    - destruct Hy as [Hz <-]. repeat split.
      + now rewrite on_rank0_length.
      + apply Forall_on_rank0; [intros; now apply in64_lxor|assumption].
      + rewrite zxor_on_rank0 by (eapply length_ne; eauto). now rewrite E.
    - destruct Hy as (L' & F' & E'). repeat split.
      + rewrite zipw_length; congruence.
      + eapply Forall_zipw; [|exact F|exact F']. intros; now apply in64_lxor.
      + rewrite zxor_zipw by congruence. congruence.
  Qed.

  Lemma bxor_priv_ok x vx y vy : bshare n vx x -> bshare n vy y -> bshare n (Z.lxor vx vy) (bxor x (Priv y)).
  Proof. intros. now apply bxor_ok. Qed.

  Lemma and_beaver_in64 a b c x y : Forall in64 a -> Forall in64 b -> Forall in64 c -> Forall in64 x -> Forall in64 y -> Forall in64 (and_beaver a b c x y).
  Proof.
    intros Ha Hb Hc Hx Hy. unfold and_beaver.
    assert (Ie : in64 (open_b (zipw Z.lxor x a))) by (rewrite open_b_eq; apply in64_zxor; eapply Forall_zipw; [|exact Hx|exact Ha]; intros; now apply in64_lxor).
    assert (Id : in64 (open_b (zipw Z.lxor y b))) by (rewrite open_b_eq; apply in64_zxor; eapply Forall_zipw; [|exact Hy|exact Hb]; intros; now apply in64_lxor).
    eapply (Forall_zipw in64 in64); [intros; now apply in64_lxor| |exact Hc].
    apply Forall_on_rank0; [intros; apply in64_lxor; [assumption|now apply in64_land]|].
    eapply (Forall_zipw in64 in64); [intros; now apply in64_lxor| |]; apply Forall_map.
    - eapply Forall_impl; [|exact Hb]. intros; now apply in64_land.
    - eapply Forall_impl; [|exact Ha]. intros; now apply in64_land.
  Qed.

  Lemma band_ok x vx y vy : bshare n vx x -> opval n y vy -> yields (band (pr := pr) x y) (bshare n (Z.land vx vy)).
  Proof.
    intros (L & F & E) Hy. destruct y as [z|sh]; cbn [opval band] in *.
    - destruct Hy as [Hz <-]. apply yields_ret. repeat split.
      + now rewrite map_length.
      + apply Forall_map. eapply Forall_impl; [|exact F]. intros; now apply in64_land.
      + rewrite zxor_map_land. now rewrite E.
    - destruct Hy as (L' & F' & E').
      eapply (yields_bind _ _ (fun t => let '(a, b, c) := t in _)); [intros s; exact (v_and n pr HV s)|].
      intros [[a b] c] (La & Lb & Lc & Fa & Fb & Fc & Hc). apply yields_ret.
      destruct (and_beaver_ok n a b c x sh) as [LL O]; auto. rewrite !open_b_eq, E, E' in O. repeat split; auto.
      now apply and_beaver_in64.
  Qed.

  Lemma lnot_lxor v : Z.lxor v (-1) = Z.lnot v.
  Proof. apply Z.lxor_m1_r. Qed.

  Lemma binv_ok x v : bshare n v x -> bshare n (Z.lnot v) (binv x).
  Proof. intros H. rewrite <- lnot_lxor. apply (bxor_ok x v (Pub (-1))); [assumption|]. split; [apply in64_m1|reflexivity]. Qed.
  Lemma op_inv_ok y v : opval n y v -> opval n (op_inv y) (Z.lnot v).
  Proof.
    destruct y as [z|sh]; cbn [opval op_inv]; [|apply binv_ok]. intros [H <-]. rewrite lnot_lxor. split; [now apply in64_lnot|reflexivity].
  Qed.
  Lemma op_xor_ok y v k : in64 k -> opval n y v -> opval n (op_xor y k) (Z.lxor v k).
  Proof.
    intros Hk. destruct y as [z|sh]; cbn [opval op_xor].
    - intros [H <-]. split; [now apply in64_lxor|reflexivity].
    - intros H. apply bxor_ok; [assumption|]. split; auto.
  Qed.
  Lemma op_and_ok y vy x vx : opval n y vy -> bshare n vx x -> yields (op_and (pr := pr) y x) (bshare n (Z.land vy vx)).
  Proof.
    intros Hy Hx. destruct y as [z|sh]; cbn [op_and].
    - rewrite Z.land_comm. now apply band_ok.
    - apply band_ok; assumption.
  Qed.

  Lemma lor_xor a b : Z.lxor (Z.lxor (Z.land a b) a) b = Z.lor a b.
  Proof. apply Z.bits_inj'. intros i Hi. rewrite !Z.lxor_spec, Z.land_spec, Z.lor_spec. destruct (Z.testbit a i), (Z.testbit b i); reflexivity. Qed.
  Lemma bor_ok x vx y vy : bshare n vx x -> opval n y vy -> yields (bor (pr := pr) x y) (bshare n (Z.lor vx vy)).
  Proof.
    intros Hx Hy. unfold bor. eapply yields_bind; [apply band_ok; eassumption|]. intros a Ha. apply yields_ret.
    rewrite <- lor_xor. apply bxor_ok; [|assumption]. apply bxor_ok; assumption.
  Qed.
  Lemma bior_ok x vx y vy : bshare n vx x -> opval n y vy -> yields (bior (pr := pr) x y) (bshare n (Z.lor vx vy)).
  Proof.
    intros Hx Hy. unfold bior. cbv zeta. eapply yields_bind; [apply band_ok; eassumption|]. intros a Ha. apply yields_ret.
    rewrite <- lor_xor, Z.lxor_assoc. apply bxor_priv_ok; [assumption|]. apply bxor_ok; assumption.
  Qed.

  (** Sharewise maps that are linear over XOR. *)
  Lemma bshare_map f x v : (forall a, in64 a -> in64 (f a)) -> f 0 = 0 -> (forall a b, in64 a -> in64 b -> f (Z.lxor a b) = Z.lxor (f a) (f b)) ->
    bshare n v x -> bshare n (f v) (map f x).
  Proof.
    intros Hi H0 Hl (L & F & E). repeat split.
    - now rewrite map_length.
    - apply Forall_map. eapply Forall_impl; [|exact F]. exact Hi.
    - rewrite <- E. clear L E. induction F as [|a l Ha Fl IH]; cbn [map]; [symmetry; exact H0|].
      rewrite !zxor_cons, IH. symmetry. apply Hl; [assumption|now apply in64_zxor].
  Qed.
End Ops.
