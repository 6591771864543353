(** Powers, products, polynomials, means and variances (crypten/common/functions/power.py, regular.py).

    Every division by a public integer goes through [divv], which can raise: [arithmetic.py:455-480] compares the result with the
    dividend when [cfg.debug.validation_mode] is set.  The comparison is the parameter [chk]; [no_check] is the default
    configuration and [validation_mode] the debug one.  A run returns [None] when it raises. *)
Require Import ZArith List Bool QArith.
From Verif Require Import Ring64 Encoder Arith Beaver Trunc Provider Binary Compare Maximum.
Import ListNotations.
Open Scope Z_scope.

(** Runs that may raise. *)
Definition runo (pr : provider) (A : Type) : Type := run pr (option A).
Definition okr {pr A} (a : A) : runo pr A := ret (Some a).
Definition raise {pr A} : runo pr A := ret None.
Definition bindo {pr A B} (m : runo pr A) (f : A -> runo pr B) : runo pr B :=
  bind m (fun a => match a with None => ret None | Some a => f a end).
Notation "x <~ m ;; k" := (bindo m (fun x => k)) (at level 61, m at next level, right associativity).
Definition lift {pr A} (m : run pr A) : runo pr A := bind m (fun a => ret (Some a)).
Fixpoint mapO {pr A B} (f : A -> runo pr B) (l : list A) : runo pr (list B) :=
  match l with [] => okr [] | a :: r => b <~ f a ;; bs <~ mapO f r ;; okr (b :: bs) end.
Fixpoint zipO {pr A B C} (f : A -> B -> runo pr C) (l : list A) (m : list B) : runo pr (list C) :=
  match l, m with a :: l', b :: m' => c <~ f a b ;; cs <~ zipO f l' m' ;; okr (c :: cs) | _, _ => okr [] end.

(** [chk scale divisor before after], on revealed values. *)
Definition check := Z -> Z -> Z -> Z -> bool.
Definition no_check : check := fun _ _ _ _ => true.
(** arithmetic.py:457-478: [abs(self.get_plain_text() * y - tensor) < 1.0], both sides decoded with the encoder of the divided
    tensor.  Simplification: the comparison is exact (the code rounds to float32). *)
Definition validation_mode : check := fun sc d before after => Z.abs (after * d - before) <? sc.

(** A polynomial's coefficients: an integer tensor, a float tensor or an encrypted tensor. *)
Inductive coeff := KInt (k : Z) | KFloat (q : Q) | KEnc (y : num).

Section Reg.
  Context {pr : provider}.
  Variable D : Z.
  Variable chk : check.

  (** arithmetic.py:446-482 [div_] by a positive int *)
  Definition divv (x : num) (d : Z) : runo pr num :=
    r <- divi_num (n_sh x) d ;;
    if chk (n_sc x) d (open_a (n_sh x)) (open_a r) then okr (mkNum r (n_sc x)) else raise.

  (** arithmetic.py:338-404 with op = mul, private operand *)
  Definition mulv (x y : num) : runo pr num :=
    t <~ lift (next_mul pr) ;; let '(a, b, c) := t in
    let raw := mul1 a b c (n_sh x) (n_sh y) in
    match mul_rescale (n_sc x) (n_sc y) with
    | (Some d, s) => divv (mkNum raw s) d
    | (None, s) => okr (mkNum raw s)
    end.
  (** ... public operand, already encoded at [self]'s scale *)
  Definition mulpv (x : num) (enc : Z) : runo pr num :=
    let raw := mul_int enc (n_sh x) in
    match mul_pub_rescale (n_sc x) with
    | (Some d, s) => divv (mkNum raw s) d
    | (None, s) => okr (mkNum raw s)
    end.
  (** arithmetic.py:597-603 [square]: what [div_] divides is the tensor [r2 + ...] returned by beaver.square (beaver.py:113-126), whose
      encoder has scale 1 (the provider encrypts with precision 0); only its share is kept. *)
  Definition squarev (x : num) : runo pr num :=
    t <~ lift (next_square pr) ;; let '(r, r2) := t in
    q <~ divv (mkNum (square r r2 (n_sh x)) 1) (n_sc x) ;; okr (mkNum (n_sh q) (n_sc x)).

  (** [self.new(torch.ones_like(self.data))]: an encryption by party 0 with the default encoder *)
  Definition onesv : runo pr num := z <~ lift (next_zero pr) ;; okr (mkNum (on_rank0 (fun a => wadd a D) z) D).

  (** power.py:16-45 [pow] for an exponent [p >= 0] ([fuel] bounds the recursion; [p] suffices).  Negative exponents,
      which first compute a reciprocal, are in Sharepow.v. *)
  Fixpoint powv (fuel : nat) (x : num) (p : Z) : runo pr num :=
    match fuel with
    | O => raise
    | S f =>
        if p =? 0 then onesv
        else if p =? 1 then okr x
        else if p =? 2 then squarev x
        else if p mod 2 =? 0 then y <~ squarev x ;; powv f y (p / 2)
        else y <~ squarev x ;; z <~ mulv y x ;; powv f z ((p - 1) / 2)
    end.
  Definition pow_num (x : num) (p : Z) : runo pr num := powv (Z.to_nat (p + 1)) x p.

  (** regular.py:202-225 [prod] along one dimension *)
  Definition prodv_round (xs : list num) : runo pr (list num) :=
    let '(x, y, r) := halves xs in z <~ zipO mulv x y ;; okr (z ++ r).
  Fixpoint prodv_loop (fuel : nat) (xs : list num) : runo pr (list num) :=
    match fuel with
    | O => okr xs
    | S f => if Nat.ltb 1 (length xs) then xs' <~ prodv_round xs ;; prodv_loop f xs' else okr xs
    end.
  Definition prodv (xs : list num) : runo pr num := r <~ prodv_loop (length xs) xs ;; okr (hd nil_num r).

  (** power.py:63-97 [polynomial] at one element of [self] *)
  Definition mulc (x : num) (c : coeff) : runo pr num :=
    match c with KInt k => mulpv x (encodeZ (n_sc x) k) | KFloat q => mulpv x (encodeQ (n_sc x) q) | KEnc y => mulv x y end.
  Fixpoint grow (fuel k : nat) (terms : list num) : runo pr (list num) :=
    match fuel with
    | O => okr terms
    | S f =>
        if Nat.ltb (length terms) k then
          let highest := last terms nil_num in
          new <~ mapO (fun t => mulv t highest) terms ;; grow f k (terms ++ new)
        else okr terms
    end.
  Definition polynomial (x : num) (cs : list coeff) : runo pr num :=
    match cs with
    | [c] => mulc x c
    | _ =>
        x2 <~ squarev x ;; terms <~ grow (length cs) (length cs) [x; x2] ;;
        ys <~ zipO mulc (firstn (length cs) terms) cs ;; okr (sum_num ys)
    end.

  (** regular.py:151-161 [mean] along a dimension: [rows] are the groups of elements summed together.  [None] for the Python error on an
      empty result (division by zero). *)
  Definition nelement {A} (rows : list (list A)) : nat := length (concat rows).
  Definition meanv (rows : list (list num)) : runo pr (list num) :=
    let result := map sum_num rows in
    if Nat.eqb (length result) 0 then raise
    else mapO (fun x => divv x (Z.of_nat (nelement rows / length result))) result.

  (** regular.py:164-199 [var] along a dimension given as a positional argument *)
  Definition varv (unbiased : bool) (rows : list (list num)) : runo pr (list num) :=
    ms <~ meanv rows ;;
    sq <~ zipO (fun row m => mapO (fun x => squarev (sub_num x (AEnc m))) row) rows ms ;;
    let result := map sum_num sq in
    let divisor := Z.of_nat (nelement rows / length result) in
    let divisor := if unbiased then divisor else divisor - 1 in
    if (divisor =? 0) || (divisor =? 1) then okr result
    else mapO (fun x => divv x divisor) result.

  (** regular.py:164-175 with no positional argument: [dim = None], whatever keyword arguments are given (only "unbiased" is read) *)
  Definition varv_keywords (unbiased : bool) (rows : list (list num)) : runo pr (list num) := varv unbiased [concat rows].
End Reg.

(** ** Concatenation, stacking and padding: regular.py:246-276, arithmetic.py:231-279, pooling.py:20-53, 342-400. *)

(** One operand of cat/stack: an encrypted tensor (element list; the scale of its encoder) or a plain torch tensor / number. *)
Inductive operand_t := TEnc (sh : list (list Z)) (sc : Z) | TPlain (v : list Z).
Definition is_enc (o : operand_t) : bool := match o with TEnc _ _ => true | TPlain _ => false end.

Section Cat.
  (** [tensors[0].new(tensor)]: encrypts a plain tensor (with any scheme) *)
  Variable new : list Z -> operand_t.

  Fixpoint set_nth {A} (i : nat) (v : A) (l : list A) : list A :=
    match l, i with [], _ => [] | _ :: r, O => v :: r | a :: r, S j => a :: set_nth j v r end.

  (** regular.py:257-260, iteration [i] onwards over the remaining [ts] of [tensors[1:]]; the list is updated in place.  [None]: the assertion. *)
  Fixpoint coordinate (i : nat) (ts l : list operand_t) : option (list operand_t) :=
    match ts with
    | [] => Some l
    | t :: r =>
        let l := match t with TPlain v => set_nth i (new v) l | TEnc _ _ => l end in
        if is_enc (nth i l (TPlain [])) then coordinate (S i) r l else None
    end.
  (** regular.py:246-266 [__cat_stack_helper] with op = "cat" along dim 0: the concatenation of the operands' shares, labelled with the
      scale of the first.  [None]: an exception (assertion, or [_tensor] of a plain operand).
      Types: [type(tensors[0])] is an encrypted type when [tensors[0]._tensor] (line 253) exists. *)
  Definition cat_helper (ts : list operand_t) : option (list (list Z) * Z) :=
    match ts with
    | TEnc sh0 sc0 :: rest =>
        match coordinate 0 rest ts with
        | None => None
        | Some l =>
            match l with
            | TEnc _ sc :: _ =>
                if forallb is_enc l then Some (flat_map (fun o => match o with TEnc sh _ => sh | TPlain _ => [] end) l, sc) else None
            | _ => None
            end
        end
    | _ => None
    end.
End Cat.

(** arithmetic.py:231-263 [pad] of a one-dimensional tensor; tensors are per-party lists.  Public value: encoded with [self]'s encoder, party 0 pads
    with it, the others with zero.  Private value: every party pads with its share of it. *)
Definition pad1 (l r : nat) (v : Z) (x : list Z) : list Z := repeat v l ++ x ++ repeat v r.
Definition pad_public (l r : nat) (v : Z) (x : list (list Z)) : list (list Z) :=
  match x with [] => [] | s :: rest => pad1 l r v s :: map (pad1 l r 0) rest end.
Definition pad_private (l r : nat) (v : list Z) (x : list (list Z)) : list (list Z) := zipw (pad1 l r) v x.
(** pooling.py:32-45, 395: every party pads its own share with [-(2**24)] *)
Definition pool_pad_value : Z := - 2 ^ 24.
Definition pool_pad (l r : nat) (x : list (list Z)) : list (list Z) := map (pad1 l r pool_pad_value) x.
