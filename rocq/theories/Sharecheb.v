(** tanh and sigmoid by Chebyshev polynomials (crypten/common/functions/approximations.py) on shares, with the rounding of every operation; conventions as in
    Shareapprox.v.  One element.  The stacking and transposing of the polynomials (354-356, 392) place the polynomials of one element side by side, so that
    the product with the coefficients is one [dotpv] (Program.v) per element. *)
Require Import ZArith List Bool QArith Arith.
From Verif Require Import Ring64 Encoder Arith Beaver Trunc Provider Binary Compare Maximum Regular Program.
Import ListNotations.
Open Scope Z_scope.

(** [[1::2]] *)
Fixpoint odds {A} (l : list A) : list A := match l with _ :: b :: r => b :: odds r | _ => [] end.

Section Chebyshev.
  Context {pr : provider}.
  Variable D : Z.
  Variable chk : check.
  (** approximations.py:388-390: [n] rounds of the loop; the polynomials newest first *)
  Fixpoint cheb_morev (y : num) (n : nat) (ps : list num) : runo pr (list num) :=
    match n, ps with
    | S n, p1 :: p2 :: _ => m <~ mulv chk y p1 ;; cheb_morev y n (sub_num m (AEnc p2) :: ps)
    | _, _ => okr ps
    end.
  (** 365-392; ValueError for an odd or too small number of terms *)
  Definition cheb_polysv (terms : nat) (x : num) : runo pr (list num) :=
    if negb (Nat.even terms) || Nat.ltb terms 6 then raise
    else
      q <~ squarev chk x ;;
      let y := sub_num (muli_num 4 q) (AInt 2) in
      let z := sub_num y (AInt 1) in
      p <~ mulv chk z x ;;
      ps <~ cheb_morev y (terms / 2 - 2) [p; x] ;; okr (rev ps).
  (** 350-360; [coeffs] are the floats computed by [chebyshev_series(torch.tanh, 1, terms)] (util.py:32-53), [terms] of them *)
  Definition tanh_chebv (coeffs : list Q) (terms : nat) (x : num) : runo pr num :=
    ps <~ cheb_polysv terms x ;; o <~ dotpv chk (combine ps (odds coeffs)) ;; lift (hardtanh D o (AInt (-1)) (AInt 1)).
  (** 297-299 *)
  Definition sigmoid_chebv (coeffs : list Q) (terms : nat) (x : num) : runo pr num :=
    h <~ divv chk x 2 ;; t <~ tanh_chebv coeffs terms h ;; r <~ divv chk t 2 ;; okr (add_num r (AFloat (1 # 2))).
End Chebyshev.
