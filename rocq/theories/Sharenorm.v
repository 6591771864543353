(** norm (crypten/common/functions/power.py:100-126), cosine_similarity and batchnorm (crypten/gradients.py:1007-1035, 1750-1835) of encrypted vectors on shares, with the rounding of every operation; conventions as in
    Shareapprox.v.  A vector is the list of the elements along the reduced dimensions; stacked tensors are computed one after the other.
    [d] = exp_iterations, [iters] = sqrt_nr_iters.
    Norms with other exponents are in Sharepnorm.v.  Not modelled: statistics and parameters of batchnorm that are not encrypted, its [inv_var] argument. *)
Require Import ZArith List Bool QArith.
From Verif Require Import Ring64 Encoder Arith Beaver Trunc Provider Binary Compare Maximum Regular Shareapprox Shareroot.
Import ListNotations.
Open Scope Z_scope.

Section Norms.
  Context {pr : provider}.
  (** scale of the default encoder, as in Compare.v *)
  Variable D : Z.
  Variable chk : check.
  Variables (d iters : nat).

  (** power.py:107-110, p = 1: [self.abs().sum()] *)
  Definition norm1v (xs : list num) : runo pr num := a <~ mapO (fun x => lift (n_abs D x)) xs ;; okr (sum_num a).
  (** 111-114, p = 2 or "fro": [self.square().sum().sqrt()] *)
  Definition square_sumv (xs : list num) : runo pr num := q <~ mapO (squarev chk) xs ;; okr (sum_num q).
  Definition norm2v (xs : list num) : runo pr num := q <~ square_sumv xs ;; sqrtv chk d iters q.
  (** 115-118, p = inf: [self.abs().max(dim)[0]]; the other parameters are those of the maximum (Maximum.v) *)
  Definition norm_infv (p : nat) (local_bits : run pr (list Z)) (log_steps cascade_steps isqrt : nat -> nat) (me : method) (xs : list num) : runo pr num :=
    a <~ mapO (fun x => lift (n_abs D x)) xs ;; r <~ lift (max_dim D p local_bits log_steps cascade_steps isqrt me a) ;; okr (fst r).

  (** gradients.py:1019-1022, vectors of one element: [x1.mul(x2).sign()] *)
  Definition cosine1v (x y : num) : runo pr num := p <~ mulv chk x y ;; lift (n_sign D p).
  (** 1027-1035: both squared norms, [inv_sqrt] of both, [inv_norms.prod(0)], [xy.prod(0).sum(dim)], [dot.mul(inv_norm)] *)
  Definition cosinev (xs ys : list num) : runo pr num :=
    match xs, ys with
    | [x], [y] => cosine1v x y
    | _, _ =>
        qx <~ square_sumv xs ;; qy <~ square_sumv ys ;;
        ix <~ inv_sqrtv chk d iters qx ;; iy <~ inv_sqrtv chk d iters qy ;;
        inv <~ prodv chk [ix; iy] ;;
        ps <~ zipO (fun x y => prodv chk [x; y]) xs ys ;;
        mulv chk (sum_num ps) inv
    end.

  (** 1821: [(variance + eps).inv_sqrt()] *)
  Definition bn_inversev (eps : Q) (v : num) : runo pr num := inv_sqrtv chk d iters (add_num v (AFloat eps)).
  (** 1830-1834: [x_norm = (x - mean) * inv_var], [x_norm * weight + bias] *)
  Definition bn_outputv (mean inv w b x : num) : runo pr num :=
    xn <~ mulv chk (sub_num x (AEnc mean)) inv ;; z <~ mulv chk xn w ;; okr (add_num z (AEnc b)).
  (** evaluation mode, one channel, for all its elements *)
  Definition bn_evalv (eps : Q) (mean v w b : num) (xs : list num) : runo pr (list num) :=
    inv <~ bn_inversev eps v ;; mapO (bn_outputv mean inv w b) xs.
  (** 1802-1804, training mode: mean and [var(unbiased=True)] of the channel *)
  Definition bn_statsv (xs : list num) : runo pr (num * num) :=
    ms <~ meanv chk [xs] ;; vs <~ varv chk true [xs] ;; okr (hd nil_num ms, hd nil_num vs).
  (** 1805-1807: [running * (1.0 - momentum) + batch * momentum] *)
  Definition bn_runningv (momentum : Q) (running batch : num) : runo pr num :=
    a <~ mulpv chk running (encodeQ (n_sc running) (1 - momentum)) ;; c <~ mulpv chk batch (encodeQ (n_sc batch) momentum) ;; okr (add_num a (AEnc c)).
  (** the outputs, the new running variance and mean *)
  Definition bn_trainv (eps momentum : Q) (rmean rvar w b : num) (xs : list num) : runo pr (list num * (num * num)) :=
    st <~ bn_statsv xs ;; rv <~ bn_runningv momentum rvar (snd st) ;; rm <~ bn_runningv momentum rmean (fst st) ;;
    out <~ bn_evalv eps (fst st) (snd st) w b xs ;; okr (out, (rv, rm)).
End Norms.
