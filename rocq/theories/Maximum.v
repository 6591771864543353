(** Maxima, arg-maxima, shared random numbers and weighted sampling
    (crypten/common/functions/maximum.py, sampling.py, regular.py, crypten/mpc/mpc.py).

    A tensor is modelled along the reduced dimension only: the list of its elements in that dimension (the code treats the other
    dimensions elementwise).  [max_helper_double_log_recursive] adds a second dimension, modelled as a list of rows. *)
Require Import ZArith List Bool.
From Verif Require Import Ring64 Encoder Arith Beaver Trunc Provider Binary Compare.
Import ListNotations.
Open Scope Z_scope.

Definition nil_num : num := mkNum [] 1.

(** arithmetic.py [sum], [cumsum]: torch's operation on every share; the encoder is kept. *)
Definition sum_num (xs : list num) : num :=
  match xs with [] => nil_num | x :: _ => mkNum (sum_list (length (n_sh x)) (map n_sh xs)) (n_sc x) end.
Definition cumsum (xs : list num) : list num := map (fun i => sum_num (firstn (S i) xs)) (seq 0 (length xs)).
(** torch.roll with a shift [0 <= k <= length]: position j receives element (j - k) mod length. *)
Definition roll {A} (k : nat) (xs : list A) : list A := skipn (length xs - k) xs ++ firstn (length xs - k) xs.
(** element lists along dim 0 of stacked rows, for each of the [m] positions *)
Definition columns {A} (d : A) (m : nat) (rows : list (list A)) : list (list A) := map (fun j => map (fun r => nth j r d) rows) (seq 0 m).
(** row-major reshape of [c * k] rows of equal length into [k] rows, each the concatenation of [c] *)
Fixpoint merge {A} (c k : nat) (rows : list (list A)) : list (list A) :=
  match k with O => [] | S k' => concat (firstn c rows) :: merge c k' (skipn c rows) end.
(** row-major reshape of one row into [c] rows of length [m] *)
Fixpoint chunks {A} (m c : nat) (row : list A) : list (list A) :=
  match c with O => [] | S c' => firstn m row :: chunks m c' (skipn m row) end.

Inductive method := Pairwise | LogReduction | DoubleLog | Cascade.

Section Max.
  Context {pr : provider}.
  (** Default scale and precision bits of [FixedPointEncoder()]. *)
  Variable D : Z.
  Variable p : nat.
  (** torch.randint(0, 2**p) by every party with its local generator, common/rng.py:33-49 via binary.py:136-144 *)
  Variable local_bits : run pr (list Z).
  (** math.log / math.sqrt results as functions of the length: int(math.log(n)) (maximum.py:142), max(0, int(log log log n) + 1) (228) and
      int(math.sqrt(n)) (160) *)
  Variables log_steps cascade_steps isqrt : nat -> nat.

  (** mpc.py:216-230 *)
  Definition rand_num : run pr num := u <- local_bits ;; r <- b2a p D D u ;; ret (mkNum r D).

  (** regular.py:202-225 [prod] *)
  Definition halves {A} (xs : list A) : list A * list A * list A :=
    let h := Nat.div (length xs) 2 in (firstn h xs, firstn h (skipn h xs), skipn (2 * h) xs).
  Definition prod_round (xs : list num) : run pr (list num) :=
    let '(x, y, r) := halves xs in z <- zipM mul_num x y ;; ret (z ++ r).
  Fixpoint prod_loop (fuel : nat) (xs : list num) : run pr (list num) :=
    match fuel with
    | O => ret xs
    | S f => if Nat.ltb 1 (length xs) then xs' <- prod_round xs ;; prod_loop f xs' else ret xs
    end.
  Definition prod_num (xs : list num) : run pr num := r <- prod_loop (length xs) xs ;; ret (hd nil_num r).

  (** maximum.py:95-118 [_argmax_helper_pairwise] *)
  Definition pairwise_mask (xs : list num) : run pr (list num) :=
    let row := if Nat.ltb 1 (length xs) then length xs else 2%nat in
    cs <- mapM (fun i => zipM (fun a b => n_ge D a (AEnc b)) xs (roll (i + 1) xs)) (seq 0 (row - 1)) ;;
    mapM (fun col => if Nat.ltb (row - 1) 128 then prod_num col else n_ge D (sum_num col) (AInt (Z.of_nat (row - 1)))) (columns nil_num (length xs) cs).

  (** sampling.py:60-87 [weighted_index] *)
  Definition zero_like (x : num) : num := mkNum (map (fun _ => 0) (n_sh x)) (n_sc x).
  Definition fill0 (xs : list num) : list num := match xs with [] => [] | x :: r => zero_like x :: r end.
  Definition weighted_index (ws : list num) : run pr (list num) :=
    let x := cumsum ws in
    let max_weight := last x nil_num in
    u <- rand_num ;; r <- mul_num u max_weight ;;
    gt <- mapM (fun a => n_gt D a (AEnc r)) x ;;
    ret (zipw (fun g s => sub_num g (AEnc s)) gt (fill0 (roll 1 gt))).

  (** argmax and max with method "pairwise": maximum.py:277-313, 69-75 *)
  Definition argmax_pairwise (xs : list num) : run pr (list num) := m <- pairwise_mask xs ;; weighted_index m.
  Definition select (xs a : list num) : run pr num := z <- zipM mul_num xs a ;; ret (sum_num z).
  Definition max_pairwise (xs : list num) : run pr num := a <- argmax_pairwise xs ;; select xs a.

  (** maximum.py:121-132 *)
  Definition pair_step (xs : list num) : run pr (list num) :=
    let '(x, y, r) := halves xs in
    z <- zipM (fun a b => c <- n_ge D a (AEnc b) ;; cwhere c a b) x y ;; ret (z ++ r).
  Fixpoint pair_steps (steps : nat) (xs : list num) : run pr (list num) :=
    match steps with O => ret xs | S k => xs' <- pair_step xs ;; pair_steps k xs' end.
  (** maximum.py:135-152 *)
  Definition max_log (xs : list num) : run pr num := r <- pair_steps (log_steps (length xs)) xs ;; max_pairwise r.
  (** maximum.py:155-192; [fuel] bounds the recursion depth *)
  Fixpoint double_log (fuel : nat) (rows : list (list num)) : run pr (list (list num)) :=
    match fuel with
    | O => ret rows
    | S f =>
        let n := length rows in
        if Nat.eqb n 1 then ret rows
        else
          let k := isqrt n in let c := Nat.div n k in let m := length (hd [] rows) in
          sm <- double_log f (merge c k (firstn (k * c) rows)) ;;
          let full := chunks m c (hd [] sm) ++ skipn (k * c) rows in
          mx <- mapM max_pairwise (columns nil_num m full) ;; ret [mx]
    end.
  (** maximum.py:195-212 *)
  Definition max_double_log (xs : list num) : run pr num :=
    r <- double_log (length xs) (map (fun x => [x]) xs) ;; ret (hd nil_num (hd [] r)).
  (** maximum.py:215-233 *)
  Definition max_cascade (xs : list num) : run pr num :=
    if Nat.ltb (length xs) 3 then max_pairwise xs else r <- pair_steps (cascade_steps (length xs)) xs ;; max_double_log r.
  (** maximum.py:236-253 *)
  Definition max_tree (m : method) (xs : list num) : run pr num :=
    match m with LogReduction => max_log xs | DoubleLog => max_double_log xs | _ => max_cascade xs end.

  (** maximum.py:256-313 [_argmax_helper]: the one-hot vector and, for the tree methods, the maximum *)
  Definition argmax_helper (m : method) (xs : list num) : run pr (list num * option num) :=
    match m with
    | Pairwise => a <- argmax_pairwise xs ;; ret (a, None)
    | _ => v <- max_tree m xs ;; h <- mapM (fun x => n_eq D x (AEnc v)) xs ;; a <- weighted_index h ;; ret (a, Some v)
    end.
  (** maximum.py:23-42 *)
  Definition argmax (m : method) (xs : list num) : run pr (list num) := a <- argmax_helper m xs ;; ret (fst a).
  (** maximum.py:51-82, [dim] given: (max, one-hot argmax) *)
  Definition max_dim (m : method) (xs : list num) : run pr (num * list num) :=
    a <- argmax_helper m xs ;;
    match a with (h, Some v) => ret (v, h) | (h, None) => v <- select xs h ;; ret (v, h) end.
  (** maximum.py:53-64, [dim] None, on the flattened tensor *)
  Definition max_all (m : method) (xs : list num) : run pr num :=
    match m with LogReduction | DoubleLog => max_tree m xs | _ => a <- argmax m xs ;; select xs a end.
  (** maximum.py:85-92 *)
  Definition min_dim (m : method) (xs : list num) : run pr (num * list num) :=
    r <- max_dim m (map neg_num xs) ;; ret (neg_num (fst r), snd r).
  Definition min_all (m : method) (xs : list num) : run pr num := r <- max_all m (map neg_num xs) ;; ret (neg_num r).
  (** maximum.py:44-48 *)
  Definition argmin (m : method) (xs : list num) : run pr (list num) := argmax m (map neg_num xs).
  (** arithmetic.py:338-404 with op = mul and an int tensor operand *)
  Definition mul_itensor (x : num) (k : Z) : run pr num :=
    let raw := mul_int (encodeZ (n_sc x) k) (n_sh x) in
    match mul_pub_rescale (n_sc x) with (Some d, s) => r <- divi_num raw d ;; ret (mkNum r s) | (None, s) => ret (mkNum raw s) end.
  (** maximum.py:316-332 *)
  Definition one_hot_to_index (a : list num) : run pr num :=
    z <- zipM mul_itensor a (map Z.of_nat (seq 0 (length a))) ;; ret (sum_num z).
  Definition argmax_index (m : method) (xs : list num) : run pr num := a <- argmax m xs ;; one_hot_to_index a.
End Max.
