(** Adaptive pooling: resizing the input so that windows of equal size can be used, _adaptive_pool2d_helper in crypten/common/functions/pooling.py. *)
Require Import ZArith List Bool.
Import ListNotations.
Open Scope Z_scope.

(** *** float64: [(m, e)] stands for m * 2^e *)
Definition float := (Z * Z)%type.
(** [n / d] rounded to 53 bits, to nearest, ties to even; the numbers here are far from overflow and underflow *)
Definition round_even (n d : Z) : Z :=
  let q := n / d in let r := n mod d in
  if 2 * r <? d then q else if d <? 2 * r then q + 1 else if Z.even q then q else q + 1.
Definition round53 (n d : Z) : float :=
  if n =? 0 then (0, 0)
  else let e0 := Z.log2 n - Z.log2 d - 53 in
       let scale e := (n * 2 ^ (Z.max (- e) 0), d * 2 ^ (Z.max e 0)) in
       let e := if fst (scale e0) / snd (scale e0) <? 2 ^ 53 then e0 else e0 + 1 in
       (round_even (fst (scale e)) (snd (scale e)), e).
(** [a / b] and [j * x] for integers that float64 represents *)
Definition fl_div (a b : Z) : float := round53 a b.
Definition fl_mul (j : Z) (x : float) : float := round53 (j * fst x * 2 ^ (Z.max (snd x) 0)) (2 ^ (Z.max (- snd x) 0)).
(** [int(x)] of a non-negative number, and [math.ceil(x)] *)
Definition fl_floor (x : float) : Z := fst x * 2 ^ (Z.max (snd x) 0) / 2 ^ (Z.max (- snd x) 0).
Definition fl_ceil (x : float) : Z := - ((- (fst x * 2 ^ (Z.max (snd x) 0))) / 2 ^ (Z.max (- snd x) 0)).

(** compute_kernels, pooling.py:224-243: the windows [(start, end)] and the greatest size *)
Definition float_windows (in_size out_size : Z) : list (nat * nat) :=
  let step := fl_div in_size out_size in
  map (fun j => let j := Z.of_nat j in (Z.to_nat (fl_floor (fl_mul j step)), Z.to_nat (fl_ceil (fl_mul (j + 1) step)))) (seq 0 (Z.to_nat out_size)).
Definition max_kernel (ws : list (nat * nat)) : nat := fold_left (fun m w => Nat.max m (snd w - fst w)) ws 0%nat.

(** *** Along one dimension; an element of the list is a slice of the tensor *)
Section Rows.
  Context {A : Type}.
  (** extended_value for a window: the mean of its rows, or its first row (pooling.py:256-266) *)
  Variable extension : list A -> option A.

  (** index_select(dim, arange(a, b)) *)
  Definition select (t : list A) (a b : nat) : option (list A) := if Nat.leb a b && Nat.leb b (length t) then Some (firstn (b - a) (skipn a t)) else None.
  (** repeat_row, pooling.py:246-251 *)
  Definition repeat_row (t : list A) (ind : nat) : option (list A) :=
    match select t 0 ind, select t ind (length t), nth_error t (ind - 1) with Some x, Some y, Some r => Some (x ++ r :: y) | _, _, _ => None end.
  (** extend_row, pooling.py:254-275 *)
  Definition extend_row (t : list A) (s e : nat) : option (list A) :=
    match select t s e with
    | Some w => match extension w with
      | Some v => if Nat.eqb s 0 then Some (v :: t) else match select t 0 s, select t s (length t) with Some x, Some y => Some (x ++ v :: y) | _, _ => None end
      | None => None end
    | None => None
    end.
  (** [for _ in range(k, stride)]; the state is the tensor and [added_rows] *)
  Fixpoint extend_times (n : nat) (s e : nat) (st : option (list A * nat)) : option (list A * nat) :=
    match n, st with
    | O, _ => st
    | S n, Some (t, added) => extend_times n s e (option_map (fun t => (t, S added)) (extend_row t (s + added) (e + added)))
    | S _, None => None
    end.
  (** the loop, pooling.py:287-306 *)
  Fixpoint resize_loop (stride : nat) (ws : list (nat * nat)) (st : option (list A * nat)) : option (list A * nat) :=
    match ws with
    | [] => st
    | (s, e) :: rest =>
        let st := extend_times (stride - (e - s)) s e st in
        match rest with
        | [] => st
        | (s', _) :: _ =>
            resize_loop stride rest
              (if Nat.ltb s' e then match st with Some (t, added) => option_map (fun t => (t, S added)) (repeat_row t (e + added)) | None => None end else st)
        end
    end.
  (** pooling.py:278-310 for one dimension: the resized dimension and the stride; [None]: an exception *)
  Definition resize_with (ws : list (nat * nat)) (t : list A) : option (list A * nat) :=
    option_map (fun p => (fst p, max_kernel ws)) (resize_loop (max_kernel ws) ws (Some (t, 0%nat))).
  Definition resize (out_size : nat) (t : list A) : option (list A * nat) :=
    if Nat.ltb 1 out_size then resize_with (float_windows (Z.of_nat (length t)) (Z.of_nat out_size)) t else Some (t, length t).
  (** the rows seen by pooling with kernel = stride = [k], without padding *)
  Definition chunks (k : nat) (t : list A) : list (list A) := map (fun i => firstn k (skipn (i * k) t)) (seq 0 (length t / k)).
  Definition adaptive (out_size : nat) (t : list A) : option (list (list A)) := option_map (fun p => chunks (snd p) (fst p)) (resize out_size t).
End Rows.

Definition first_row {A} (w : list A) : option A := nth_error w 0.

(** *** Both dimensions: rows first (pooling.py:278, dimension -2), then columns *)
Definition adaptive2 {A} (ext_rows : list (list A) -> option (list A)) (ext_cols : list A -> option A) (h w : nat) (m : list (list A)) : option (list (list (list (list A)))) :=
  match resize ext_rows h m with
  | Some (m, s0) =>
      match fold_right (fun row acc => match resize ext_cols w row, acc with Some (r, s1), Some (rows, _) => Some (r :: rows, s1) | _, _ => None end) (Some ([], 0%nat)) m with
      | Some (m, s1) => Some (map (fun rows => map (fun j => map (fun r => nth j (chunks s1 r) []) rows) (seq 0 w)) (chunks s0 m))
      | None => None
      end
  | None => None
  end.
