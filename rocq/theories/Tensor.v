(** Tensors as index functions, and the torch operations (trusted: PyTorch's semantics) that the gradient functions of crypten/gradients.py are built from.
    Elements are integers: every operation here is a ring operation, so the results also hold for shares and encodings modulo 2^64.  Errors (torch raising) are [None]; 0-d tensors take no dimension argument. *)
Require Import List ZArith Bool Arith.
From Verif Require Import Ring64.
Import ListNotations.
Open Scope Z_scope.

Definition index := list nat.
Record tensor := mkT { shape : list nat; at_ : index -> Z }.
Fixpoint valid (s : list nat) (ix : index) : Prop :=
  match s, ix with [], [] => True | n :: s, i :: ix => (i < n)%nat /\ valid s ix | _, _ => False end.
Fixpoint indices (s : list nat) : list index :=
  match s with [] => [[]] | n :: s => flat_map (fun i => map (cons i) (indices s)) (seq 0 n) end.
Fixpoint index_eqb (a b : index) : bool := match a, b with [], [] => true | i :: a, j :: b => Nat.eqb i j && index_eqb a b | _, _ => false end.
Definition sums (s : list nat) (f : index -> Z) : Z := zsum (map f (indices s)).
Definition sumn (n : nat) (f : nat -> Z) : Z := zsum (map f (seq 0 n)).
Definition product (l : list nat) : nat := fold_right Nat.mul 1%nat l.

(** positions of lists *)
Definition pos (d : nat) (l : list nat) : nat := nth d l O.
Definition upd (d v : nat) (l : list nat) : list nat := firstn d l ++ v :: skipn (S d) l.
Definition ins (d v : nat) (l : list nat) : list nat := firstn d l ++ v :: skipn d l.
Definition del (d : nat) (l : list nat) : list nat := firstn d l ++ skipn (S d) l.
(** torch's dimension arguments: -n .. n-1 *)
Definition dimn (d : Z) (n : nat) : option nat :=
  if (0 <=? d) && (d <? Z.of_nat n) then Some (Z.to_nat d) else if (- Z.of_nat n <=? d) && (d <? 0) then Some (Z.to_nat (d + Z.of_nat n)) else None.
Definition rank (x : tensor) : nat := length (shape x).

(** *** Pointwise *)
Definition neg (x : tensor) : tensor := mkT (shape x) (fun ix => - at_ x ix).
Definition scale (c : Z) (x : tensor) : tensor := mkT (shape x) (fun ix => c * at_ x ix).
(** broadcasting: shapes aligned at the right *)
Fixpoint bshape_rev (s t : list nat) : option (list nat) :=
  match s, t with
  | [], t => Some t | s, [] => Some s
  | a :: s, b :: t => match bshape_rev s t with
                      | None => None
                      | Some r => if Nat.eqb a b then Some (a :: r) else if Nat.eqb a 1 then Some (b :: r) else if Nat.eqb b 1 then Some (a :: r) else None
                      end
  end.
Definition bshape (s t : list nat) : option (list nat) := match bshape_rev (rev s) (rev t) with Some r => Some (rev r) | None => None end.
(** the element of a tensor of shape [s] that ends up at [ix] *)
Definition clamp (s : list nat) (ix : index) : index := map (fun p => if Nat.eqb (fst p) 1 then O else snd p) (combine s ix).
Definition bindex (s : list nat) (ix : index) : index := clamp s (skipn (length ix - length s) ix).
Definition expand (x : tensor) (t : list nat) : tensor := mkT t (fun ix => at_ x (bindex (shape x) ix)).
Definition pointwise (op : Z -> Z -> Z) (x y : tensor) : option tensor :=
  match bshape (shape x) (shape y) with Some t => Some (mkT t (fun ix => op (at_ x (bindex (shape x) ix)) (at_ y (bindex (shape y) ix)))) | None => None end.
Definition add := pointwise Z.add.
Definition sub := pointwise Z.sub.
Definition mul := pointwise Z.mul.

(** *** Reductions *)
Definition sum_all (x : tensor) : tensor := mkT [] (fun _ => sums (shape x) (at_ x)).
Definition sum_dim (d : nat) (keepdim : bool) (x : tensor) : tensor :=
  if keepdim then mkT (upd d 1%nat (shape x)) (fun ix => sumn (pos d (shape x)) (fun i => at_ x (upd d i ix)))
  else mkT (del d (shape x)) (fun ix => sumn (pos d (shape x)) (fun i => at_ x (ins d i ix))).

(** *** Reordering *)
Definition tabulate (n : nat) (f : nat -> nat) : list nat := map f (seq 0 n).
Definition mem (k : nat) (l : list nat) : bool := existsb (Nat.eqb k) l.
Fixpoint index_of (k : nat) (l : list nat) : nat := match l with [] => O | x :: l => if Nat.eqb x k then O else S (index_of k l) end.
Fixpoint distinct (l : list nat) : bool := match l with [] => true | x :: l => negb (mem x l) && distinct l end.
(** all dimension arguments of a list *)
Fixpoint dimns (ds : list Z) (n : nat) : option (list nat) :=
  match ds with [] => Some [] | d :: ds => match dimn d n, dimns ds n with Some d, Some ds => Some (d :: ds) | _, _ => None end end.
Definition swapped (a b k : nat) : nat := if Nat.eqb k a then b else if Nat.eqb k b then a else k.
Definition transpose (d1 d2 : Z) (x : tensor) : option tensor :=
  match dimn d1 (rank x), dimn d2 (rank x) with
  | Some a, Some b => Some (mkT (tabulate (rank x) (fun k => pos (swapped a b k) (shape x))) (fun ix => at_ x (tabulate (rank x) (fun k => pos (swapped a b k) ix))))
  | _, _ => None
  end.
(** x.t(): at most two dimensions *)
Definition t_ (x : tensor) : option tensor := match rank x with 0%nat | 1%nat => Some x | 2%nat => transpose 0 1 x | _ => None end.
Definition permute (dims : list Z) (x : tensor) : option tensor :=
  match dimns dims (rank x) with
  | Some ds => if Nat.eqb (length ds) (rank x) && distinct ds
               then Some (mkT (tabulate (rank x) (fun k => pos (pos k ds) (shape x))) (fun ix => at_ x (tabulate (rank x) (fun k => pos (index_of k ds) ix)))) else None
  | None => None
  end.
Definition flip (dims : list Z) (x : tensor) : option tensor :=
  match dimns dims (rank x) with
  | Some ds => if distinct ds then Some (mkT (shape x) (fun ix => at_ x (tabulate (rank x) (fun k => if mem k ds then pos k (shape x) - 1 - pos k ix else pos k ix)%nat))) else None
  | None => None
  end.
(** row-major position *)
Fixpoint ravel (s : list nat) (ix : index) : nat := match s, ix with _ :: s, i :: ix => (i * product s + ravel s ix)%nat | _, _ => O end.
Fixpoint unravel (s : list nat) (k : nat) : index := match s with [] => [] | _ :: s => (k / product s)%nat :: unravel s (k mod product s) end.
(** view / reshape / flatten to an explicit size *)
Definition reshape (size : list nat) (x : tensor) : option tensor :=
  if Nat.eqb (product size) (product (shape x)) then Some (mkT size (fun ix => at_ x (unravel (shape x) (ravel size ix)))) else None.
(** flatten(start_dim, end_dim) *)
Definition flatten_size (a b : nat) (s : list nat) : list nat := firstn a s ++ product (firstn (S b - a) (skipn a s)) :: skipn (S b) s.
Definition flatten (start_dim end_dim : Z) (x : tensor) : option tensor :=
  match shape x with
  | [] => reshape [1%nat] x
  | _ => match dimn start_dim (rank x), dimn end_dim (rank x) with
         | Some a, Some b => if Nat.leb a b then reshape (flatten_size a b (shape x)) x else None
         | _, _ => None
         end
  end.
(** roll over the listed dimensions, or over the flattened tensor *)
Definition rolled (n : nat) (shift : Z) (i : nat) : nat := Z.to_nat ((Z.of_nat i - shift) mod Z.of_nat n).
Definition total_shift (shifts : list Z) (ds : list nat) (k : nat) : Z := zsum (map (fun p => if Nat.eqb (snd p) k then fst p else 0) (combine shifts ds)).
Definition roll_dims (shifts : list Z) (dims : list Z) (x : tensor) : option tensor :=
  match dimns dims (rank x) with
  | Some ds => if Nat.eqb (length shifts) (length ds) then Some (mkT (shape x) (fun ix => at_ x (tabulate (rank x) (fun k => rolled (pos k (shape x)) (total_shift shifts ds k) (pos k ix))))) else None
  | None => None
  end.
Definition roll_flat (shift : Z) (x : tensor) : tensor := mkT (shape x) (fun ix => at_ x (unravel (shape x) (rolled (product (shape x)) shift (ravel (shape x) ix)))).
Definition unsqueeze (d : Z) (x : tensor) : option tensor :=
  match dimn d (S (rank x)) with Some d => Some (mkT (ins d 1%nat (shape x)) (fun ix => at_ x (del d ix))) | None => None end.
(** squeeze(dim): a no-op for other sizes *)
Definition squeeze (d : Z) (x : tensor) : option tensor :=
  match dimn d (rank x) with
  | Some d => if Nat.eqb (pos d (shape x)) 1 then Some (mkT (del d (shape x)) (fun ix => at_ x (ins d O ix))) else Some x
  | None => None
  end.
(** squeeze() *)
Fixpoint unsqueezed (s : list nat) (ix : index) : index := match s with [] => [] | n :: s => if Nat.eqb n 1 then O :: unsqueezed s ix else match ix with i :: ix => i :: unsqueezed s ix | [] => [] end end.
Definition squeeze_all (x : tensor) : tensor := mkT (filter (fun n => negb (Nat.eqb n 1)) (shape x)) (fun ix => at_ x (unsqueezed (shape x) ix)).

(** *** Selecting *)
(** narrow: a negative start counts from the end *)
Definition narrow (d start len : Z) (x : tensor) : option tensor :=
  match dimn d (rank x) with
  | Some d => let n := Z.of_nat (pos d (shape x)) in
              let start := if start <? 0 then start + n else start in
              if (0 <=? start) && (0 <=? len) && (start + len <=? n)
              then Some (mkT (upd d (Z.to_nat len) (shape x)) (fun ix => at_ x (upd d (pos d ix + Z.to_nat start)%nat ix))) else None
  | None => None
  end.
(** torch.nn.functional.pad (constant): pairs (before, after), last dimension first; negative entries crop *)
Definition pad_dim (d : nat) (before after value : Z) (x : tensor) : option tensor :=
  let n := Z.of_nat (pos d (shape x)) in
  if (0 <=? n + before + after) then
    Some (mkT (upd d (Z.to_nat (n + before + after)) (shape x)) (fun ix => let i := Z.of_nat (pos d ix) - before in if (0 <=? i) && (i <? n) then at_ x (upd d (Z.to_nat i) ix) else value))
  else None.
Fixpoint pad_from (d : nat) (padding : list Z) (value : Z) (x : tensor) : option tensor :=
  match padding with
  | [] => Some x
  | b :: a :: padding => match d with O => None | S d => match pad_dim d b a value x with Some y => pad_from d padding value y | None => None end end
  | _ => None
  end.
Definition pad (padding : list Z) (value : Z) (x : tensor) : option tensor := pad_from (rank x) padding value x.
(** cat, split, stack, unbind *)
Fixpoint cat_at (d : nat) (xs : list tensor) (ix : index) : Z :=
  match xs with [] => 0 | x :: xs => if Nat.ltb (pos d ix) (pos d (shape x)) then at_ x ix else cat_at d xs (upd d (pos d ix - pos d (shape x))%nat ix) end.
Definition cat (d : Z) (xs : list tensor) : option tensor :=
  match xs with
  | [] => None
  | x :: _ => match dimn d (rank x) with
              | Some d => if forallb (fun y => Nat.eqb (rank y) (rank x) && index_eqb (del d (shape y)) (del d (shape x))) xs
                          then Some (mkT (upd d (fold_right Nat.add O (map (fun y => pos d (shape y)) xs)) (shape x)) (cat_at d xs)) else None
              | None => None
              end
  end.
Fixpoint split_from (d : nat) (start : nat) (sections : list nat) (x : tensor) : list tensor :=
  match sections with
  | [] => []
  | n :: sections => mkT (upd d n (shape x)) (fun ix => at_ x (upd d (pos d ix + start)%nat ix)) :: split_from d (start + n) sections x
  end.
Definition split (sections : list nat) (d : Z) (x : tensor) : option (list tensor) :=
  match dimn d (rank x) with
  | Some d => if Nat.eqb (fold_right Nat.add O sections) (pos d (shape x)) then Some (split_from d 0 sections x) else None
  | None => None
  end.
Definition stack (d : Z) (xs : list tensor) : option tensor :=
  match xs with
  | [] => None
  | x :: _ => match dimn d (S (rank x)) with
              | Some d => if forallb (fun y => index_eqb (shape y) (shape x)) xs
                          then Some (mkT (ins d (length xs) (shape x)) (fun ix => at_ (nth (pos d ix) xs x) (del d ix))) else None
              | None => None
              end
  end.
Definition unbind (d : Z) (x : tensor) : option (list tensor) :=
  match dimn d (rank x) with
  | Some d => Some (map (fun i => mkT (del d (shape x)) (fun ix => at_ x (ins d i ix))) (seq 0 (pos d (shape x))))
  | None => None
  end.
(** index_select, index_add_ (into zeros) *)
Definition index_select (d : Z) (idx : list nat) (x : tensor) : option tensor :=
  match dimn d (rank x) with
  | Some d => if forallb (fun i => Nat.ltb i (pos d (shape x))) idx
              then Some (mkT (upd d (length idx) (shape x)) (fun ix => at_ x (upd d (pos (pos d ix) idx) ix))) else None
  | None => None
  end.
Definition index_add_zeros (size : list nat) (d : Z) (idx : list nat) (g : tensor) : option tensor :=
  match dimn d (length size) with
  | Some d => if forallb (fun i => Nat.ltb i (pos d size)) idx && index_eqb (shape g) (upd d (length idx) size)
              then Some (mkT size (fun ix => sumn (length idx) (fun k => if Nat.eqb (pos k idx) (pos d ix) then at_ g (upd d k ix) else 0))) else None
  | None => None
  end.
(** gather, scatter_add_ (into zeros): [idx] has the output's shape; other dimensions may be smaller than the input's *)
Definition gather_ok (d : nat) (size ishape : list nat) (idx : index -> nat) : bool :=
  Nat.eqb (length ishape) (length size) && forallb (fun k => Nat.eqb k d || Nat.leb (pos k ishape) (pos k size)) (seq 0 (length size)) && forallb (fun ix => Nat.ltb (idx ix) (pos d size)) (indices ishape).
Definition gather (d : Z) (ishape : list nat) (idx : index -> nat) (x : tensor) : option tensor :=
  match dimn d (rank x) with
  | Some d => if gather_ok d (shape x) ishape idx then Some (mkT ishape (fun ix => at_ x (upd d (idx ix) ix))) else None
  | None => None
  end.
Definition scatter_add_zeros (size : list nat) (d : Z) (ishape : list nat) (idx : index -> nat) (g : tensor) : option tensor :=
  match dimn d (length size) with
  | Some d => if gather_ok d size ishape idx && index_eqb (shape g) ishape
              then Some (mkT size (fun jx => sums ishape (fun ix => if index_eqb (upd d (idx ix) ix) jx then at_ g ix else 0))) else None
  | None => None
  end.
(** take(index) on the flattened tensor *)
Definition take_flat (ishape : list nat) (idx : index -> nat) (x : tensor) : option tensor :=
  if forallb (fun ix => Nat.ltb (idx ix) (product (shape x))) (indices ishape) then Some (mkT ishape (fun ix => at_ x (unravel (shape x) (idx ix)))) else None.
(** flat[index] = values: the last assignment to a position stays *)
Definition assign_flat (size : list nat) (ishape : list nat) (idx : index -> nat) (g : tensor) : option tensor :=
  if forallb (fun ix => Nat.ltb (idx ix) (product size)) (indices ishape)
  then Some (mkT size (fun jx => fold_left (fun v ix => if Nat.eqb (idx ix) (ravel size jx) then at_ g ix else v) (indices ishape) 0)) else None.
(** cumsum, trace, eye *)
Definition cumsum (d : Z) (x : tensor) : option tensor :=
  match dimn d (rank x) with Some d => Some (mkT (shape x) (fun ix => sumn (S (pos d ix)) (fun i => at_ x (upd d i ix)))) | None => None end.
Definition trace (x : tensor) : option tensor := match shape x with [n; m] => Some (mkT [] (fun _ => sumn (Nat.min n m) (fun i => at_ x [i; i]))) | _ => None end.
Definition eye (n : nat) : tensor := mkT [n; n] (fun ix => if Nat.eqb (pos 0 ix) (pos 1 ix) then 1 else 0).
Definition ones (s : list nat) : tensor := mkT s (fun _ => 1).
