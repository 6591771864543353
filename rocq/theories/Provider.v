(** The correlated randomness used by the interactive protocols, as a state monad.
    crypten/mpc/provider/provider.py:26-155 and the zero sharings of arithmetic.py:158-178, binary.py:112-133.

    Simplification: one draw here is the material for one tensor element; a vectorised request for k elements is k draws.
    Theorems quantify over every provider and every state, so any assignment of material to elements is covered. *)
Require Import ZArith List.
From Verif Require Import Ring64 Arith Trunc.
Import ListNotations.
Open Scope Z_scope.

Record provider := mkProvider {
  pst : Type;
  (** generate_binary_triple: sharings of a, b and a & b *)
  next_and : pst -> (list Z * list Z * list Z) * pst;
  (** generate_additive_triple for an elementwise product *)
  next_mul : pst -> (list Z * list Z * list Z) * pst;
  (** square *)
  next_square : pst -> (list Z * list Z) * pst;
  (** wrap_rng: sharings of r and of the number of wraps of r's shares *)
  next_wrap : pst -> (list Z * list Z) * pst;
  (** B2A_rng: arithmetic and XOR sharing of one random bit *)
  next_b2a : pst -> (list Z * list Z) * pst;
  (** ArithmeticSharedTensor.PRZS and BinarySharedTensor.PRZS *)
  next_zero : pst -> list Z * pst;
  next_bzero : pst -> list Z * pst }.

(** What a correct provider guarantees to [n] parties, in every state. *)
Record valid (n : nat) (pr : provider) : Prop := mkValid {
  v_and : forall s, let '(a, b, c) := fst (next_and pr s) in
    length a = n /\ length b = n /\ length c = n /\ Forall in64 a /\ Forall in64 b /\ Forall in64 c /\ open_b c = Z.land (open_b a) (open_b b);
  v_mul : forall s, let '(a, b, c) := fst (next_mul pr s) in
    length a = n /\ length b = n /\ length c = n /\ Forall in64 a /\ Forall in64 b /\ Forall in64 c /\ open_a c = wmul (open_a a) (open_a b);
  v_square : forall s, let '(r, r2) := fst (next_square pr s) in
    length r = n /\ length r2 = n /\ Forall in64 r /\ Forall in64 r2 /\ open_a r2 = wmul (open_a r) (open_a r);
  v_wrap : forall s, let '(r, th) := fst (next_wrap pr s) in
    length r = n /\ length th = n /\ Forall in64 r /\ Forall in64 th /\ open_a th = wrap (count_wraps r);
  v_b2a : forall s, let '(rA, rB) := fst (next_b2a pr s) in
    length rA = n /\ length rB = n /\ Forall in64 rA /\ Forall in64 rB /\ (open_b rB = 0 \/ open_b rB = 1) /\ open_a rA = open_b rB;
  v_zero : forall s, let z := fst (next_zero pr s) in length z = n /\ Forall in64 z /\ open_a z = 0;
  v_bzero : forall s, let z := fst (next_bzero pr s) in length z = n /\ Forall in64 z /\ open_b z = 0 }.

(** Protocol runs: functions of the provider state. *)
Definition run (pr : provider) (A : Type) : Type := pst pr -> A * pst pr.
Definition ret {pr A} (a : A) : run pr A := fun s => (a, s).
Definition bind {pr A B} (m : run pr A) (f : A -> run pr B) : run pr B := fun s => let '(a, s') := m s in f a s'.
Notation "x <- m ;; k" := (bind m (fun x => k)) (at level 61, m at next level, right associativity).

(** Elementwise application of an interactive operation to tensors, and folds. *)
Fixpoint mapM {pr A B} (f : A -> run pr B) (l : list A) : run pr (list B) :=
  match l with [] => ret [] | a :: r => b <- f a ;; bs <- mapM f r ;; ret (b :: bs) end.
Fixpoint zipM {pr A B C} (f : A -> B -> run pr C) (l : list A) (m : list B) : run pr (list C) :=
  match l, m with a :: l', b :: m' => c <- f a b ;; cs <- zipM f l' m' ;; ret (c :: cs) | _, _ => ret [] end.
Fixpoint foldM {pr A B} (f : A -> B -> run pr A) (l : list B) (a : A) : run pr A :=
  match l with [] => ret a | b :: r => a' <- f a b ;; foldM f r a' end.
