(** Gradient steps: SGD.step, crypten/optim/sgd.py:54-139, and Module.update_parameters, crypten/nn/module.py:317-346. *)
Require Import ZArith QArith List Bool.
From Verif Require Import Ring64 Encoder Arith Beaver Trunc Provider Binary Compare Maximum Regular.
Import ListNotations.

(** A parameter group's options, sgd.py:71-77.  They are numbers; the group is shared by its parameters. *)
Record options := mkOptions { lr : Q; momentum : Q; dampening : Q; weight_decay : Q; nesterov : bool }.
(** sgd.py:62-79: the constructor's checks *)
Definition accepted (o : options) : bool :=
  Qle_bool 0 (lr o) && Qle_bool 0 (momentum o) && Qle_bool 0 (weight_decay o) && negb (nesterov o && (Qle_bool (momentum o) 0 || negb (Qeq_bool (dampening o) 0))).

Section Sgd.
  (** tensors (all operations are elementwise) and their operations: [+], [-], multiplication by a number *)
  Context {T : Type}.
  Variables (add sub : T -> T -> T) (smul : Q -> T -> T).
  (** thresholding, sgd.py:115-118; the identity when there is no threshold *)
  Variable threshold : T -> T.

  (** sgd.py:113-137 for one parameter [p] with gradient [g] and momentum buffer [buf] *)
  Definition update (o : options) (p : T) (buf : option T) (g : T) : T * option T :=
    let d := threshold g in
    let d := if Qeq_bool (weight_decay o) 0 then d else add d (smul (weight_decay o) p) in
    if Qeq_bool (momentum o) 0 then (sub p (smul (lr o) d), buf)
    else
      let b := match buf with None => d | Some b => add (smul (momentum o) b) (smul (1 - dampening o) d) end in
      let d := if nesterov o then add d (smul (momentum o) b) else b in
      (sub p (smul (lr o) d), Some b).

  (** The optimizer: values and momentum buffers by tensor identity ([self.state[id(p)]]), sgd.py:105-137.  A parameter without gradient is skipped. *)
  Definition store := ((nat -> T) * (nat -> option T))%type.
  Definition put {A} (f : nat -> A) (i : nat) (v : A) : nat -> A := fun j => if Nat.eqb j i then v else f j.
  Definition step_param (grads : nat -> option T) (o : options) (s : store) (i : nat) : store :=
    match grads i with
    | None => s
    | Some g => let (p, b) := update o (fst s i) (snd s i) g in (put (fst s) i p, put (snd s) i b)
    end.
  Definition step_group (grads : nat -> option T) (s : store) (g : options * list nat) : store := fold_left (step_param grads (fst g)) (snd g) s.
  Definition step (groups : list (options * list nat)) (grads : nat -> option T) (s : store) : store := fold_left (step_group grads) groups s.
  (** several steps, each with the gradients found in the parameters *)
  Definition steps (groups : list (options * list nat)) (history : list (nat -> option T)) (s : store) : store := fold_left (fun s grads => step groups grads s) history s.
End Sgd.

(** *** Thresholding encrypted gradients: [g.mul(g.square().lt(t * t))], sgd.py:115-116 and module.py:338-341, for an integer threshold [t] *)
Section Threshold.
  Context {pr : provider}.
  Variable D : Z.
  Variable chk : check.
  Definition thresholded (t : Z) (g : num) : runo pr num :=
    q <~ squarev chk g ;; b <~ lift (n_lt D q (AInt (t * t))) ;; mulv chk g b.
End Threshold.

(** *** Module.update_parameters, module.py:329-346: [grad.mul_] works in place; with a threshold on an encrypted module [grad] is a new tensor, otherwise it is [param.grad] itself.
    One parameter: value and gradient. *)
Section Update.
  Context {T : Type}.
  Variables (sub : T -> T -> T) (smul : Q -> T -> T) (threshold : T -> T).
  Definition update_parameter (encrypted has_threshold : bool) (rate : Q) (s : T * option T) : T * option T :=
    match snd s with
    | None => s
    | Some g => if encrypted && has_threshold then (sub (fst s) (smul rate (threshold g)), Some g)
                else (sub (fst s) (smul rate g), Some (smul rate g))
    end.
End Update.
