(** Gradient mode: CrypTensor.AUTOGRAD_ENABLED, no_grad, enable_grad, crypten/cryptensor.py:147-180. *)
Require Import List Bool Arith.
Import ListNotations.

(** Python code that uses the contexts.  [Op k]: calling an operation [k] on a tensor that requires gradients; it is recorded on the tape iff the mode is on (cryptensor.py:389-394). *)
Inductive code :=
| Pass | Op (k : nat) | Raise
| Set_enabled (mode : bool)                     (* CrypTensor.set_grad_enabled, cryptensor.py:175-180 *)
| Seq (a b : code) | Try (a handler : code)     (* try: a  except: handler *)
| If (cond : bool -> bool) (a b : code)         (* a branch on the mode *)
| No_grad (a : code) | Enable_grad (a : code).  (* with blocks, cryptensor.py:149-173 *)
(** mode, and the operations performed, each with whether it was recorded *)
Definition gstate := (bool * list (nat * bool))%type.
Definition set_mode (m : bool) (s : gstate) : gstate := (m, snd s).

(** result: no exception?, state *)
Fixpoint exec (c : code) (s : gstate) : bool * gstate :=
  match c with
  | Pass => (true, s)
  | Op k => (true, (fst s, snd s ++ [(k, fst s)]))
  | Raise => (false, s)
  | Set_enabled m => (true, set_mode m s)
  | Seq a b => let (ok, s) := exec a s in if ok then exec b s else (false, s)
  | Try a h => let (ok, s) := exec a s in if ok then (true, s) else exec h s
  | If cond a b => if cond (fst s) then exec a s else exec b s
  | No_grad a => let prior := fst s in let (ok, s) := exec a (set_mode false s) in (ok, set_mode prior s)
  | Enable_grad a => let prior := fst s in let (ok, s) := exec a (set_mode true s) in (ok, set_mode prior s)
  end.

(** *** Threads (the in-process communicator runs every party as a thread; the mode is a class attribute they share).
    Entering a block saves the mode in the thread's own frame. *)
Inductive event := Enter (thread : nat) (mode : bool) | Exit (thread : nat).
Definition tstate := (bool * (nat -> list bool))%type.
Definition tupd (f : nat -> list bool) (t : nat) (l : list bool) : nat -> list bool := fun u => if Nat.eqb u t then l else f u.
Definition tstep (s : tstate) (e : event) : option tstate :=
  match e with
  | Enter t m => Some (m, tupd (snd s) t (fst s :: snd s t))
  | Exit t => match snd s t with prior :: rest => Some (prior, tupd (snd s) t rest) | [] => None end
  end.
Fixpoint trace (s : tstate) (l : list event) : option tstate :=
  match l with [] => Some s | e :: l => match tstep s e with Some s => trace s l | None => None end end.
