(** Communication statistics: crypten/communicator/communicator.py:106-149 and the _logging decorator, 152-235. *)
Require Import List ZArith Arith Bool.
Import ListNotations.
Open Scope Z_scope.

Inductive fname := barrier | send | recv | isend | irecv | scatter | all_gather | send_obj | recv_obj | broadcast_obj | broadcast | gather | reduce | all_reduce.
(** what matters of a value: the number of elements of a tensor, or of the tensors of a list; sys.getsizeof of an object *)
Inductive payload := Tensor (nelement : Z) | Tensors (nelements : list Z) | Obj (nbytes : Z).
(** A call of a collective by one party: args[0], args[1] if given positionally, the keyword argument batched, and the value the undecorated function returns. *)
Record call := mkCall { func : fname; arg0 : option payload; arg1 : option nat; batched : bool; result : payload }.
Inductive error := IndexError | AttributeError | TypeError.
Record stats := mkStats { comm_rounds : Z; comm_bytes : Z }.
Inductive outcome := Returns (value : payload) (s : stats) | Raises (e : error) (s : stats).

(** reset_communication_stats, 106-110; comm_time is not modelled *)
Definition reset_communication_stats : stats := mkStats 0 0.
(** _log_communication, 143-146; the argument is in bytes: elements of 8 bytes, or nbytes / 8 * 8, which floats compute exactly *)
Definition BYTES_PER_ELEMENT : Z := 8.
Definition log_bytes (nbytes : Z) (s : stats) : stats := mkStats (comm_rounds s + 1) (comm_bytes s + nbytes).
Definition log_elements (nelement : Z) (s : stats) : stats := log_bytes (nelement * BYTES_PER_ELEMENT) s.

(** x.nelement() and the sum over a list *)
Definition nelement (p : payload) : option Z := match p with Tensor n => Some n | _ => None end.
Definition sum_nelement (p : payload) : option Z := match p with Tensors l => Some (fold_right Z.add 0 l) | _ => None end.
(** sum(x.nelement() for idx, x in enumerate(args[0]) if idx != rank), 187-189 *)
Fixpoint sum_others (rank idx : nat) (l : list Z) : Z := match l with [] => 0 | n :: l => (if Nat.eqb idx rank then 0 else n) + sum_others rank (S idx) l end.
(** sys.getsizeof(args[0]); a tensor or list object has some size too, but CrypTen passes plain objects *)
Definition getsizeof (p : payload) : Z := match p with Obj n => n | _ => 0 end.

Definition logged (p : option Z) (k : Z -> Z) (s : stats) : error + stats := match p with None => inl AttributeError | Some n => inr (log_elements (k n) s) end.
Definition with_arg0 (c : call) (f : payload -> error + stats) : error + stats := match arg0 c with None => inl IndexError | Some p => f p end.
Definition with_arg1 (c : call) (f : nat -> error + stats) : error + stats := match arg1 c with None => inl IndexError | Some r => f r end.
(** the counting before the call, 179-215 *)
Definition log_before (world_size rank : nat) (c : call) (s : stats) : error + stats :=
  let P := Z.of_nat world_size in
  match func c with
  | barrier => inr (log_elements 0 s)
  | send | recv | isend | irecv => with_arg0 c (fun p => logged (nelement p) (fun n => n) s)
  | scatter => with_arg1 c (fun src => if Nat.eqb src rank then with_arg0 c (fun p => match p with Tensors l => inr (log_elements (sum_others rank 0 l) s) | _ => inl TypeError end) else inr s)
  | all_gather => with_arg0 c (fun p => logged (nelement p) (fun n => 2 * (P - 1) * n) s)
  | send_obj => with_arg0 c (fun p => inr (log_bytes (getsizeof p) s))
  | broadcast_obj => with_arg0 c (fun p => inr (log_bytes (getsizeof p * (P - 1)) s))
  | broadcast | gather | reduce =>
      with_arg1 c (fun root => let multiplier := if Nat.eqb root rank then P - 1 else 1 in
        with_arg0 c (fun p => if batched c then logged (sum_nelement p) (fun n => n * multiplier) s else logged (nelement p) (fun n => n * multiplier) s))
  | all_reduce => with_arg0 c (fun p => if batched c then logged (sum_nelement p) (fun n => 2 * n) s else logged (nelement p) (fun n => 2 * n) s)
  | recv_obj => inr s
  end.
(** the counting after the call, 224-229 *)
Definition log_after (rank : nat) (c : call) (s : stats) : error + stats :=
  match func c with
  | scatter => with_arg1 c (fun src => if Nat.eqb src rank then inr s else logged (nelement (result c)) (fun n => n) s)
  | recv_obj => inr (log_bytes (getsizeof (result c)) s)
  | _ => inr s
  end.
(** logging_wrapper, 165-233 *)
Definition wrapper (verbose : bool) (world_size rank : nat) (c : call) (s : stats) : outcome :=
  match Nat.ltb world_size 2, func c, arg0 c with
  | true, gather, Some (Tensor n) | true, all_gather, Some (Tensor n) => Returns (Tensors [n]) s
  | true, gather, None | true, all_gather, None => Raises IndexError s
  | true, _, Some p => Returns p s
  | _, _, _ =>
      if verbose then
        match log_before world_size rank c s with
        | inl e => Raises e s
        | inr s => match log_after rank c s with inl e => Raises e s | inr s => Returns (result c) s end
        end
      else Returns (result c) s
  end.
(** The calls of one party in order; stops at the first exception. *)
Fixpoint run (verbose : bool) (world_size rank : nat) (cs : list call) (s : stats) : option error * stats :=
  match cs with
  | [] => (None, s)
  | c :: cs => match wrapper verbose world_size rank c s with Returns _ s => run verbose world_size rank cs s | Raises e s => (Some e, s) end
  end.
