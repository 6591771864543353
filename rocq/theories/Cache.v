(** Tracing requests and caching tuples, crypten/mpc/provider/provider.py:14-155. *)
Require Import List Arith.
Import ListNotations.

Section Cache.
  (** A request: function name, positional arguments, frozenset of keyword arguments (provider.py:134-135, 149-150), and Python's equality on them.
      Simplification: arguments are hashable; a list-valued keyword (stride=[1, 1]) would raise TypeError instead. *)
  Variable R : Type.
  Variable eqb : R -> R -> bool.

  (** A tuple, identified by the request it was generated for and by how many tuples the provider had generated before.
      Simplification: contents left out; they are a function of these two (P_Tfp.v and P_Ttp.v say which contents). *)
  Record tup := mkTup { t_for : R; t_serial : nat }.

  (** a Python dict of lists, in insertion order *)
  Definition dict : Type := list (R * list tup).
  Fixpoint lookup (d : dict) (r : R) : option (list tup) :=
    match d with [] => None | (k, v) :: d' => if eqb k r then Some v else lookup d' r end.
  Fixpoint store (d : dict) (r : R) (v : list tup) : dict :=
    match d with [] => [(r, v)] | (k, w) :: d' => if eqb k r then (k, v) :: d' else (k, w) :: store d' r v end.

  (** The provider and the cache files of this party (provider.py:41-49): for each path prefix, the request file and the tuple file. *)
  Record pstate := mkP { tracing : bool; requests : list R; cache : dict; generated : nat;
                         req_file : nat -> option (list R); tup_file : nat -> option dict }.
  (** provider.py:26-29 *)
  Definition fresh_provider : pstate := mkP false [] [] 0 (fun _ => None) (fun _ => None).
  Definition upd {A} (f : nat -> A) (p : nat) (a : A) : nat -> A := fun q => if Nat.eqb q p then a else f q.

  (** the provider's own function: makes a new tuple *)
  Definition generate (r : R) (s : pstate) : tup * pstate :=
    (mkTup r (generated s), mkP (tracing s) (requests s) (cache s) (S (generated s)) (req_file s) (tup_file s)).

  (** Python's [list.pop()] takes the last element; [None]: IndexError *)
  Fixpoint pop {A} (l : list A) : option (A * list A) :=
    match l with
    | [] => None
    | a :: r => match pop r with None => Some (a, []) | Some (b, r') => Some (b, a :: r') end
    end.

  (** What the caller of a traceable function gets. *)
  Inductive outcome := Served (t : tup) | IndexError.

  (** __getattribute__ on a traceable function, followed by the call, provider.py:112-141 *)
  Definition ask (r : R) (s : pstate) : outcome * pstate :=
    if tracing s then
      let (t, s') := generate r (mkP true (requests s ++ [r]) (cache s) (generated s) (req_file s) (tup_file s)) in (Served t, s')
    else match cache s with
         | [] => let (t, s') := generate r s in (Served t, s')
         | _ => match lookup (cache s) r with
                | Some l => match pop l with
                            | Some (t, l') => (Served t, mkP false (requests s) (store (cache s) r l') (generated s) (req_file s) (tup_file s))
                            | None => (IndexError, s)
                            end
                | None => let (t, s') := generate r s in (Served t, s')
                end
         end.

  (** fill_cache, provider.py:143-155 *)
  Definition fill_one (s : pstate) (r : R) : pstate :=
    let (t, s) := generate r s in
    let l := match lookup (cache s) r with Some l => l ++ [t] | None => [t] end in
    mkP (tracing s) (requests s) (store (cache s) r l) (generated s) (req_file s) (tup_file s).
  Definition fill_cache (s : pstate) : pstate := fold_left fill_one (requests s) s.

  (** trace, provider.py:45-51 *)
  Definition trace (b : bool) (s : pstate) : pstate := mkP b (requests s) (cache s) (generated s) (req_file s) (tup_file s).
  (** trace_once, provider.py:53-58: [list] has no [empty] method, so the call raises AttributeError before anything changes. *)
  Definition trace_once (s : pstate) : option pstate := None.

  (** save_cache and load_cache, provider.py:60-110; torch.save and torch.load are taken to be inverse. *)
  Definition save_cache (p : nat) (s : pstate) : pstate :=
    let s := match requests s with
             | [] => s
             | rs => mkP (tracing s) [] (cache s) (generated s) (upd (req_file s) p (Some rs)) (tup_file s)
             end in
    match cache s with
    | [] => s
    | d => mkP (tracing s) (requests s) [] (generated s) (req_file s) (upd (tup_file s) p (Some d))
    end.
  Definition load_cache (p : nat) (s : pstate) : pstate :=
    let s := match req_file s p with
             | Some rs => mkP (tracing s) rs (cache s) (generated s) (upd (req_file s) p None) (tup_file s)
             | None => s
             end in
    match tup_file s p with
    | Some d => mkP (tracing s) (requests s) d (generated s) (req_file s) (upd (tup_file s) p None)
    | None => s
    end.

  (** Programs: any sequence of these calls; an error leaves the provider as it was. *)
  Inductive pcall := PAsk (r : R) | PTrace (b : bool) | PTraceOnce | PFill | PSave (p : nat) | PLoad (p : nat).
  Definition do_call (s : pstate) (c : pcall) : list outcome * pstate :=
    match c with
    | PAsk r => let (o, s') := ask r s in ([o], s')
    | PTrace b => ([], trace b s)
    | PTraceOnce => ([], match trace_once s with Some s' => s' | None => s end)
    | PFill => ([], fill_cache s)
    | PSave p => ([], save_cache p s)
    | PLoad p => ([], load_cache p s)
    end.
  (** the outcomes of all requests, in order, and the final state *)
  Fixpoint perform (h : list pcall) (s : pstate) : list outcome * pstate :=
    match h with
    | [] => ([], s)
    | c :: h => let (o, s) := do_call s c in let (os, s) := perform h s in (o ++ os, s)
    end.
  Definition ask_all (rs : list R) (s : pstate) : list outcome * pstate := perform (map PAsk rs) s.
End Cache.
Arguments mkTup {_}. Arguments t_for {_}. Arguments t_serial {_}. Arguments Served {_}. Arguments IndexError {_}.
Arguments tracing {_}. Arguments requests {_}. Arguments cache {_}. Arguments generated {_}.
