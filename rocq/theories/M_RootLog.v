(** Model of RootLogger (torchdyn/numerics/utils.py:112-121) and of the logging of root_find
    (torchdyn/numerics/solvers/root.py:259-300).

    The dictionary self.data is the association list of its items in insertion order. *)
From Coq Require Import ZArith QArith String List Bool.
From Verif Require Import Num Py Tensor M_Root.
Import ListNotations.
Local Open Scope string_scope.

Section Dict.
Context {V : Type}.
Definition dict : Type := list (string * V).
Fixpoint lookup (k : string) (d : dict) : option V :=
  match d with [] => None | (k', v) :: d' => if k =? k' then Some v else lookup k d' end.
(** d.update({k: v}) *)
Fixpoint set (k : string) (v : V) (d : dict) : dict :=
  match d with [] => [(k, v)] | (k', v') :: d' => if k =? k' then (k', v) :: d' else (k', v') :: set k v d' end.
(** d.update(e) *)
Definition dict_update (d e : dict) : dict := fold_left (fun d p => set (fst p) (snd p) d) e d.
End Dict.
Arguments dict : clear implicits.

(** permanent_log, lines 119-121, for entries that are lists: the data at the end and KeyError if a key is missing.
    The loop runs over the keys of self.data and stores one by one *)
Section Permanent.
Context {A : Type}.
Fixpoint perm_loop (keys : list string) (logged data : dict (list A)) : dict (list A) * res unit :=
  match keys with
  | [] => (data, Ok tt)
  | k :: ks =>
      match lookup k logged, lookup k data with
      | Some new, Some old => perm_loop ks logged (set k (old ++ new)%list data)
      | _, _ => (data, Err KeyError)
      end
  end.
Definition permanent_log (logged data : dict (list A)) : dict (list A) * res unit := perm_loop (map fst data) logged data.
End Permanent.

Section Log.
Context {K : NumOps}.
Notation Batch := (list (vec K)).

(** values in the log of root_find: the initial empty list, tensors, numbers, strings *)
Inductive logval : Type := LNil | LBatch (b : Batch) | LNat (n : nat) | LNum (a : K) | LStr (s : string).

(** RootLogger.__init__, lines 113-114 *)
Definition logger0 : dict logval :=
  [("geval", LNil); ("z", LNil); ("dz", LNil); ("iteration", LNil); ("alpha", LNil); ("phi", LNil)].
(** log, lines 116-117 *)
Definition log (d e : dict logval) : dict logval := dict_update d e.

(** the while loop with logging, root.py:274-298; a RootLogger object is always true *)
Fixpoint root_loop_log (k : nat) (verbose : bool) (sf : nat) (m : method) (s : search) (tl : tols) (g : Batch -> Batch)
  (st : rstate) (lg : dict logval) : res (rstate * dict logval) :=
  match k with
  | O => Ok (st, lg)
  | S k' =>
      rbind (solver_step m g (r_z st) (r_J st) (r_ge st) (r_alpha st)) (fun r =>
      let '(z, dz, ge, J) := r in
      rbind (new_alpha sf s g ge dz z (r_alpha st)) (fun alpha =>
      let lg := if verbose then log lg [("geval", LBatch ge); ("z", LBatch z); ("dz", LBatch dz); ("iteration", LNat (S (r_steps st)))] else lg in
      let (stop, f0) := tc_check tl (r_f0 st) ge z dz in
      let st' := MkR z dz ge J alpha (Some f0) (S (r_steps st)) stop in
      if stop then Ok (st', if verbose then log lg [("termination_condition", LStr "total condition")] else lg)
      else root_loop_log k' verbose sf m s tl g st' lg))
  end.

(** root_find, lines 259-300: the returned z and the data of the returned logger *)
Definition root_find_log (verbose : bool) (sf : nat) (g : Batch -> Batch) (z : Batch) (J0 : list (list (vec K))) (alpha : K) (tl : tols)
  (maxiters : Z) (method_name search_name : string) : res (Batch * dict logval) :=
  rbind (method_of method_name) (fun m =>
  rbind (search_of search_name) (fun s =>
  rbind (root_loop_log (Z.to_nat (maxiters + 1)) verbose sf m s tl g (MkR z [] (g z) J0 alpha None 0 false) logger0) (fun r =>
  Ok (r_z (fst r), snd r)))).
End Log.
