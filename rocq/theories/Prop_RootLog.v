(** Property theorems (generated by tools/genprop.py from Pf_RootLog.v, which holds the proofs). *)
From Coq Require Import ZArith QArith String Reals Lra Lia List Bool.
From Verif Require Import Num Py Tensor M_Root M_RootLog.
From Verif Require Import L_Base Pf_Root.
Import ListNotations.
From Verif Require Import Pf_RootLog.
Import ListNotations.
Local Open Scope string_scope.

(** C133.  The log root_find returns when verbose: the last residual, the returned z, the last step and the number of
    iterations; termination_condition is present exactly if the run was stopped by the tolerances.  (maxiters >= 0;
    otherwise nothing is logged.)  With verbose = False the log stays empty.  root_find itself is not affected. *)
Theorem C133_log :
  forall (K : NumOps) verbose sf g z J0 alpha tl maxiters m s,
  match @root_find K sf g z J0 alpha tl maxiters m s with
  | Ok st => exists lg, @root_find_log K verbose sf g z J0 alpha tl maxiters m s = Ok (r_z st, lg) /\
      (verbose = false \/ (maxiters < 0)%Z -> lg = logger0) /\
      (verbose = true -> (0 <= maxiters)%Z ->
         lookup "z" lg = Some (LBatch (r_z st)) /\ lookup "geval" lg = Some (LBatch (r_ge st)) /\ lookup "dz" lg = Some (LBatch (r_dz st)) /\
         lookup "iteration" lg = Some (LNat (r_steps st)) /\ (1 <= r_steps st)%nat /\
         lookup "termination_condition" lg = if r_conv st then Some (LStr "total condition") else None)
  | Err e => @root_find_log K verbose sf g z J0 alpha tl maxiters m s = Err e
  | OutOfFuel => @root_find_log K verbose sf g z J0 alpha tl maxiters m s = OutOfFuel
  end.
Proof. exact C133_log_pf. Qed.
Print Assumptions C133_log.

(** C133, refuted for the line search: alpha and phi are never logged, their entries are empty lists on every run. *)
Theorem C133_line_search_refuted :
  forall (K : NumOps) verbose sf g z J0 alpha tl maxiters m s z' lg,
  @root_find_log K verbose sf g z J0 alpha tl maxiters m s = Ok (z', lg) ->
  lookup "alpha" lg = Some LNil /\ lookup "phi" lg = Some LNil.
Proof. exact C133_line_search_refuted_pf. Qed.
Print Assumptions C133_line_search_refuted.

(** A run that logs: at most one Broyden iteration. *)
Example C133_ex :
  exists z lg, @root_find_log ROps true 8 (fun z => z) [[1%R]] [[[1%R]]] (1 / 10)%R default_tols 0 "broyden" "naive" = Ok (z, lg) /\
  lookup "z" lg = Some (LBatch z) /\ lookup "iteration" lg = Some (LNat 1).
Proof. exact C133_ex_pf. Qed.

(** C134.  permanent_log with every key of the logger present: each history is extended by the new values, no key
    appears or disappears.  If a key is missing: KeyError. *)
Theorem C134_permanent_log :
  forall (A : Type) (logged data : dict (list A)), NoDup (map fst data) ->
  ((forall k, lookup k data <> None -> lookup k logged <> None) ->
   exists data', permanent_log logged data = (data', Ok tt) /\ map fst data' = map fst data /\
   forall k old new, lookup k data = Some old -> lookup k logged = Some new -> lookup k data' = Some (old ++ new)%list) /\
  ((exists k, lookup k data <> None /\ lookup k logged = None) -> snd (permanent_log logged data) = Err KeyError).
Proof. exact C134_permanent_log_pf. Qed.
Print Assumptions C134_permanent_log.

(** C134, refuted: a call that fails has already extended the histories of the keys before the missing one, so the
    histories no longer have the same length. *)
Theorem C134_failure_refuted :
  exists logged data data' : dict (list nat), permanent_log logged data = (data', Err KeyError) /\
  lookup "geval" data = Some [] /\ lookup "z" data = Some [] /\ lookup "geval" data' = Some [1%nat] /\ lookup "z" data' = Some [].
Proof. exact C134_failure_refuted_pf. Qed.
Print Assumptions C134_failure_refuted.

(** Histories of two keys. *)
Example C134_ex :
  permanent_log [("z", [3%nat; 4%nat]); ("dz", [5%nat])] [("dz", []); ("z", [1%nat])] = ([("dz", [5%nat]); ("z", [1%nat; 3%nat; 4%nat])], Ok tt) /\
  NoDup (map fst [("dz", @nil nat); ("z", [1%nat])]).
Proof. exact C134_ex_pf. Qed.

