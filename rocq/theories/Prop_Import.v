(** Property theorems (generated by tools/genprop.py from Pf_Import.v, which holds the proofs). *)
From Coq Require Import PArith List Bool Arith Lia.
From Verif Require Import Py M_Import.
Import ListNotations.
From Verif Require Import Pf_Import.
Import ListNotations.
Local Open Scope list_scope.

(** The order of imports matters.  After importing torchdyn.numerics first, the name sdeint inside torchdyn.core.problems
    is the module torchdyn.numerics.sdeint, so that SDEProblem and NeuralSDE raise a TypeError when they integrate;
    after importing torchdyn.core first, it is the function. *)
Theorem C122_import_order_refuted : forall (A : Type) (run : modname -> ident -> res A),
  let first := import_all [M_torchdyn_numerics; M_torchdyn_core] in
  let second := import_all [M_torchdyn_core; M_torchdyn_numerics] in
  call_global first M_torchdyn_core_problems N_sdeint run = Err TypeError /\
  call_global second M_torchdyn_core_problems N_sdeint run = run M_torchdyn_numerics_sdeint N_sdeint.
Proof. exact C122_import_order_refuted_pf. Qed.
Print Assumptions C122_import_order_refuted.

(** torchdyn.models.hybrid (HybridNeuralDE, LatentNeuralSDE) cannot be imported, whatever was imported before: it asks
    torchdyn.models for LSDEFunc, which nobody defines. *)
Theorem C122_hybrid_import_refuted : forall ms, snd (import_module (import_all ms) M_torchdyn_models_hybrid) = Some ImportError.
Proof. exact C122_hybrid_import_refuted_pf. Qed.
Print Assumptions C122_hybrid_import_refuted.

(** Every other module can be imported after every sequence of imports, despite the cycle between torchdyn.core and
    torchdyn.numerics. *)
Theorem C122_imports_succeed : forall ms m, m <> M_torchdyn_models_hybrid -> snd (import_module (import_all ms) m) = None.
Proof. exact C122_imports_succeed_pf. Qed.
Print Assumptions C122_imports_succeed.

(** Every name other than sdeint in core.problems, core.neuralde and models means the same object after every sequence of imports... *)
Theorem C122_bindings : forall ms1 ms2 m k home name,
  ~ (k = N_sdeint /\ In m sdeint_users) ->
  get_var m k (import_all ms1) = Some (VObject home name) ->
  get_mod m (import_all ms2) <> None ->
  get_var m k (import_all ms2) = Some (VObject home name).
Proof. exact C122_bindings_pf. Qed.
Print Assumptions C122_bindings.

(** After every sequence of imports, every loaded module is an attribute of its package, under its own name, except that
    torchdyn.numerics.odeint and torchdyn.numerics.sdeint are the functions of these modules. *)
Theorem C122_submodules : forall ms s p,
  get_mod s (import_all ms) <> None -> parent s = Some p ->
  (s <> M_torchdyn_numerics_odeint -> s <> M_torchdyn_numerics_sdeint -> get_var p (basename s) (import_all ms) = Some (VModule s)) /\
  (s = M_torchdyn_numerics_odeint \/ s = M_torchdyn_numerics_sdeint -> get_var p (basename s) (import_all ms) = Some (VObject s (basename s))).
Proof. exact C122_submodules_pf. Qed.
Print Assumptions C122_submodules.

(** ... and in these three modules, sdeint is the function if the first import that concerns torchdyn.core is not one of
    torchdyn.numerics, and the module otherwise. *)
Theorem C122_first_import_decides : forall ms m,
  In m sdeint_users -> get_mod m (import_all ms) <> None ->
  exists b, numerics_first ms = Some b /\
    get_var m N_sdeint (import_all ms) =
      Some (if b then VModule M_torchdyn_numerics_sdeint else VObject M_torchdyn_numerics_sdeint N_sdeint).
Proof. exact C122_first_import_decides_pf. Qed.
Print Assumptions C122_first_import_decides.

(** importing torchdyn.models first: the function; importing a module of torchdyn.numerics first: the module *)
Example C122_first_import_decides_ex :
  get_var M_torchdyn_models N_sdeint (import_all [M_torchdyn_nn; M_torchdyn_models]) = Some (VObject M_torchdyn_numerics_sdeint N_sdeint) /\
  get_var M_torchdyn_models N_sdeint (import_all [M_torchdyn_numerics_systems; M_torchdyn_models]) = Some (VModule M_torchdyn_numerics_sdeint).
Proof. exact C122_first_import_decides_ex_pf. Qed.

