(** Vocabulary of the results about what a solve can know of its vector field. *)
From Coq Require Import Reals List.
From Verif Require Import Num Tensor M_SolversOde.
Import ListNotations.
Local Open Scope R_scope.

(** The explicit solvers of the library, by name or by class, with any hypersolver network *)
Definition builtin_solver {K : NumOps} (s : solver K (vec K)) : Prop :=
  (exists c, solver_of_class K c = Some s) \/ (exists adaptive, s = AsynchronousLeapfrog K adaptive) \/
  exists net, s = HyperEuler net \/ s = HyperMidpoint net \/ s = HyperRungeKutta4 net.

(** c_0 + c_1 t + c_2 t^2 + ... *)
Fixpoint polynomial (c : list R) (t : R) : R :=
  match c with [] => 0 | a :: c' => a + t * polynomial c' t end.
