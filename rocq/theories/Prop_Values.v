(** Property theorems (generated by tools/genprop.py from Pf_Values.v, which holds the proofs). *)
From Coq Require Import ZArith QArith List Bool Floats.
From Verif Require Import Num Py Tensor M_Constants M_SolversOde M_Utils M_Interp M_Odeint M_Autograd.
From Verif Require Import L_Rel.
Import ListNotations.
Local Notation length := List.length.
From Verif Require Import Pf_Values.
Import ListNotations.
Local Open Scope nat_scope.

(** C148.  [odeint] with any solver, options and grid, in any arithmetic: with gradients recorded the solve returns the same times
    and states, or raises the same exception, and calls the vector field at the same points. *)
Theorem C148_odeint :
  forall (K : NumOps) fuel (F : DualOps K -> vec (DualOps K) -> vec (DualOps K)) (f : K -> vec K -> vec K) X ts sd s atol rtol interp all save_at semi,
  values_of F f -> same_solver sd s ->
  let with_grad := odeint_autograd fuel F X ts sd atol rtol interp all save_at semi in
  let without := odeint fuel f (plain_vec X) (plain_tspan ts) s (plain atol) (plain rtol) interp all (plain_vec save_at) semi in
  plain_res (snd with_grad) = snd without /\ plain_calls (fst with_grad) = fst without.
Proof. exact C148_odeint_pf. Qed.
Print Assumptions C148_odeint.

(** C148 for hybrid solves *)
Theorem C148_hybrid :
  forall (K : NumOps) fuel (F : DualOps K -> vec (DualOps K) -> vec (DualOps K)) (f : K -> vec K -> vec K) X ts j_span sd s cbd cbs atol rtol etol jump_first semi,
  values_of F f -> same_solver sd s -> Forall2 same_event cbd cbs ->
  let with_grad := odeint_hybrid_autograd fuel F X ts j_span sd cbd atol rtol etol jump_first semi in
  let without := odeint_hybrid fuel f (plain_vec X) (plain_vec ts) j_span s cbs (plain atol) (plain rtol) (plain etol) jump_first semi in
  plain_res (snd with_grad) = snd without /\ plain_calls (fst with_grad) = fst without.
Proof. exact C148_hybrid_pf. Qed.
Print Assumptions C148_hybrid.

(** Double precision, dopri5: the field theta x with a derivative in theta and the event "x > 2, halve x" meet the hypotheses of
    C148, and the solve returns. *)
Example C148_ex : forall pw : float -> float -> float,
  let D := DualOps (FloatOps pw) in
  let F := fun (_ : D) (X : vec D) => map (@nmul D (0.5, 1)%float) X in
  let f := fun (_ : FloatOps pw) (x : vec (FloatOps pw)) => map (@nmul (FloatOps pw) 0.5%float) x in
  values_of F f /\ same_solver (DormandPrince45 D) (DormandPrince45 (FloatOps pw)) /\
  same_event (@MkCb D (fun _ X => PrimFloat.ltb 2 (fst (hd (0, 0)%float X))) (fun _ X => map (@nmul D (0.5, 0)%float) X))
             (@MkCb (FloatOps pw) (fun _ x => PrimFloat.ltb 2 (hd 0%float x)) (fun _ x => map (@nmul (FloatOps pw) 0.5%float) x)) /\
  snd (@odeint (FloatOps pw) 40 (fun _ _ => [0%float]) [1%float] (@TTensor (FloatOps pw) [0%float; 1%float]) (DormandPrince45 (FloatOps pw)) 0.001%float 0.001%float false false [] None)
    = Ok ([0%float; 1%float], [[1%float]; [1%float]]).
Proof. exact C148_ex_pf. Qed.

