(** Property theorems (generated by tools/genprop.py from Pf_SensP.v, which holds the proofs). *)
From Coq Require Import ZArith QArith Qreals Reals Lra Lia List Bool.
From Verif Require Import Num Py Tensor M_SolversOde M_Utils M_Odeint M_Root M_Sens Spec_Ode Spec_Trees Spec_RK Spec_Root Spec_Sens.
From Verif Require Import L_Base L_Fixed L_Vec L_Steps L_Steps2 L_Fixed2 L_Root L_Sens L_SensP Pf_Fixed Pf_Sens.
Import ListNotations.
From Verif Require Import Pf_SensP.
Import ListNotations.
Local Open Scope R_scope.

(** C70: for f(t, x, p) = M x + N p + c(t) and every explicit Runge-Kutta fixed-step solver the adjoint
    returns exactly the gradient of the loss with respect to the initial state and the parameters:
    [gx] are the gradients with respect to the returned states. *)
Theorem C70_parameter_gradient :
  forall fuel fuel' s rows b n m M N (f : rvl -> R -> rvl -> rvl) p (F : adj_field (K := ROps)) x t0 t1 ts gt gx atol rtol atol' rtol' interp,
  erk_solver s rows b -> is_matrix n n M -> is_matrix n m N ->
  (forall p, length p = m -> field_on n (f p)) ->
  (forall p q t y z, length p = m -> length q = m -> length y = n -> length z = n ->
     minus_vec (f p t y) (f q t z) = plus_vec (apply M (minus_vec y z)) (apply N (minus_vec p q))) ->
  af_f F = f p -> length p = m -> transposed_product n M (af_vjp_x F) ->
  (forall t y w, length w = n -> length (@cat_params ROps (af_vjp_p F t y w)) = m /\
     forall q, length q = m -> dot (@cat_params ROps (af_vjp_p F t y w)) q = dot w (apply N q)) ->
  af_dg F = None -> separated (t0 :: t1 :: ts) -> t0 <= t1 -> length x = n ->
  length gx = length (t0 :: t1 :: ts) -> length gt = length (t0 :: t1 :: ts) -> Forall (fun g => length g = n) gx ->
  let solve p x := snd (@odeint ROps fuel (f p) x (@TTensor ROps (t0 :: t1 :: ts)) s atol rtol interp false [] None) in
  exists t_sol sol out, solve p x = Ok (t_sol, sol) /\
    @adjoint_backward ROps fuel' F m s atol' rtol' t_sol sol gt gx = Ok out /\ length (ao_x out) = n /\ length (ao_params out) = m /\
    forall p' x', length p' = m -> length x' = n -> exists sol', solve p' x' = Ok (t_sol, sol') /\
      pairing gx sol' - pairing gx sol = dot (ao_x out) (minus_vec x' x) + dot (ao_params out) (minus_vec p' p).
Proof. exact C70_parameter_gradient_pf. Qed.
Print Assumptions C70_parameter_gradient.

(** f(t, x, p) = x + p + t in dimension 1 meets the hypotheses *)
Example C70_ex :
  let f := fun (p : rvl) (t : R) (x : rvl) => map (fun c => fst c + snd c + t) (combine x p) in
  let F := @MkAF ROps (f [3]) (fun _ _ w => w) (fun _ _ w => None) (fun _ _ w => [Some w]) None in
  is_matrix 1 1 [[1]] /\ (forall p, length p = 1%nat -> field_on 1 (f p)) /\
  (forall p q t y z, length p = 1%nat -> length q = 1%nat -> length y = 1%nat -> length z = 1%nat ->
     minus_vec (f p t y) (f q t z) = plus_vec (apply [[1]] (minus_vec y z)) (apply [[1]] (minus_vec p q))) /\
  transposed_product 1 [[1]] (af_vjp_x F) /\
  (forall t y w, length w = 1%nat -> length (@cat_params ROps (af_vjp_p F t y w)) = 1%nat /\
     forall q, length q = 1%nat -> dot (@cat_params ROps (af_vjp_p F t y w)) q = dot w (apply [[1]] q)).
Proof. exact C70_ex_pf. Qed.

