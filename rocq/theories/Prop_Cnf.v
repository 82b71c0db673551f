(** Property theorems (generated by tools/genprop.py from Pf_Cnf.v, which holds the proofs). *)
From Coq Require Import ZArith QArith Qreals Reals Lra Lia List Bool Psatz.
From Verif Require Import Num Py Tensor M_Constants M_SolversOde M_Utils M_Interp M_Odeint M_Models.
From Verif Require Import Spec_Ode Spec_Trees Spec_RK Spec_Norm Spec_Adaptive Spec_Inv Spec_Models Spec_Cnf.
From Verif Require Import L_Base L_Fixed L_Vec L_Steps L_Tables L_Steps2 L_Interp L_Utils L_Fixed2 L_Adaptive L_Run.
From Verif Require Import L_Adaptive2 L_Adaptive3 L_Adaptive4 Pf_Fixed Pf_Adaptive L_Reach L_Inv Pf_Inv L_Models Pf_Models.
Import ListNotations.
From Verif Require Import Pf_Cnf.
Import ListNotations.
Local Open Scope R_scope.

(** C130, fields of constant divergence.  f is the right-hand side a CNF with the exact trace gives for one
    sample.  If the divergence of g is tau everywhere (an affine field, or tau = 0: a volume-preserving
    field), the log-density entry of every state returned by a built-in solver is l - tau (t - t_0), the
    exact value for the flow of g, whatever the steps (for tsit5 with tau replaced by beta tau, beta
    within 1e-80 of 1). *)
Theorem C130_constant_divergence :
  forall s rows b, builtin_method s rows b ->
  exists beta, Rabs (beta - 1) <= 1 / 10 ^ 80 /\ (s <> Tsitouras45 ROps -> beta = 1) /\
  forall fuel d g J jac order noise f tau l x t0 ts atol rtol all semi times sol,
  (1 <= d)%nat -> (order <= 1)%nat -> jacobian_of d g J -> batch_jacobian_of d (map g) jac ->
  (forall t y, List.length y = (d + 1)%nat -> @cnf ROps (map g) (@autograd_trace ROps jac noise) order [y] = Ok [f t y]) ->
  (forall r, List.length r = d -> trace_of d (J r) = tau) ->
  List.length x = d -> increasing (t0 :: ts) -> (1 <= List.length ts)%nat ->
  snd (@odeint ROps fuel f (l :: x) (@TTensor ROps (t0 :: ts)) s atol rtol false all [] semi) = Ok (times, sol) ->
  List.length sol = List.length times /\
  forall i t y, nth_error times i = Some t -> nth_error sol i = Some y ->
  nth 0 y 0 = l - beta * tau * (t - t0).
Proof. exact C130_constant_divergence_pf. Qed.
Print Assumptions C130_constant_divergence.

(** C130, one-dimensional flows.  g is differentiable with |g'| <= L and every spacing h of the grid has
    h L <= 1/2.  The states euler returns from [l; z] are [l_i(z); phi_i(z)], phi_i has a positive slope,
    and the returned log-density is that of the returned map up to 2 L^2 (h_1^2 + ... + h_i^2). *)
Theorem C130_euler_density :
  forall fuel g g' jac order noise f L l t0 t1 ts atol rtol interp all semi,
  (order <= 1)%nat -> (forall x, derivable_pt_lim g x (g' x)) -> (forall x, Rabs (g' x) <= L) ->
  batch_jacobian_of 1 (map (fun r => [g (nth 0 r 0)])) jac ->
  (forall t y, List.length y = 2%nat -> @cnf ROps (map (fun r => [g (nth 0 r 0)])) (@autograd_trace ROps jac noise) order [y] = Ok [f t y]) ->
  separated (t0 :: t1 :: ts) -> t0 <= t1 ->
  (forall a b pre post, t0 :: t1 :: ts = pre ++ a :: b :: post -> Rabs (b - a) * L <= 1 / 2) ->
  exists phi lg : nat -> R -> R,
  (forall x, exists sol, snd (@odeint ROps fuel f [l; x] (@TTensor ROps (t0 :: t1 :: ts)) (Euler ROps) atol rtol interp all [] semi)
     = Ok (t0 :: t1 :: ts, sol) /\ forall i y, nth_error sol i = Some y -> y = [lg i x; phi i x]) /\
  forall i x, (i < List.length (t0 :: t1 :: ts))%nat ->
  exists l', pushed_log_density (phi i) x l l' /\ Rabs (lg i x - l') <= 2 * L ^ 2 * squared_spacings (t0 :: t1 :: ts) i.
Proof. exact C130_euler_density_pf. Qed.
Print Assumptions C130_euler_density.

(** C130, refuted for the map that is returned: for g(x) = x and euler on [0; 1] the samples move by
    z -> 2 z, so the log-density falls by ln 2, but the CNF returns l - 1. *)
Theorem C130_refuted :
  forall jac order noise f, (order <= 1)%nat -> batch_jacobian_of 1 (map (fun r => [nth 0 r 0])) jac ->
  (forall t y, List.length y = 2%nat -> @cnf ROps (map (fun r => [nth 0 r 0])) (@autograd_trace ROps jac noise) order [y] = Ok [f t y]) ->
  (forall l x, snd (@odeint ROps 0 f [l; x] (@TTensor ROps [0; 1]) (Euler ROps) (1 / 10 ^ 3) (1 / 10 ^ 3) false true [] None)
     = Ok ([0; 1], [[l; x]; [l - 1; 2 * x]])) /\
  forall l x, ~ pushed_log_density (fun z => 2 * z) x l (l - 1).
Proof. exact C130_refuted_pf. Qed.
Print Assumptions C130_refuted.

(** The hypotheses are met by g(x) = sin x, and by the affine field (x + 3, 5 y) of divergence 6. *)
Example C130_ex :
  (forall x, derivable_pt_lim sin x (cos x)) /\ (forall x, Rabs (cos x) <= 1) /\
  batch_jacobian_of 1 (map (fun r => [sin (nth 0 r 0)])) (fun x b' i b k => if (b' =? b)%nat then cos (nth 0 (nth b x []) 0) else 0) /\
  separated [0; 1 / 4; 1 / 2] /\
  (let J := fun (_ : list R) i k => nth k (nth i [[1; 0]; [0; 5]] []) 0 in
   jacobian_of 2 (fun r => [nth 0 r 0 + 3; 5 * nth 1 r 0]) J /\ forall r, trace_of 2 (J r) = 6).
Proof. exact C130_ex_pf. Qed.

