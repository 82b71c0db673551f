(** Property theorems (generated by tools/genprop.py from Pf_SdeConv.v, which holds the proofs). *)
From Coq Require Import ZArith QArith Qreals Reals Lra Lia String List Bool.
From Verif Require Import Num Py Tensor M_SolversOde M_Odeint M_Sde Spec_Ode Spec_Sde Spec_Conv.
From Verif Require Import L_Base L_Fixed L_Fixed2 L_Vec L_Jagged L_Conv L_MS L_Sde L_Models Pf_Sde.
Import ListNotations.
From Verif Require Import Pf_SdeConv.
Import ListNotations.
Local Open Scope R_scope.

(** C110.  Additive noise: for every path W and every solution X of dX = f(t, X) dt + sigma dW along it, every SDE solver
    that is accepted returns states within exp(L (t - t0)) (e0 + (t - t0) w) of X(t), where L is the Lipschitz
    constant of the drift and w its oscillation along X over times at most one step apart. *)
Theorem C110_additive_noise :
  forall n name sde bm s S sigma W X x t0 t1 ts L w H e0,
  sized n sde bm -> length x = n ->
  @sde_str_to_solver ROps name sde bm = Ok s -> scheme_of name (sde_f sde) (sde_g sde) bm = Some S ->
  (forall t x, length x = n -> sde_g sde t x = sigma) ->
  (forall u v i, (i < n)%nat -> comp (bm u v) i = comp (W v) i - comp (W u) i) ->
  let grid := t0 :: t1 :: ts in let T := last (t1 :: ts) t0 in
  increasing grid -> steps_at_most H grid ->
  0 <= L -> 0 <= w -> 0 <= e0 -> lipschitz n L (sde_f sde) -> additive_solution n t0 T (sde_f sde) sigma W X ->
  (forall u v, t0 <= u <= T -> t0 <= v <= T -> Rabs (u - v) <= H -> near n w (sde_f sde u (X u)) (sde_f sde v (X v))) ->
  near n e0 x (X t0) ->
  exists xs, @sdeint ROps sde x grid name bm [] = Ok (grid, xs) /\ length xs = length grid /\
    forall i t y, nth_error grid i = Some t -> nth_error xs i = Some y ->
      near n (exp (L * (t - t0)) * (e0 + (t - t0) * w)) y (X t).
Proof. exact C110_additive_noise_pf. Qed.
Print Assumptions C110_additive_noise.

(** C110, the oscillation in terms of the modulus of the path: if the drift is bounded by F along X, Lipschitz in time
    with constant M, and the path moves by at most om over times at most H apart, then
    w = M H + L (F H + |sigma| om) works; it tends to 0 with H for continuous paths. *)
Theorem C110_oscillation :
  forall n f sigma W X a T L M F sg om H,
  0 <= L -> 0 <= M -> 0 <= F -> 0 <= H -> lipschitz n L f ->
  (forall s t x, length x = n -> near n (M * Rabs (s - t)) (f s x) (f t x)) ->
  additive_solution n a T f sigma W X -> 
  (forall t i, a <= t <= T -> (i < n)%nat -> Rabs (comp (f t (X t)) i) <= F) ->
  (forall i, (i < n)%nat -> Rabs (comp sigma i) <= sg) ->
  (forall s t i, a <= s <= T -> a <= t <= T -> Rabs (s - t) <= H -> (i < n)%nat -> Rabs (comp (W s) i - comp (W t) i) <= om) ->
  forall s t, a <= s <= T -> a <= t <= T -> Rabs (s - t) <= H ->
    near n (M * H + L * (F * H + sg * om)) (f s (X s)) (f t (X t)).
Proof. exact C110_oscillation_pf. Qed.
Print Assumptions C110_oscillation.

(** C110: dX = dt + 2 dW along the path W(t) = |t - 1|, which is not differentiable; X(t) = t + 2 |t - 1|, w = 0 *)
Example C110_ex :
  let W := fun t => [Rabs (t - 1)] in
  let bm := fun s t => [Rabs (t - 1) - Rabs (s - 1)] in
  let sde := @MkSde ROps (fun _ _ => [1]) (fun _ _ => [2]) (Some "additive"%string) (Some "ito"%string) in
  let X := fun t => [t + 2 * Rabs (t - 1)] in
  sized 1 sde bm /\ (exists s, @sde_str_to_solver ROps "euler" sde bm = Ok s) /\
  (exists S, scheme_of "euler" (sde_f sde) (sde_g sde) bm = Some S) /\
  (forall u v i, (i < 1)%nat -> comp (bm u v) i = comp (W v) i - comp (W u) i) /\
  additive_solution 1 0 2 (sde_f sde) [2] W X /\ lipschitz 1 1 (sde_f sde) /\
  (forall u v, near 1 0 (sde_f sde u (X u)) (sde_f sde v (X v))).
Proof. exact C110_ex_pf. Qed.

