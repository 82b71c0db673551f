(** Property theorems (generated by tools/genprop.py from Pf_Root.v, which holds the proofs). *)
From Coq Require Import ZArith QArith Qreals Reals Lra Lia String List Bool Floats.
From Verif Require Import Num Py Tensor M_Root Spec_Root L_Base L_Root.
Import ListNotations.
From Verif Require Import Pf_Root.
Import ListNotations.
Local Open Scope R_scope.

(** C38.  For every function, starting batch, initial inverse Jacobian, step size, tolerances and
    maxiters, and for every line search, root_find with a Broyden method returns (8 units of fuel are
    enough for the line searches) after at most maxiters + 1 steps; it uses all of them if it does not
    report its termination condition.  If it does, then for every batch element: the residual at the
    returned point is at most f_tol, and at most f_rtol times the residual after the first step; the
    last direction dz (the returned point is z_prev - a dz) is at most x_tol, and at most x_rtol
    times the returned point. *)
Theorem C38_root_find :
  forall sf (g : list rv -> list rv) z (J : list (list rv)) alpha (tl : tols (K := ROps)) maxiters m s,
  (8 <= sf)%nat -> broyden_name m -> search_name s ->
  exists st, @root_find ROps sf g z J alpha tl maxiters m s = Ok st /\
    (r_steps st <= Z.to_nat (maxiters + 1))%nat /\
    (r_conv st = false -> r_steps st = Z.to_nat (maxiters + 1)) /\
    (r_conv st = true ->
       let dz0 := map (fun p => apply (fst p) (snd p)) (combine J (g z)) in
       let first := map (fun p => minus_vec (fst p) (times alpha (snd p))) (combine z dz0) in
       Forall (fun row => euclid row <= f_tol tl) (g (r_z st)) /\
       Forall (fun p => euclid (fst p) / f_rtol tl <= euclid (snd p)) (combine (g (r_z st)) (g first)) /\
       Forall (fun row => euclid row <= x_tol tl) (r_dz st) /\
       Forall (fun p => euclid (fst p) / x_rtol tl <= euclid (snd p)) (combine (r_dz st) (r_z st)) /\
       exists z_prev a, r_z st = map (fun p => minus_vec (fst p) (times a (snd p))) (combine z_prev (r_dz st))).
Proof. exact C38_root_find_pf. Qed.
Print Assumptions C38_root_find.

(** C38 with the default tolerances (0.01, 0.1, 0.01 and 1): when the method reports convergence, every row of g is at most 0.01 and
    at most a tenth of what it was after the first step, and every row of the last step is at most 0.01 and at most as long as the row of the iterate. *)
Theorem C38_defaults :
  forall sf (g : list rv -> list rv) z (J : list (list rv)) alpha maxiters m s st,
  (8 <= sf)%nat -> broyden_name m -> search_name s ->
  @root_find ROps sf g z J alpha default_tols maxiters m s = Ok st -> r_conv st = true ->
  let dz0 := map (fun p => apply (fst p) (snd p)) (combine J (g z)) in
  let first := map (fun p => minus_vec (fst p) (times alpha (snd p))) (combine z dz0) in
  Forall (fun row => euclid row <= 1 / 100) (g (r_z st)) /\
  Forall (fun p => euclid (fst p) <= 1 / 10 * euclid (snd p)) (combine (g (r_z st)) (g first)) /\
  Forall (fun row => euclid row <= 1 / 100) (r_dz st) /\
  Forall (fun p => euclid (fst p) <= euclid (snd p)) (combine (r_dz st) (r_z st)).
Proof. exact C38_defaults_pf. Qed.
Print Assumptions C38_defaults.

(** C38: the other advertised methods and unknown names raise. *)
Theorem C38_unsupported :
  forall sf (g : list rv -> list rv) z J alpha (tl : tols (K := ROps)) maxiters m s,
  (search_name s -> (0 <= maxiters)%Z -> m = "newton"%string \/ m = "chord"%string ->
     @root_find ROps sf g z J alpha tl maxiters m s = Err NotImplementedError) /\
  (~ broyden_name m -> m <> "newton"%string -> m <> "chord"%string ->
     @root_find ROps sf g z J alpha tl maxiters m s = Err AssertionError) /\
  (broyden_name m -> ~ search_name s -> @root_find ROps sf g z J alpha tl maxiters m s = Err AssertionError).
Proof. exact C38_unsupported_pf. Qed.
Print Assumptions C38_unsupported.

(** C39.  The full update of an n x m inverse Jacobian is again n x m; with s = dz . (J dg) and
    s + eps <> 0 it maps dg to dz - eps/(s + eps) (dz - J dg), that is to dz itself for eps = 0, and
    it does not change J v for every v with dz . (J v) = 0. *)
Theorem C39_broyden_secant :
  forall n m eps dg dz (J : list rv), is_matrix n m J -> length dg = m -> length dz = n ->
  let s := dot dz (apply J dg) in s + eps <> 0 ->
  let J' := @update_full ROps eps dg dz J in
  is_matrix n m J' /\
  apply J' dg = minus_vec dz (times (eps / (s + eps)) (minus_vec dz (apply J dg))) /\
  (eps = 0 -> apply J' dg = dz) /\
  forall v, length v = m -> dot dz (apply J v) = 0 -> apply J' v = apply J v.
Proof. exact C39_broyden_secant_pf. Qed.
Print Assumptions C39_broyden_secant.

(** C39, bad update: with N = |dg|^2 and N + tol <> 0 the update maps dg to
    dz - tol/(N + tol) (dz - J dg) and does not change J v for every v orthogonal to dg. *)
Theorem C39_broyden_fast_secant :
  forall n m tol dg dz (J : list rv), is_matrix n m J -> length dg = m -> length dz = n ->
  let N := dot dg dg in N + tol <> 0 ->
  let J' := @update_bad ROps tol dg dz J in
  is_matrix n m J' /\
  apply J' dg = minus_vec dz (times (tol / (N + tol)) (minus_vec dz (apply J dg))) /\
  (tol = 0 -> apply J' dg = dz) /\
  forall v, length v = m -> dot dg v = 0 -> apply J' v = apply J v.
Proof. exact C39_broyden_fast_secant_pf. Qed.
Print Assumptions C39_broyden_fast_secant.

(** C39, one step of the root finder on a batch.  Sample i moves by -alpha J_i g0_i, the residual is evaluated at
    the new iterates, and the new inverse Jacobian of sample i maps the change of its residual to the change of
    its iterate up to the regularisation 1e-6 (w is the share of the old matrix). *)
Theorem C39_step :
  forall me g z0 J g0 alpha z dz ge J' n m i zi Ji gi ei,
  me = BroydenFull \/ me = BroydenBad ->
  @broyden_step ROps me g z0 J g0 alpha = (z, dz, ge, J') ->
  nth_error z0 i = Some zi -> nth_error J i = Some Ji -> nth_error g0 i = Some gi -> nth_error ge i = Some ei ->
  is_matrix n m Ji -> length zi = n -> length gi = m -> length ei = m ->
  let move := times (- alpha) (apply Ji gi) in
  let change := minus_vec ei gi in
  let d := match me with BroydenFull => dot move (apply Ji change) | _ => dot change change end in
  ge = g z /\ nth_error z i = Some (plus_vec zi move) /\
  exists Ji', nth_error J' i = Some Ji' /\
    (d + 1 / 1000000 <> 0 -> is_matrix n m Ji' /\
     apply Ji' change = minus_vec move (times (1 / 1000000 / (d + 1 / 1000000)) (minus_vec move (apply Ji change)))).
Proof. exact C39_step_pf. Qed.
Print Assumptions C39_step.

(** C39: a step on the batch z0 = ((1)) for g(z) = 2 z with J = ((1)) has such data, with d = 8 *)
Example C39_step_ex :
  let g := map (map (Rmult 2)) in
  exists z dz ge J', @broyden_step ROps BroydenFull g [[1]] [[[1]]] [[2]] 1 = (z, dz, ge, J') /\
    ge = [[-2]] /\ is_matrix 1 1 [[1]] /\ dot (times (- (1)) (apply [[1]] [2])) (apply [[1]] (minus_vec [-2] [2])) = 8.
Proof. exact C39_step_ex_pf. Qed.

(** C39: a 2 x 2 case (J the identity, dg = (1, 1), dz = (1, 0)) satisfies the hypotheses. *)
Example C39_ex :
  let J := [[1; 0]; [0; 1]] in is_matrix 2 2 J /\ dot [1; 0] (apply J [1; 1]) + 0 <> 0 /\
  @update_full ROps 0 [1; 1] [1; 0] J = [[1; 0]; [-1; 1]].
Proof. exact C39_ex_pf. Qed.

(** C40, naive search.  For every objective function the search returns the first step mult^k alpha0
    whose objective is at most phi0 or which is at most min_alpha, with the objective there. *)
Theorem C40_naive :
  forall (phi : R -> R) phi0 alpha0 min_alpha mult, 0 < min_alpha -> 0 <= mult < 1 ->
  exists enough, forall fuel, (enough <= fuel)%nat ->
  exists k, let a := mult ^ k * alpha0 in
    @naive_search ROps fuel phi phi0 alpha0 min_alpha mult = Ok (a, phi a) /\
    (phi a <= phi0 \/ a <= min_alpha) /\
    forall j, (j < k)%nat -> phi0 < phi (mult ^ j * alpha0) /\ min_alpha < mult ^ j * alpha0.
Proof. exact C40_naive_pf. Qed.
Print Assumptions C40_naive.

(** C40, Armijo search.  For every objective function the search returns either a step a with
    phi(a) <= phi0 - c1 a phi(alpha0) and the objective there, or the fallback 1/100. *)
Theorem C40_armijo :
  forall (phi : R -> R) phi0 alpha0 c1,
  exists enough, forall fuel, (enough <= fuel)%nat ->
  exists a p, @armijo_search ROps fuel phi phi0 alpha0 c1 = Ok (a, p) /\
    ((p = phi a /\ phi a <= phi0 - c1 * a * phi alpha0) \/ a = 1 / 100).
Proof. exact C40_armijo_pf. Qed.
Print Assumptions C40_armijo.

(** C40 in binary64: with the default arguments the naive search stops after at most 8 evaluations,
    whatever the objective returns (NaN and infinities included). *)
Theorem C40_naive_binary64 :
  forall pw (phi : float -> float) phi0,
  exists r, @naive_search (FloatOps pw) 8 phi phi0 n1 (nQ (1 # 1000000)) (nQ (1 # 10)) = Ok r.
Proof. exact C40_naive_binary64_pf. Qed.
Print Assumptions C40_naive_binary64.

(** C40: both searches on an example that needs backtracking, phi(a) = (1 - 4 a)^2 and phi0 = 1. *)
Example C40_ex :
  let phi := fun a => (1 - 4 * a) * (1 - 4 * a) in
  @naive_search ROps 2 phi 1 1 (1 / 1000000) (1 / 10) = Ok (1 / 10 * 1, phi (1 / 10 * 1)).
Proof. exact C40_ex_pf. Qed.

(** C63.  The naive search returns the objective at the returned step (see also C40). *)
Theorem C63_naive_partial :
  forall (phi : R -> R) phi0 alpha0 min_alpha mult fuel a p,
  @naive_search ROps fuel phi phi0 alpha0 min_alpha mult = Ok (a, p) -> p = phi a.
Proof. exact C63_naive_partial_pf. Qed.
Print Assumptions C63_naive_partial.

(** C63 fails for the Armijo search: in binary64, phi(a) = 5 + a^2 with phi0 = 1 and the default
    arguments gives the fallback 1/100 with an objective value different from phi(1/100). *)
Theorem C63_armijo_refuted :
  forall pw, exists a p,
  let phi := fun x => PrimFloat.add 5%float (PrimFloat.mul x x) in
  @armijo_search (FloatOps pw) 10 phi 1%float 1%float (nQ (1 # 10000)) = Ok (a, p) /\
  PrimFloat.eqb a 0.01%float = true /\ PrimFloat.eqb p (phi a) = false.
Proof. exact C63_armijo_refuted_pf. Qed.
Print Assumptions C63_armijo_refuted.

(** C62.  For every batch of affine problems A_i x + b_i of any dimension, with the exact inverse
    Jacobians, and without line search, the residual of row i after k steps is (1 - alpha)^k times
    the residual at the start, for both Broyden methods and all tolerances. *)
Theorem C62_affine_partial :
  forall n P z sf alpha tl maxiters m, Forall (solves n) P -> length z = length P -> Forall (fun row => length row = n) z -> broyden_name m ->
  exists st, @root_find ROps sf (batch P) z (map lJ P) alpha tl maxiters m "none" = Ok st /\
    batch P (r_z st) = map (times ((1 - alpha) ^ r_steps st)) (batch P z).
Proof. exact C62_affine_partial_pf. Qed.
Print Assumptions C62_affine_partial.

(** C62 fails for the default arguments already for g(x) = x: started at 1 with the exact inverse
    Jacobian 1, root_find with alpha = 0.1, default tolerances, maxiters = 100, method 'broyden' and
    search 'naive' does not converge and returns a point above 0.89 (f_tol is 0.01).  The search
    minimises |g(z + a dz)| while the steps are z - a dz. *)
Theorem C62_default_search_refuted :
  exists st y, @root_find ROps 8 (fun z => z) [[1]] [[[1]]] (1 / 10) default_tols 100 "broyden" "naive" = Ok st /\
    r_conv st = false /\ r_z st = [[y]] /\ 89 / 100 < y /\ f_tol (@default_tols ROps) = 1 / 100.
Proof. exact C62_default_search_refuted_pf. Qed.
Print Assumptions C62_default_search_refuted.

(** C62: the affine theorem is not vacuous: 2 x - 4 = 0 and -x + 1 = 0 as a batch of two rows; one
    undamped step gives residual zero. *)
Example C62_ex :
  let P := [MkLin [[2]] [-4] [[1 / 2]]; MkLin [[-1]] [1] [[-1]]] in
  Forall (solves 1) P /\ map (times ((1 - 1) ^ 1)) (batch P [[7]; [3]]) = [[0]; [0]].
Proof. exact C62_ex_pf. Qed.

(** C64 fails: the documented rule |F| <= f_rtol |F_0| uses the residual at the starting point, the
    code the residual after the first step.  With g(x) = x, start 1, alpha = 99/100 and one
    iteration, the returned point 1/100 meets all documented tolerances (|F| = 1/100 <= f_tol,
    |F| <= f_rtol |F_0| = 1/10, |dx| = 1 <= x_tol, |dx| <= x_rtol |x| = 10), but no convergence is
    reported. *)
Theorem C64_reference_residual_refuted :
  let tl := MkTols (K := ROps) (1 / 100) (1 / 10) 10 1000 in
  exists st, @root_find ROps 8 (fun z => z) [[1]] [[[1]]] (99 / 100) tl 0 "broyden" "none" = Ok st /\
    r_conv st = false /\ exists x d, r_z st = [[x]] /\ r_dz st = [[d]] /\
    euclid [x] <= 1 / 100 /\ euclid [x] <= 1 / 10 * euclid [1] /\ euclid [d] <= 10 /\ euclid [d] <= 1000 * euclid [x].
Proof. exact C64_reference_residual_refuted_pf. Qed.
Print Assumptions C64_reference_residual_refuted.

(** C64, what holds: the first check compares the residual after the first step with itself, so it can
    only succeed if f_rtol >= 1 or the residual is zero. *)
Theorem C64_first_check_partial :
  forall (tl : tols (K := ROps)) ge z dz, 0 < f_rtol tl < 1 -> fst (@tc_check ROps tl None ge z dz) = true ->
  Forall (fun row => euclid row = 0) ge.
Proof. exact C64_first_check_partial_pf. Qed.
Print Assumptions C64_first_check_partial.

