(** Property theorems (generated by tools/genprop.py from Pf_Oracle.v, which holds the proofs). *)
From Coq Require Import Floats ZArith QArith Qreals Reals Lra Lia List Bool Sorted Factorial.
From Verif Require Import Num Py Tensor M_Constants M_SolversOde M_Utils M_Interp M_Odeint.
From Verif Require Import Spec_Ode Spec_Trees Spec_RK Spec_Norm Spec_Adaptive Spec_Conv Spec_Inv Spec_Oracle.
From Verif Require Import L_Base L_Fixed L_Vec L_Steps L_Tables L_Steps2 L_Interp L_Utils L_Fixed2 L_Adaptive L_Run.
From Verif Require Import L_Adaptive2 L_Adaptive3 L_Adaptive4 L_Conv Pf_Fixed Pf_Adaptive L_Reach L_Inv L_Oracle L_Gronwall Pf_Inv.
Import ListNotations.
From Verif Require Import Pf_Oracle.
Import ListNotations.
Local Open Scope R_scope.

(** C105.  In any arithmetic: a solve (forward in time) reads the vector field only at the calls it logs.
    Another field with the same values there gives the same result, exception or non-termination, and the
    same calls. *)
Theorem C105_only_calls :
  forall (K : NumOps) fuel (f g : K -> vec K -> vec K) x t0 t1 ts (s : solver K (vec K)) atol rtol interp all save_at semi,
  builtin_solver s -> (t1 <? t0)%N = false ->
  let solve h := odeint fuel h x (TTensor (t0 :: t1 :: ts)) s atol rtol interp all save_at semi in
  (forall t y, In (t, y) (fst (solve f)) -> g t y = f t y) -> solve g = solve f.
Proof. exact C105_only_calls_pf. Qed.
Print Assumptions C105_only_calls.

(** C105, backward in time: the calls are logged at the negated times, except the one that chooses the
    first step size, which is made at the time of the negated clock. *)
Theorem C105_only_calls_reversed :
  forall (K : NumOps) fuel (f g : K -> vec K -> vec K) x ts (s : solver K (vec K)) atol rtol interp all save_at semi,
  builtin_solver s ->
  let solve h := odeint fuel h x (TTensor ts) s atol rtol interp all save_at semi in
  (forall t y, In (t, y) (fst (solve f)) -> g t y = f t y /\ g (nopp t) y = f (nopp t) y) -> solve g = solve f.
Proof. exact C105_only_calls_reversed_pf. Qed.
Print Assumptions C105_only_calls_reversed.

(** C105, hybrid solves. *)
Theorem C105_only_calls_hybrid :
  forall (K : NumOps) fuel (f g : K -> vec K -> vec K) x ts j (s : solver K (vec K)) cbs atol rtol etol jump_first semi,
  builtin_solver s ->
  let solve h := odeint_hybrid fuel h x ts j s cbs atol rtol etol jump_first semi in
  (forall t y, In (t, y) (fst (solve f)) -> g t y = f t y) -> solve g = solve f.
Proof. exact C105_only_calls_hybrid_pf. Qed.
Print Assumptions C105_only_calls_hybrid.

(** In floating point, midpoint on [0; 1] from 1 calls the field at (0, 1) and (1/2, 3/2): the fields x and
    x + t (t - 1/2) are not distinguished. *)
Example C105_ex :
  let K := FloatOps (fun a b => a) in
  let f := fun (t : PrimFloat.float) (x : list PrimFloat.float) => x in
  let g := fun (t : PrimFloat.float) (x : list PrimFloat.float) =>
    map (fun a => PrimFloat.add a (PrimFloat.mul t (PrimFloat.sub t 0.5%float))) x in
  let solve h := @odeint K 0 h [1%float] (@TTensor K [0%float; 1%float]) (Midpoint K) 0.001%float 0.001%float false false [] None in
  builtin_solver (Midpoint K) /\ fst (solve f) = [(0, [1]); (0.5, [1.5])]%float /\
  (forall t y, In (t, y) (fst (solve f)) -> g t y = f t y) /\ g 1%float [1%float] = [1.5%float].
Proof. exact C105_ex_pf. Qed.

(** C106, refuted.  Whatever the tolerances and the grid, and for every bound B: there is a field that depends
    on time only, polynomially (so its Lipschitz constant in the state is 0), for which the adaptive solve
    returns the initial state at all times while the exact solution moves by at least B. *)
Theorem C106_tolerance_refuted :
  forall s rows b bh n x t0 t1 ts atol rtol interp save_at semi B,
  builtin_pair s rows b bh -> length x = n -> (1 <= n)%nat -> increasing (t0 :: t1 :: ts) ->
  0 < atol -> 0 <= rtol -> semi <> Some 0%nat ->
  let T := last (t1 :: ts) t0 in
  exists c fuel y, let f := fun t (_ : list R) => repeat (polynomial c t) n in
    snd (@odeint ROps fuel f x (@TTensor ROps (t0 :: t1 :: ts)) s atol rtol interp false save_at semi)
      = Ok (t0 :: t1 :: ts, repeat x (List.length (t0 :: t1 :: ts))) /\
    solves n t0 T f y /\ y t0 = x /\ forall i, (i < n)%nat -> B <= nth i (y T) 0 - nth i x 0.
Proof. exact C106_tolerance_refuted_pf. Qed.
Print Assumptions C106_tolerance_refuted.

(** C106, partial.  With return_all_eval and no dense output: if on every accepted step the true local error is
    at most kappa times the difference of the two formulas of the pair, the error of the k-th returned state is
    at most k kappa sqrt(n) (atol + rtol B) exp(L (t_k - t_0)), B a bound of the returned states and L the
    Lipschitz constant.  [Y t z] is the exact solution through z at time t. *)
Theorem C106_reliable_estimate_partial :
  forall s rows b bh n f L kappa B Y y fuel t0 t1 ts atol rtol save_at times sol,
  builtin_pair s rows b bh -> field_on n f -> 0 <= L -> lipschitz n L f -> increasing (t0 :: t1 :: ts) ->
  0 < atol -> 0 <= rtol -> 0 <= kappa -> 0 <= B ->
  let T := last (t1 :: ts) t0 in
  solves n t0 T f y ->
  (forall t z, t0 <= t <= T -> List.length z = n -> solves n t T f (Y t z) /\ Y t z t = z) ->
  (forall t h z z' D, t0 <= t -> t + h <= T -> List.length z = n -> pair_accepts rows b bh f atol rtol None t h z z' ->
     near n D z' (erk_step rows bh f t h z) -> near n (kappa * D) z' (Y t z (t + h))) ->
  snd (@odeint ROps fuel f (y t0) (@TTensor ROps (t0 :: t1 :: ts)) s atol rtol false true save_at None) = Ok (times, sol) ->
  (forall z, In z sol -> bounded_by B z) ->
  List.length sol = List.length times /\
  forall k tk xk, nth_error times k = Some tk -> nth_error sol k = Some xk ->
  near n (INR k * (kappa * (sqrt (INR n) * (atol + rtol * B))) * exp (L * (tk - t0))) xk (y tk).
Proof. exact C106_reliable_estimate_partial_pf. Qed.
Print Assumptions C106_reliable_estimate_partial.

(** y' = t meets the hypotheses: dopri5 is exact for it, kappa = 0. *)
Example C106_ex :
  let f := fun (t : R) (_ : list R) => [t] in
  let Y := fun t z s => [nth 0 z 0 + (s * s - t * t) / 2] in
  field_on 1 f /\ lipschitz 1 0 f /\
  (forall a b t z, List.length z = 1%nat -> solves 1 a b f (Y t z) /\ Y t z t = z) /\
  (forall atol rtol t h z z' D, List.length z = 1%nat ->
     pair_accepts (to_R_rows q_dopri5) (to_R qb5_dopri5) (to_R qb4_dopri5) f atol rtol None t h z z' ->
     near 1 D z' (erk_step (to_R_rows q_dopri5) (to_R qb4_dopri5) f t h z) -> near 1 (0 * D) z' (Y t z (t + h))).
Proof. exact C106_ex_pf. Qed.

