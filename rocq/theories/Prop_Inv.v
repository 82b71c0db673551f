(** Property theorems (generated by tools/genprop.py from Pf_Inv.v, which holds the proofs). *)
From Coq Require Import ZArith QArith Qreals Reals Lra Lia List Bool Sorted.
From Verif Require Import Num Py Tensor M_Constants M_SolversOde M_Utils M_Interp M_Odeint.
From Verif Require Import Spec_Ode Spec_Trees Spec_RK Spec_Norm Spec_Adaptive Spec_Inv.
From Verif Require Import L_Base L_Fixed L_Vec L_Steps L_Tables L_Steps2 L_Interp L_Utils L_Fixed2 L_Adaptive L_Run.
From Verif Require Import L_Adaptive2 L_Adaptive3 L_Adaptive4 Pf_Fixed Pf_Adaptive L_Reach L_Inv.
Import ListNotations.
From Verif Require Import Pf_Inv.
Import ListNotations.
Local Open Scope R_scope.

(** C83.  If w . f(t, y) = 0 for all t and y, every state returned by any built-in solver (euler,
    midpoint, rk4, dopri5, tsit5; forwards or backwards; any tolerances, save_at, interpolator,
    return_all_eval) has the same w . y as the initial condition. *)
Theorem C83_linear_invariant :
  forall fuel s rows b n f w x ts atol rtol interp all save_at semi times sol,
  builtin_method s rows b -> field_on n f -> List.length x = n -> monotone ts -> (2 <= List.length ts)%nat ->
  (forall t y, List.length y = n -> inner w (f t y) = 0) ->
  snd (@odeint ROps fuel f x (@TTensor ROps ts) s atol rtol interp all save_at semi) = Ok (times, sol) ->
  forall y, In y sol -> inner w y = inner w x.
Proof. exact C83_linear_invariant_pf. Qed.
Print Assumptions C83_linear_invariant.

(** C83, constant rate.  If w . f(t, y) = a for all t and y (a clock, a linearly growing quantity),
    every returned state y at time t has w . y = w . x + a (t - t_0) exactly (for tsit5 with a
    replaced by beta a, beta within 1e-80 of 1: its weights are decimal constants). *)
Theorem C83_constant_rate :
  forall s rows b, builtin_method s rows b ->
  exists beta, Rabs (beta - 1) <= 1 / 10 ^ 80 /\ (s <> Tsitouras45 ROps -> beta = 1) /\
  forall fuel n f w a x t0 ts atol rtol all semi times sol,
  field_on n f -> List.length x = n -> increasing (t0 :: ts) -> (1 <= List.length ts)%nat ->
  (forall t y, List.length y = n -> inner w (f t y) = a) ->
  snd (@odeint ROps fuel f x (@TTensor ROps (t0 :: ts)) s atol rtol false all [] semi) = Ok (times, sol) ->
  List.length sol = List.length times /\
  forall i t y, nth_error times i = Some t -> nth_error sol i = Some y ->
  inner w y = inner w x + beta * a * (t - t0).
Proof. exact C83_constant_rate_pf. Qed.
Print Assumptions C83_constant_rate.

Theorem C83_constant_field :
  forall fuel s rows b n v x t0 ts atol rtol all semi times sol,
  builtin_method s rows b -> s <> Tsitouras45 ROps ->
  List.length v = n -> List.length x = n -> increasing (t0 :: ts) -> (1 <= List.length ts)%nat ->
  snd (@odeint ROps fuel (fun _ _ => v) x (@TTensor ROps (t0 :: ts)) s atol rtol false all [] semi) = Ok (times, sol) ->
  List.length sol = List.length times /\
  forall i t y j, nth_error times i = Some t -> nth_error sol i = Some y -> (j < n)%nat ->
  nth j y 0 = nth j x 0 + nth j v 0 * (t - t0).
Proof. exact C83_constant_field_pf. Qed.
Print Assumptions C83_constant_field.

(** The exchange field (- x y, x y) keeps x + y. *)
Example C83_ex : let f := fun (t : R) (y : list R) => [- (nth 0 y 0 * nth 1 y 0); nth 0 y 0 * nth 1 y 0] in
  field_on 2 f /\ (forall t y, List.length y = 2%nat -> inner [1; 1] (f t y) = 0) /\ f 0 [1; 2] = [- 2; 2] /\
  builtin_method (DormandPrince45 ROps) (to_R_rows q_dopri5) (to_R qb5_dopri5) /\ monotone [0; 1; 3] /\ monotone [3; 1; 0].
Proof. exact C83_ex_pf. Qed.

(** C84.  If f(t, x) = 0 for all t, every state returned from x by any built-in solver is x. *)
Theorem C84_equilibrium :
  forall fuel s rows b n f x ts atol rtol interp all save_at semi times sol,
  builtin_method s rows b -> field_on n f -> List.length x = n -> monotone ts -> (2 <= List.length ts)%nat ->
  (forall t, f t x = repeat 0 n) ->
  snd (@odeint ROps fuel f x (@TTensor ROps ts) s atol rtol interp all save_at semi) = Ok (times, sol) ->
  forall y, In y sol -> y = x.
Proof. exact C84_equilibrium_pf. Qed.
Print Assumptions C84_equilibrium.

(** C84.  From an equilibrium the adaptive solvers return (given enough iterations), whatever the
    field is elsewhere. *)
Theorem C84_returns :
  forall s rows b bh n f x t0 t1 ts atol rtol interp all save_at semi,
  builtin_pair s rows b bh -> field_on n f -> List.length x = n -> increasing (t0 :: t1 :: ts) ->
  0 < atol -> 0 <= rtol -> (1 <= n)%nat -> semi <> Some 0%nat ->
  (forall t, f t x = repeat 0 n) ->
  exists fuel r,
    snd (@odeint ROps fuel f x (@TTensor ROps (t0 :: t1 :: ts)) s atol rtol interp all save_at semi) = Ok r.
Proof. exact C84_returns_pf. Qed.
Print Assumptions C84_returns.

Example C84_ex : let f := fun (t : R) (y : list R) => [nth 0 y 0 * (1 - nth 0 y 0)] in
  field_on 1 f /\ (forall t, f t [1] = repeat 0 1) /\ f 0 [2] <> [0].
Proof. exact C84_ex_pf. Qed.

(** C85.  Fixed-step solvers commute with affine maps y -> M y + c: if g(t, M y + c) = M f(t, y), the
    solve of g from M x + c returns the same times (or the same exception) and the images of the
    states of the solve of f from x, for every grid and save_at.  M need not be invertible nor
    square. *)
Theorem C85_affine_fixed :
  forall fuel s rows b n m f g M c x t0 t1 ts atol rtol interp all save_at semi,
  erk_solver s rows b -> field_on n f -> field_on m g -> List.length x = n ->
  List.length M = m -> List.length c = m ->
  (forall t y, List.length y = n -> g t (affine_map M c y) = apply_matrix M (f t y)) ->
  snd (@odeint ROps fuel g (affine_map M c x) (@TTensor ROps (t0 :: t1 :: ts)) s atol rtol interp all save_at semi) =
  rmap (fun r => (fst r, map (affine_map M c) (snd r)))
    (snd (@odeint ROps fuel f x (@TTensor ROps (t0 :: t1 :: ts)) s atol rtol interp all save_at semi)).
Proof. exact C85_affine_fixed_pf. Qed.
Print Assumptions C85_affine_fixed.

Example C85_ex : let f := fun (t : R) (y : list R) => [nth 1 y 0; - nth 0 y 0] in
  let M := [[1; 1]; [0; 2]; [1; 0]] in let c := [1; 0; -1] in
  exists g, field_on 2 f /\ field_on 3 g /\
  (forall t y, List.length y = 2%nat -> g t (affine_map M c y) = apply_matrix M (f t y)) /\ g 0 [1; 0; -1] <> g 0 [2; 2; 0].
Proof. exact C85_ex_pf. Qed.

(** C86.  Fixed-step solvers treat the samples of a batch independently: sample i of every returned
    state of the batched solve is what the solve of sample i alone returns (same times, same
    exceptions). *)
Theorem C86_batch_fixed :
  forall fuel s rows b d k f F X t0 t1 ts i atol rtol interp all save_at semi,
  erk_solver s rows b -> field_on d f -> batched d k f F -> List.length X = (k * d)%nat -> (i < k)%nat ->
  snd (@odeint ROps fuel f (sample d i X) (@TTensor ROps (t0 :: t1 :: ts)) s atol rtol interp all save_at semi) =
  rmap (fun r => (fst r, map (sample d i) (snd r)))
    (snd (@odeint ROps fuel F X (@TTensor ROps (t0 :: t1 :: ts)) s atol rtol interp all save_at semi)).
Proof. exact C86_batch_fixed_pf. Qed.
Print Assumptions C86_batch_fixed.

Example C86_ex : batched 1 2 blow blow /\ field_on 1 blow /\ sample 1 0 [0; 1] = [0] /\ sample 1 1 [0; 1] = [1].
Proof. exact C86_ex_pf. Qed.

(** C86, refuted for the adaptive solvers: the step size is shared by the batch.  With f(t, y) = y/t
    for t > 0 (0 otherwise) on [0; 1], dopri5 with default tolerances solves the sample y = 0 alone,
    but never returns on the batch (0, 1). *)
Theorem C86_batch_adaptive_refuted :
  exists d k f F X ts, field_on d f /\ batched d k f F /\ List.length X = (k * d)%nat /\ (0 < k)%nat /\ increasing ts /\
  let solve g x fuel := snd (@odeint ROps fuel g x (@TTensor ROps ts) (DormandPrince45 ROps) (1/1000) (1/1000)
       false false [] None) in
  (exists fuel r, solve f (sample d 0 X) fuel = Ok r) /\ (forall fuel, solve F X fuel = OutOfFuel).
Proof. exact C86_batch_adaptive_refuted_pf. Qed.
Print Assumptions C86_batch_adaptive_refuted.

