(** Property theorems (generated by tools/genprop.py from Pf_Sim.v, which holds the proofs). *)
From Coq Require Import ZArith QArith Qreals Reals Lra Lia List Bool Sorted.
From Verif Require Import Num Py Tensor M_Constants M_SolversOde M_Utils M_Interp M_Odeint.
From Verif Require Import Spec_Ode Spec_Trees Spec_RK Spec_Norm Spec_Adaptive Spec_Inv.
From Verif Require Import L_Base L_Fixed L_Vec L_Steps L_Tables L_Steps2 L_Interp L_Utils L_Fixed2 L_Adaptive L_Run.
From Verif Require Import L_Adaptive2 L_Adaptive3 L_Adaptive4 Pf_Fixed Pf_Adaptive L_Reach L_Inv L_Sim.
Import ListNotations.
From Verif Require Import Pf_Sim.
Import ListNotations.
Local Open Scope R_scope.

(** C87.  Reordering the entries of the state, or repeating all of them the same number of times
    (a batch of copies), reorders or repeats the results of every built-in solver and changes nothing
    else: not the times, not the exceptions.  idx lists the positions of the entries of x that make up
    the new state; balanced: each occurs equally often. *)
Theorem C87_reorder :
  forall fuel s rows b n idx f g x t0 t1 ts atol rtol interp all save_at,
  builtin_method s rows b -> balanced n idx -> field_on n f -> field_on (List.length idx) g -> List.length x = n ->
  monotone (t0 :: t1 :: ts) ->
  (forall t y, List.length y = n -> g t (reindex idx y) = reindex idx (f t y)) ->
  snd (@odeint ROps fuel g (reindex idx x) (@TTensor ROps (t0 :: t1 :: ts)) s atol rtol interp all save_at None) =
  rmap (fun r : list R * list rvec => (fst r, map (reindex idx) (snd r)))
    (snd (@odeint ROps fuel f x (@TTensor ROps (t0 :: t1 :: ts)) s atol rtol interp all save_at None)).
Proof. exact C87_reorder_pf. Qed.
Print Assumptions C87_reorder.

(** A batch of two one-dimensional samples, exchanged and doubled *)
Example C87_ex : balanced 2 [1; 0; 1; 0]%nat /\
  (forall (t : R) y, List.length y = 2%nat -> map (fun u => u * u) (reindex [1; 0; 1; 0]%nat y) = reindex [1; 0; 1; 0]%nat (map (fun u => u * u) y)) /\
  reindex [1; 0; 1; 0]%nat [3; 5] = [5; 3; 5; 3].
Proof. exact C87_ex_pf. Qed.

(** C88 (adaptive).  Shifting time by s: the solve of g(t, y) = f(t - s, y) on the grid shifted by s
    returns the same states as the solve of f, at the shifted times, for all increasing grids. *)
Theorem C88_shift_adaptive :
  forall fuel s rows b bh n f x sh t0 t1 ts atol rtol interp all save_at semi,
  builtin_pair s rows b bh -> field_on n f -> List.length x = n -> increasing (t0 :: t1 :: ts) ->
  snd (@odeint ROps fuel (shifted_field sh f) x (@TTensor ROps (map (fun t : R => t + sh) (t0 :: t1 :: ts))) s atol rtol interp all save_at semi) =
  rmap (fun r : list R * list rvec => (map (fun t : R => t + sh) (fst r), snd r))
    (snd (@odeint ROps fuel f x (@TTensor ROps (t0 :: t1 :: ts)) s atol rtol interp all save_at semi)).
Proof. exact C88_shift_adaptive_pf. Qed.
Print Assumptions C88_shift_adaptive.

(** C88 (fixed-step): the same, if no two times of the grid are close in the sense of torch.isclose,
    before and after the shift. *)
Theorem C88_shift_fixed :
  forall fuel s rows b n f x sh t0 t1 ts atol rtol interp all semi,
  builtin_fixed s rows b -> field_on n f -> List.length x = n -> increasing (t0 :: t1 :: ts) ->
  separated (t0 :: t1 :: ts) -> separated (map (fun t : R => t + sh) (t0 :: t1 :: ts)) ->
  exists states,
  snd (@odeint ROps fuel f x (@TTensor ROps (t0 :: t1 :: ts)) s atol rtol interp all [] semi) = Ok (t0 :: t1 :: ts, states) /\
  snd (@odeint ROps fuel (shifted_field sh f) x (@TTensor ROps (map (fun t : R => t + sh) (t0 :: t1 :: ts))) s atol rtol interp all [] semi) =
  Ok (map (fun t : R => t + sh) (t0 :: t1 :: ts), states).
Proof. exact C88_shift_fixed_pf. Qed.
Print Assumptions C88_shift_fixed.

(** C88, refuted: euler on [0, 1] works, on [1000000, 1000001] it raises AssertionError. *)
Theorem C88_shift_fixed_refuted :
  let f := fun (t : R) (y : list R) => y in
  forall fuel,
  (exists r, snd (@odeint ROps fuel f [1] (@TTensor ROps [0; 1]) (Euler ROps) (1/1000) (1/1000) false false [] None) = Ok r) /\
  snd (@odeint ROps fuel (shifted_field 1000000 f) [1] (@TTensor ROps (map (fun t : R => t + 1000000) [0; 1])) (Euler ROps)
    (1/1000) (1/1000) false false [] None) = Err AssertionError.
Proof. exact C88_shift_fixed_refuted_pf. Qed.
Print Assumptions C88_shift_fixed_refuted.

