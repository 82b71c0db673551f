(** Property theorems (generated by tools/genprop.py from Pf_Cast.v, which holds the proofs). *)
From Coq Require Import ZArith QArith Qreals Reals Lra Lia List Bool.
From Verif Require Import Num Py Tensor M_Constants M_SolversOde M_Utils M_Interp M_Odeint M_Dtype M_Cast.
From Verif Require Import Spec_Ode Spec_Trees Spec_RK Spec_Norm Spec_Adaptive.
From Verif Require Import L_Base L_Fixed L_Vec L_Steps L_Steps2 L_Tables L_Utils L_Fixed2 L_Adaptive L_Adaptive2 L_Hybrid L_Nan L_Adaptive3 L_Adaptive4 Pf_Fixed Pf_Adaptive.
Import ListNotations.
Local Notation length := List.length.
From Verif Require Import Pf_Cast.
Import ListNotations.
Local Open Scope R_scope.

(** C149.  If the dtype of the tensor made of save_at is that of t_span the list is as good as a tensor. *)
Theorem C149_same_dtype_partial : forall fuel f x td ts (s : solver ROps (vec ROps)) atol rtol interp all semi save_at,
  s_fixed s = true -> save_dtype save_at = td ->
  odeint_save f x td ts s save_at = @odeint ROps fuel f x ts s atol rtol interp all (save_values save_at) semi.
Proof. exact C149_same_dtype_partial_pf. Qed.
Print Assumptions C149_same_dtype_partial.

(** C149.  A list of floats never works with a float64 t_span, a list of integers never with a floating point t_span,
    although the tensor of the same times does: for every part of the grid (picked by mask) the states are returned. *)
Theorem C149_list_refuted : forall f x ts (s : solver ROps (vec ROps)) (l : list R), l <> [] ->
  (forall r, snd (@odeint_save ROps f x (FloatT Double) ts s (@SaveFloats ROps l)) <> Ok r) /\
  (forall d r, snd (@odeint_save ROps f x (FloatT d) ts s (@SaveInts ROps l)) <> Ok r) /\
  (forall r, snd (@odeint_save ROps f x Int64T ts s (@SaveFloats ROps l)) <> Ok r) /\
  (forall d t0 t1 te mask one lg, s_fixed s = true -> fixed_stepper (s_step s) f one lg ->
    ts = @TTensor ROps (t0 :: t1 :: te) -> separated (t0 :: t1 :: te) -> t0 <= t1 ->
    length mask = length (t0 :: t1 :: te) -> l = pick mask (t0 :: t1 :: te) ->
    snd (@odeint_save ROps f x d ts s (@SaveTensor ROps d l)) = Ok (l, pick mask (one_step_traj one x (t0 :: t1 :: te)))).
Proof. exact C149_list_refuted_pf. Qed.
Print Assumptions C149_list_refuted.

(** The end of the grid 0, 1, 2 requested from Euler's method for x' = t + x *)
Example C149_ex : let f := fun (t : R) (x : list R) => map (Rplus t) x in let ts := @TTensor ROps [0; 1; 2] in
  snd (@odeint_save ROps f [1] (FloatT Double) ts (Euler ROps) (@SaveTensor ROps (FloatT Double) [2])) = Ok ([2], [[5]]) /\
  snd (@odeint_save ROps f [1] (FloatT Float) ts (Euler ROps) (@SaveFloats ROps [2])) = Ok ([2], [[5]]) /\
  snd (@odeint_save ROps f [1] (FloatT Double) ts (Euler ROps) (@SaveFloats ROps [2])) = Err RuntimeError.
Proof. exact C149_ex_pf. Qed.

(** C150.  Fixed-step solves are not concerned by the dtype of the times, whatever the conversion is. *)
Theorem C150_fixed_partial : forall cast fuel f x ts (s : solver ROps (vec ROps)) atol rtol interp all save_at semi,
  s_fixed s = true ->
  @odeint_cast ROps cast fuel f x ts s atol rtol interp all save_at semi =
  @odeint ROps fuel f x ts s atol rtol interp all save_at semi.
Proof. exact C150_fixed_partial_pf. Qed.
Print Assumptions C150_fixed_partial.

(** C150.  The adaptive solves never return with integer times: the first step size is truncated to 0 and stays 0.  (By C14
    they return with floating point times for every field of linear growth.) *)
Theorem C150_adaptive_refuted : forall s rows b bh n f x t0 t1 te atol rtol interp all save_at semi,
  builtin_pair s rows b bh -> field_on n f -> length x = n -> t0 < t1 -> t0 < last (t1 :: te) t0 ->
  stalls atol rtol (f t0 x) x ->
  forall fuel, snd (@odeint_cast ROps to_integer fuel f x (@TTensor ROps (t0 :: t1 :: te)) s atol rtol interp all save_at semi) = OutOfFuel.
Proof. exact C150_adaptive_refuted_pf. Qed.
Print Assumptions C150_adaptive_refuted.

(** C150.  The same for solves with events: no event at the start and a jump budget suffice. *)
Theorem C150_hybrid_refuted : forall s rows b bh n f x t0 t1 te j_span (cbs : list (@callback ROps)) atol rtol etol jump_first semi,
  builtin_pair s rows b bh -> field_on n f -> length x = n -> t0 < t1 -> t0 < last (t1 :: te) t0 ->
  (forall cb, In cb cbs -> @check_event ROps cb t0 x = false) -> (1 <= j_span)%nat -> stalls atol rtol (f t0 x) x ->
  forall fuel, snd (@odeint_hybrid_cast ROps to_integer fuel f x (t0 :: t1 :: te) j_span s cbs atol rtol etol jump_first semi) = OutOfFuel.
Proof. exact C150_hybrid_refuted_pf. Qed.
Print Assumptions C150_hybrid_refuted.

(** x' = - x from 1 with the default tolerances over 0, 1, 2: floating point times work, integer times do not. *)
Example C150_ex : let f := fun (_ : R) (x : list R) => map Ropp x in let ts := @TTensor ROps [0; 1; 2] in
  let s := DormandPrince45 ROps in
  (exists fuel r, snd (@odeint_cast ROps (fun a => a) fuel f [1] ts s (1/1000) (1/1000) false false [] None) = Ok r) /\
  (forall fuel, snd (@odeint_cast ROps to_integer fuel f [1] ts s (1/1000) (1/1000) false false [] None) = OutOfFuel).
Proof. exact C150_ex_pf. Qed.

