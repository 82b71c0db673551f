(** Property theorems (generated by tools/genprop.py from Pf_HybInv.v, which holds the proofs). *)
From Coq Require Import ZArith QArith Qreals Reals Lra Lia List Bool Sorted.
From Verif Require Import Num Py Tensor M_Constants M_SolversOde M_Utils M_Odeint.
From Verif Require Import Spec_Ode Spec_RK Spec_Adaptive Spec_Hybrid Spec_Inv.
From Verif Require Import L_Base L_Fixed L_Vec L_Steps2 L_Adaptive2 L_Reach L_Inv L_Hybrid L_Hybrid2.
From Verif Require Pf_Inv.
From Verif Require Import Pf_Hybrid.
Import ListNotations.
Local Notation length := List.length.
From Verif Require Import Pf_HybInv.
Import ListNotations.
Local Open Scope R_scope.

(** A quantity w . y with w . f = 0 changes in a hybrid solve only at jumps: two consecutive outputs have the same value of w . y, or they are at the
    same time and the second is the jump of a callback applied to the first. If moreover the jumps keep w . y, so does the whole solve. *)
Theorem C197_invariant :
  forall fuel s rows b bh n f w x t0 t1 ts j_span cbs atol rtol etol jump_first semi times sol,
  builtin_pair s rows b bh -> field_on n f -> length x = n -> 0 <= etol ->
  (forall cb t y, In cb cbs -> length y = n -> length (snd cb t y) = n) ->
  (forall t y, length y = n -> inner w (f t y) = 0) ->
  snd (@odeint_hybrid ROps fuel f x (t0 :: t1 :: ts) j_span s (mkcbs cbs) atol rtol etol jump_first semi) = Ok (times, sol) ->
  (length times = length sol)%nat /\
  (forall i ta ya tb yb, nth_error times i = Some ta -> nth_error times (S i) = Some tb -> nth_error sol i = Some ya -> nth_error sol (S i) = Some yb ->
    inner w yb = inner w ya \/ (tb = ta /\ exists cb, In cb cbs /\ yb = snd cb ta ya)) /\
  ((forall cb t y, In cb cbs -> length y = n -> inner w (snd cb t y) = inner w y) -> forall y, In y sol -> inner w y = inner w x).
Proof. exact C197_invariant_pf. Qed.
Print Assumptions C197_invariant.

(** From an equilibrium of the field that no jump moves, every output of a hybrid solve is the equilibrium. *)
Theorem C197_equilibrium :
  forall fuel s rows b bh n f x t0 t1 ts j_span cbs atol rtol etol jump_first semi times sol,
  builtin_pair s rows b bh -> field_on n f -> length x = n -> 0 <= etol ->
  (forall cb t y, In cb cbs -> length y = n -> length (snd cb t y) = n) ->
  (forall t, f t x = repeat 0 n) -> (forall cb t, In cb cbs -> snd cb t x = x) ->
  snd (@odeint_hybrid ROps fuel f x (t0 :: t1 :: ts) j_span s (mkcbs cbs) atol rtol etol jump_first semi) = Ok (times, sol) ->
  forall y, In y sol -> y = x.
Proof. exact C197_equilibrium_pf. Qed.
Print Assumptions C197_equilibrium.

(** The hypotheses are met: a flow from the first to the second of two tanks, whose contents are swapped when the first one is nearly empty. *)
Example C197_ex :
  let f := fun (_ : R) (y : list R) => match y with [a; c] => [- a; a] | _ => y end in
  let cbs := [(fun (_ : R) (y : list R) => Rleb (hd 0 y) (1 / 10), fun (_ : R) (y : list R) => rev y)] in
  builtin_pair (DormandPrince45 ROps) (to_R_rows q_dopri5) (to_R qb5_dopri5) (to_R qb4_dopri5) /\ field_on 2 f /\
  (forall cb t y, In cb cbs -> length y = 2%nat -> length (snd cb t y) = 2%nat) /\ (forall t y, length y = 2%nat -> inner [1; 1] (f t y) = 0) /\
  (forall cb t y, In cb cbs -> length y = 2%nat -> inner [1; 1] (snd cb t y) = inner [1; 1] y) /\ (exists cb, In cb cbs /\ fst cb 0 [1 / 20; 1] = true).
Proof. exact C197_ex_pf. Qed.

