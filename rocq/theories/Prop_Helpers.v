(** Property theorems (generated by tools/genprop.py from Pf_Helpers.v, which holds the proofs). *)
From Coq Require Import ZArith QArith Qreals Reals Lra Lia List Bool.
From Verif Require Import Num Py Tensor M_Constants M_Utils M_Interp.
From Verif Require Import Spec_Ode Spec_RK Spec_Norm L_Base L_Fixed L_Vec L_Steps L_Utils Pf_Utils.
Import ListNotations.
Local Notation length := List.length.
From Verif Require Import Pf_Helpers.
Import ListNotations.
Local Open Scope R_scope.

(** Interpolator.evaluate on any list of at least two coefficient vectors is the polynomial with these coefficients in
    (t - t0) / (t1 - t0), component by component; it raises IndexError on shorter lists. *)
Theorem C181_evaluate :
  forall n coefs t0 t1 t, (2 <= length coefs)%nat -> (forall c, In c coefs -> length c = n) -> t0 <> t1 ->
  exists v, @interp_evaluate ROps coefs t0 t1 t = Ok v /\ length v = n /\
  forall i, (i < n)%nat -> nth i v 0 = poly (entries i coefs) ((t - t0) / (t1 - t0)).
Proof. exact C181_evaluate_pf. Qed.
Print Assumptions C181_evaluate.

Theorem C181_short :
  forall coefs t0 t1 t, (length coefs < 2)%nat -> @interp_evaluate ROps coefs t0 t1 t = Err IndexError.
Proof. exact C181_short_pf. Qed.
Print Assumptions C181_short.

(** The ends: the constant coefficient at [t0], the sum of all coefficients at [t1]; and only the position of [t] relative to the
    interval matters. *)
Theorem C181_ends :
  forall n coefs t0 t1, (2 <= length coefs)%nat -> (forall c, In c coefs -> length c = n) -> t0 <> t1 ->
  (exists v, @interp_evaluate ROps coefs t0 t1 t0 = Ok v /\ length v = n /\ forall i, (i < n)%nat -> nth i v 0 = nth i (nth 0 coefs []) 0) /\
  (exists v, @interp_evaluate ROps coefs t0 t1 t1 = Ok v /\ length v = n /\ forall i, (i < n)%nat -> nth i v 0 = fold_right Rplus 0 (entries i coefs)) /\
  (forall a b t, a <> 0 -> @interp_evaluate ROps coefs (a * t0 + b) (a * t1 + b) (a * t + b) = @interp_evaluate ROps coefs t0 t1 t).
Proof. exact C181_ends_pf. Qed.
Print Assumptions C181_ends.

(** The mid point of an accepted step: the weighted sum of the stages, IndexError if there are more stages than weights. *)
Theorem C181_mid :
  forall n (bmid : list R) (stages : list (list R)), (forall s, In s stages -> length s = n) ->
  ((length bmid < length stages)%nat -> @bmid_sum ROps bmid stages = Err IndexError) /\
  ((1 <= length stages <= length bmid)%nat -> exists v, @bmid_sum ROps bmid stages = Ok v /\ length v = n /\
     forall i, (i < n)%nat -> nth i v 0 = fold_right Rplus 0 (map (fun p => fst p * nth i (snd p) 0) (combine bmid stages))).
Proof. exact C181_mid_pf. Qed.
Print Assumptions C181_mid.

(** Three coefficients at the middle of [0, 2]. *)
Example C181_ex : exists v, @interp_evaluate ROps [[1; 0]; [2; 4]; [4; 8]] 0 2 1 = Ok v /\ nth 0 v 0 = 3 /\ nth 1 v 0 = 4.
Proof. exact C181_ex_pf. Qed.

(** make_norm on an augmented state (time entry, state, adjoint, parameter gradients): the larger of the root mean squares of the
    state and of the adjoint; the time entry and the parameter gradients do not count. *)
Theorem C182_make_norm :
  forall n tau (y a rest : list R), length y = n -> length a = n ->
  @make_norm ROps n (tau :: y ++ a ++ rest) = Rmax (rms y) (rms a).
Proof. exact C182_make_norm_pf. Qed.
Print Assumptions C182_make_norm.

(** It is a seminorm on augmented states that vanishes exactly when state and adjoint vanish. *)
Theorem C182_seminorm :
  forall n tau (y a rest : list R), length y = n -> length a = n ->
  let N := fun v => @make_norm ROps n v in
  0 <= N (tau :: y ++ a ++ rest) /\
  (N (tau :: y ++ a ++ rest) = 0 <-> forall u, In u (y ++ a) -> u = 0) /\
  (forall c, N (map (Rmult c) (tau :: y ++ a ++ rest)) = Rabs c * N (tau :: y ++ a ++ rest)) /\
  (forall tau' y' a' rest', length y' = n -> length a' = n -> length rest' = length rest ->
     N (plus_list (tau :: y ++ a ++ rest) (tau' :: y' ++ a' ++ rest')) <= N (tau :: y ++ a ++ rest) + N (tau' :: y' ++ a' ++ rest')).
Proof. exact C182_seminorm_pf. Qed.
Print Assumptions C182_seminorm.

(** A state of norm 1 with an adjoint of norm 5, whatever the time entry and the parameter gradients. *)
Example C182_ex : forall tau rest, @make_norm ROps 1 (tau :: [1] ++ [-5] ++ rest) = 5.
Proof. exact C182_ex_pf. Qed.

