(** Model of torchdyn/numerics/interpolators.py *)
From Coq Require Import ZArith QArith List.
From Verif Require Import Num Py Tensor M_Constants.
Import ListNotations.
Local Open Scope nat_scope.

Section Interp.
Context {K : NumOps}.
Notation V := (vec K).

(** Interpolator.evaluate, lines 29-37 *)
Definition interp_evaluate (coefs : list V) (t0 t1 t : K) : res V :=
  let theta := ((t - t0) / (t1 - t0))%N in
  match coefs with
  | c0 :: c1 :: rest =>
      Ok (fst (fold_left
            (fun (acc : V * K) coef =>
               let theta_power := (snd acc * theta)%N in
               ((fst acc + theta_power * coef)%V, theta_power))
            rest ((c0 + theta * c1)%V, theta)))
  | _ => Err IndexError
  end.

(** FourthOrder.fit, lines 57-63 *)
Definition fourth_fit (dt : K) (f0 f1 x0 x1 x_mid : V) : list V :=
  let c1 := ((nQ 2 * dt)%N * (f1 - f0) - nQ 8 * (x1 + x0) + nQ 16 * x_mid)%V in
  let c2 := (dt * (nQ 5 * f0 - nQ 3 * f1) + nQ 18 * x0 + nQ 14 * x1 - nQ 32 * x_mid)%V in
  let c3 := (dt * (f1 - nQ 4 * f0) - nQ 11 * x0 - nQ 5 * x1 + nQ 16 * x_mid)%V in
  let c4 := (dt * f0)%V in
  let c5 := x0 in
  [c5; c4; c3; c2; c1].

(** [sum([interpolator.bmid[i] * stages[i] for i in range(len(stages))])], odeint.py line 381:
    IndexError when there are more stages than weights; the Python sum starts from 0. *)
Fixpoint bmid_terms (bmid : list K) (stages : list V) : res (list V) :=
  match stages, bmid with
  | [], _ => Ok []
  | _ :: _, [] => Err IndexError
  | s :: stages', b :: bmid' => rmap (cons (vscale b s)) (bmid_terms bmid' stages')
  end.
Definition bmid_sum (bmid : list K) (stages : list V) : res V :=
  rbind (bmid_terms bmid stages) (fun ts =>
  match ts with
  | [] => Ok []
  | t0 :: ts' => Ok (fold_left vadd ts' (vadds n0 t0))
  end).

End Interp.
