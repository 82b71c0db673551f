(** Hypersolvers (torchdyn/numerics/solvers/hyper.py lines 17-47) whose network may raise.

    [hyper_step] of M_SolversOde.v has a network that accepts every tensor.  A network built from layers of fixed width accepts
    the states of the equation only; [sized n g]: it raises RuntimeError when the number of elements is not n (the only
    other tensors it meets in the code have more elements and one axis, so that no layer of fixed width accepts them). *)
From Coq Require Import ZArith QArith List Bool.
From Verif Require Import Num Py Tensor M_Constants M_SolversOde.
Import ListNotations.
Local Open Scope nat_scope.

Section Hyper.
Context {K : NumOps}.
Notation V := (vec K).

(** .step, lines 24-26, 35-37, 45-47 *)
Definition hyper_step_res (base : @step_fun K V) (order : nat) (hypernet : K -> V -> res V) : @step_fun K V :=
  fun f x t dt k1 =>
  r <- base f x t dt k1 ;;
  match r with
  | Ret3 _ x_sol _ =>
      g <- mlift (hypernet t x) ;;
      mret (Ret3 None (x_sol + npow dt (order + 1) * g)%V None)
  | Ret4 _ _ _ _ => mraise ValueError
  end.

Definition sized (n : nat) (g : K -> V -> V) (t : K) (x : V) : res V :=
  if length x =? n then Ok (g t x) else Err RuntimeError.

(** HyperEuler, HyperMidpoint, HyperRungeKutta4 *)
Definition HyperEulerN (n : nat) (g : K -> V -> V) : solver K V := mk_solver 1 true false (hyper_step_res euler_step 1 (sized n g)).
Definition HyperMidpointN (n : nat) (g : K -> V -> V) : solver K V := mk_solver 2 true false (hyper_step_res midpoint_step 2 (sized n g)).
Definition HyperRungeKutta4N (n : nat) (g : K -> V -> V) : solver K V := mk_solver 4 true false (hyper_step_res rk4_step 4 (sized n g)).

(** A network that never raises gives [hyper_step]. *)
Lemma hyper_step_res_total base order g f x t dt k1 :
  snd (hyper_step_res base order (fun t x => Ok (g t x)) f x t dt k1) = snd (hyper_step base order g f x t dt k1).
Proof. unfold hyper_step_res, hyper_step, mbind. destruct (snd (base f x t dt k1)) as [[| ]| |]; reflexivity. Qed.
End Hyper.
