(** What an adaptive solve is: a chain of accepted steps and its outputs. *)
From Coq Require Import Reals List Lra Bool.
From Verif Require Import Spec_RK Spec_Norm.
Import ListNotations.
Local Open Scope R_scope.

Section Run.
Variable X : Type.
(** [acc t h x x']: the step of size h from x at time t to x' is accepted *)
Variable acc : R -> R -> X -> X -> Prop.
(** [dense t h x s]: dense output at time s of the step of size h from x at t *)
Variable dense : R -> R -> X -> R -> X.
(** [interp]: requested times may be crossed and interpolated;
    [all]: the end of every step is output, not only the ends at requested times *)
Variables interp all : bool.

(** [run t x req times xs]: from state x at time t, with requested times [req] (all later than
    t), a chain of accepted steps reaches the last requested time and outputs [xs] at [times].
    Every step has positive size.  Requested times strictly inside a step are output through
    dense output (only with [interp]); the end of a step is output if it is requested.  No step
    ends after the last requested time. *)
Inductive run : R -> X -> list R -> list R -> list X -> Prop :=
| run_done t x : run t x [] [] []
| run_step t h x x' crossed (hit : bool) req times xs :
    0 < h -> acc t h x x' ->
    (forall s, In s crossed -> t < s < t + h) ->
    (interp = false -> crossed = []) ->
    (forall s, In s req -> t + h < s) ->
    (hit = true \/ req <> []) ->
    run (t + h) x' req times xs ->
    run t x (crossed ++ (if hit then [t + h] else []) ++ req)
        (crossed ++ (if hit || all then [t + h] else []) ++ times)
        (map (dense t h x) crossed ++ (if hit || all then [x'] else []) ++ xs).

(** A contiguous chain of accepted steps of positive size *)
Inductive chain : R -> X -> R -> X -> Prop :=
| chain_nil t x : chain t x t x
| chain_cons t h x x' t2 x2 :
    0 < h -> acc t h x x' -> chain (t + h) x' t2 x2 -> chain t x t2 x2.

(** A chain of accepted steps with the list of its step ends *)
Inductive path : R -> X -> list R -> R -> X -> Prop :=
| path_nil t x : path t x [] t x
| path_cons t h x x' ends t2 x2 :
    0 < h -> acc t h x x' -> path (t + h) x' ends t2 x2 -> path t x ((t + h) :: ends) t2 x2.
End Run.
Arguments run {X}. Arguments chain {X}. Arguments path {X}.
Arguments run_done {X acc dense interp all}. Arguments chain_nil {X acc}.

(** Scaled error norm: root mean square of e_i / (atol + rtol max(|x_i|, |x'_i|)), over all
    entries or over the first d. *)
Definition scaled_error (atol rtol : R) (first : option nat) (x x' e : list R) : R :=
  let cut (l : list R) := match first with Some d => firstn d l | None => l end in
  rms (map (fun q => fst q / (atol + rtol * Rmax (Rabs (fst (snd q))) (Rabs (snd (snd q)))))
         (combine (cut e) (combine (cut x) (cut x')))).

Definition minus_list (a b : list R) : list R := map (fun p => fst p - snd p) (combine a b).

(** A step of an embedded pair (rows, b, bh) that meets the tolerance *)
Definition pair_accepts (rows : list (R * list R)) (b bh : list R) (f : R -> list R -> list R)
  (atol rtol : R) (first : option nat) (t h : R) (x x' : list R) : Prop :=
  x' = erk_step rows b f t h x /\
  scaled_error atol rtol first x x' (minus_list x' (erk_step rows bh f t h x)) <= 1.

(** The quartic with value x0, slope f0 at t, value x1, slope f1 at t + h and value xm at
    t + h/2, evaluated at t + th*h *)
Definition quartic_interp (h f0 f1 x0 x1 xm th : R) : R :=
  x0 + h * f0 * th
  + (h * (f1 - 4 * f0) - 11 * x0 - 5 * x1 + 16 * xm) * th ^ 2
  + (h * (5 * f0 - 3 * f1) + 18 * x0 + 14 * x1 - 32 * xm) * th ^ 3
  + (2 * h * (f1 - f0) - 8 * (x1 + x0) + 16 * xm) * th ^ 4.

(** Dense output of a pair with mid-point weights bm, componentwise quartic *)
Definition pair_dense (rows : list (R * list R)) (b bm : list R) (f : R -> list R -> list R)
  (t h : R) (x : list R) (s : R) : list R :=
  let x1 := erk_step rows b f t h x in
  let xm := erk_step rows bm f t h x in
  map (fun i => quartic_interp h (nth i (f t x) 0) (nth i (f (t + h) x1) 0)
                  (nth i x 0) (nth i x1 0) (nth i xm 0) ((s - t) / h))
      (seq 0 (length x)).
