(** Model of torchdyn/numerics/utils.py: norms, initial step, step size control, event states. *)
From Coq Require Import ZArith QArith List Bool.
From Verif Require Import Num Py Tensor.
Import ListNotations.
Local Open Scope nat_scope.

Section Utils.
Context {K : NumOps}.
Notation V := (vec K).

(** hairer_norm, lines 33-34: [tensor.abs().pow(2).mean().sqrt()] *)
Definition hairer_norm (x : V) : K :=
  nsqrt (vmean (map (fun a => (nabs a * nabs a)%N) x)).

(** make_norm, lines 24-30 *)
Definition make_norm (state_size : nat) (aug_state : V) : K :=
  let y := firstn state_size (skipn 1 aug_state) in
  let adj_y := firstn state_size (skipn (1 + state_size) aug_state) in
  pymax (hairer_norm y) (hairer_norm adj_y).

(** init_step, lines 37-54 *)
Definition init_step (f : K -> V -> V) (f0 x0 : V) (t0 : K) (order : nat) (atol rtol : K)
  : M (K * V) K :=
  let scale := map (fun a => (atol + nabs a * rtol)%N) x0 in
  let d0 := hairer_norm (vdiv x0 scale) in
  let d1 := hairer_norm (vdiv f0 scale) in
  let h0 := if ((d0 <? nQ (1 # 100000)) || (d1 <? nQ (1 # 100000)))%N
            then nQ (1 # 1000000) else (nQ (1 # 100) * d0 / d1)%N in
  let x_new := (x0 + h0 * f0)%V in
  f_new <- call f (t0 + h0)%N x_new ;;
  let d2 := (hairer_norm (vdiv (vsub f_new f0) scale) / h0)%N in
  let h1 := if ((d1 <=? nQ (1 # 1000000000000000)) && (d2 <=? nQ (1 # 1000000000000000)))%N
            then nmax (nQ (1 # 1000000)) (h0 * nQ (1 # 1000))%N
            else npowr (nQ (1 # 100) / pymax d1 d2)%N (n1 / nnat (order + 1))%N in
  mret (nmin (nQ 100 * h0)%N h1).

(** adapt_step, lines 57-63; the factors are 1-element tensors *)
Definition adapt_step (dt error_ratio safety min_factor max_factor : K) (order : nat) : K :=
  if (error_ratio =? n0)%N then (dt * max_factor)%N else
  let min_factor := if (error_ratio <? n1)%N then n1 else min_factor in
  let exponent := (n1 / nnat order)%N in
  let factor := nmin max_factor (nmax (safety / npowr error_ratio exponent)%N min_factor) in
  (dt * factor)%N.

End Utils.

(** EventState.__ne__, lines 76-81: number of differing flags *)
Definition event_ne (a b : list bool) : nat :=
  count_true (map2 xorb a b).
