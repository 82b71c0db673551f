(** Property theorems (generated by tools/genprop.py from Pf_SdePerm.v, which holds the proofs). *)
From Coq Require Import ZArith QArith Lia String List Bool Floats.
From Verif Require Import Num Py Tensor M_SolversOde M_Odeint M_Sde.
From Verif Require Import Pf_SdeBlock.
Import ListNotations.
Local Notation length := List.length.
From Verif Require Import Pf_SdePerm.
Import ListNotations.
Local Open Scope nat_scope.

(** For every arithmetic (reals, binary64): if the components of an SDE and of its Brownian path are reordered, dropped or copied, the solution is
    reordered, dropped or copied in the same way, for every accepted solver name, grid and save_at. *)
Theorem C199_reorder :
  forall (K : NumOps) n idx (s s' : sde_func K) (bm bm' : brownian K) q x ts name save_at, (forall j, In j idx -> j < n) -> sized_k n s bm -> length x = n ->
  (forall t y, length y = n -> sde_f s' t (pick idx y) = pick idx (sde_f s t y)) -> (forall t y, length y = n -> sde_g s' t (pick idx y) = pick idx (sde_g s t y)) ->
  (forall u t, bm' u t = pick idx (bm u t)) -> sde_type s' = sde_type s -> sde_noise s' = sde_noise s -> sde_str_to_solver name s bm = Ok q ->
  sdeint s' (pick idx x) ts name bm' save_at = rmap (fun r => (fst r, map (pick idx) (snd r))) (sdeint s x ts name bm save_at).
Proof. exact C199_reorder_pf. Qed.
Print Assumptions C199_reorder.

(** The hypotheses are met: two components of which the second drives the first, swapped, with the second copied. *)
Example C199_ex :
  forall K : NumOps, let s := @MkSde K (fun _ y => [nth 1 y n0; n0]) (fun _ y => [n1; nth 1 y n0]) (Some "diagonal"%string) (Some "ito"%string) in
  let s' := @MkSde K (fun _ y => [n0; nth 0 y n0; n0]) (fun _ y => [nth 0 y n0; n1; nth 0 y n0]) (Some "diagonal"%string) (Some "ito"%string) in
  (forall j, In j [1; 0; 1] -> j < 2) /\ (forall t y, length y = 2 -> sde_f s' t (pick [1; 0; 1] y) = pick [1; 0; 1] (sde_f s t y)) /\
  (forall t y, length y = 2 -> sde_g s' t (pick [1; 0; 1] y) = pick [1; 0; 1] (sde_g s t y)) /\ sized_k 2 s (fun u t => [(t - u)%N; n1]) /\
  exists q, sde_str_to_solver "euler" s (fun u t => [(t - u)%N; n1]) = Ok q.
Proof. exact C199_ex_pf. Qed.

