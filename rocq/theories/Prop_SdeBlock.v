(** Property theorems (generated by tools/genprop.py from Pf_SdeBlock.v, which holds the proofs). *)
From Coq Require Import ZArith QArith Lia String List Bool Floats.
From Verif Require Import Num Py Tensor M_SolversOde M_Odeint M_Sde.
Import ListNotations.
Local Notation length := List.length.
From Verif Require Import Pf_SdeBlock.
Import ListNotations.
Local Open Scope nat_scope.

(** For every arithmetic (reals, binary64), SDEs, states, Brownian paths, solver name, grid and save_at: solving two SDEs as the two blocks of one
    state returns at every time the two separate solutions one after the other. The entries of one block, also NaN, do not reach the other. *)
Theorem C198_blocks :
  forall (K : NumOps) n (s1 s2 : sde_func K) (b1 b2 : brownian K) x1 x2 ts name save_at times xs1 times2 xs2, sized_k n s1 b1 -> length x1 = n ->
  sdeint s1 x1 ts name b1 save_at = Ok (times, xs1) -> sdeint s2 x2 ts name b2 save_at = Ok (times2, xs2) ->
  sdeint (block_sde n s1 s2) (x1 ++ x2) ts name (block_bm b1 b2) save_at = Ok (times, map2 (@app K) xs1 xs2) /\ length xs1 = length xs2.
Proof. exact C198_blocks_pf. Qed.
Print Assumptions C198_blocks.

(** A run in binary64: dX = X dW from 1 beside dX = X dW from NaN, along different paths. *)
Example C198_ex :
  forall pw, let sde := @MkSde (FloatOps pw) (fun _ x => map (fun _ => 0%float) x) (fun _ x => x) (Some "diagonal"%string) (Some "ito"%string) in
  sized_k 1 sde (fun s t => [PrimFloat.sub t s]) /\
  @sdeint (FloatOps pw) sde [1%float] [0%float; 1%float] "euler" (fun s t => [PrimFloat.sub t s]) [] = Ok ([0%float; 1%float], [[1%float]; [2%float]]) /\
  @sdeint (FloatOps pw) sde [nan] [0%float; 1%float] "euler" (fun _ _ => [0.5%float]) [] = Ok ([0%float; 1%float], [[nan]; [nan]]) /\
  @sdeint (FloatOps pw) (block_sde 1 sde sde) [1%float; nan] [0%float; 1%float] "euler" (block_bm (K := FloatOps pw) (fun s t => [PrimFloat.sub t s]) (fun _ _ => [0.5%float])) [] =
    Ok ([0%float; 1%float], [[1%float; nan]; [2%float; nan]]).
Proof. exact C198_ex_pf. Qed.

