(** Property theorems (generated by tools/genprop.py from Pf_DataNoise.v, which holds the proofs). *)
From Coq Require Import ZArith QArith Qreals Reals Lra Lia String List Bool.
From Verif Require Import Num Py Tensor M_Nn M_Data Spec_Root Spec_Models Spec_Data L_Base L_Root L_Models Pf_Gal Pf_Basis Pf_Data.
Import ListNotations.
Local Notation length := List.length.
From Verif Require Import Pf_DataNoise.
Import ListNotations.
Local Open Scope R_scope.

(** generate_concentric_spheres with an even number of samples: point i is its point on the sphere, which does not depend on the
    noise, plus noise times its own draw, in every coordinate. *)
Theorem C184_spheres_partial :
  forall h dim inner outer v1 v2, (1 <= h)%nat -> 0 <= inner -> 0 <= outer ->
  (forall i, nonzero_draw dim (v1 i)) -> (forall i, nonzero_draw dim (v2 i)) ->
  exists s1 s2 : nat -> list R, (forall i, on_sphere inner (s1 i)) /\ (forall i, on_sphere outer (s2 i)) /\
  forall noise e1 e2, 0 <= noise -> exists D, @generate_concentric_spheres ROps (2 * h) noise dim inner outer v1 e1 v2 e2 = Ok D /\
    forall i, (i < h)%nat -> point D i = plus_vec (s1 i) (times noise (draw dim (e1 i))) /\
                             point D (h + i) = plus_vec (s2 i) (times noise (draw dim (e2 i))).
Proof. exact C184_spheres_partial_pf. Qed.
Print Assumptions C184_spheres_partial.

(** generate_moons: the noise moves every point along the diagonal only, and never down or left. *)
Theorem C184_moons_refuted :
  forall n s u, 0 <= s -> (forall i, 0 <= u i <= 1) ->
  exists D0 D, @generate_moons ROps cos sin PI n None u = Ok D0 /\ @generate_moons ROps cos sin PI n (Some s) u = Ok D /\
  forall i, (i < n)%nat -> exists x y delta, delta = s * u i /\ 0 <= delta <= s /\ point D0 i = [x; y] /\ point D i = [x + delta; y + delta].
Proof. exact C184_moons_refuted_pf. Qed.
Print Assumptions C184_moons_refuted.

(** generate_spirals: the noise is never negative on the first arm, and the second arm has the opposite noise. *)
Theorem C184_spirals_refuted :
  forall n s u e1 e2, 0 <= s -> (forall i, 0 <= e1 i <= 1) -> (forall i, 0 <= e2 i <= 1) ->
  exists D0 D, @generate_spirals ROps cos sin PI n 0 u e1 e2 = Ok D0 /\ @generate_spirals ROps cos sin PI n s u e1 e2 = Ok D /\
  forall i, (i < n)%nat -> exists x y a b, a = s * e1 i /\ b = s * e2 i /\ 0 <= a <= s /\ 0 <= b <= s /\ point D0 i = [x; y] /\ point D i = [x + a; y + b] /\
    point D0 (n + i) = [- x; - y] /\ point D (n + i) = [- x - a; - y - b].
Proof. exact C184_spirals_refuted_pf. Qed.
Print Assumptions C184_spirals_refuted.

Theorem C184_gaussians_refuted :
  forall n k radius std noise z w, 0 < std ->
  exists D0 D, @generate_gaussians ROps cos sin PI n k 2 radius std 0 z w = Ok D0 /\ @generate_gaussians ROps cos sin PI n k 2 radius std noise z w = Ok D /\
  forall i, (i < k)%nat -> forall r, (r < n)%nat -> point D (i * n + r) = plus_vec (point D0 (i * n + r)) (times noise (draw 2 (w i))).
Proof. exact C184_gaussians_refuted_pf. Qed.
Print Assumptions C184_gaussians_refuted.

Theorem C184_gaussians_spiral_refuted :
  forall n k per_loop r0 r1 s0 s1 noise z w, (1 <= k)%nat -> (1 <= per_loop)%nat -> 0 < s0 -> 0 <= s1 ->
  exists D0 D, @generate_gaussians_spiral ROps cos sin PI n k per_loop 2 r0 r1 s0 s1 0 z w = Ok D0 /\
    @generate_gaussians_spiral ROps cos sin PI n k per_loop 2 r0 r1 s0 s1 noise z w = Ok D /\
  forall i, (i < k)%nat -> forall r, (r < n)%nat -> point D (i * n + r) = plus_vec (point D0 (i * n + r)) (times noise (draw 2 (w i))).
Proof. exact C184_gaussians_spiral_refuted_pf. Qed.
Print Assumptions C184_gaussians_spiral_refuted.

(** Draws that meet the hypotheses. *)
Example C184_ex : nonzero_draw 2 (fun _ => 1) /\ (forall i : nat, 0 <= / INR (S i) <= 1).
Proof. exact C184_ex_pf. Qed.

