(** Property theorems (generated by tools/genprop.py from Pf_Data.v, which holds the proofs). *)
From Coq Require Import ZArith QArith Qreals Reals Lra Lia String List Bool.
From Verif Require Import Num Py Tensor M_Nn M_Data Spec_Root Spec_Models Spec_Data L_Base L_Root L_Models Pf_Gal Pf_Basis.
Import ListNotations.
From Verif Require Import Pf_Data.
Import ListNotations.
Local Open Scope R_scope.

(** C56.  randnsphere returns a point of the sphere, whatever nonzero vector is drawn. *)
Theorem C56_randnsphere :
  forall dim radius v, 0 <= radius -> nonzero_draw dim v ->
  length (@randnsphere ROps dim radius v) = dim /\ on_sphere radius (@randnsphere ROps dim radius v).
Proof. exact C56_randnsphere_pf. Qed.
Print Assumptions C56_randnsphere.

(** C56 for the spheres, even n_samples >= 2: n points of R^dim; the first half has label 1 and lies on the inner
    sphere up to the noise, the second half has label 0 and lies on the outer sphere up to the noise.
    The full statement (all n_samples) is refuted below. *)
Theorem C56_spheres_partial :
  forall h dim noise inner outer v1 e1 v2 e2, (1 <= h)%nat -> 0 <= noise -> 0 <= inner -> 0 <= outer ->
  (forall i, nonzero_draw dim (v1 i)) -> (forall i, nonzero_draw dim (v2 i)) ->
  exists D, @generate_concentric_spheres ROps (2 * h) noise dim inner outer v1 e1 v2 e2 = Ok D /\
    dataset (2 * h) dim D /\
    (forall i, (i < h)%nat -> label D i = 1%nat /\
       exists s, length s = dim /\ on_sphere inner s /\ point D i = plus_vec s (times noise (draw dim (e1 i)))) /\
    (forall i, (i < h)%nat -> label D (h + i) = 0%nat /\
       exists s, length s = dim /\ on_sphere outer s /\ point D (h + i) = plus_vec s (times noise (draw dim (e2 i)))).
Proof. exact C56_spheres_partial_pf. Qed.
Print Assumptions C56_spheres_partial.

(** C56, refuted for the spheres: every odd n_samples >= 5 and n_samples < 2 raise RuntimeError. *)
Theorem C56_spheres_odd_refuted :
  (forall h noise dim inner outer v1 e1 v2 e2, (2 <= h)%nat -> 0 <= noise ->
     @generate_concentric_spheres ROps (2 * h + 1) noise dim inner outer v1 e1 v2 e2 = Err RuntimeError) /\
  (forall n noise dim inner outer v1 e1 v2 e2, (n < 2)%nat ->
     @generate_concentric_spheres ROps n noise dim inner outer v1 e1 v2 e2 = Err RuntimeError).
Proof. exact C56_spheres_odd_refuted_pf. Qed.
Print Assumptions C56_spheres_odd_refuted.

(** C56 for the moons, all n_samples: n labelled points, half of them on each moon up to a shift between 0 and
    the noise (along the diagonal). *)
Theorem C56_moons :
  forall n noise u, (forall s, noise = Some s -> 0 <= s) -> (forall i, 0 <= u i <= 1) ->
  exists D, @generate_moons ROps cos sin PI n noise u = Ok D /\ dataset n 2 D /\
    forall i, (i < n)%nat -> label D i = (if (i <? n / 2)%nat then 0 else 1)%nat /\
      exists theta delta, 0 <= theta <= PI /\ (match noise with None => delta = 0 | Some s => 0 <= delta <= s end) /\
        point D i = map (Rplus delta) (moon (label D i) theta).
Proof. exact C56_moons_pf. Qed.
Print Assumptions C56_moons.

(** C56 for the spirals: 2 n_samples points; the second half has label 1 and is the reflection of the first. *)
Theorem C56_spirals_partial :
  forall n noise u e1 e2, exists D, @generate_spirals ROps cos sin PI n noise u e1 e2 = Ok D /\ dataset (2 * n) 2 D /\
    forall i, (i < n)%nat -> label D i = 0%nat /\ label D (n + i) = 1%nat /\ point D (n + i) = times (-1) (point D i) /\
      exists theta, 0 <= theta /\ point D i = [- cos theta * theta + e1 i * noise; sin theta * theta + e2 i * noise].
Proof. exact C56_spirals_partial_pf. Qed.
Print Assumptions C56_spirals_partial.

(** C56 for the Gaussians in the plane: n_samples points per Gaussian with its number as label, scattered around
    n_gaussians centers on the circle of the given radius. *)
Theorem C56_gaussians_partial :
  forall n k radius std noise z w, 0 < std ->
  exists D, @generate_gaussians ROps cos sin PI n k 2 radius std noise z w = Ok D /\ dataset (n * k) 2 D /\
    forall i r, (i < k)%nat -> (r < n)%nat -> label D (i * n + r) = i /\
      point D (i * n + r) = plus_vec (plus_vec (ring radius k i) (times std (draw 2 (z i r)))) (times noise (draw 2 (w i))).
Proof. exact C56_gaussians_partial_pf. Qed.
Print Assumptions C56_gaussians_partial.

(** C56 for the spiral of Gaussians in the plane: as above, radius and spread change linearly from the first to
    the last Gaussian. *)
Theorem C56_gaussians_spiral_partial :
  forall n k per_loop r0 r1 s0 s1 noise z w, (1 <= k)%nat -> (1 <= per_loop)%nat -> 0 < s0 -> 0 <= s1 ->
  exists D, @generate_gaussians_spiral ROps cos sin PI n k per_loop 2 r0 r1 s0 s1 noise z w = Ok D /\ dataset (n * k) 2 D /\
    forall i r, (i < k)%nat -> (r < n)%nat -> label D (i * n + r) = i /\
      point D (i * n + r) = plus_vec (plus_vec (ring (between r0 r1 k i) per_loop i) (times (between s0 s1 k i) (draw 2 (z i r)))) (times noise (draw 2 (w i))).
Proof. exact C56_gaussians_spiral_partial_pf. Qed.
Print Assumptions C56_gaussians_spiral_partial.

(** C56 needs Gaussians per loop: without, the generator raises. *)
Theorem C56_no_loop :
  forall n k dim r0 r1 s0 s1 noise z w, (1 <= k)%nat -> 0 < s0 ->
  @generate_gaussians_spiral ROps cos sin PI n k 0 dim r0 r1 s0 s1 noise z w = Err ZeroDivisionError.
Proof. exact C56_no_loop_pf. Qed.
Print Assumptions C56_no_loop.

(** C56, refuted for the number of points: spirals return twice, Gaussians n_gaussians times the promised number. *)
Theorem C56_sizes_refuted :
  (forall n noise u e1 e2, (1 <= n)%nat -> exists D, @generate_spirals ROps cos sin PI n noise u e1 e2 = Ok D /\ length (fst D) <> n) /\
  (forall n k radius std noise z w, (1 <= n)%nat -> (2 <= k)%nat -> 0 < std ->
     exists D, @generate_gaussians ROps cos sin PI n k 2 radius std noise z w = Ok D /\ length (fst D) <> n).
Proof. exact C56_sizes_refuted_pf. Qed.
Print Assumptions C56_sizes_refuted.

(** C81, refuted: in dimension 3 the second coordinate of the centers is not multiplied by the radius (here: the
    center of the first of 4 noise-free Gaussians of radius 1/2 is at distance 1); in higher dimensions every call
    raises ValueError. *)
Theorem C81_dimension_refuted :
  (exists D, @generate_gaussians ROps cos sin PI 1 4 3 (/ 2) 1 0 (fun _ _ _ => 0) (fun _ _ => 0) = Ok D /\ euclid (point D 0) = 1) /\
  (forall n k dim radius std noise z w, (1 <= k)%nat -> (4 <= dim)%nat -> 0 < std ->
     @generate_gaussians ROps cos sin PI n k dim radius std noise z w = Err ValueError) /\
  (forall n k dim radius std noise z w, (1 <= k)%nat -> (dim < 2)%nat -> 0 < std ->
     @generate_gaussians ROps cos sin PI n k dim radius std noise z w = Err RuntimeError).
Proof. exact C81_dimension_refuted_pf. Qed.
Print Assumptions C81_dimension_refuted.

(** C82, refuted: for an unknown name the result is None and no error is raised. *)
Theorem C82_unknown_dataset_refuted :
  forall (X : Type) (m s p g q d : res X) name,
  ~ In name ["moons"; "spirals"; "spheres"; "gaussians"; "gaussians_spiral"; "diffeqml"]%string ->
  toy_generate m s p g q d name = Ok None.
Proof. exact C82_unknown_dataset_refuted_pf. Qed.
Print Assumptions C82_unknown_dataset_refuted.

(** C82 for the documented names. *)
Theorem C82_names_partial :
  forall (X : Type) (m s p g q d : res X),
  toy_generate m s p g q d "moons" = rmap Some m /\ toy_generate m s p g q d "spirals" = rmap Some s /\
  toy_generate m s p g q d "spheres" = rmap Some p /\ toy_generate m s p g q d "gaussians" = rmap Some g /\
  toy_generate m s p g q d "gaussians_spiral" = rmap Some q /\ toy_generate m s p g q d "diffeqml" = rmap Some d.
Proof. exact C82_names_partial_pf. Qed.
Print Assumptions C82_names_partial.

Example C56_ex : nonzero_draw 3 (fun j => INR j) /\ (forall i : nat, 0 <= (fun _ => / 2) i <= 1) /\
  ring 1 4 1 = [cos PI; sin PI] /\ between 0 1 3 1 = / 2.
Proof. exact C56_ex_pf. Qed.

