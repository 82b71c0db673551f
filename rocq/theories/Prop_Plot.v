(** Property theorems (generated by tools/genprop.py from Pf_Plot.v, which holds the proofs). *)
From Coq Require Import ZArith QArith Reals Lia Lra List Bool.
From Verif Require Import Num Py Tensor M_Plot L_Base.
Import ListNotations.
Local Notation length := List.length.
From Verif Require Import Pf_Plot.
Import ListNotations.
Local Open Scope nat_scope.

(** C163, the part that holds for trajectories: if there are at least as many samples and labels as are drawn, two dimensions and two
    classes, every sample is drawn once, at its own coordinates and in the colour of its class. *)
Theorem C163_trajectories_partial :
  forall (K : NumOps) (tr : traj K) (s_span : list K) (yn : list Z) (n : nat),
  n <= tr_samples tr -> 2 <= tr_dims tr -> n <= length yn -> Forall two_classes yn ->
  let c i := class_color (nth i yn 0%Z) in
  plot_2d_flows tr n = Ok (map (fun i => (Red, [path tr i 0])) (seq 0 n), map (fun i => (Blue, [path tr i 1])) (seq 0 n)) /\
  plot_2D_depth_trajectory s_span tr yn n = Ok (map (fun i => ((c i, [s_span; path tr i 0]), (c i, [s_span; path tr i 1]))) (seq 0 n)) /\
  plot_2D_state_space tr yn n = Ok (map (fun i => (c i, [path tr i 0; path tr i 1])) (seq 0 n)) /\
  plot_2D_space_depth s_span tr yn n = Ok (map (fun i => (c i, [s_span; path tr i 0; path tr i 1])) (seq 0 n)).
Proof. exact C163_trajectories_partial_pf. Qed.
Print Assumptions C163_trajectories_partial.

(** C163, refuted for trajectories: a third class, or fewer samples than the number to be drawn (128 if it is not given), raises IndexError. *)
Theorem C163_classes_refuted :
  forall (K : NumOps) (tr : traj K) (s_span : list K) (yn : list Z) (n : nat), 2 <= tr_dims tr ->
  (n <= tr_samples tr /\ n <= length yn /\ (exists i, i < n /\ (2 <= nth i yn 0)%Z)) \/ tr_samples tr < n ->
  plot_2D_depth_trajectory s_span tr yn n = Err IndexError /\ plot_2D_state_space tr yn n = Err IndexError /\
  plot_2D_space_depth s_span tr yn n = Err IndexError.
Proof. exact C163_classes_refuted_pf. Qed.
Print Assumptions C163_classes_refuted.

(** C163, refuted for data sets: plot_3D_dataset draws all points in every iteration, so that all are seen in the colour of the last label. *)
Theorem C163_dataset_refuted :
  forall (K : NumOps) (eq : list K -> list K -> bool) (X : list (list K)) (yn : list Z),
  (forall p, eq p p = true) -> length yn = length X -> Forall two_classes yn ->
  exists calls, plot_3D_dataset X yn = Ok calls /\ length calls = length X /\
    forall p, In p X -> seen_color eq calls p = Some (class_color (last yn 0%Z)).
Proof. exact C163_dataset_refuted_pf. Qed.
Print Assumptions C163_dataset_refuted.

(** C163, refuted for vector fields: plot_static_vector_field raises AttributeError for every NeuralODE (there is no attribute defunc), and
    plot_traj_vf_1D raises NameError for every NeuralODE that has been called with a data control. *)
Theorem C163_fields_refuted :
  forall (K : NumOps) (vf : K -> list K -> list K) (controlled : bool) (x y t : K) (xs ys : list K) (s0 x0 : K) (s_span x_span : list K) (n : nat),
  plot_static_vector_field (node_model vf controlled) (x :: xs) (y :: ys) t = Err AttributeError /\
  plot_traj_vf_1D (node_model vf true) (s0 :: s_span) (x0 :: x_span) n = Err NameError.
Proof. exact C163_fields_refuted_pf. Qed.
Print Assumptions C163_fields_refuted.

(** C163, the part that holds for vector fields: without control, plot_traj_vf_1D draws the values of the field of the NeuralODE on the grid. *)
Theorem C163_field_partial :
  forall (K : NumOps) (v : K -> K -> K) (s0 s1 x0 x1 : K) (s_span x_span : list K) (n : nat),
  pylast (s0 :: s_span) = Ok s1 -> pylast (x0 :: x_span) = Ok x1 ->
  plot_traj_vf_1D (node_model (fun t x => map (v t) x) false) (s0 :: s_span) (x0 :: x_span) n =
    Ok (plot_linspace s0 s1 n, plot_linspace x0 x1 n, map (fun s => map (fun x => v s x) (plot_linspace x0 x1 n)) (plot_linspace s0 s1 n)).
Proof. exact C163_field_partial_pf. Qed.
Print Assumptions C163_field_partial.

(** C163, refuted for decision boundaries: with a mesh of points in the plane, one row each, and a model that returns one row of scores for
    each point, plot_2d_boundary raises RuntimeError. *)
Theorem C163_boundary_refuted :
  forall (K : NumOps) (argmax : list K -> nat) (p : list K) (mesh : list (list K)) (model : list (list K) -> list (list K)),
  (forall m, length (model m) = length m) ->
  plot_2d_boundary_preds argmax (p :: mesh) 2 model = Err RuntimeError.
Proof. exact C163_boundary_refuted_pf. Qed.
Print Assumptions C163_boundary_refuted.

(** Two samples with labels 0 and 1 over three times; three points of which the first two are orange but seen in blue; x' = -x on a grid *)
Example C163_ex :
  let tr := @MkTraj ROps [[[0; 1]; [2; 3]]; [[4; 5]; [6; 7]]; [[8; 9]; [10; 11]]]%R 2 2 in
  plot_2D_state_space tr [0; 1]%Z 2 = Ok [(Orange, [[0; 4; 8]; [1; 5; 9]]); (Blue, [[2; 6; 10]; [3; 7; 11]])]%R /\
  plot_2D_state_space tr [0; 2]%Z 2 = Err IndexError /\ plot_2D_state_space tr [0; 1]%Z 128 = Err IndexError /\
  (exists calls, @plot_3D_dataset ROps [[0; 0; 0]; [1; 1; 1]; [2; 2; 2]]%R [0; 0; 1]%Z = Ok calls /\
     forall eq, (forall p, eq p p = true) -> @seen_color ROps eq calls [0; 0; 0]%R = Some Blue) /\
  Forall two_classes [0; 0; 1]%Z.
Proof. exact C163_ex_pf. Qed.

(** C163, refuted for classes labelled -1 and 1: no exception, but both are drawn in the same colour. *)
Theorem C163_signs_refuted :
  forall (K : NumOps) (tr : traj K) (s_span : list K) (yn : list Z) (n : nat),
  n <= tr_samples tr -> 2 <= tr_dims tr -> n <= length yn -> Forall (fun y => y = (-1)%Z \/ y = 1%Z) yn ->
  plot_2D_state_space tr yn n = Ok (map (fun i => (Blue, [path tr i 0; path tr i 1])) (seq 0 n)) /\
  plot_2D_space_depth s_span tr yn n = Ok (map (fun i => (Blue, [s_span; path tr i 0; path tr i 1])) (seq 0 n)).
Proof. exact C163_signs_refuted_pf. Qed.
Print Assumptions C163_signs_refuted.

(** The grid of plot_traj_vf_1D: n equally spaced points from the first to the last entry of the span. *)
Theorem C163_grid :
  forall (a b : R) (n : nat), 2 <= n ->
  length (@plot_linspace ROps a b n) = n /\
  (forall i, i < n -> nth i (@plot_linspace ROps a b n) 0%R = (a + (b - a) * (INR i / INR (n - 1)))%R) /\
  nth 0 (@plot_linspace ROps a b n) 0%R = a /\ nth (n - 1) (@plot_linspace ROps a b n) 0%R = b.
Proof. exact C163_grid_pf. Qed.
Print Assumptions C163_grid.

(** plot_static_vector_field with an object that has the attribute defunc: at every point of the grid the two components of the field there. *)
Theorem C163_static_partial :
  forall (K : NumOps) (m : pmodel K) (u v : K -> K -> K -> K) (xs ys : list K) (t : K),
  pm_defunc m = Some (fun t p => [u t (nth 0 p n0) (nth 1 p n0); v t (nth 0 p n0) (nth 1 p n0)]) ->
  plot_static_vector_field m xs ys t = Ok (map (fun x => map (fun y => (u t x y, v t x y)) ys) xs).
Proof. exact C163_static_partial_pf. Qed.
Print Assumptions C163_static_partial.

