(** Model of torchdyn/utils.py: what the plotting utilities hand to matplotlib.

    A trajectory is a tensor of shape times x samples x dimensions, here a list (times) of lists (samples) of lists; [n_samples] and
    [n_dims] of the shape are given with it so that indexing a tensor without times is right.  A drawing is the list of the calls of
    plot, scatter, in order; later ones cover earlier ones.  Not modelled: figures, axes, labels, colour maps, transparency.  Class
    labels are integers; the two-element lists of colours are indexed as Python does, negative indices included. *)
From Coq Require Import ZArith QArith List Bool.
From Verif Require Import Num Py Tensor.
Import ListNotations.
Local Open Scope nat_scope.

Section Plot.
Context {K : NumOps}.

Record traj : Type := MkTraj { tr_rows : list (list (list K)); tr_samples : nat; tr_dims : nat }.

Fixpoint rall {A} (l : list (res A)) : res (list A) :=
  match l with [] => Ok [] | r :: l' => rbind r (fun a => rmap (cons a) (rall l')) end.

(** trajectory[:, i, d] *)
Definition column (tr : traj) (i d : nat) : res (list K) :=
  if (i <? tr_samples tr) && (d <? tr_dims tr)
  then Ok (map (fun row => nth d (nth i row []) n0) (tr_rows tr)) else Err IndexError.

Inductive color : Type := Orange | Blue | Red.

(** ['orange', 'blue'][label], lines 110, 129, 143, 187 *)
Definition label_color (y : Z) : res color :=
  match y with
  | 0%Z | (-2)%Z => Ok Orange
  | 1%Z | (-1)%Z => Ok Blue
  | _ => Err IndexError
  end.

(** one call of plot: a colour and its coordinates *)
Definition curve : Type := (color * list (list K))%type.

(** plot_2d_flows, lines 35-45: curves of the two subplots *)
Definition plot_2d_flows (tr : traj) (num_flows : nat) : res (list curve * list curve) :=
  rbind (rall (map (fun i => rmap (fun c => (Red, [c])) (column tr i 0)) (seq 0 num_flows))) (fun a =>
  rmap (fun b => (a, b)) (rall (map (fun i => rmap (fun c => (Blue, [c])) (column tr i 1)) (seq 0 num_flows)))).

(** plot_2D_depth_trajectory, lines 108-124: for every sample one curve in each subplot *)
Definition plot_2D_depth_trajectory (s_span : list K) (tr : traj) (yn : list Z) (n_samples : nat) : res (list (curve * curve)) :=
  rall (map (fun i =>
    rbind (column tr i 0) (fun a => rbind (pyget yn i) (fun y => rbind (label_color y) (fun c =>
    rbind (column tr i 1) (fun b => Ok ((c, [s_span; a]), (c, [s_span; b]))))))) (seq 0 n_samples)).

(** plot_2D_state_space, lines 127-138 *)
Definition plot_2D_state_space (tr : traj) (yn : list Z) (n_samples : nat) : res (list curve) :=
  rall (map (fun i =>
    rbind (column tr i 0) (fun a => rbind (column tr i 1) (fun b =>
    rbind (pyget yn i) (fun y => rmap (fun c => (c, [a; b])) (label_color y))))) (seq 0 n_samples)).

(** plot_2D_space_depth, lines 141-157 *)
Definition plot_2D_space_depth (s_span : list K) (tr : traj) (yn : list Z) (n_lines : nat) : res (list curve) :=
  rall (map (fun i =>
    rbind (column tr i 0) (fun a => rbind (column tr i 1) (fun b =>
    rbind (pyget yn i) (fun y => rmap (fun c => (c, [s_span; a; b])) (label_color y))))) (seq 0 n_lines)).

(** plot_3D_dataset, lines 185-199: line 191 scatters X, all points, in every iteration.  A call of scatter: colour and points. *)
Definition plot_3D_dataset (X : list (list K)) (yn : list Z) : res (list (color * list (list K))) :=
  rall (map (fun i => rbind (pyget yn i) (fun y => rmap (fun c => (c, X)) (label_color y))) (seq 0 (length X))).

(** The colour in which a point is seen: that of the last call that draws it *)
Fixpoint seen_color (eq : list K -> list K -> bool) (calls : list (color * list (list K))) (p : list K) : option color :=
  match calls with
  | [] => None
  | (c, pts) :: rest =>
      match seen_color eq rest p with
      | Some c' => Some c'
      | None => if existsb (eq p) pts then Some c else None
      end
  end.

(** Objects handed over as [model]: the attributes they have; reading another one raises AttributeError *)
Record pmodel : Type := MkModel {
  pm_vf : option (K -> list K -> list K);              (* model.vf *)
  pm_defunc : option (K -> list K -> list K);          (* model.defunc *)
  pm_controlled : option bool }.                       (* model.controlled *)
Definition attr {A} (o : option A) : res A := match o with Some a => Ok a | None => Err AttributeError end.

(** NeuralODE: attributes vf (problems.py line 79) and controlled (neuralde.py lines 90 and 120), none of the name defunc *)
Definition node_model (vf : K -> list K -> list K) (controlled : bool) : pmodel := MkModel (Some vf) None (Some controlled).

(** torch.linspace(a, b, n) *)
Definition plot_linspace (a b : K) (n : nat) : list K :=
  match n with
  | 0 => []
  | 1 => [a]
  | _ => map (fun i => (a + (b - a) / nnat (n - 1) * nnat i)%N) (seq 0 n)
  end.

(** plot_traj_vf_1D, lines 53-106: the grid and the second component V of the arrows (U is all ones); line 62 reads the undefined
    name st *)
Definition plot_traj_vf_1D (m : pmodel) (s_span x_span : list K) (n_grid : nat) : res (list K * list K * list (list K)) :=
  rbind (pyget s_span 0) (fun s0 => rbind (pylast s_span) (fun s1 =>
  rbind (pyget x_span 0) (fun x0 => rbind (pylast x_span) (fun x1 =>
  let ss := plot_linspace s0 s1 n_grid in
  let xx := plot_linspace x0 x1 n_grid in
  rbind (attr (pm_controlled m)) (fun c =>
  if c then Err NameError else
  rmap (fun V => (ss, xx, V))
    (rall (map (fun s => rall (map (fun x => rbind (attr (pm_vf m)) (fun f => pyget (f s [x]) 0)) xx)) ss))))))).

(** plot_static_vector_field, lines 160-182: the arrows at the points of a grid *)
Definition plot_static_vector_field (m : pmodel) (xs ys : list K) (t : K) : res (list (list (K * K))) :=
  rall (map (fun x => rall (map (fun y =>
    rbind (attr (pm_defunc m)) (fun f => rbind (pyget (f t [x; y]) 0) (fun u => rmap (fun v => (u, v)) (pyget (f t [x; y]) 1)))) ys)) xs).

(** plot_2d_boundary, lines 24-33: model(mesh) has one row per point of the mesh; the predictions, one per row, are given the
    shape (mesh.size(0), mesh.size(1)) *)
Definition plot_2d_boundary_preds (argmax : list K -> nat) (mesh : list (list K)) (cols : nat) (model : list (list K) -> list (list K))
  : res (list nat * nat * nat) :=
  let preds := map argmax (model mesh) in
  if length preds =? length mesh * cols then Ok (preds, length mesh, cols) else Err RuntimeError.

End Plot.
Arguments traj : clear implicits. Arguments pmodel : clear implicits.
