(** Model of torchdyn/datasets/static_datasets.py (all generators except generate_diffeqml, which needs
    scikit-learn and scipy).

    Random draws are parameters: the i-th entry of a drawn vector is [v i], of a drawn matrix [v i j].
    cos, sin and pi are parameters.  Labels are natural numbers (the code has long or float tensors).
    Simplification: n_samples, n_gaussians and dim are not negative. *)
From Coq Require Import ZArith QArith String List Bool.
From Verif Require Import Num Py Tensor M_Nn.
Import ListNotations.
Local Open Scope nat_scope.
Local Notation length := List.length.

Section Data.
Context {K : NumOps}.
Context (ncos nsin : K -> K) (npi : K).
Definition rows_labels : Type := (list (list K) * list nat)%type.

(** randnsphere, lines 28-38; [v] = torch.randn(dim) *)
Definition randnsphere (dim : nat) (radius : K) (v : nat -> K) : list K :=
  let v := map v (seq 0 dim) in
  let inv_len := (radius / nsqrt (vsum (map (fun a => npow a 2) v)))%N in
  map (fun a => (a * inv_len)%N) v.

(** torch.cat of a list of (1, dim) tensors *)
Definition cat_rows (rows : list (list K)) : res (list (list K)) :=
  match rows with [] => Err RuntimeError | _ => Ok rows end.

(** a tensor with these rows broadcast to [n] rows: X[...] = rows, X[...] += rows *)
Definition expand_rows (n : nat) (rows : list (list K)) : res (list (list K)) :=
  if length rows =? n then Ok rows
  else match rows with [r] => Ok (repeat r n) | _ => Err RuntimeError end.

(** zeros((n, dim)).normal_(0, std=noise); [e] standard normal *)
Definition normal_rows (n dim : nat) (noise : K) (e : nat -> nat -> K) : res (list (list K)) :=
  if (noise <? n0)%N then Err RuntimeError
  else Ok (map (fun i => map (fun j => (n0 + noise * e i j)%N) (seq 0 dim)) (seq 0 n)).

(** half of generate_concentric_spheres, lines 58-62 and 63-67: [n] drawn points fill [rows] rows *)
Definition sphere_half (rows n dim : nat) (radius noise : K) (v e : nat -> nat -> K) : res (list (list K)) :=
  rbind (cat_rows (map (fun i => randnsphere dim radius (v i)) (seq 0 n))) (fun s =>
  rbind (expand_rows rows s) (fun X =>
  rbind (normal_rows n dim noise e) (fun N =>
  rbind (expand_rows rows N) (fun N => Ok (map2 vadd X N))))).

(** generate_concentric_spheres, lines 41-68 *)
Definition generate_concentric_spheres (n_samples : nat) (noise : K) (dim : nat) (inner outer : K)
  (v1 e1 v2 e2 : nat -> nat -> K) : res rows_labels :=
  let h := n_samples / 2 in
  rbind (sphere_half h h dim inner noise v1 e1) (fun A =>
  rbind (sphere_half (n_samples - h) h dim outer noise v2 e2) (fun B =>
  Ok (A ++ B, repeat 1 h ++ repeat 0 (n_samples - h)))).

(** numpy.linspace *)
Definition np_linspace (a b : K) (k : nat) : list K :=
  match k with
  | O => []
  | 1 => [a]
  | _ => let step := ((b - a) / nnat (k - 1))%N in
         map (fun i => (nnat i * step + a)%N) (seq 0 (k - 1)) ++ [b]
  end.

(** generate_moons, lines 71-95; [u] = numpy.random.rand(n_samples, 1) *)
Definition generate_moons (n_samples : nat) (noise : option K) (u : nat -> K) : res rows_labels :=
  let n_out := n_samples / 2 in
  let n_in := n_samples - n_out in
  let outer := map (fun a => [ncos a; nsin a]) (np_linspace n0 npi n_out) in
  let inner := map (fun a => [(n1 - ncos a)%N; (n1 - nsin a - nQ (1 # 2))%N]) (np_linspace n0 npi n_in) in
  let X := outer ++ inner in
  let X := match noise with
           | None => X
           | Some s => map2 (fun row i => vadds (u i * s)%N row) X (seq 0 n_samples)
           end in
  Ok (X, repeat 0 n_out ++ repeat 1 n_in).

(** generate_spirals, lines 98-112 *)
Definition generate_spirals (n_samples : nat) (noise : K) (u e1 e2 : nat -> K) : res rows_labels :=
  let n i := (nsqrt (u i) * nQ 780 * (nQ 2 * npi) / nQ 360)%N in
  let d1x i := (- ncos (n i) * n i + e1 i * noise)%N in
  let d1y i := (nsin (n i) * n i + e2 i * noise)%N in
  Ok (map (fun i => [d1x i; d1y i]) (seq 0 n_samples) ++ map (fun i => [(- d1x i)%N; (- d1y i)%N]) (seq 0 n_samples),
      repeat 0 n_samples ++ repeat 1 n_samples).

(** dist.loc = torch.Tensor([...]), lines 140-141 and 182-183: the entries must be single numbers *)
Definition gauss_loc (dim : nat) (radius angle : K) : res (list K) :=
  if 2 <? dim then
    if dim - 2 =? 1 then Ok [(radius * ncos angle)%N; nsin angle; (radius * n0)%N] else Err ValueError
  else Ok [(radius * ncos angle)%N; (radius * nsin angle)%N].

(** X[...] = dist.sample((n,)) + torch.randn(dim) * noise, lines 142 and 186 *)
Definition gauss_block (n dim : nat) (loc : list K) (std noise : K) (z : nat -> nat -> K) (w : nat -> K) : res (list (list K)) :=
  if (std <? n0)%N then Err RuntimeError
  else if length loc =? dim
  then Ok (map (fun r => map2 (fun l j => (l + std * z r j + w j * noise)%N) loc (seq 0 dim)) (seq 0 n))
  else Err RuntimeError.

(** angle after [i + 1] passes *)
Definition gauss_angle (step : K) (i : nat) : K := Nat.iter (S i) (fun a => (a + step)%N) n0.

(** generate_gaussians, lines 115-144; Normal requires a positive scale *)
Definition generate_gaussians (n_samples n_gaussians dim : nat) (radius std noise : K)
  (z : nat -> nat -> nat -> K) (w : nat -> nat -> K) : res rows_labels :=
  if negb (n0 <? std)%N then Err ValueError else
  rbind (mapr (fun i =>
    rbind (gauss_loc dim radius (gauss_angle (nQ 2 * npi / nnat n_gaussians)%N i)) (fun loc =>
    gauss_block n_samples dim loc std noise (z i) (w i))) (seq 0 n_gaussians)) (fun Xs =>
  Ok (concat Xs, concat (map (fun i => repeat i n_samples) (seq 0 n_gaussians)))).

(** generate_gaussians_spiral, lines 147-188 *)
Definition generate_gaussians_spiral (n_samples n_gaussians per_loop dim : nat) (radius_start radius_end std_start std_end noise : K)
  (z : nat -> nat -> nat -> K) (w : nat -> nat -> K) : res rows_labels :=
  let radiuses := linspace radius_start radius_end n_gaussians in
  let std_devs := linspace std_start std_end n_gaussians in
  rbind (pyget radiuses 0) (fun _ => rbind (pyget std_devs 0) (fun s0 =>
  if negb (n0 <? s0)%N then Err ValueError else
  rbind (mapr (fun i =>
    if per_loop =? 0 then Err ZeroDivisionError else
    rbind (pyget radiuses i) (fun r =>
    rbind (gauss_loc dim r (gauss_angle (nQ 2 * npi / nnat per_loop)%N i)) (fun loc =>
    rbind (pyget std_devs i) (fun s =>
    gauss_block n_samples dim loc s noise (z i) (w i))))) (seq 0 n_gaussians)) (fun Xs =>
  Ok (concat Xs, concat (map (fun i => repeat i n_samples) (seq 0 n_gaussians)))))).

(** ToyDataset.generate, lines 226-250: no branch for other names, so None is returned.  The generators
    (with their keyword arguments) are parameters. *)
Definition toy_generate {X} (moons spirals spheres gaussians gaussians_spiral diffeqml : res X) (dataset_type : string) : res (option X) :=
  (if dataset_type =? "moons" then rmap Some moons
   else if dataset_type =? "spirals" then rmap Some spirals
   else if dataset_type =? "spheres" then rmap Some spheres
   else if dataset_type =? "gaussians" then rmap Some gaussians
   else if dataset_type =? "gaussians_spiral" then rmap Some gaussians_spiral
   else if dataset_type =? "diffeqml" then rmap Some diffeqml
   else Ok None)%string.
End Data.
