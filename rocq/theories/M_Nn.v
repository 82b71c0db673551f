(** Model of torchdyn/nn/node_layers.py and torchdyn/nn/galerkin.py.

    A tensor of rank r is its shape with nested lists.  Simplifications: devices and dtypes are ignored
    (`.to(x)`); GalConv2d is modelled up to the split of its weight vector, not the convolution itself;
    cos, sin, exp are parameters. *)
From Coq Require Import ZArith QArith String List Bool.
From Verif Require Import Num Py Tensor.
Import ListNotations.
Local Open Scope nat_scope.
Local Notation length := List.length.

(** ** Tensors of any rank *)
Fixpoint nd (A : Type) (r : nat) : Type := match r with O => A | S r => list (nd A r) end.
Definition tensor (A : Type) (r : nat) : Type := (list nat * nd A r)%type.

(** torch.full *)
Fixpoint full {A} (r : nat) (sh : list nat) (a : A) : nd A r :=
  match r with
  | O => a
  | S r => match sh with [] => [] | n :: sh => repeat (full r sh a) n end
  end.

Fixpoint upd {A} (l : list A) (i : nat) (a : A) : list A :=
  match l, i with
  | [], _ => []
  | _ :: l, O => a :: l
  | b :: l, S i => b :: upd l i a
  end.

(** concatenation of nested lists along dimension d *)
Fixpoint ndcat {A} (r d : nat) {struct r} : nd A r -> nd A r -> nd A r :=
  match r return nd A r -> nd A r -> nd A r with
  | O => fun x _ => x
  | S r => match d with
           | O => fun x y => x ++ y
           | S d => fun x y => map2 (ndcat r d) x y
           end
  end.

(** index of a dimension: negative indices count from the end *)
Definition dim_index (r : nat) (i : Z) : res nat :=
  let j := if (i <? 0)%Z then (i + Z.of_nat r)%Z else i in
  if ((0 <=? j)%Z && (j <? Z.of_nat r)%Z)%bool then Ok (Z.to_nat j) else Err IndexError.

(** torch.cat([x, y], i): the shapes may differ in dimension i only *)
Definition torch_cat {A} (r : nat) (i : Z) (x y : tensor A r) : res (tensor A r) :=
  rbind (dim_index r i) (fun d =>
  if list_eq_dec Nat.eq_dec (upd (fst x) d 0) (upd (fst y) d 0)
  then Ok (upd (fst x) d (nth d (fst x) 0 + nth d (fst y) 0), ndcat r d (snd x) (snd y))
  else Err RuntimeError).

(** ** node_layers.py *)
Section Layers.
Context {K : NumOps}.

(** Augmenter.forward, node_layers.py:34-55; [func] = None: zeros *)
Definition augmenter (r : nat) (idx : Z) (dims : nat) (func : option (tensor K r -> res (tensor K r))) (order : string)
  (x : tensor K r) : res (tensor K r) :=
  match func with
  | None =>
      rbind (dim_index r idx) (fun d =>
      let sh := upd (fst x) d dims in
      let z := (sh, full r sh n0) in
      if String.eqb order "first" then torch_cat r idx z x else torch_cat r idx x z)
  | Some g =>
      rbind (g x) (fun z =>
      if String.eqb order "first" then torch_cat r idx z x else torch_cat r idx x z)
  end.

(** DepthCat.forward, node_layers.py:67-71; [t] = None before the first call of DEFunc *)
Definition depthcat (r : nat) (idx : Z) (t : option K) (x : tensor K r) : res (tensor K r) :=
  rbind (dim_index r idx) (fun d =>
  match t with
  | None => Err TypeError
  | Some t =>
      let sh := upd (fst x) d 1 in
      torch_cat r idx x (sh, full r sh (t * n1)%N)
  end).

(** DataControl.forward, node_layers.py:81-82 *)
Definition datacontrol (r : nat) (control : option (tensor K r)) (x : tensor K r) : res (tensor K r) :=
  match control with
  | None => Err TypeError
  | Some u => torch_cat r 1 x u
  end.
End Layers.

(** ** galerkin.py *)
Section Galerkin.
Context {K : NumOps}.
Context (ncos nsin nexp : K -> K).

(** torch.linspace(a, b, k): counts from the nearer end *)
Definition linspace (a b : K) (k : nat) : list K :=
  match k with
  | O => []
  | 1 => [a]
  | _ => let h := ((b - a) / nnat (k - 1))%N in
         map (fun i => if i <? k / 2 then (a + h * nnat i)%N else (b - h * nnat (k - i - 1))%N) (seq 0 k)
  end.

(** elementwise binary operation on 1-dimensional tensors with broadcasting of length 1 *)
Definition bcast2 (f : K -> K -> K) (a b : list K) : res (list K) :=
  if length a =? length b then Ok (map2 f a b)
  else match a, b with
       | [x], _ => Ok (map (f x) b)
       | _, [y] => Ok (map (fun x => f x y) a)
       | _, _ => Err RuntimeError
       end.

(** the norm of a 1-dimensional tensor *)
Definition norm2 (v : list K) : K := nsqrt (vsum (map (fun x => (x * x)%N) v)).

(** A radial basis: centers and eps_scales after __init__ (lines 33-38, 62-67, 91-96): tensors of deg+1
    entries if adaptive, else the numbers 0 and 2 whatever the arguments are. *)
Record rbf : Type := MkRbf { rbf_centers : list K; rbf_eps : list K }.
Definition rbf_init (deg : nat) (adaptive : bool) (eps_scales centers : K) : rbf :=
  if adaptive then MkRbf (repeat (centers * n1)%N (deg + 1)) (repeat (eps_scales * n1)%N (deg + 1))
  else MkRbf [n0] [nQ 2].

(** GaussianRBF.forward, lines 40-44 *)
Definition gaussian_rbf (p : rbf) (n_range : list K) (s : K) : res (list (list K)) :=
  rbind (bcast2 nsub n_range (rbf_centers p)) (fun d =>
  rbind (bcast2 ndiv d (rbf_eps p)) (fun n =>
  let r := norm2 (map (nsub s) (rbf_centers p)) in
  Ok [map (fun k => nexp (- ((r * k) * (r * k)))%N) n])).

(** VanillaRBF.forward, lines 69-73 *)
Definition vanilla_rbf (p : rbf) (n_range : list K) (s : K) : res (list (list K)) :=
  rbind (bcast2 ndiv n_range (rbf_eps p)) (fun n =>
  let r := norm2 (map (nsub s) (rbf_centers p)) in
  Ok [map (fun k => (r * k)%N) n]).

(** MultiquadRBF.forward, lines 98-102 *)
Definition multiquad_rbf (p : rbf) (n_range : list K) (s : K) : res (list (list K)) :=
  rbind (bcast2 ndiv n_range (rbf_eps p)) (fun n =>
  let r := norm2 (map (nsub s) (rbf_centers p)) in
  Ok [map (fun k => (n1 + nsqrt (n1 + (r * k) * (r * k)))%N) n]).

(** Fourier.forward, lines 117-120 *)
Definition fourier (n_range : list K) (s : K) : res (list (list K)) :=
  Ok [map (fun k => ncos (s * k)%N) n_range; map (fun k => nsin (s * k)%N) n_range].

(** Polynomial.forward, lines 135-137 *)
Definition polynomial (n_range : list K) (s : K) : res (list (list K)) :=
  Ok [map (fun k => npowr s k) n_range].

(** Chebychev.forward, lines 152-162.  [max_order] = int(n_range[-1]).  The loop appends
    basis[-1] * 2s - basis[-2]. *)
Fixpoint cheb_loop (k : nat) (s a b : K) : list K :=   (* a = basis[-2], b = basis[-1] *)
  match k with
  | O => []
  | S k => let c := (b * (nQ 2 * s) - a)%N in c :: cheb_loop k s b c
  end.
Definition cheb_basis (max_order : nat) (s : K) : list K :=
  if 0 <? max_order then n1 :: s :: cheb_loop (max_order - 2) s n1 s else [n1].
(** in a layer n_range = linspace(0, deg, deg), whose last entry is deg (0 for deg = 1) *)
Definition chebychev (deg : nat) (n_range : list K) (s : K) : res (list (list K)) :=
  match n_range with
  | [] => Err IndexError
  | _ => Ok [cheb_basis (if deg =? 1 then 0 else deg) s]
  end.

(** GalLayer.calculate_weights, lines 177-190; coeffs[j][d][i] *)
Definition diag_rows (deg : nat) (v : list K) : res (list (list K)) :=
  let go v := map (fun d => map (fun k => if k =? d then nth d v n0 else n0) (seq 0 deg)) (seq 0 deg) in
  if length v =? deg then Ok (go v)
  else match v with [x] => Ok (go (repeat x deg)) | _ => Err RuntimeError end.

Fixpoint hcat (deg : nat) (bs : list (list (list K))) : list (list K) :=
  match bs with [] => repeat [] deg | b :: bs => map2 (@app K) b (hcat deg bs) end.

Fixpoint mapr {A B} (f : A -> res B) (l : list A) : res (list B) :=
  match l with
  | [] => Ok []
  | a :: l => rbind (f a) (fun b => rbind (mapr f l) (fun bs => Ok (b :: bs)))
  end.

Definition calculate_weights (deg n_eig : nat) (expfunc : list K -> K -> res (list (list K))) (dilation shift : K)
  (coeffs : list (list (list K))) (t : K) : res (list K) :=
  let n_range := linspace n0 (nnat deg) deg in
  rbind (expfunc n_range (t * dilation + shift)%N) (fun basis =>
  rbind (mapr (fun i => rbind (pyget basis i) (diag_rows deg)) (seq 0 n_eig)) (fun Bs =>
  let B := hcat deg Bs in
  let C := map (fun c => concat (map (fun i => map (fun row => nth i row n0) c) (seq 0 n_eig))) coeffs in
  let X := map (fun brow => map (fun crow => vdot brow crow) C) B in
  Ok (map (fun j => vsum (map (fun row => nth j row n0) X)) (seq 0 (length coeffs))))).

(** torch.nn.functional.linear on a batch of rows *)
Definition linear (x : list (list K)) (w : list (list K)) (b : list K) : list (list K) :=
  map (fun row => map2 nadd (map (fun wr => vdot row wr) w) b) x.

(** reshape(rows, cols) of a vector *)
Definition reshape2 (rows cols : nat) (v : list K) : list (list K) :=
  map (fun o => firstn cols (skipn (o * cols) v)) (seq 0 rows).

(** GalLinear.forward, lines 219-226.  With bias=False the name 'bias' is a registered parameter (None),
    and assigning a tensor to it raises TypeError (nn.Module.__setattr__). *)
Definition gal_linear (nin nout : nat) (bias : bool) (deg n_eig : nat) (expfunc : list K -> K -> res (list (list K)))
  (dilation shift : K) (coeffs : list (list (list K))) (input : list (list K)) : res (list (list K)) :=
  rbind (pylast input) (fun last_row => rbind (pylast last_row) (fun t =>
  let x := map (@removelast K) input in
  rbind (calculate_weights deg n_eig expfunc dilation shift coeffs t) (fun w =>
  let weight := reshape2 nout nin (pyslice (Some 0%Z) (Some (Z.of_nat (nin * nout))) w) in
  let b := pyslice (Some (Z.of_nat (nin * nout))) (Some (Z.of_nat ((nin + 1) * nout))) w in
  if bias then
    if forallb (fun row => length row =? nin) x then Ok (linear x weight b) else Err RuntimeError
  else Err TypeError))).

(** GalConv2d.forward, lines 266-273: the split of the weight vector (kernel entries, bias) *)
Definition gal_conv_split (nin nout ks : nat) (w : list K) : list K * list K :=
  let n := nout * nin * ks * ks in
  (pyslice (Some 0%Z) (Some (Z.of_nat n)) w, pyslice (Some (Z.of_nat n)) None w).
End Galerkin.
