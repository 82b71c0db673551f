(** Model of torchdyn/models/cnf.py, torchdyn/models/energy.py and HybridNeuralDE of torchdyn/models/hybrid.py.

    A batch is the list of its rows (an empty batch has no width, torch keeps it).  Autograd is an oracle: [jac x b' i b k] stands for the derivative of
    net(x)[b', i] with respect to x[b, k], [grad_sum x] for the gradient of net(x).sum().  What the oracles
    return is a hypothesis of the theorems.  pinverse is a parameter. *)
From Coq Require Import ZArith QArith String List Bool.
From Verif Require Import Num Py Tensor.
Import ListNotations.
Local Open Scope nat_scope.
Local Notation length := List.length.

Section Cnf.
Context {K : NumOps}.
Definition nsum (n : nat) (f : nat -> K) : K := vsum (map f (seq 0 n)).
Definition batch : Type := list (list K).
Definition jacobian : Type := batch -> nat -> nat -> nat -> nat -> K.

(** x.shape[1] *)
Definition width (x : batch) : nat := length (hd [] x).

(** torch.autograd.grad(x_out, x_in, v): the vector-Jacobian product over the whole batch *)
Definition vjp (jac : jacobian) (x_in v : batch) : batch :=
  map (fun b => map (fun k => nsum (length x_in) (fun b' => nsum (width x_in) (fun i =>
        nmul (nth i (nth b' v []) n0) (jac x_in b' i b k)))) (seq 0 (width x_in))) (seq 0 (length x_in)).

(** grad(x_out[:, i].sum(), x_in) *)
Definition grad_col_sum (jac : jacobian) (x_in : batch) (i : nat) : batch :=
  map (fun b => map (fun k => nsum (length x_in) (fun b' => jac x_in b' i b k)) (seq 0 (width x_in))) (seq 0 (length x_in)).

(** autograd_trace, cnf.py:19-24; trJ stays the float 0. when there are no columns, and trJ[:, None] fails *)
Definition autograd_trace (jac : jacobian) (noise : option batch) (x_in : batch) : res (list K) :=
  if width x_in =? 0 then Err TypeError
  else Ok (fold_left (fun tr i => vadd tr (map (fun row => nth i row n0) (grad_col_sum jac x_in i))) (seq 0 (width x_in))
                     (repeat n0 (length x_in))).

(** hutch_trace, cnf.py:26-31; noise = None: grad needs a scalar output, and einsum a tensor *)
Definition hutch_trace (jac : jacobian) (noise : option batch) (x_in : batch) : res (list K) :=
  match noise with
  | None => if length x_in * width x_in =? 1 then Err TypeError else Err RuntimeError
  | Some v =>
      if (length v =? length x_in) && forallb (fun r => length r =? width x_in) v
      then Ok (map2 vdot (vjp jac x_in v) v)
      else Err RuntimeError
  end.

(** CNF.forward, cnf.py:55-66; self.higher_order does not exist *)
Definition cnf (net : batch -> batch) (trace : batch -> res (list K)) (order : nat) (x : batch) : res batch :=
  let x_in := map (@tl K) x in
  if 1 <? order then Err AttributeError
  else
    let x_out := net x_in in
    rbind (trace x_in) (fun tr =>
    Ok (map2 (fun r xr => vadd r (vscale n0 xr)) (map2 (fun t o => nopp t :: o) tr x_out) x)).
End Cnf.
Arguments batch : clear implicits.
Arguments jacobian : clear implicits.

Section Energy.
Context {K : NumOps}.

(** ConservativeLinearSNF.forward, energy.py:36-42: self.H and self._skew do not exist (the attributes are
    self.energy and self._generate_skew) *)
Definition conservative_snf (x : batch K) : res (batch K) := Err AttributeError.

(** GNF.forward, energy.py:57-62 *)
Definition gnf (grad_sum : batch K -> batch K) (x : batch K) : batch K := map (map nopp) (grad_sum x).

(** HNN.forward, energy.py:75-80 *)
Definition hnn (grad_sum : batch K -> batch K) (x : batch K) : batch K :=
  let n := width x / 2 in
  map (fun g => skipn n g ++ map nopp (firstn n g)) (grad_sum x).

(** LNN.forward and _qdd, energy.py:96-112; [jac], [hess] of the Lagrangian at one row *)
Definition matvec (A : list (list K)) (v : list K) : list K := map (fun r => vdot r v) A.
Definition lnn_qdd (pinverse : list (list K) -> list (list K)) (n : nat) (jac : list K) (hess : list (list K)) (qqd : list K) : list K :=
  matvec (pinverse (map (skipn n) (skipn n hess)))
         (vsub (firstn n jac) (matvec (map (firstn n) (skipn n hess)) (skipn n qqd))).
Definition lnn (jac : list K -> list K) (hess : list K -> list (list K)) (pinverse : list (list K) -> list (list K)) (x : batch K) : batch K :=
  let n := width x / 2 in
  map (fun r => skipn n r ++ lnn_qdd pinverse n (jac r) (hess r) r) x.
End Energy.

(** HybridNeuralDE, hybrid.py:26-64.  [lstm]: the jump returns hidden and cell state. *)
Section Hybrid.
Context {X H Y : Type}.
Inductive jump_fn : Type :=
| JCell (f : X -> H -> H)                       (* self.jump(x_t, h), c *)
| JLstm (f : X -> H * H -> H * H).              (* self.jump(x_t, (h, c)) *)
Definition jump_func (j : jump_fn) (x : X) (h c : H) : H * H :=
  match j with JCell f => (f x h, c) | JLstm f => f x (h, c) end.
Fixpoint hybrid_loop (j : jump_fn) (flow : H -> H) (xs : list X) (h c : H) : list H :=
  match xs with
  | [] => []
  | x :: xs => let (h, c) := jump_func j x h c in let h := flow h in h :: hybrid_loop j flow xs h c
  end.
(** [out] acts on the stacked states; x[0] of an empty sequence raises IndexError; with reverse=True the local
    name x_t is read before it is assigned *)
Definition hybrid_forward (j : jump_fn) (flow : H -> H) (out : list H -> list Y) (h0 : H) (last_output reverse : bool) (xs : list X)
  : res (Y + list Y) :=
  match xs with
  | [] => Err IndexError
  | _ =>
    if reverse then Err UnboundLocalError
    else let Ys := out (hybrid_loop j flow xs h0 h0) in
         if last_output then rbind (pylast Ys) (fun y => Ok (inl y)) else Ok (inr Ys)
  end.
End Hybrid.
