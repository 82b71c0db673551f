(** Model of torchdyn/numerics/solvers/root.py.

    A batch (bs, dims) is the list of its rows; [g] maps a batch to a batch.  The inverse Jacobians
    are one matrix (list of rows) per batch element.  The initial [batch_jacobian(g, z).pinverse()]
    (autograd) is a parameter of [root_find]. *)
From Coq Require Import ZArith QArith String List Bool.
From Verif Require Import Num Py Tensor.
Import ListNotations.
Local Open Scope nat_scope.

Section Root.
Context {K : NumOps}.
Notation V := (vec K).
Notation Mat := (list (vec K)).
Notation Batch := (list (vec K)).

(** einsum('...io, ...o -> ...i', J, v) *)
Definition matvec (J : Mat) (v : V) : V := map (fun row => vdot row v) J.
(** einsum('...i, ...io -> ...o', u, J) for a matrix with [c] columns *)
Definition vecmat (c : nat) (u : V) (J : Mat) : V := fold_right vadd (vzeros c) (map2 vscale u J).
(** einsum('...i, ...o -> ...io', a, b) *)
Definition outer (a b : V) : Mat := map (fun x => vscale x b) a.
Definition madd (A B : Mat) : Mat := map2 vadd A B.

(** BroydenFull.update_jacobian, lines 51-57, one batch element *)
Definition update_full (eps : K) (dg dz : V) (J : Mat) : Mat :=
  let num := (dz - matvec J dg)%V in
  let den := (vdot dz (matvec J dg) + eps)%N in
  let prod := vecmat (length dg) dz J in
  madd J (outer (map (fun a => (a / den)%N) num) prod).

(** BroydenBad.update_jacobian, lines 77-82, one batch element *)
Definition update_bad (tol : K) (dg dz : V) (J : Mat) : Mat :=
  let num := (dz - matvec J dg)%V in
  let den := (vsum (vmul dg dg) + tol)%N in
  madd J (map (map (fun a => (a / den)%N)) (outer num dg)).

Inductive method : Type := BroydenFull | BroydenBad | NewtonStub | ChordStub.
Definition eps6 : K := nQ (1 # 1000000).
Definition update (m : method) (dg dz : V) (J : Mat) : Mat :=
  match m with BroydenFull => update_full eps6 dg dz J | _ => update_bad eps6 dg dz J end.

(** Broyden.step, lines 31-37: (z, dz, geval, J_inv) *)
Definition broyden_step (m : method) (g : Batch -> Batch) (z0 : Batch) (J : list Mat) (g0 : Batch) (alpha : K)
  : Batch * Batch * Batch * list Mat :=
  let dz := map2 matvec J g0 in
  let z := map2 (fun a d => (a - alpha * d)%V) z0 dz in
  let ge := g z in
  let Dz := map2 vsub z z0 in
  let Dg := map2 vsub ge g0 in
  (z, dz, ge, map2 (fun p J => update m (fst p) (snd p) J) (combine Dg Dz) J).

(** Newton.step and Chord.step, lines 84-98, raise NotImplementedError *)
Definition solver_step (m : method) (g : Batch -> Batch) (z0 : Batch) (J : list Mat) (g0 : Batch) (alpha : K)
  : res (Batch * Batch * Batch * list Mat) :=
  match m with
  | NewtonStub | ChordStub => Err NotImplementedError
  | _ => Ok (broyden_step m g z0 J g0 alpha)
  end.

(** ** Line searches, lines 104-188 *)

(** torch.isfinite: x - x is NaN for infinities and NaN *)
Definition finite (x : K) : bool := ((x - x) =? n0)%N.
Definition safe_norm (v : V) : K := if forallb finite v then nsqrt (vsum (vmul v v)) else (n1 / n0)%N.
Definition sq (x : K) : K := (x * x)%N.
(** LineSearcher.phi, lines 118-120, and phi0; the norm runs over the whole batch *)
Definition phi_of (g : Batch -> Batch) (z0 dz : Batch) (alpha : K) : K :=
  sq (safe_norm (concat (g (map2 (fun a d => (a + alpha * d)%V) z0 dz)))).
Definition phi0_of (g0 : Batch) : K := sq (safe_norm (concat g0)).

(** NaiveSearch.search, lines 127-133 *)
Fixpoint naive_loop (fuel : nat) (phi : K -> K) (phi0 min_alpha mult : K) (alpha phi_a0 : K) : res (K * K) :=
  match fuel with
  | O => OutOfFuel
  | S fuel' =>
      if ((phi0 <? phi_a0) && (min_alpha <? alpha))%N
      then let alpha := (mult * alpha)%N in naive_loop fuel' phi phi0 min_alpha mult alpha (phi alpha)
      else Ok (alpha, phi_a0)
  end.
Definition naive_search (fuel : nat) (phi : K -> K) (phi0 alpha0 min_alpha mult : K) : res (K * K) :=
  naive_loop fuel phi phi0 min_alpha mult alpha0 (phi alpha0).

(** LineSearchArmijo.search, lines 140-188 *)
Fixpoint armijo_loop (fuel : nat) (phi : K -> K) (phi0 c1 derphi0 : K) (alpha0 alpha1 phi_a0 phi_a1 : K) : res (K * K) :=
  match fuel with
  | O => OutOfFuel
  | S fuel' =>
      if (nQ (1 # 100) <? alpha1)%N then
        let factor := (npow alpha0 2 * npow alpha1 2 * (alpha1 - alpha0))%N in
        let e1 := (phi_a1 - phi0 - derphi0 * alpha1)%N in
        let e0 := (phi_a0 - phi0 - derphi0 * alpha0)%N in
        let a := ((npow alpha0 2 * e1 - npow alpha1 2 * e0) / factor)%N in
        let b := ((- npow alpha0 3 * e1 + npow alpha1 3 * e0) / factor)%N in
        let alpha2 := ((- b + nsqrt (nabs (npow b 2 - nQ 3 * a * derphi0))) / (nQ 3 * a))%N in
        let phi_a2 := phi alpha2 in
        if (phi_a2 <=? phi0 + c1 * alpha2 * derphi0)%N then Ok (alpha2, phi_a2) else
        let alpha2 := if ((alpha1 / nQ 2 <? alpha1 - alpha2) || (n1 - alpha2 / alpha1 <? nQ (96 # 100)))%N
                      then (alpha1 / nQ 2)%N else alpha2 in
        armijo_loop fuel' phi phi0 c1 derphi0 alpha1 alpha2 phi_a1 phi_a2
      else Ok (nQ (1 # 100), phi_a0)
  end.
Definition armijo_search (fuel : nat) (phi : K -> K) (phi0 alpha0 c1 : K) : res (K * K) :=
  let phi_a0 := phi alpha0 in
  let derphi0 := (- phi_a0)%N in
  if (phi_a0 <? phi0 + c1 * alpha0 * derphi0)%N then Ok (alpha0, phi_a0) else
  let alpha1 := (- derphi0 * npow alpha0 2 / nQ 2 / (phi_a0 - phi0 - derphi0 * alpha0))%N in
  let phi_a1 := phi alpha1 in
  armijo_loop fuel phi phi0 c1 derphi0 alpha0 alpha1 phi_a0 phi_a1.

Inductive search : Type := SNone | SNaive | SArmijo.

(** line_searcher.search() with its default arguments, lines 281-284; the new alpha *)
Definition new_alpha (fuel : nat) (s : search) (g : Batch -> Batch) (ge dz z : Batch) (alpha : K) : res K :=
  match s with
  | SNone => Ok alpha
  | SNaive => rmap fst (naive_search fuel (phi_of g z dz) (phi0_of ge) n1 (nQ (1 # 1000000)) (nQ (1 # 10)))
  | SArmijo => rmap fst (armijo_search fuel (phi_of g z dz) (phi0_of ge) n1 (nQ (1 # 10000)))
  end.

(** ** TerminationCondition.check, lines 233-243 *)
Record tols : Type := MkTols { f_tol : K; f_rtol : K; x_tol : K; x_rtol : K }.
Definition row_norm (v : V) : K := nsqrt (vsum (vmul v v)).

(** returns (code > 0, f0_norm) *)
Definition tc_check (tl : tols) (f0 : option (list K)) (ge z dz : Batch) : bool * list K :=
  let gn := map row_norm ge in
  let zn := map row_norm z in
  let dn := map row_norm dz in
  let f0 := match f0 with Some f => f | None => gn end in
  let all2 (l : list bool) := forallb (fun b => b) l in
  let cond1 := all2 (map (fun a => (a <=? f_tol tl)%N) gn) && all2 (map2 (fun a b => (a / f_rtol tl <=? b)%N) gn f0) in
  let cond2 := all2 (map (fun a => (a <=? x_tol tl)%N) dn) && all2 (map2 (fun a b => (a / x_rtol tl <=? b)%N) dn zn) in
  (cond1 && cond2, f0).

(** ** root_find, lines 259-300 *)
Definition method_of (name : string) : res method :=
  (if name =? "broyden_fast" then Ok BroydenBad else if name =? "broyden" then Ok BroydenFull
   else if name =? "newton" then Ok NewtonStub else if name =? "chord" then Ok ChordStub else Err AssertionError)%string.
Definition search_of (name : string) : res search :=
  (if name =? "naive" then Ok SNaive else if name =? "armijo" then Ok SArmijo else if name =? "none" then Ok SNone
   else Err AssertionError)%string.

(** What is known at the end of an iteration *)
Record rstate : Type := MkR {
  r_z : Batch; r_dz : Batch; r_ge : Batch; r_J : list Mat; r_alpha : K;
  r_f0 : option (list K);
  r_steps : nat;                  (* solver steps done *)
  r_conv : bool                   (* termination_condition logged *)
}.

(** the while loop, lines 274-298: at most [k] more iterations; [sf] is the fuel of the line searches *)
Fixpoint root_loop (k : nat) (sf : nat) (m : method) (s : search) (tl : tols) (g : Batch -> Batch) (st : rstate) : res rstate :=
  match k with
  | O => Ok st
  | S k' =>
      rbind (solver_step m g (r_z st) (r_J st) (r_ge st) (r_alpha st)) (fun r =>
      let '(z, dz, ge, J) := r in
      rbind (new_alpha sf s g ge dz z (r_alpha st)) (fun alpha =>
      let (stop, f0) := tc_check tl (r_f0 st) ge z dz in
      let st' := MkR z dz ge J alpha (Some f0) (S (r_steps st)) stop in
      if stop then Ok st' else root_loop k' sf m s tl g st'))
  end.

Definition root_find (sf : nat) (g : Batch -> Batch) (z : Batch) (J0 : list Mat) (alpha : K) (tl : tols) (maxiters : Z)
  (method_name search_name : string) : res rstate :=
  rbind (method_of method_name) (fun m =>
  rbind (search_of search_name) (fun s =>
  root_loop (Z.to_nat (maxiters + 1)) sf m s tl g (MkR z [] (g z) J0 alpha None 0 false))).

Definition default_tols : tols := MkTols (nQ (1 # 100)) (nQ (1 # 10)) (nQ (1 # 100)) n1.

End Root.
