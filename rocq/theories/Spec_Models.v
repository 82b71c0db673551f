(** Partial derivatives, gradients, batches of rows, noise laws. *)
From Coq Require Import Reals List Arith.
From Verif Require Import Spec_Root Spec_Conv.
Import ListNotations.
Local Open Scope R_scope.

Fixpoint total (l : list R) : R := match l with [] => 0 | x :: l => x + total l end.

(** the vector r with h added to entry k; the batch x with h added to entry k of row b *)
Definition bump (k : nat) (h : R) (r : list R) : list R := firstn k r ++ (nth k r 0 + h) :: skipn (S k) r.
Definition bump_row (b k : nat) (h : R) (x : list (list R)) : list (list R) := firstn b x ++ bump k h (nth b x []) :: skipn (S b) x.
Definition put_row (b : nat) (v : list R) (x : list (list R)) : list (list R) := firstn b x ++ v :: skipn (S b) x.

(** J r i k is the partial derivative of component i of g with respect to entry k, at every r in R^d *)
Definition jacobian_of (d : nat) (g : list R -> list R) (J : list R -> nat -> nat -> R) : Prop :=
  (forall r, length r = d -> length (g r) = d) /\
  forall r i k, length r = d -> (i < d)%nat -> (k < d)%nat -> derivable_pt_lim (fun h => nth i (g (bump k h r)) 0) 0 (J r i k).

Definition is_batch (B d : nat) (x : list (list R)) : Prop := length x = B /\ Forall (fun r => length r = d) x.

(** the oracle jac x b' i b k is the derivative of net(x)[b', i] with respect to x[b, k] *)
Definition batch_jacobian_of (d : nat) (net : list (list R) -> list (list R)) (jac : list (list R) -> nat -> nat -> nat -> nat -> R) : Prop :=
  forall B x b' i b k, is_batch B d x -> (b' < B)%nat -> (b < B)%nat -> (i < d)%nat -> (k < d)%nat ->
    derivable_pt_lim (fun h => nth i (nth b' (net (bump_row b k h x)) []) 0) 0 (jac x b' i b k).

(** the trace and a quadratic form *)
Definition trace_of (d : nat) (A : nat -> nat -> R) : R := total (map (fun i => A i i) (seq 0 d)).
Definition quadratic (d : nat) (A : nat -> nat -> R) (v : list R) : R :=
  total (map (fun k => total (map (fun i => nth i v 0 * A i k) (seq 0 d)) * nth k v 0) (seq 0 d)).

(** a finite law of noise vectors with weights: second moments are the identity *)
Definition isotropic (d : nat) (law : list (R * list R)) : Prop :=
  Forall (fun pv => length (snd pv) = d) law /\
  forall i k, (i < d)%nat -> (k < d)%nat ->
    total (map (fun pv => fst pv * (nth i (snd pv) 0 * nth k (snd pv) 0)) law) = if (i =? k)%nat then 1 else 0.
(** all vectors of signs, each with weight 1 / 2^d *)
Fixpoint signs (d : nat) : list (list R) := match d with O => [[]] | S d => map (cons 1) (signs d) ++ map (cons (-1)) (signs d) end.
Definition rademacher (d : nat) : list (R * list R) := map (fun v => (/ 2 ^ d, v)) (signs d).

(** E is differentiable at x with gradient g *)
Definition norm1 (h : list R) : R := total (map Rabs h).
Definition gradient (E : list R -> R) (x g : list R) : Prop :=
  length g = length x /\
  forall eps, 0 < eps -> exists delta, 0 < delta /\
    forall h, length h = length x -> norm1 h < delta -> Rabs (E (plus_vec x h) - E x - dot g h) <= eps * norm1 h.

(** grad_sum returns the partial derivatives of the sum of E over the rows *)
Definition gradient_of_sum (d : nat) (E : list R -> R) (grad_sum : list (list R) -> list (list R)) : Prop :=
  forall B x, is_batch B d x -> is_batch B d (grad_sum x) /\
    forall b k, (b < B)%nat -> (k < d)%nat -> derivable_pt_lim (fun h => total (map E (bump_row b k h x))) 0 (nth k (nth b (grad_sum x) []) 0).

(** a batch of curves solves x' = F(x) on [a, b] *)
Definition batch_solves (B d : nat) (a b : R) (F : list (list R) -> list (list R)) (Y : R -> list (list R)) : Prop :=
  (forall t, is_batch B d (Y t)) /\
  forall r, (r < B)%nat -> curve_derivative d a b (fun t => nth r (Y t) []) (fun t => nth r (F (Y t)) []).

(** hidden states of a recurrent model: a jump at every element of the sequence, then the flow *)
Definition recurrent {X H : Type} (jump : X -> H * H -> H * H) (flow : H -> H) (xs : list X) (h0 : H) (hs : list H) : Prop :=
  exists st : nat -> H * H, st 0%nat = (h0, h0) /\ length hs = length xs /\
    forall t x, nth_error xs t = Some x ->
      let hc := jump x (st t) in st (S t) = (flow (fst hc), snd hc) /\ nth_error hs t = Some (flow (fst hc)).
