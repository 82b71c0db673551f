(** Property theorems (generated by tools/genprop.py from Pf_Models.v, which holds the proofs). *)
From Coq Require Import ZArith QArith Qreals Reals Lra Lia String List Bool.
From Verif Require Import Num Py Tensor M_Models Spec_Root Spec_Conv Spec_Models L_Base L_Root L_Models.
Import ListNotations.
From Verif Require Import Pf_Models.
Import ListNotations.
Local Open Scope R_scope.

(** CNF(net) with autograd_trace, for every network g acting on the rows of the batch, with Jacobian J:
    row b of the output is -trace J(x_b), g(x_b), where x_b is the input row without its first entry *)
Theorem C54_autograd : forall B d g J jac x order noise, (1 <= B)%nat -> (1 <= d)%nat -> (order <= 1)%nat ->
  jacobian_of d g J -> batch_jacobian_of d (map g) jac -> is_batch B (d + 1) x ->
  @cnf ROps (map g) (@autograd_trace ROps jac noise) order x =
    Ok (map (fun b => - trace_of d (J (tl (nth b x []))) :: g (tl (nth b x []))) (seq 0 B)).
Proof. exact C54_autograd_pf. Qed.
Print Assumptions C54_autograd.

(** … with hutch_trace: -v_b^T J(x_b) v_b, where v_b is the noise row *)
Theorem C54_hutchinson : forall B d g J jac x V order, (1 <= B)%nat -> (order <= 1)%nat ->
  jacobian_of d g J -> batch_jacobian_of d (map g) jac -> is_batch B (d + 1) x -> is_batch B d V ->
  @cnf ROps (map g) (@hutch_trace ROps jac (Some V)) order x =
    Ok (map (fun b => - quadratic d (J (tl (nth b x []))) (nth b V []) :: g (tl (nth b x []))) (seq 0 B)).
Proof. exact C54_hutchinson_pf. Qed.
Print Assumptions C54_hutchinson.

(** The Hutchinson estimate is unbiased: if the noise of row b follows a law whose second moments are the
    identity, whatever the noise of the other rows, the mean of the divergence entry of row b is -trace J(x_b) *)
Theorem C54_unbiased : forall B d g J jac x V order b law, (1 <= B)%nat -> (order <= 1)%nat -> (b < B)%nat ->
  jacobian_of d g J -> batch_jacobian_of d (map g) jac -> is_batch B (d + 1) x -> is_batch B d V -> isotropic d law ->
  exists out : rvl -> R,
    (forall p v, In (p, v) law -> exists y, @cnf ROps (map g) (@hutch_trace ROps jac (Some (put_row b v V))) order x = Ok y /\ nth 0 (nth b y []) 0 = out v) /\
    total (map (fun pv => fst pv * out (snd pv)) law) = - trace_of d (J (tl (nth b x []))).
Proof. exact C54_unbiased_pf. Qed.
Print Assumptions C54_unbiased.

(** Rademacher noise is such a law, in every dimension *)
Theorem C54_rademacher : forall d, isotropic d (rademacher d).
Proof. exact C54_rademacher_pf. Qed.
Print Assumptions C54_rademacher.

Example C54_ex :
  let g := fun r : rvl => match r with [a; b] => [a * a; a + 3 * b] | _ => r end in
  let J := fun (r : rvl) i k => nth k (nth i [[2 * nth 0 r 0; 0]; [1; 3]] []) 0 in
  jacobian_of 2 g J /\ trace_of 2 (J [5; 7]) = 13.
Proof. exact C54_ex_pf. Qed.

(** A network that couples the rows of the batch: centering, net(x) = x - mean(x), with two rows of one entry.
    The Jacobian of each output row with respect to its own input row is 1/2, the column is 0 *)
Theorem C75_coupled_rows_refuted :
  let net := fun x : list rvl => match x with [[a]; [b]] => [[a - (a + b) / 2]; [b - (a + b) / 2]] | _ => x end in
  let jac := fun (_ : list rvl) (b' i b k : nat) => if (b' =? b)%nat then / 2 else - / 2 in
  (forall a b b' r, (b' < 2)%nat -> (r < 2)%nat -> derivable_pt_lim (fun h => nth 0 (nth b' (net (bump_row r 0 h [[a]; [b]])) []) 0) 0 (jac [[a]; [b]] b' 0 r 0)%nat) /\
  forall l a l' b : R, @cnf ROps net (@autograd_trace ROps jac None) 1 [[l; a]; [l'; b]] = Ok [[0; a - (a + b) / 2]; [0; b - (a + b) / 2]].
Proof. exact C75_coupled_rows_refuted_pf. Qed.
Print Assumptions C75_coupled_rows_refuted.

(** order > 1: every forward raises AttributeError *)
Theorem C79_order_refuted : forall (K : NumOps) net trace order (x : batch K), (2 <= order)%nat -> cnf net trace order x = Err AttributeError.
Proof. exact C79_order_refuted_pf. Qed.
Print Assumptions C79_order_refuted.

(** C54 needs data: for a batch with the log-density column only, the trace is the float 0 and forward raises *)
Theorem C54_no_data : forall (K : NumOps) net jac noise order (x : batch K), (order <= 1)%nat -> (forall r, In r x -> length r = 1%nat) ->
  cnf net (autograd_trace jac noise) order x = Err TypeError.
Proof. exact C54_no_data_pf. Qed.
Print Assumptions C54_no_data.

(** hutch_trace before a noise was drawn (only NeuralODE draws it): every forward fails *)
Theorem C80_no_noise_refuted : forall (K : NumOps) net jac order (x : batch K),
  exists e, cnf net (hutch_trace jac None) order x = Err e.
Proof. exact C80_no_noise_refuted_pf. Qed.
Print Assumptions C80_no_noise_refuted.

(** HNN(E): along every solution the energy of every row of the batch is constant, for every differentiable E
    on R^2m *)
Theorem C55_hnn : forall B m E G grad_sum Y a b,
  (forall x, length x = (2 * m)%nat -> gradient E x (G x)) -> gradient_of_sum (2 * m) E grad_sum ->
  batch_solves B (2 * m) a b (@hnn ROps grad_sum) Y ->
  forall r t, (r < B)%nat -> a <= t <= b -> E (nth r (Y t) []) = E (nth r (Y a) []).
Proof. exact C55_hnn_pf. Qed.
Print Assumptions C55_hnn.

(** GNF(E): along every solution the energy of every row never increases *)
Theorem C55_gnf : forall B d E G grad_sum Y a b,
  (forall x, length x = d -> gradient E x (G x)) -> gradient_of_sum d E grad_sum ->
  batch_solves B d a b (@gnf ROps grad_sum) Y ->
  forall r s t, (r < B)%nat -> a <= s -> s <= t -> t <= b -> E (nth r (Y t) []) <= E (nth r (Y s) []).
Proof. exact C55_gnf_pf. Qed.
Print Assumptions C55_gnf.

(** LNN(L): along every solution the Euler-Lagrange equations hold, d/dt (dL/dq') = dL/dq, for every twice
    differentiable L whose velocity Hessian is invertible along the solution *)
Theorem C55_lnn : forall B m L jac hess pinverse Y a b,
  (forall x, length x = (2 * m)%nat -> gradient L x (jac x)) ->
  (forall x, length x = (2 * m)%nat -> length (hess x) = (2 * m)%nat /\ forall i, (i < 2 * m)%nat -> gradient (fun z => nth i (jac z) 0) x (nth i (hess x) [])) ->
  (forall x, length x = (2 * m)%nat -> let M := map (skipn m) (skipn m (hess x)) in is_matrix m m (pinverse M) /\ forall v, length v = m -> apply M (apply (pinverse M) v) = v) ->
  batch_solves B (2 * m) a b (@lnn ROps jac hess pinverse) Y ->
  forall r i t, (r < B)%nat -> (i < m)%nat -> a <= t <= b ->
    derivable_pt_lim (fun s => nth i (nth r (Y s) []) 0) t (nth (m + i) (nth r (Y t) []) 0) /\
    derivable_pt_lim (fun s => nth (m + i) (jac (nth r (Y s) [])) 0) t (nth i (jac (nth r (Y t) [])) 0).
Proof. exact C55_lnn_pf. Qed.
Print Assumptions C55_lnn.

(** the harmonic oscillator *)
Example C55_hnn_ex :
  let E := fun x : rvl => dot x x / 2 in
  let Y := fun t => [[cos t; - sin t]; [2 * sin t; 2 * cos t]] in
  (forall x, length x = (2 * 1)%nat -> gradient E x x) /\ gradient_of_sum (2 * 1) E (map (fun x => x)) /\
  batch_solves 2 (2 * 1) 0 1 (@hnn ROps (map (fun x : rvl => x))) Y.
Proof. exact C55_hnn_ex_pf. Qed.

Example C55_gnf_ex :
  let E := fun x : rvl => dot x x / 2 in
  let Y := fun t => [[exp (- t)]] in
  (forall x, length x = 1%nat -> gradient E x x) /\ gradient_of_sum 1 E (map (fun x => x)) /\ batch_solves 1 1 0 1 (@gnf ROps (map (fun x : rvl => x))) Y.
Proof. exact C55_gnf_ex_pf. Qed.

(** the Lagrangian of the harmonic oscillator, (q'^2 - q^2) / 2 *)
Example C55_lnn_ex :
  let L := fun x : rvl => (nth 1 x 0 * nth 1 x 0 - nth 0 x 0 * nth 0 x 0) / 2 in
  let jac := fun x : rvl => [- nth 0 x 0; nth 1 x 0] in
  let hess := fun _ : rvl => [[-1; 0]; [0; 1]] in
  let pinverse := fun _ : list rvl => [[1]] in
  (forall x, length x = (2 * 1)%nat -> gradient L x (jac x)) /\
  (forall x, length x = (2 * 1)%nat -> length (hess x) = (2 * 1)%nat /\ forall i, (i < 2 * 1)%nat -> gradient (fun z => nth i (jac z) 0) x (nth i (hess x) [])) /\
  (forall x, length x = (2 * 1)%nat -> let M := map (skipn 1) (skipn 1 (hess x)) in is_matrix 1 1 (pinverse M) /\ forall v, length v = 1%nat -> apply M (apply (pinverse M) v) = v) /\
  batch_solves 1 (2 * 1) 0 1 (@lnn ROps jac hess pinverse) (fun t => [[cos t; - sin t]]).
Proof. exact C55_lnn_ex_pf. Qed.

(** HNN accepts rows of odd length 2m+1 and returns a field that does not preserve the energy: with
    E = |x|^2 / 2 there is a state where dE/dt = grad E . out is 1 *)
Theorem C76_odd_dimension_refuted : forall m,
  let E := fun x : rvl => dot x x / 2 in
  gradient_of_sum (2 * m + 1) E (map (fun x => x)) /\
  exists x y, length x = (2 * m + 1)%nat /\ gradient E x x /\ @hnn ROps (map (fun x : rvl => x)) [x] = [y] /\ length y = length x /\ dot x y = 1.
Proof. exact C76_odd_dimension_refuted_pf. Qed.
Print Assumptions C76_odd_dimension_refuted.

(** ConservativeLinearSNF: every forward raises AttributeError *)
Theorem C77_snf_refuted : forall (K : NumOps) (x : batch K), conservative_snf x = Err AttributeError.
Proof. exact C77_snf_refuted_pf. Qed.
Print Assumptions C77_snf_refuted.

(** HybridNeuralDE with reverse=False: the hidden states alternate jump and flow over the sequence; `out` of all
    of them is returned, or its last entry *)
Theorem C78_forward : forall (X H Y : Type) (j : @jump_fn X H) flow (out : list H -> list Y) h0 xs, xs <> [] ->
  exists hs, match j with
      | JCell f => recurrent (fun x hc => (f x (fst hc), snd hc)) flow xs h0 hs
      | JLstm f => recurrent f flow xs h0 hs
      end /\
    hybrid_forward j flow out h0 false false xs = Ok (inr (out hs)) /\
    forall ys y, out hs = ys ++ [y] -> hybrid_forward j flow out h0 true false xs = Ok (inl y).
Proof. exact C78_forward_pf. Qed.
Print Assumptions C78_forward.

(** reverse=True: every call raises UnboundLocalError *)
Theorem C78_reverse_refuted : forall (X H Y : Type) (j : @jump_fn X H) flow (out : list H -> list Y) h0 last xs, xs <> [] ->
  hybrid_forward j flow out h0 last true xs = Err UnboundLocalError.
Proof. exact C78_reverse_refuted_pf. Qed.
Print Assumptions C78_reverse_refuted.

Example C78_ex : hybrid_forward (JCell Nat.add) (fun h => 2 * h)%nat (fun l => l) 0%nat false false [1; 2; 3]%nat = Ok (inr [2; 8; 22]%nat).
Proof. exact C78_ex_pf. Qed.

