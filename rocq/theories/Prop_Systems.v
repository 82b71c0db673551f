(** Property theorems (generated by tools/genprop.py from Pf_Systems.v, which holds the proofs). *)
From Coq Require Import ZArith QArith Qreals Reals Lra Lia String List Bool.
From Verif Require Import Num Py Tensor M_SolversOde M_Odeint M_Core M_Nn M_Systems.
From Verif Require Import Spec_Ode Spec_RK Spec_Norm Spec_Adaptive Spec_Inv Spec_Core Spec_Systems Spec_Models L_Base L_Vec L_Reach L_Models Pf_Gal Pf_Core Pf_Inv.
Import ListNotations.
From Verif Require Import Pf_Systems.
Import ListNotations.
Local Open Scope R_scope.

(** C93.  Called as f(t, x) on a batch, Lorenz is the Lorenz system with sigma = 10, rho = 28,
    beta = 8/3, VanDerPol(alpha) the van der Pol oscillator, ODEProblem4 the Rabinovich-Fabrikant
    equations with gamma = 0.87, alpha = 1.1, row by row. *)
Theorem C93_textbook :
  forall (A : Type) depth t x mu,
  (Forall (fun row => length row = 3%nat) x ->
     call_callable (@Lorenz ROps A) depth [VTime t; VState x] [] = Ok (map (lorenz 10 28 (8 / 3)) x) /\
     call_callable (@ODEProblem4 ROps A) depth [VTime t; VState x] [] = Ok (map (rabinovich_fabrikant (87 / 100) (11 / 10)) x)) /\
  (Forall (fun row => length row = 2%nat) x ->
     call_callable (@VanDerPol ROps A mu) depth [VTime t; VState x] [] = Ok (map (van_der_pol mu) x)).
Proof. exact C93_textbook_pf. Qed.
Print Assumptions C93_textbook.

(** C93.  The remaining systems without parameters: growth with rate 1/2, decay with rate 1/10, and the sine of the
    time (not of the state) in every coordinate. *)
Theorem C93_scalar :
  forall (A : Type) depth t x,
  call_callable (@ODEProblem2 ROps A) depth [VTime t; VState x] [] = Ok (map (map (fun u => u / 2)) x) /\
  call_callable (@ODEProblem3 ROps A) depth [VTime t; VState x] [] = Ok (map (map (fun u => - (u / 10))) x) /\
  call_callable (@SineSystem ROps A sin) depth [VTime t; VState x] [] = Ok (map (map (fun _ => sin t)) x).
Proof. exact C93_scalar_pf. Qed.
Print Assumptions C93_scalar.

Example C93_ex : call_callable (@Lorenz ROps unit) None [@VTime ROps unit 0; @VState ROps unit [[1; 2; 3]; [0; 0; 0]]] [] =
  Ok [[10; 23; -6]; [0; 0; 0]].
Proof. exact C93_ex_pf. Qed.

(** C94, refuted: on rows that are too wide the result silently has another width than the state *)
Theorem C94_width_refuted : forall (A : Type) depth t mu a b c d,
  (exists r, call_callable (@Lorenz ROps A) depth [VTime t; @VState ROps A [[a; b; c; d]]] [] = Ok [r] /\ length r = 5%nat) /\
  (exists r, call_callable (@VanDerPol ROps A mu) depth [VTime t; @VState ROps A [[a; b; c]]] [] = Ok [r] /\ length r = 2%nat).
Proof. exact C94_width_refuted_pf. Qed.
Print Assumptions C94_width_refuted.

(** C95.  The equilibria of the Lorenz system: the origin and (+-c, +-c, 27) with c^2 = 72. *)
Theorem C95_lorenz_equilibria :
  forall (A : Type) x y z, (forall depth t, call_callable (@Lorenz ROps A) depth [VTime t; @VState ROps A [[x; y; z]]] [] = Ok [[0; 0; 0]]) <->
    (x = 0 /\ y = 0 /\ z = 0) \/ (x = y /\ z = 27 /\ x * x = 72).
Proof. exact C95_lorenz_equilibria_pf. Qed.
Print Assumptions C95_lorenz_equilibria.

(** C95.  From an equilibrium every built-in solver returns the same state at all times. *)
Theorem C95_lorenz_rest :
  forall fuel s rows b x y z ts atol rtol interp all save_at semi times sol,
  builtin_method s rows b -> monotone ts -> (2 <= length ts)%nat ->
  (x = 0 /\ y = 0 /\ z = 0) \/ (x = y /\ z = 27 /\ x * x = 72) ->
  snd (@odeint ROps fuel (fun t : R => lorenz 10 28 (8 / 3)) [x; y; z] (@TTensor ROps ts) s atol rtol interp all save_at semi) = Ok (times, sol) ->
  forall v, In v sol -> v = [x; y; z].
Proof. exact C95_lorenz_rest_pf. Qed.
Print Assumptions C95_lorenz_rest.

(** C95.  Symmetry (x, y, z) -> (-x, -y, z), and dissipation: x^2 + y^2 + (z - 38)^2 decreases along the
    field outside an ellipsoid. *)
Theorem C95_lorenz_shape :
  forall (A : Type) depth t x y z, exists u v w,
  call_callable (@Lorenz ROps A) depth [VTime t; @VState ROps A [[x; y; z]; [- x; - y; z]]] [] = Ok [[u; v; w]; [- u; - v; w]] /\
  x * u + y * v + (z - 38) * w = 8 / 3 * 19 ^ 2 - (10 * x ^ 2 + y ^ 2 + 8 / 3 * (z - 19) ^ 2).
Proof. exact C95_lorenz_shape_pf. Qed.
Print Assumptions C95_lorenz_shape.

(** C95.  Van der Pol: the origin is the only equilibrium; the energy x^2 + y^2 grows exactly inside the
    strip |x| < 1. *)
Theorem C95_vdp :
  forall (A : Type) depth t (mu x y : R), exists u v : R,
  call_callable (@VanDerPol ROps A mu) depth [VTime t; @VState ROps A [[x; y]]] [] = Ok [[u; v]] /\
  (u = 0 /\ v = 0 <-> x = 0 /\ y = 0) /\ x * u + y * v = mu * (1 - x ^ 2) * y ^ 2.
Proof. exact C95_vdp_pf. Qed.
Print Assumptions C95_vdp.

(** C96.  As vector field of a NeuralODE (of order 1) or an ODEProblem: Lorenz and VanDerPol are called
    with the time and the state. *)
Theorem C96_usable_partial :
  forall (A : Type) (empty : A) c mu, c = @Lorenz ROps A \/ c = @VanDerPol ROps A mu ->
  exists v w, odeproblem_vf c = Ok v /\ (forall sens, neuralode_vf c 1 None sens = Ok (w sens)) /\
  forall sens t x, solver_call empty v t x = call_callable c None [VTime t; VState x] [] /\
                   solver_call empty (w sens) t x = call_callable c (Some t) [VTime t; VState x] [].
Proof. exact C96_usable_partial_pf. Qed.
Print Assumptions C96_usable_partial.

(** C96, refuted: the systems whose forward takes (s, x) or (s, z) are accepted, but every evaluation
    raises TypeError, because the state is passed as the only argument. *)
Theorem C96_usable_refuted :
  forall (K : NumOps) (A : Type) (empty : A) (ncos nsin ntanh : K -> K) W b hidden last a phi w dim nh c,
  In c [@ODEProblem2 K A; @ODEProblem3 K A; @ODEProblem4 K A; @SineSystem K A nsin; @LTISystem K A W b;
        @MatMulSystem K A ntanh hidden last; @MatMulBoundedSystem K A ntanh hidden last;
        @FourierSystem K A ncos a phi w dim nh; @CoupledFourierSystem K A ncos W b a phi w dim nh] ->
  exists v u, odeproblem_vf c = Ok v /\ (forall sens, neuralode_vf c 1 None sens = Ok (u sens)) /\
  forall sens t x, solver_call empty v t x = Err TypeError /\ solver_call empty (u sens) t x = Err TypeError.
Proof. exact C96_usable_refuted_pf. Qed.
Print Assumptions C96_usable_refuted.

(** C97.  FourierSystem (and StiffFourierSystem) at a scalar time returns one row, the values of the
    sums of harmonics, whatever the state; at a vector of times it returns one row per time, that of the
    scalar time; CoupledFourierSystem returns the linear layer of these rows. *)
Theorem C97_fourier :
  forall (a phi w : nat -> nat -> nat -> R) dim nh W b x,
  (forall s, @fourier_scalar ROps cos a phi w dim nh s x = [map (fun i => harmonics a phi w nh i s) (seq 0 dim)]) /\
  (forall s, @coupled_scalar ROps cos W b a phi w dim nh s x =
     map (@linear_row ROps W b) (@fourier_scalar ROps cos a phi w dim nh s x)) /\
  (forall ts, ts <> [] -> @fourier_vector ROps cos a phi w dim nh ts x =
     Ok (map (fun s => map (fun i => harmonics a phi w nh i s) (seq 0 dim)) ts)) /\
  (forall ts, ts <> [] -> @coupled_vector ROps cos W b a phi w dim nh ts x =
     Ok (map (fun s => @linear_row ROps W b (map (fun i => harmonics a phi w nh i s) (seq 0 dim))) ts)).
Proof. exact C97_fourier_pf. Qed.
Print Assumptions C97_fourier.

(** C97.  The linear layer of LTISystem, CoupledFourierSystem and the matrix products: W x + b. *)
Theorem C97_linear_layer : forall W b x i, length W = length b -> (i < length b)%nat -> length (nth i W []) = length x ->
  exists y, @lti_row ROps W b x = Ok y /\ y = @linear_row ROps W b x /\
    nth i y 0 = sum_below (length x) (fun j => nth j (nth i W []) 0 * nth j x 0) + nth i b 0.
Proof. exact C97_linear_layer_pf. Qed.
Print Assumptions C97_linear_layer.

(** C97.  The values are bounded by the sum of the amplitudes, at all times. *)
Theorem C97_bounded :
  forall (a phi w : nat -> nat -> nat -> R) dim nh s x row i, In row (@fourier_scalar ROps cos a phi w dim nh s x) -> (i < dim)%nat ->
  Rabs (nth i row 0) <= amplitude a nh i.
Proof. exact C97_bounded_pf. Qed.
Print Assumptions C97_bounded.

Example C97_ex :
  let a := fun i k c : nat => if (c =? 0)%nat then 3 else 0 in
  let z := fun i k c : nat => 0 in
  @fourier_vector ROps cos a z z 1 2 [5; 7] [] = Ok [[6]; [6]] /\ amplitude a 2 0 = 6.
Proof. exact C97_ex_pf. Qed.

(** C98.  Every entry of the output of MatMulBoundedSystem lies strictly between -1 and 1; its output is
    the hyperbolic tangent of that of the MatMulSystem with the same weights. *)
Theorem C98_bounded :
  forall hidden last x, exists y z,
  @matmul_row ROps tanh hidden last x = Ok y /\ @matmul_bounded_row ROps tanh hidden last x = Ok z /\ z = map tanh y /\
  Forall (fun v => -1 < v < 1) z.
Proof. exact C98_bounded_pf. Qed.
Print Assumptions C98_bounded.

(** C99, refuted: the arguments layers and activation of the two classes change nothing *)
Theorem C99_arguments_refuted :
  forall dim act act' layers layers' hdim,
  matmul_net dim act layers hdim = matmul_net dim act' layers' hdim /\
  matmul_bounded_net dim act layers hdim = matmul_bounded_net dim act' layers' hdim.
Proof. exact C99_arguments_refuted_pf. Qed.
Print Assumptions C99_arguments_refuted.

(** C99: dim and hdim do *)
Theorem C99_sizes_partial :
  forall dim act layers hdim net, net = matmul_net dim act layers hdim \/ net = matmul_bounded_net dim act layers hdim ->
  filter (fun l => match l with Lin _ _ => true | _ => false end) net =
    [Lin dim hdim; Lin hdim hdim; Lin hdim hdim; Lin hdim hdim; Lin hdim hdim; Lin hdim dim].
Proof. exact C99_sizes_partial_pf. Qed.
Print Assumptions C99_sizes_partial.

(** C100, refuted: the solver templates BaseExplicit and BaseImplicit cannot be instantiated, nor any class
    that derives from them by calling their constructor *)
Theorem C100_templates_refuted :
  forall stepping, new_base "BaseExplicit" stepping = Err TypeError /\ new_base "BaseImplicit" stepping = Err TypeError.
Proof. exact C100_templates_refuted_pf. Qed.
Print Assumptions C100_templates_refuted.

(** C101.  The two base methods of a multiple-shooting solver, given by name *)
Theorem C101_named_methods_partial :
  forall (S : Type) (lookup : string -> res S) c f sc sf, lookup c = Ok sc -> lookup f = Ok sf ->
  ms_methods lookup (MStr c) (MStr f) = Ok (sc, sf).
Proof. exact C101_named_methods_partial_pf. Qed.
Print Assumptions C101_named_methods_partial.

(** C101, refuted: given as solver modules they are dropped, and the first use raises AttributeError *)
Theorem C101_module_methods_refuted :
  forall (S : Type) (lookup : string -> res S) m (s s' : S) n, lookup n = Ok s' ->
  m = MModule s \/ m = MStr n ->
  ms_methods lookup (MModule s) m = Err AttributeError /\ ms_methods lookup m (MModule s) = Err AttributeError.
Proof. exact C101_module_methods_refuted_pf. Qed.
Print Assumptions C101_module_methods_refuted.

