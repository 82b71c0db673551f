(** Property theorems (generated by tools/genprop.py from Pf_Basis.v, which holds the proofs). *)
From Coq Require Import ZArith QArith Qreals Reals Lra Lia String List Bool.
From Verif Require Import Num Py Tensor M_Nn Spec_Nn Spec_Root L_Base L_Root Pf_Gal.
Import ListNotations.
From Verif Require Import Pf_Basis.
Import ListNotations.
Local Open Scope R_scope.

(** The basis of a layer with Chebychev(deg) has deg entries: T_0 = 1, T_1 = s and
    T_{k+2} = 2 s T_{k+1} - T_k *)
Theorem C53_chebychev_recurrence : forall deg s, (1 <= deg)%nat ->
  exists T, @chebychev ROps deg (@linspace ROps 0 (INR deg) deg) s = Ok [T] /\ length T = deg /\ nth 0 T 0 = 1 /\
    ((2 <= deg)%nat -> nth 1 T 0 = s) /\
    forall k, (k + 2 < deg)%nat -> nth (k + 2) T 0 = 2 * s * nth (k + 1) T 0 - nth k T 0.
Proof. exact C53_chebychev_recurrence_pf. Qed.
Print Assumptions C53_chebychev_recurrence.

(** … that is, entry k at s = cos a is cos (k a) *)
Theorem C53_chebychev : forall deg a, (1 <= deg)%nat ->
  exists T, @chebychev ROps deg (@linspace ROps 0 (INR deg) deg) (cos a) = Ok [T] /\ length T = deg /\
    forall k, (k < deg)%nat -> nth k T 0 = cos (INR k * a).
Proof. exact C53_chebychev_pf. Qed.
Print Assumptions C53_chebychev.

Example C53_chebychev_ex : @chebychev ROps 4 (@linspace ROps 0 (INR 4) 4) (cos 0) = Ok [[1; 1; 1; 1]].
Proof. exact C53_chebychev_ex_pf. Qed.

(** ** Polynomial: the exponents are linspace(0, deg, deg), not 0, 1, ..., deg-1.  From deg = 3 on
    entry 1 at s = 2 is not an integer power of 2 *)
Theorem C53_polynomial_refuted : forall deg, (3 <= deg)%nat ->
  exists P, @polynomial ROps (@linspace ROps 0 (INR deg) deg) 2 = Ok [P] /\ length P = deg /\
    forall k : nat, nth 1 P 0 <> 2 ^ k.
Proof. exact C53_polynomial_refuted_pf. Qed.
Print Assumptions C53_polynomial_refuted.

(** Up to degree 2 the exponents are integers: 0, then 0 and 2 *)
Theorem C53_polynomial_partial : forall s, 0 < s ->
  @polynomial ROps (@linspace ROps 0 (INR 1) 1) s = Ok [[1]] /\ @polynomial ROps (@linspace ROps 0 (INR 2) 2) s = Ok [[1; s ^ 2]].
Proof. exact C53_polynomial_partial_pf. Qed.
Print Assumptions C53_polynomial_partial.

(** ** Fourier: the frequencies are multiples of deg/(deg-1), so from deg = 3 on the basis of a layer is not
    2 pi-periodic *)
Theorem C74_fourier_period_refuted : forall deg, (3 <= deg)%nat ->
  exists c0 s0 c1 s1, @fourier ROps cos sin (@linspace ROps 0 (INR deg) deg) 0 = Ok [c0; s0] /\
    @fourier ROps cos sin (@linspace ROps 0 (INR deg) deg) (2 * PI) = Ok [c1; s1] /\ nth 1 c0 0 = 1 /\ nth 1 c1 0 < 1.
Proof. exact C74_fourier_period_refuted_pf. Qed.
Print Assumptions C74_fourier_period_refuted.

(** … what holds: entry k is cos/sin of k * deg/(deg-1) * s, and the basis has period 2 pi (deg - 1) *)
Theorem C74_fourier_partial : forall deg s, (2 <= deg)%nat ->
  exists C S, @fourier ROps cos sin (@linspace ROps 0 (INR deg) deg) s = Ok [C; S] /\ length C = deg /\ length S = deg /\
    (forall k, (k < deg)%nat -> nth k C 0 = cos (s * (INR k * (INR deg / INR (deg - 1))))) /\
    (forall k, (k < deg)%nat -> nth k S 0 = sin (s * (INR k * (INR deg / INR (deg - 1))))) /\
    @fourier ROps cos sin (@linspace ROps 0 (INR deg) deg) (s + 2 * PI * INR (deg - 1)) = Ok [C; S].
Proof. exact C74_fourier_partial_pf. Qed.
Print Assumptions C74_fourier_partial.

(** GalLinear(bias=False): every forward raises TypeError (the tensor assigned to the name of a registered
    parameter), where y = x W^T is expected *)
Theorem C71_no_bias_refuted : forall (nin nout deg neig : nat) expfunc (dil sh : R) coeffs basis (input : list rvl),
  coeff_array ((nin + 1) * nout) deg neig coeffs ->
  input <> [] -> Forall (fun row => length row = nin + 1)%nat input ->
  expfunc (@linspace ROps 0 (INR deg) deg) (last (last input []) 0 * dil + sh) = Ok basis ->
  (neig <= length basis)%nat -> (forall i, (i < neig)%nat -> length (nth i basis []) = deg) ->
  @gal_linear ROps nin nout false deg neig expfunc dil sh coeffs input = Err TypeError.
Proof. exact C71_no_bias_refuted_pf. Qed.
Print Assumptions C71_no_bias_refuted.

Example C71_no_bias_ex :
  @gal_linear ROps 1 1 false 2 2 (@fourier ROps cos sin) 1 0 [[[1; 2]; [3; 4]]; [[5; 6]; [7; 8]]] [[1; 0]; [2; 0]] = Err TypeError.
Proof. exact C71_no_bias_ex_pf. Qed.

(** adaptive=True: centers and scales have deg+1 entries, the range has deg: every layer raises RuntimeError *)
Theorem C72_adaptive_refuted : forall deg (eps cen dil sh t : R) coeffs, (1 <= deg)%nat ->
  let p := @rbf_init ROps deg true eps cen in
  @calculate_weights ROps deg 1 (@gaussian_rbf ROps exp p) dil sh coeffs t = Err RuntimeError /\
  @calculate_weights ROps deg 1 (@vanilla_rbf ROps p) dil sh coeffs t = Err RuntimeError /\
  @calculate_weights ROps deg 1 (@multiquad_rbf ROps p) dil sh coeffs t = Err RuntimeError.
Proof. exact C72_adaptive_refuted_pf. Qed.
Print Assumptions C72_adaptive_refuted.

(** adaptive=False: whatever eps_scales and centers are, the values are those for scale 2 and center 0 *)
Theorem C73_values_partial : forall deg (eps cen s : R),
  let p := @rbf_init ROps deg false eps cen in
  let n := @linspace ROps 0 (INR deg) deg in
  @gaussian_rbf ROps exp p n s = Ok [map (fun k => exp (- (Rabs s * (k / 2)) ^ 2)) n] /\
  @vanilla_rbf ROps p n s = Ok [map (fun k => Rabs s * (k / 2)) n] /\
  @multiquad_rbf ROps p n s = Ok [map (fun k => 1 + sqrt (1 + (Rabs s * (k / 2)) ^ 2)) n].
Proof. exact C73_values_partial_pf. Qed.
Print Assumptions C73_values_partial.

(** … the arguments eps_scales and centers are ignored.  At s = centers the radius is zero, so the Gaussian
    basis should be 1 and the vanilla basis 0 at every degree; with any center but 0 they are not *)
Theorem C73_ignored_refuted : forall deg (eps cen : R), (2 <= deg)%nat -> cen <> 0 ->
  let p := @rbf_init ROps deg false eps cen in
  exists G V, @gaussian_rbf ROps exp p (@linspace ROps 0 (INR deg) deg) cen = Ok [G] /\ nth 1 G 0 < 1 /\
    @vanilla_rbf ROps p (@linspace ROps 0 (INR deg) deg) cen = Ok [V] /\ 0 < nth 1 V 0.
Proof. exact C73_ignored_refuted_pf. Qed.
Print Assumptions C73_ignored_refuted.

(** ** A layer *)
Example C52_layer_ex : exists out,
  @gal_linear ROps 1 1 true 2 2 (@fourier ROps cos sin) 1 0 [[[1; 2]; [3; 4]]; [[5; 6]; [7; 8]]] [[1; 0]; [2; 0]] = Ok out /\
  nth 0 (nth 0 out []) 0 = 16 /\ nth 0 (nth 1 out []) 0 = 20.
Proof. exact C52_layer_ex_pf. Qed.

