(** Property theorems (generated by tools/genprop.py from Pf_Conv2d.v, which holds the proofs). *)
From Coq Require Import ZArith QArith Qreals Reals Lra Lia String List Bool.
From Verif Require Import Num Py Tensor M_Nn M_Conv2d Spec_Nn Spec_Root Spec_Image L_Base L_Root Pf_Nn Pf_Gal.
Import ListNotations.
From Verif Require Import Pf_Conv2d.
Import ListNotations.
Local Open Scope R_scope.

(** C113. DepthCat followed by GalConv2d is the zero-padded convolution of the images with the depth-dependent kernel and bias
    given by the eigenfunction expansion of the coefficients at the current depth. *)
Theorem C113_conv : forall ic oc ks stride pad deg neig expfunc (dil sh t : R) coeffs basis (x : tensor R 4) B H W,
  is_tensor 4 x -> fst x = [B; ic; H; W] -> (1 <= B)%nat -> (1 <= H)%nat -> (1 <= W)%nat ->
  (1 <= ks)%nat -> (1 <= stride)%nat -> (ks <= H + 2 * pad)%nat -> (ks <= W + 2 * pad)%nat ->
  coeff_array (oc * ic * ks * ks + oc) deg 2 coeffs ->
  expfunc (@linspace ROps 0 (INR deg) deg) (t * dil + sh) = Ok basis ->
  (neig <= length basis)%nat -> (forall i, (i < neig)%nat -> length (nth i basis []) = deg) ->
  exists z out, @depthcat ROps 4 1 (Some t) x = Ok z /\
    @gal_conv2d ROps ic oc ks stride pad true deg neig expfunc dil sh coeffs z = Ok out /\ is_tensor 4 out /\
    fst out = [B; oc; positions H pad ks stride; positions W pad ks stride] /\
    forall b o y u, (b < B)%nat -> (o < oc)%nat -> (y < positions H pad ks stride)%nat -> (u < positions W pad ks stride)%nat ->
      entry 4 (snd out) [b; o; y; u] =
      Some (convolved ic ks stride pad (fun o c i j => expansion deg neig basis coeffs (((o * ic + c) * ks + i) * ks + j)%nat)
              (fun o => expansion deg neig basis coeffs (oc * ic * ks * ks + o)%nat) x b o y u).
Proof. exact C113_conv_pf. Qed.
Print Assumptions C113_conv.

(** C113. Moving the images by multiples of the stride moves the output by the multiple. *)
Theorem C113_shift : forall ic oc ks stride pad deg neig expfunc (dil sh t : R) coeffs basis (x x' z z' out out' : tensor R 4) B H W (dy du : Z),
  is_tensor 4 x -> fst x = [B; ic; H; W] -> is_tensor 4 x' -> fst x' = [B; ic; H; W] -> (1 <= B)%nat -> (1 <= H)%nat -> (1 <= W)%nat ->
  (1 <= ks)%nat -> (1 <= stride)%nat -> (ks <= H + 2 * pad)%nat -> (ks <= W + 2 * pad)%nat ->
  coeff_array (oc * ic * ks * ks + oc) deg 2 coeffs ->
  expfunc (@linspace ROps 0 (INR deg) deg) (t * dil + sh) = Ok basis ->
  (neig <= length basis)%nat -> (forall i, (i < neig)%nat -> length (nth i basis []) = deg) ->
  (forall b c u v, pixel x' b c u v = pixel x b c (u - Z.of_nat stride * dy) (v - Z.of_nat stride * du)) ->
  @depthcat ROps 4 1 (Some t) x = Ok z -> @depthcat ROps 4 1 (Some t) x' = Ok z' ->
  @gal_conv2d ROps ic oc ks stride pad true deg neig expfunc dil sh coeffs z = Ok out ->
  @gal_conv2d ROps ic oc ks stride pad true deg neig expfunc dil sh coeffs z' = Ok out' ->
  forall b o y u y' u', (b < B)%nat -> (o < oc)%nat ->
    (y < positions H pad ks stride)%nat -> (u < positions W pad ks stride)%nat ->
    (y' < positions H pad ks stride)%nat -> (u' < positions W pad ks stride)%nat ->
    Z.of_nat y' = (Z.of_nat y + dy)%Z -> Z.of_nat u' = (Z.of_nat u + du)%Z ->
    entry 4 (snd out') [b; o; y'; u'] = entry 4 (snd out) [b; o; y; u].
Proof. exact C113_shift_pf. Qed.
Print Assumptions C113_shift.

(** C113. With a single eigenfunction (every basis except Fourier) the second half of the coefficients has no effect on the output:
    the last dimension of the array is always 2. *)
Theorem C113_idle_coefficients : forall ic oc ks stride pad deg neig expfunc (dil sh t : R) coeffs coeffs' basis (x z out out' : tensor R 4) B H W,
  is_tensor 4 x -> fst x = [B; ic; H; W] -> (1 <= B)%nat -> (1 <= H)%nat -> (1 <= W)%nat ->
  (1 <= ks)%nat -> (1 <= stride)%nat -> (ks <= H + 2 * pad)%nat -> (ks <= W + 2 * pad)%nat ->
  coeff_array (oc * ic * ks * ks + oc) deg 2 coeffs -> coeff_array (oc * ic * ks * ks + oc) deg 2 coeffs' ->
  expfunc (@linspace ROps 0 (INR deg) deg) (t * dil + sh) = Ok basis ->
  neig = 1%nat -> (neig <= length basis)%nat -> length (nth 0 basis []) = deg ->
  (forall k d, coeff coeffs k d 0 = coeff coeffs' k d 0) ->
  @depthcat ROps 4 1 (Some t) x = Ok z ->
  @gal_conv2d ROps ic oc ks stride pad true deg neig expfunc dil sh coeffs z = Ok out ->
  @gal_conv2d ROps ic oc ks stride pad true deg neig expfunc dil sh coeffs' z = Ok out' ->
  forall b o y u, (b < B)%nat -> (o < oc)%nat -> (y < positions H pad ks stride)%nat -> (u < positions W pad ks stride)%nat ->
    entry 4 (snd out') [b; o; y; u] = entry 4 (snd out) [b; o; y; u].
Proof. exact C113_idle_coefficients_pf. Qed.
Print Assumptions C113_idle_coefficients.

(** C71. Without bias the convolutional layer fails as the linear one does: the weights and the depth are computed, then the assignment raises TypeError. *)
Theorem C71_conv_no_bias_refuted : forall ic oc ks stride pad deg neig expfunc (dil sh t : R) coeffs basis (x : tensor R 4) B H W,
  is_tensor 4 x -> fst x = [B; ic; H; W] -> (1 <= B)%nat -> (1 <= H)%nat -> (1 <= W)%nat ->
  coeff_array (oc * ic * ks * ks + oc) deg 2 coeffs ->
  expfunc (@linspace ROps 0 (INR deg) deg) (t * dil + sh) = Ok basis ->
  (neig <= length basis)%nat -> (forall i, (i < neig)%nat -> length (nth i basis []) = deg) ->
  exists z, @depthcat ROps 4 1 (Some t) x = Ok z /\ @gal_conv2d ROps ic oc ks stride pad false deg neig expfunc dil sh coeffs z = Err TypeError.
Proof. exact C71_conv_no_bias_refuted_pf. Qed.
Print Assumptions C71_conv_no_bias_refuted.

(** non-vacuity: one 2x2 image, padding 1, stride 2, one Fourier frequency; the corner output sees one pixel *)
Example C113_conv_ex : exists z out,
  @depthcat ROps 4 1 (Some 5) ([1; 1; 2; 2]%nat, [[[[1; 2]; [3; 4]]]]) = Ok z /\
  @gal_conv2d ROps 1 1 2 2 1 true 1 2 (@fourier ROps cos sin) 1 0 [[[1; 9]]; [[2; 9]]; [[3; 9]]; [[4; 9]]; [[7; 9]]] z = Ok out /\
  fst out = [1; 1; 2; 2]%nat /\ entry 4 (snd out) [0; 0; 0; 0]%nat = Some (4 * 1 + 7) /\ entry 4 (snd out) [0; 0; 1; 0]%nat = Some (2 * 3 + 7).
Proof. exact C113_conv_ex_pf. Qed.

