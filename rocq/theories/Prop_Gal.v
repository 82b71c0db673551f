(** Property theorems (generated by tools/genprop.py from Pf_Gal.v, which holds the proofs). *)
From Coq Require Import ZArith QArith Qreals Reals Lra Lia String List Bool.
From Verif Require Import Num Py Tensor M_Nn Spec_Nn Spec_Root L_Base L_Root.
Import ListNotations.
From Verif Require Import Pf_Gal.
Import ListNotations.
Local Open Scope R_scope.

(** calculate_weights(t): weight j is the sum over the degrees d and the eigenfunctions i of
    basis_i(d) * coeffs[j, d, i], for every basis returned by the expansion function *)
Theorem C52_weights : forall (deg neig W : nat) expfunc (dil sh t : R) coeffs basis,
  coeff_array W deg neig coeffs ->
  expfunc (@linspace ROps 0 (INR deg) deg) (t * dil + sh) = Ok basis ->
  (neig <= length basis)%nat -> (forall i, (i < neig)%nat -> length (nth i basis []) = deg) ->
  exists w, @calculate_weights ROps deg neig expfunc dil sh coeffs t = Ok w /\ length w = W /\
    forall j, (j < W)%nat -> nth j w 0 = expansion deg neig basis coeffs j.
Proof. exact C52_weights_pf. Qed.
Print Assumptions C52_weights.

(** GalLinear.forward: with t the last entry of the last row of the input, the output of row b, column o is
    sum_k x[b][k] * w[o*in + k] + w[in*out + o] where w are the weights at t *)
Theorem C52_layer : forall (nin nout deg neig : nat) expfunc (dil sh : R) coeffs basis (input : list rvl),
  coeff_array ((nin + 1) * nout) deg neig coeffs ->
  input <> [] -> Forall (fun row => length row = nin + 1)%nat input ->
  expfunc (@linspace ROps 0 (INR deg) deg) (last (last input []) 0 * dil + sh) = Ok basis ->
  (neig <= length basis)%nat -> (forall i, (i < neig)%nat -> length (nth i basis []) = deg) ->
  exists out, @gal_linear ROps nin nout true deg neig expfunc dil sh coeffs input = Ok out /\
    length out = length input /\ Forall (fun row => length row = nout) out /\
    forall b o, (b < length input)%nat -> (o < nout)%nat ->
      nth o (nth b out []) 0 = sum_up nin (fun k => nth k (nth b input []) 0 * expansion deg neig basis coeffs (o * nin + k)) +
                              expansion deg neig basis coeffs (nin * nout + o).
Proof. exact C52_layer_pf. Qed.
Print Assumptions C52_layer.

(** the output is linear in the coefficients (same input, same basis) *)
Theorem C52_linear : forall (nin nout deg neig : nat) expfunc (dil sh a1 a2 : R) c1 c2 c3 basis (input : list rvl),
  coeff_array ((nin + 1) * nout) deg neig c1 -> coeff_array ((nin + 1) * nout) deg neig c2 -> coeff_array ((nin + 1) * nout) deg neig c3 ->
  (forall j d i, (j < (nin + 1) * nout)%nat -> (d < deg)%nat -> (i < neig)%nat -> coeff c3 j d i = a1 * coeff c1 j d i + a2 * coeff c2 j d i) ->
  input <> [] -> Forall (fun row => length row = nin + 1)%nat input ->
  expfunc (@linspace ROps 0 (INR deg) deg) (last (last input []) 0 * dil + sh) = Ok basis ->
  (neig <= length basis)%nat -> (forall i, (i < neig)%nat -> length (nth i basis []) = deg) ->
  exists o1 o2 o3, @gal_linear ROps nin nout true deg neig expfunc dil sh c1 input = Ok o1 /\
    @gal_linear ROps nin nout true deg neig expfunc dil sh c2 input = Ok o2 /\
    @gal_linear ROps nin nout true deg neig expfunc dil sh c3 input = Ok o3 /\
    forall b o, (b < length input)%nat -> (o < nout)%nat -> nth o (nth b o3 []) 0 = a1 * nth o (nth b o1 []) 0 + a2 * nth o (nth b o2 []) 0.
Proof. exact C52_linear_pf. Qed.
Print Assumptions C52_linear.

(** a freshly initialised layer (coefficients zero) returns zeros *)
Theorem C52_zero : forall (nin nout deg neig : nat) expfunc (dil sh : R) coeffs basis (input : list rvl),
  coeff_array ((nin + 1) * nout) deg neig coeffs -> (forall j d i, coeff coeffs j d i = 0) ->
  input <> [] -> Forall (fun row => length row = nin + 1)%nat input ->
  expfunc (@linspace ROps 0 (INR deg) deg) (last (last input []) 0 * dil + sh) = Ok basis ->
  (neig <= length basis)%nat -> (forall i, (i < neig)%nat -> length (nth i basis []) = deg) ->
  exists out, @gal_linear ROps nin nout true deg neig expfunc dil sh coeffs input = Ok out /\ length out = length input /\
    forall b o, (b < length input)%nat -> (o < nout)%nat -> nth o (nth b out []) 0 = 0.
Proof. exact C52_zero_pf. Qed.
Print Assumptions C52_zero.

(** GalConv2d: kernel entries and biases partition the weight vector *)
Theorem C52_conv_split : forall (nin nout ks : nat) (w : rvl), length w = (nout * nin * ks * ks + nout)%nat ->
  let (k, b) := @gal_conv_split ROps nin nout ks w in
  w = k ++ b /\ length k = (nout * nin * ks * ks)%nat /\ length b = nout.
Proof. exact C52_conv_split_pf. Qed.
Print Assumptions C52_conv_split.

