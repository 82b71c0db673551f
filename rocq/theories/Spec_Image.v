(** Images and their convolution, by indices. *)
From Coq Require Import Reals List ZArith.
From Verif Require Import M_Nn Spec_Nn.
Import ListNotations.
Local Open Scope R_scope.

(** the pixel (u, v) of channel c of image b; zero outside the image *)
Definition pixel (x : tensor R 4) (b c : nat) (u v : Z) : R :=
  if ((0 <=? u) && (0 <=? v))%Z%bool
  then match entry 4 (snd x) [b; c; Z.to_nat u; Z.to_nat v] with Some a => a | None => 0 end
  else 0.

(** number of positions of a window of size ks moved by steps of size stride over size + 2 pad *)
Definition positions (size pad ks stride : nat) : nat := ((size + 2 * pad - ks) / stride + 1)%nat.

(** value at (y, u) of channel o of the convolution of image b with the kernel w o c i j and the bias beta o *)
Definition convolved (ic ks stride pad : nat) (w : nat -> nat -> nat -> nat -> R) (beta : nat -> R) (x : tensor R 4) (b o y u : nat) : R :=
  sum_up ic (fun c => sum_up ks (fun i => sum_up ks (fun j =>
    w o c i j * pixel x b c (Z.of_nat (y * stride + i) - Z.of_nat pad) (Z.of_nat (u * stride + j) - Z.of_nat pad)))) + beta o.
