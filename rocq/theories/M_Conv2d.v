(** Model of GalConv2d, torchdyn/nn/galerkin.py:230-273, with torch.nn.functional.conv2d on zero-padded images. *)
From Coq Require Import ZArith QArith List Bool Arith.
From Verif Require Import Num Py Tensor M_Nn.
Import ListNotations.
Local Open Scope nat_scope.

Section Conv.
Context {K : NumOps}.

(** zero padding of a list, and of a plane of rows of width w *)
Definition pad1 {A} (p : nat) (z : A) (l : list A) : list A := repeat z p ++ l ++ repeat z p.
Definition pad_plane (p w : nat) (pl : list (list K)) : list (list K) :=
  pad1 p (repeat n0 (w + 2 * p)) (map (pad1 p n0) pl).
(** the ks x ks window with upper left corner (y, x), row after row *)
Definition window (ks y x : nat) (pl : list (list K)) : list K :=
  concat (map (fun row => firstn ks (skipn x row)) (firstn ks (skipn y pl))).

(** torch.nn.functional.conv2d(x, weight, bias, stride=stride, padding=pad), weight given as the flat list of
    its entries [o][c][i][j] *)
Definition conv2d (oc ic ks stride pad : nat) (weight bias : list K) (x : tensor K 4) : res (tensor K 4) :=
  match fst x with
  | [B; C; H; W] =>
      if (stride =? 0) || (ks =? 0) || negb (C =? ic) || (H + 2 * pad <? ks) || (W + 2 * pad <? ks) then Err RuntimeError
      else
        let oh := (H + 2 * pad - ks) / stride + 1 in
        let ow := (W + 2 * pad - ks) / stride + 1 in
        let kernel o c := firstn (ks * ks) (skipn ((o * ic + c) * (ks * ks)) weight) in
        Ok ([B; oc; oh; ow],
            map (fun img =>
              let planes := map (pad_plane pad W) img in
              map (fun o => map (fun y => map (fun u =>
                (vsum (map (fun c => vdot (kernel o c) (window ks (y * stride) (u * stride) (nth c planes []))) (seq 0 ic))
                 + nth o bias n0)%N)
                (seq 0 ow)) (seq 0 oh)) (seq 0 oc)) (snd x))
  | _ => Err RuntimeError
  end.

(** input[:, :-1] *)
Definition drop_last_channel (x : tensor K 4) : tensor K 4 :=
  (match fst x with B :: C :: r => B :: (C - 1) :: r | sh => sh end, map (@removelast (nd K 2)) (snd x)).

(** GalConv2d.__init__, line 262: the number of eigenfunctions in the shape of coeffs is 2 whatever the basis.
    GalConv2d.forward, lines 265-273.  With bias=False: see gal_linear. *)
Definition gal_conv2d (ic oc ks stride pad : nat) (bias : bool) (deg n_eig : nat) (expfunc : list K -> K -> res (list (list K)))
  (dilation shift : K) (coeffs : list (list (list K))) (input : tensor K 4) : res (tensor K 4) :=
  rbind (pylast (snd input)) (fun img => rbind (pylast img) (fun plane => rbind (pyget plane 0) (fun row => rbind (pyget row 0) (fun t =>
  rbind (calculate_weights deg n_eig expfunc dilation shift coeffs t) (fun w =>
  let (weight, b) := gal_conv_split ic oc ks w in
  if bias then conv2d oc ic ks stride pad weight b (drop_last_channel input) else Err TypeError))))).
End Conv.
