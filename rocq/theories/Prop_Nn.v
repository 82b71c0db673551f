(** Property theorems (generated by tools/genprop.py from Pf_Nn.v, which holds the proofs). *)
From Coq Require Import ZArith QArith Qreals Reals Lra Lia String List Bool.
From Verif Require Import Num Py Tensor M_Nn Spec_Nn L_Base.
Import ListNotations.
From Verif Require Import Pf_Nn.
Import ListNotations.
Local Open Scope nat_scope.

(** Augmenter() with order='first': zeros in front along the requested dimension (counted from either
    end), then the input, unchanged and contiguous *)
Theorem C51_augmenter_first : forall (K : NumOps) r idx d dims (x : tensor K r), is_tensor r x -> denotes_dim r idx d ->
  exists y, augmenter r idx dims None "first" x = Ok y /\ is_tensor r y /\
    fst y = with_coord d (dims + nth d (fst x) 0) (fst x) /\
    forall ix, in_shape (fst y) ix -> entry r (snd y) ix =
      if nth d ix 0 <? dims then Some n0 else entry r (snd x) (with_coord d (nth d ix 0 - dims) ix).
Proof. exact C51_augmenter_first_pf. Qed.
Print Assumptions C51_augmenter_first.

(** … with any other order: the input, unchanged, then the zeros *)
Theorem C51_augmenter_last : forall (K : NumOps) r idx d dims order (x : tensor K r), is_tensor r x -> denotes_dim r idx d -> order <> "first"%string ->
  exists y, augmenter r idx dims None order x = Ok y /\ is_tensor r y /\
    fst y = with_coord d (nth d (fst x) 0 + dims) (fst x) /\
    forall ix, in_shape (fst y) ix -> entry r (snd y) ix =
      if nth d ix 0 <? nth d (fst x) 0 then entry r (snd x) ix else Some n0.
Proof. exact C51_augmenter_last_pf. Qed.
Print Assumptions C51_augmenter_last.

(** Augmenter(augment_func=g): the features g(x), in front or behind *)
Theorem C51_augment_func : forall (K : NumOps) r idx d dims g order (x z : tensor K r), is_tensor r x -> is_tensor r z -> denotes_dim r idx d ->
  g x = Ok z -> with_coord d 0 (fst z) = with_coord d 0 (fst x) ->
  exists y, augmenter r idx dims (Some g) order x = Ok y /\ is_tensor r y /\
    fst y = with_coord d (nth d (fst z) 0 + nth d (fst x) 0) (fst x) /\
    (order = "first"%string -> forall ix, entry r (snd y) ix =
      if nth d ix 0 <? nth d (fst z) 0 then entry r (snd z) ix else entry r (snd x) (with_coord d (nth d ix 0 - nth d (fst z) 0) ix)) /\
    (order <> "first"%string -> forall ix, entry r (snd y) ix =
      if nth d ix 0 <? nth d (fst x) 0 then entry r (snd x) ix else entry r (snd z) (with_coord d (nth d ix 0 - nth d (fst x) 0) ix)).
Proof. exact C51_augment_func_pf. Qed.
Print Assumptions C51_augment_func.

(** DepthCat appends one slice, filled with the time *)
Theorem C51_depthcat : forall r idx d (t : R) (x : tensor ROps r), is_tensor r x -> denotes_dim r idx d ->
  exists y, depthcat (K := ROps) r idx (Some t) x = Ok y /\ is_tensor r y /\
    fst y = with_coord d (nth d (fst x) 0 + 1) (fst x) /\
    forall ix, in_shape (fst y) ix -> entry r (snd y) ix = if nth d ix 0 <? nth d (fst x) 0 then entry r (snd x) ix else Some t.
Proof. exact C51_depthcat_pf. Qed.
Print Assumptions C51_depthcat.

(** DataControl appends the control along dimension 1 *)
Theorem C51_datacontrol : forall (K : NumOps) r (u x : tensor K r), is_tensor r x -> is_tensor r u -> 2 <= r ->
  with_coord 1 0 (fst x) = with_coord 1 0 (fst u) ->
  exists y, datacontrol r (Some u) x = Ok y /\ is_tensor r y /\
    fst y = with_coord 1 (nth 1 (fst x) 0 + nth 1 (fst u) 0) (fst x) /\
    forall ix, entry r (snd y) ix =
      if nth 1 ix 0 <? nth 1 (fst x) 0 then entry r (snd x) ix else entry r (snd u) (with_coord 1 (nth 1 ix 0 - nth 1 (fst x) 0) ix).
Proof. exact C51_datacontrol_pf. Qed.
Print Assumptions C51_datacontrol.

(** sizes that differ elsewhere, or a dimension the tensor does not have, are errors, not wrong results *)
Theorem C51_mismatch : forall (K : NumOps) r (u x : tensor K r), 2 <= r -> with_coord 1 0 (fst x) <> with_coord 1 0 (fst u) ->
  datacontrol r (Some u) x = Err RuntimeError.
Proof. exact C51_mismatch_pf. Qed.
Print Assumptions C51_mismatch.

Theorem C51_bad_dimension : forall (K : NumOps) r idx dims order t (x : tensor K r), (idx < - Z.of_nat r \/ Z.of_nat r <= idx)%Z ->
  augmenter r idx dims None order x = Err IndexError /\ depthcat r idx t x = Err IndexError.
Proof. exact C51_bad_dimension_pf. Qed.
Print Assumptions C51_bad_dimension.

(** DepthCat outside a DEFunc has no time *)
Theorem C51_no_time : forall (K : NumOps) r idx d (x : tensor K r), denotes_dim r idx d -> depthcat r idx None x = Err TypeError.
Proof. exact C51_no_time_pf. Qed.
Print Assumptions C51_no_time.

Example C51_ex : 
  let x : tensor ROps 2 := ([2; 2], [[1; 2]; [3; 4]]%R) in
  is_tensor 2 x /\ denotes_dim 2 (-1) 1 /\
  augmenter (K := ROps) 2 (-1) 1 None "first" x = Ok ([2; 3], [[Q2R 0; 1; 2]; [Q2R 0; 3; 4]]%R) /\
  augmenter (K := ROps) 2 0 1 None "last" x = Ok ([3; 2], [[1; 2]; [3; 4]; [Q2R 0; Q2R 0]]%R) /\
  depthcat (K := ROps) 2 1 (Some 7%R) x = Ok ([2; 3], [[1; 2; 7 * Q2R 1]; [3; 4; 7 * Q2R 1]]%R) /\
  datacontrol (K := ROps) 2 (Some ([2; 1], [[5]; [6]]%R)) x = Ok ([2; 3], [[1; 2; 5]; [3; 4; 6]]%R).
Proof. exact C51_ex_pf. Qed.

