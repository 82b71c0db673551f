(** Property theorems (generated by tools/genprop.py from Pf_Attr.v, which holds the proofs). *)
From Coq Require Import ZArith QArith Reals Lia Lra List Bool.
From Verif Require Import Num Py Tensor M_Attr L_Base.
Import ListNotations.
Local Notation length := List.length.
From Verif Require Import Pf_Attr.
Import ListNotations.
Local Open Scope nat_scope.

(** C161, the part that holds: if the only modules with an attribute t are those of the library, every sequence of calls returns the
    values that are meant, the counter nfe grows by one for each call, and no attribute of other modules is touched. *)
Theorem C161_no_clash_partial :
  forall (K : NumOps) (X : Type) (vf : @field K X) (lib : list bool) (ms : list (slot K)) (nfe : nat) (cs : list (K * X)),
  no_clash lib ms ->
  exists ms', run_calls vf ms nfe cs = Ok (ms', nfe + length cs, map (fun c => vf (meant lib ms (fst c)) (fst c) (snd c)) cs) /\
    (forall i, nth_error lib i = Some false -> nth_error ms' i = nth_error ms i).
Proof. exact C161_no_clash_partial_pf. Qed.
Print Assumptions C161_no_clash_partial.

(** C161, refuted: a module with a parameter, a submodule or a property named t cannot be used in a field at all: every call of
    the field raises TypeError or AttributeError. *)
Theorem C161_parameter_refuted :
  forall (K : NumOps) (X : Type) (vf : @field K X) (ms : list (slot K)) (s : slot K) (nfe : nat) (t : K) (x : X) (cs : list (K * X)),
  In s ms -> ~ assignable s ->
  run_calls vf ms nfe ((t, x) :: cs) = Err TypeError \/ run_calls vf ms nfe ((t, x) :: cs) = Err AttributeError.
Proof. exact C161_parameter_refuted_pf. Qed.
Print Assumptions C161_parameter_refuted.

(** C161, refuted: attributes and buffers named t of other modules are overwritten by the time of the last call, so they also change in
    what state_dict saves. *)
Theorem C161_overwrite_refuted :
  forall (K : NumOps) (X : Type) (vf : @field K X) (ms : list (slot K)) (nfe : nat) (cs : list (K * X)) (t : K) (x : X),
  Forall assignable ms ->
  exists ms' ys, run_calls vf ms nfe (cs ++ [(t, x)]) = Ok (ms', nfe + length cs + 1, ys) /\
    (forall i v, nth_error ms i = Some (TPlain v) -> nth_error ms' i = Some (TPlain (Some t))) /\
    (forall i v, nth_error ms i = Some (TBuffer v) -> nth_error ms' i = Some (TBuffer (Some t))).
Proof. exact C161_overwrite_refuted_pf. Qed.
Print Assumptions C161_overwrite_refuted.

(** C161, refuted: the value of the field is not the one that is meant, for every time constant and every other time. *)
Theorem C161_value_refuted :
  forall (tau t x : R) (nfe : nat), (tau <> 0 -> t <> 0 -> t <> tau -> x <> 0 ->
  relaxation [@TPlain ROps (Some tau)] t x = - x / tau /\
  exists ms' y, run_calls relaxation [@TPlain ROps (Some tau)] nfe [(t, x)] = Ok (ms', nfe + 1, [y])%nat /\ y = - x / t /\
    y <> relaxation (meant [false] [@TPlain ROps (Some tau)] t) t x)%R.
Proof. exact C161_value_refuted_pf. Qed.
Print Assumptions C161_value_refuted.

(** One module of the library and one without attribute t, three calls; a field with a parameter named t; the time constant 2 *)
Example C161_ex :
  no_clash [true; false] [@TPlain ROps None; Absent] /\
  (forall nfe, exists ms', @run_calls ROps R (fun ms (t x : R) => match ms with TPlain (Some u) :: _ => (u + x)%R | _ => 0%R end)
     [@TPlain ROps None; Absent] nfe [(1, 2); (3, 4); (5, 6)]%R = Ok (ms', nfe + 3, [1 + 2; 3 + 4; 5 + 6]%R)) /\
  ~ assignable (@TParam ROps 1%R) /\ Forall assignable [@TPlain ROps (Some 2%R)] /\
  relaxation [@TPlain ROps (Some 2%R)] 1%R 2%R = (-1)%R.
Proof. exact C161_ex_pf. Qed.

