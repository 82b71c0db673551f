(** Property theorems (generated by tools/genprop.py from Pf_Module.v, which holds the proofs). *)
From Coq Require Import List Bool Arith Lia.
From Verif Require Import Py M_Module Spec_Module.
Import ListNotations.
From Verif Require Import Pf_Module.
Import ListNotations.
Local Open Scope nat_scope.

(** C140, refuted.  Whatever a module holds besides: if one of the modules of the tree is an event callback, modules()
    and parameters() raise TypeError. *)
Theorem C140_parameters_refuted :
  forall m cb, consistent m -> holds m cb -> callback_class (cls cb) ->
  modules m = Err TypeError /\ parameters m = Err TypeError.
Proof. exact C140_parameters_refuted_pf. Qed.
Print Assumptions C140_parameters_refuted.

(** C140 for modules that hold no callbacks: parameters() lists the parameters of all modules of the tree, each once,
    also if modules or parameters are shared. *)
Theorem C140_plain :
  forall m, consistent m -> (forall d, holds m d -> plain_class (cls d)) ->
  exists ps, parameters m = Ok ps /\ NoDup ps /\ (forall p, In p ps <-> exists d, holds m d /\ In p (own d)).
Proof. exact C140_plain_pf. Qed.
Print Assumptions C140_plain.

(** C140, refuted for train(), eval() and to(): they raise TypeError if a callback is held by the module. *)
Theorem C140_train_refuted :
  forall m k cb, consistent m -> In k (kids m) -> holds k cb -> callback_class (cls cb) ->
  forall fuel, weight m <= fuel -> train fuel m = Err TypeError.
Proof. exact C140_train_refuted_pf. Qed.
Print Assumptions C140_train_refuted.

(** C140, what holds: train(), eval() and to() of a callback itself, or of any other module, reach exactly the modules of
    the tree if no callback is held below. *)
Theorem C140_train :
  forall m, consistent m -> (forall k d, In k (kids m) -> holds k d -> plain_class (cls d)) ->
  forall fuel, weight m <= fuel -> exists l, train fuel m = Ok l /\ forall i, In i l <-> exists d, holds m d /\ oid d = i.
Proof. exact C140_train_pf. Qed.
Print Assumptions C140_train.

(** C140, refuted: two callbacks of one class are equal whatever parameters and submodules they have; the index of a
    callback in a list is that of the first callback of its class. *)
Theorem C140_equal_refuted :
  forall c i j p q ks ls l, callback_class c ->
  module_eq (Mod i c p ks) (Mod j c q ls) = true /\ index (Mod i c p ks :: Mod j c q ls :: l) (Mod j c q ls) = Ok 0.
Proof. exact C140_equal_refuted_pf. Qed.
Print Assumptions C140_equal_refuted.

Example C140_ex : consistent with_callback /\ holds with_callback (Mod 1 (Derived 7 EventCallback true false) [2] []) /\
  callback_class (Derived 7 EventCallback true false) /\
  consistent with_shared /\ (forall d, holds with_shared d -> plain_class (cls d)) /\ parameters with_shared = Ok [1; 2; 3].
Proof. exact C140_ex_pf. Qed.

