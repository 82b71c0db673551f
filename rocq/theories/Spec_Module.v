(** Trees of modules. *)
From Coq Require Import List.
From Verif Require Import M_Module.
Import ListNotations.

(** [n] is [m] or is held by it, directly or through other modules *)
Inductive holds : module -> module -> Prop :=
| holds_self m : holds m m
| holds_kid m k n : In k (kids m) -> holds k n -> holds m n.

(** identities identify objects *)
Definition consistent (m : module) : Prop :=
  forall a b, holds m a -> holds m b -> oid a = oid b -> a = b.

(** derived from one of the callback classes, without a __hash__ of its own or decorated once more (attr.s then removes it) *)
Inductive callback_class : klass -> Prop :=
| cb_event : callback_class EventCallback
| cb_stochastic : callback_class StochasticEventCallback
| cb_derived name base decorated : callback_class base -> callback_class (Derived name base decorated false)
| cb_decorated name base own_hash : callback_class base -> callback_class (Derived name base true own_hash).

(** plain torch modules and classes derived from them *)
Inductive plain_class : klass -> Prop :=
| pl_module : plain_class NnModule
| pl_derived name base own_hash : plain_class base -> plain_class (Derived name base false own_hash).
