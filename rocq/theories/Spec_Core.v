(** Vector fields as users write them, and the layout of higher-order states. *)
From Coq Require Import String List Bool.
From Verif Require Import Num Py Tensor M_Core.
Import ListNotations.
Local Open Scope nat_scope.
Local Open Scope string_scope.
Notation length := List.length.

(** a function or module with the given parameters, no starred ones; the last [ndef] have defaults *)
Definition takes {K A} (c : @callable K A) (params : list string) (ndef : nat) : Prop :=
  c_sig c = Some (MkSig params ndef false false).

(** The vector fields whose value at (t, x) is the body run with the parameters bound to [env]:
    f(x); a module with forward(t, x); a function f(t, x, args) (args is then the empty dictionary).
    The state parameter may have any name. *)
Inductive evaluates {K A} (empty : A) (c : @callable K A) (t : K) (x : list (vec K)) : list (string * @pyval K A) -> Prop :=
| by_state p : takes c [p] 0 -> p <> "t" -> evaluates empty c t x [(p, VState x)]
| by_module p : c_module c = true -> takes c ["t"; p] 0 -> p <> "t" -> evaluates empty c t x [("t", VTime t); (p, VState x)]
| by_function p ndef : c_module c = false -> takes c ["t"; p; "args"] ndef -> ndef <= 1 -> p <> "t" -> p <> "args" ->
    evaluates empty c t x [("t", VTime t); (p, VState x); ("args", VArgs empty)].

(** [x] holds, in every row, [n] blocks of [w] columns: the derivatives of order 0 to n - 1 *)
Definition stacked {T} (n w : nat) (x : list (list (list T))) : Prop :=
  Forall (fun row => length row = n /\ Forall (fun b => length b = w) row) x.

(** every control module comes after all the divergence (trace) modules *)
Fixpoint controls_after_traces (mods : list submodule) : Prop :=
  match mods with
  | [] => True
  | m :: mods' => (m_control m = true -> Forall (fun q => m_trace q = false) mods') /\ controls_after_traces mods'
  end.
(** number of leading columns that are not data *)
Definition extra_columns (mods : list submodule) (loss_in_state : bool) : nat :=
  (if loss_in_state then 1 else 0) + length (filter m_trace mods).
