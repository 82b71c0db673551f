(** Model of the attributes that DEFunc.forward assigns in the modules of a vector field: torchdyn/core/defunc.py lines
    60-65 and 77-82 (order 1, no integral loss), with the part of torch.nn.Module.__setattr__ and object.__setattr__ that
    decides about [module.t = t].

    torch.nn.Module is not part of the repository; modelled from its documentation: assigning a tensor that is not a
    Parameter to a registered parameter or to a submodule raises TypeError, to a buffer replaces the buffer, to a property
    without setter raises AttributeError, to anything else sets (or shadows) the attribute of the object.
    Simplification: the modules are listed in the order of named_modules, each once; of every module only the attribute
    named t is represented; the time is a scalar. *)
From Coq Require Import List Bool.
From Verif Require Import Num Py.
Import ListNotations.

Section Attr.
Context {K : NumOps} {X : Type}.

(** what hasattr(module, "t") finds *)
Inductive slot : Type :=
| Absent
| TPlain (v : option K)        (* instance or class attribute; None is Python's None, as in a new DepthCat *)
| TBuffer (v : option K)       (* register_buffer("t", ...) *)
| TParam (v : K)           (* self.t = nn.Parameter(...) *)
| TChild                       (* self.t = nn.Linear(...) *)
| TProp (v : K).           (* a property without setter *)

(** line 64 *)
Definition has_t (s : slot) : bool := match s with Absent => false | _ => true end.

(** module.t = t, line 65 *)
Definition set_t (s : slot) (t : K) : res slot :=
  match s with
  | Absent | TPlain _ => Ok (TPlain (Some t))
  | TBuffer _ => Ok (TBuffer (Some t))
  | TParam _ | TChild => Err TypeError
  | TProp _ => Err AttributeError
  end.

(** lines 63-65 *)
Fixpoint assign_all (ms : list slot) (t : K) : res (list slot) :=
  match ms with
  | [] => Ok []
  | s :: ms' => rbind (if has_t s then set_t s t else Ok s) (fun s' => rmap (cons s') (assign_all ms' t))
  end.

(** A field whose value depends on the attributes of its modules.
    DEFunc.forward: the attributes afterwards, the counter nfe afterwards, the value *)
Definition field : Type := list slot -> K -> X -> X.
Definition defunc_forward (vf : field) (ms : list slot) (nfe : nat) (t : K) (x : X) : res (list slot * nat * X) :=
  rbind (assign_all ms t) (fun ms' => Ok (ms', nfe + 1, vf ms' t x)).

(** the calls made by a solver, one after the other: attributes and counter afterwards, and the values *)
Fixpoint run_calls (vf : field) (ms : list slot) (nfe : nat) (cs : list (K * X)) : res (list slot * nat * list X) :=
  match cs with
  | [] => Ok (ms, nfe, [])
  | (t, x) :: cs' =>
      rbind (defunc_forward vf ms nfe t x) (fun '(ms', n', y) =>
      rmap (fun '(ms'', n'', ys) => (ms'', n'', y :: ys)) (run_calls vf ms' n' cs'))
  end.
End Attr.
Arguments slot : clear implicits.
Arguments field : clear implicits.
