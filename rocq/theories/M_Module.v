(** Model of module trees that hold event callbacks: torchdyn/numerics/utils.py lines 84-111 (EventCallback and
    StochasticEventCallback are decorated with attr.s), together with the parts of attrs and torch.nn.Module that decide
    whether such trees can be traversed.

    attr.s without arguments has eq=True, unsafe_hash=None, frozen=False.  attrs then writes __eq__, which compares the
    tuples of the attr.ib fields of two objects of the same class, and sets __hash__ = None.  Subclasses inherit both
    unless they define __hash__ themselves.

    torch.nn.Module is not part of the repository; modelled from its documentation: named_modules, named_children and
    parameters keep a memo set of the objects already seen.  Generators are modelled as the list of all their values.
    Simplification: a module is None nowhere in _modules; prefixes and names are left out. *)
From Coq Require Import List Bool Arith.
From Verif Require Import Py.
Import ListNotations.

(** attrs: is a class hashable after the decoration?  [None] stands for unsafe_hash=None *)
Definition attrs_hashable (eq frozen : bool) (unsafe_hash : option bool) (inherited : bool) : bool :=
  match unsafe_hash with
  | Some true => true
  | Some false => inherited
  | None => if eq then frozen else inherited
  end.

(** nn.Module hashes by identity; the two callback classes, lines 84 and 97; classes derived from them, with and
    without the decoration (the tutorials decorate them once more) and with a __hash__ of their own *)
Inductive klass : Type :=
| NnModule | EventCallback | StochasticEventCallback
| Derived (name : nat) (base : klass) (decorated own_hash : bool).

Fixpoint hashable (c : klass) : bool :=
  match c with
  | NnModule => true
  | EventCallback | StochasticEventCallback => attrs_hashable true false None true
  | Derived _ b decorated own_hash =>
      let h := own_hash || hashable b in if decorated then attrs_hashable true false None h else h
  end.

(** a module object: identity, class, identities of its own parameters (_parameters), submodules (_modules) *)
Inductive module : Type := Mod (oid : nat) (cls : klass) (own : list nat) (kids : list module).
Definition oid m := let 'Mod i _ _ _ := m in i.
Definition cls m := let 'Mod _ c _ _ := m in c.
Definition own m := let 'Mod _ _ p _ := m in p.
Definition kids m := let 'Mod _ _ _ k := m in k.

Definition mem (i : nat) (l : list nat) : bool := existsb (Nat.eqb i) l.

(** [self not in memo] hashes self *)
Definition seen (m : module) (memo : list nat) : res bool :=
  if hashable (cls m) then Ok (mem (oid m) memo) else Err TypeError.

(** list(named_modules(memo)): the memo afterwards and the modules in order *)
Fixpoint named_modules (memo : list nat) (m : module) {struct m} : res (list nat * list module) :=
  rbind (seen m memo) (fun b =>
  if b then Ok (memo, []) else
  let 'Mod i c p ks := m in
  rbind ((fix go memo ks := match ks with
                 | [] => Ok (memo, [])
                 | k :: ks' => rbind (named_modules memo k) (fun '(memo', l) => rmap (fun '(memo'', l') => (memo'', l ++ l')) (go memo' ks'))
                 end) (i :: memo) ks) (fun '(memo', l) => Ok (memo', m :: l))).

Definition modules (m : module) : res (list module) := rmap snd (named_modules [] m).

(** list(parameters()): the parameters of all modules, each once (tensors hash by identity) *)
Fixpoint dedup (memo l : list nat) : list nat :=
  match l with
  | [] => []
  | p :: l' => if mem p memo then dedup memo l' else p :: dedup (p :: memo) l'
  end.
Definition parameters (m : module) : res (list nat) := rmap (fun ms => dedup [] (concat (map own ms))) (modules m).

(** list(children()) *)
Fixpoint children_from (memo : list nat) (ks : list module) : res (list module) :=
  match ks with
  | [] => Ok []
  | k :: ks' => rbind (seen k memo) (fun b => if b then children_from memo ks' else rmap (cons k) (children_from (oid k :: memo) ks'))
  end.

(** train(mode), eval() and _apply (to, cuda, double, ...): visit the module and, through children(), its submodules.
    The result is the list of visited modules.  [fuel] bounds the depth. *)
Fixpoint train (fuel : nat) (m : module) : res (list nat) :=
  match fuel with
  | O => OutOfFuel
  | S fuel' =>
      rbind (children_from [] (kids m)) (fun ks =>
      (fix go ks := match ks with
              | [] => Ok [oid m]
              | k :: ks' => rbind (train fuel' k) (fun l => rmap (app l) (go ks'))
              end) ks)
  end.

(** a == b for modules: identity for nn.Module; for attrs classes without attr.ib fields __eq__ compares empty tuples, so
    that all objects of one class are equal; objects of different classes are not.  [klass_eq]: are the classes the
    same? *)
Fixpoint klass_eq (a b : klass) : bool :=
  match a, b with
  | NnModule, NnModule | EventCallback, EventCallback | StochasticEventCallback, StochasticEventCallback => true
  | Derived n a d h, Derived n' b d' h' => (n =? n') && klass_eq a b && eqb d d' && eqb h h'
  | _, _ => false
  end.
Fixpoint attrs_eq (c : klass) : bool :=
  match c with NnModule => false | EventCallback | StochasticEventCallback => true | Derived _ b decorated _ => decorated || attrs_eq b end.
Definition module_eq (a b : module) : bool :=
  (oid a =? oid b) || (attrs_eq (cls a) && klass_eq (cls a) (cls b)).

(** callbacks.index(cb) *)
Fixpoint index (l : list module) (x : module) : res nat :=
  match l with
  | [] => Err ValueError
  | y :: l' => if module_eq y x then Ok 0 else rmap S (index l' x)
  end.
