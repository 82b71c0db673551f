(** Model of the states that are dictionaries of tensors (Union[Tensor, Dict] in
    core/neuralde.py lines 126 and 236): odeint.py lines 436-439, the same lines 107-110 of sdeint.py, and templates.py lines 29-40. *)
From Coq Require Import ZArith QArith String List Bool.
From Verif Require Import Num Py Tensor M_SolversOde M_Odeint.
Import ListNotations.
Local Open Scope nat_scope.

(** d[k]; dictionaries are ordered and have distinct keys *)
Fixpoint lookup {A} (k : string) (d : list (string * A)) : option A :=
  match d with
  | [] => None
  | (k', a) :: d => if String.eqb k k' then Some a else lookup k d
  end.
Definition getitem {A} (d : list (string * A)) (k : string) : res A :=
  match lookup k d with Some a => Ok a | None => Err KeyError end.
(** replacement of the value of an existing key *)
Definition update {A} (k : string) (a : A) (d : list (string * A)) : list (string * A) :=
  map (fun p => if String.eqb k (fst p) then (k, a) else p) d.
Definition keys {A} (d : list (string * A)) : list string := map fst d.

Fixpoint rfold {A B} (f : A -> B -> res A) (l : list B) (a : A) : res A :=
  match l with [] => Ok a | b :: l => rbind (f a b) (rfold f l) end.
Fixpoint rmapm {A B} (f : A -> res B) (l : list A) : res (list B) :=
  match l with [] => Ok [] | a :: l => rbind (f a) (fun b => rbind (rmapm f l) (fun l => Ok (b :: l))) end.

Section Dict.
Context {K : NumOps}.
Notation V := (vec K).
Definition dict : Type := list (string * V).

(** torch.stack: all tensors must have the same size *)
Definition stack (l : list V) : res (list V) :=
  match l with
  | [] => Err RuntimeError
  | v :: _ => if forallb (fun w => Nat.eqb (List.length w) (List.length v)) l then Ok l else Err RuntimeError
  end.

(** lines 436-439; [last] is the variable x after the loop, the keys of which are taken, [sol] the saved states *)
Definition stack_dicts (last : dict) (sol : list dict) : res (list (string * list V)) :=
  match sol with
  | [] => Err IndexError
  | s0 :: rest =>
      let final_out := map (fun p => (fst p, [snd p])) s0 in
      rbind (rfold (fun fo k =>
        rfold (fun fo x =>
          rbind (getitem fo k) (fun l => rbind (getitem x k) (fun v => Ok (update k (l ++ [v])%list fo)))) rest fo)
        (keys last) final_out) (fun fo =>
      rmapm (fun p => rbind (stack (snd p)) (fun s => Ok (fst p, s))) fo)
  end.

(** the loop of _fixed_odeint, lines 426-434, as in M_Odeint.fixed_loop, keeping the last state *)
Fixpoint dict_loop (f : K -> dict -> dict) (step : step_fun dict) (t_span save_at : list K)
  (n steps : nat) (x : dict) (t dt : K) (sol : list dict) {struct n} : M (K * dict) (dict * list dict) :=
  match n with
  | O => mret (x, sol)
  | S n' =>
      r <- step f x t dt None ;;
      match r with
      | Ret4 _ _ _ _ => mraise ValueError
      | Ret3 _ x _ =>
          let t := (t + dt)%N in
          let sol := if (isclose_count t save_at =? 0)%nat then sol else (sol ++ [x])%list in
          dt <- (if (steps <? List.length t_span - 1)%nat
                 then tn <- mlift (pyget t_span (steps + 1)) ;; mret (tn - t)%N
                 else mret dt) ;;
          dict_loop f step t_span save_at n' (steps + 1) x t dt sol
      end
  end.

(** _fixed_odeint, lines 411-445, for a dictionary *)
Definition dict_fixed_odeint (f : K -> dict -> dict) (x : dict) (t_span : list K) (step : step_fun dict) (save_at : list K)
  : M (K * dict) (list K * list (string * list V)) :=
  let save_at := match save_at with [] => t_span | _ => save_at end in
  if negb (forallb (fun t => (isclose_count t save_at =? 1)%nat) save_at)
  then mraise AssertionError else
  t0 <- mlift (pyget t_span 0) ;;
  _ <- mlift (pylast t_span) ;;
  t1 <- mlift (pyget t_span 1) ;;
  let dt := (t1 - t0)%N in
  let sol := if (isclose_count t0 save_at =? 0)%nat then [] else [x] in
  r <- dict_loop f step t_span save_at (List.length t_span - 1) 1 x t0 dt sol ;;
  out <- mlift (stack_dicts (fst r) (snd r)) ;;
  mret (save_at, out).

(** a solver given by name, or as an object with the inherited or with an own method sync_device_dtype *)
Inductive dict_solver : Type :=
| ByName (name : string)
| Inherits (s : solver K dict)
| Overrides (s : solver K dict).

(** odeint, lines 53-85, for a dictionary and a tensor of times: line 63 reads x.dtype of a solver given by name, and
    templates.py line 31 reads x.device; a dictionary has neither.  In reversed time f is negated, which a dictionary
    does not support (raised when f is called, hence by the first step of a solver that calls f; the model raises it
    at once, and is only used for solvers that do). *)
Definition dict_odeint (f : K -> dict -> dict) (x : dict) (t_span : list K) (s : dict_solver) (save_at : list K)
  : M (K * dict) (list K * list (string * list V)) :=
  t0 <- mlift (pyget t_span 0) ;;
  t1 <- mlift (pyget t_span 1) ;;
  match s with
  | ByName _ => mraise AttributeError
  | Inherits _ => mraise AttributeError
  | Overrides s =>
      if (t1 <? t0)%N then mraise TypeError else
      if s_fixed s then dict_fixed_odeint f x t_span (s_step s) save_at
      else mraise TypeError                     (* init_step, line 89: arithmetic with dictionaries *)
  end.
End Dict.
