(** What a hybrid solve is: flow steps, and jumps located inside a step. *)
From Coq Require Import Reals List Lra Bool.
Import ListNotations.
Local Open Scope R_scope.

Section Hybrid.
Variable X : Type.
(** [flow t h x]: one solver step of size h from x at t; [acc t h x]: its error is accepted *)
Variable flow : R -> R -> X -> X.
Variable acc : R -> R -> X -> Prop.
(** Callbacks: (event test, jump map), in order of priority *)
Variable cbs : list ((R -> X -> bool) * (R -> X -> X)).

(** Some callback fires at time t in state x *)
Definition fires (t : R) (x : X) : Prop := exists cb, In cb cbs /\ fst cb t x = true.

(** The callback [cb] fires and none before it in the list does *)
Definition lowest_firing (t : R) (x : X) (cb : (R -> X -> bool) * (R -> X -> X)) : Prop :=
  exists before after, cbs = before ++ cb :: after /\ fst cb t x = true /\
    forall c, In c before -> fst c t x = false.

(** A chain of steps of positive size, none of whose ends fires a callback *)
Inductive quiet : R -> X -> R -> X -> Prop :=
| quiet_nil t x : quiet t x t x
| quiet_cons t d x t2 x2 :
    0 < d -> ~ fires (t + d) (flow t d x) ->
    quiet (t + d) (flow t d x) t2 x2 -> quiet t x t2 x2.

(** An event located between (t', x') and a further step of size d: x' is reached quietly from
    (t, x), and [cb] is the lowest callback firing after the step of size d. *)
Definition located (t : R) (x : X) (t' : R) (x' : X) (d : R)
  (cb : (R -> X -> bool) * (R -> X -> X)) : Prop :=
  quiet t x t' x' /\ lowest_firing (t' + d) (flow t' d x') cb.

(** [hrun P t x out]: the outputs [out] after (t, x).  A flow step is quiet and accepted and
    gives one output; an event gives two consecutive outputs at the same time, before and after
    the jump.  [P t x h t' x' d] is a further condition on the location of events. *)
Inductive hrun (P : R -> X -> R -> R -> X -> R -> Prop) : R -> X -> list (R * X) -> Prop :=
| hrun_end t x : hrun P t x []
| hrun_flow t h x out :
    ~ fires (t + h) (flow t h x) -> acc t h x ->
    hrun P (t + h) (flow t h x) out ->
    hrun P t x ((t + h, flow t h x) :: out)
| hrun_event t h x t' x' d cb out :
    fires (t + h) (flow t h x) -> located t x t' x' d cb -> P t x h t' x' d ->
    hrun P t' (snd cb t' x') out ->
    hrun P t x ((t', x') :: (t', snd cb t' x') :: out).

(** The state from which a solve starts: the initial condition, or its jump when events are
    checked first and one fires; [jn] counts the initial jump. *)
Definition started (t0 : R) (x : X) (jump_first : bool) (x0 : X) (jn : nat) : Prop :=
  (exists cb, jump_first = true /\ lowest_firing t0 x cb /\ x0 = snd cb t0 x /\ jn = 1%nat) \/
  ((jump_first = false \/ ~ fires t0 x) /\ x0 = x /\ jn = 0%nat).

(** Events persist until a jump: if a step of size h from (t, x), x in D, ends with a firing callback, then
    so does every quiet chain followed by a step that ends at t + h or later. *)
Definition persistent (D : X -> Prop) : Prop :=
  forall t h x t' x' d, D x -> 0 < h -> fires (t + h) (flow t h x) -> quiet t x t' x' -> t' < t + h ->
    t + h <= t' + d -> fires (t' + d) (flow t' d x').
End Hybrid.
Arguments fires {X}. Arguments lowest_firing {X}. Arguments quiet {X}. Arguments located {X}.
Arguments hrun {X}. Arguments started {X}. Arguments persistent {X}.
Arguments quiet_nil {X flow cbs}. Arguments quiet_cons {X flow cbs}.

(** Where a persistent event is located: inside the step, and within [etol] of the firing state
    when the step is not larger than 4096 [etol]. *)
Definition inside {X} (etol : R) (t : R) (x : X) (h t' : R) (x' : X) (d : R) : Prop :=
  0 <= h /\ t <= t' <= t + h /\ (0 < h -> t' < t + h) /\ (h <= 4096 * etol -> 0 <= d <= etol).

(** Times that never decrease *)
Fixpoint nondecreasing (l : list R) : Prop :=
  match l with
  | a :: ((b :: _) as l') => a <= b /\ nondecreasing l'
  | _ => True
  end.
