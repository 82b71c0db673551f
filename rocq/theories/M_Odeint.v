(** Model of torchdyn/numerics/odeint.py (multiple shooting is in M_MS.v). *)
From Coq Require Import ZArith QArith List Bool.
From Verif Require Import Num Py Tensor M_Constants M_SolversOde M_Utils M_Interp.
Import ListNotations.
Local Open Scope nat_scope.

Section Odeint.
Context {K : NumOps}.
Notation V := (vec K).

(** torch.isclose(a, b) with default tolerances: |a - b| <= 1e-8 + 1e-5 * |b|, or a == b *)
Definition isclose (a b : K) : bool :=
  ((a =? b) || (nabs (a - b) <=? nQ (1 # 100000000) + nQ (1 # 100000) * nabs b))%N.

(** torch.isclose(t, save_at).sum() *)
Definition isclose_count (t : K) (save_at : list K) : nat :=
  count_true (map (isclose t) save_at).

(** ** _fixed_odeint, lines 411-445 *)

Section Fixed.
Context {X : Type}.

(** The while loop, lines 426-434.  [n] = number of iterations left = len(t_span) - steps. *)
Fixpoint fixed_loop (f : K -> X -> X) (step : step_fun X) (t_span save_at : list K)
  (n steps : nat) (x : X) (t dt : K) (sol : list X) {struct n} : M (K * X) (list X) :=
  match n with
  | O => mret sol
  | S n' =>
      r <- step f x t dt None ;;
      match r with
      | Ret4 _ _ _ _ => mraise ValueError            (* [_, x, _ = ...]: too many values *)
      | Ret3 _ x _ =>
          let t := (t + dt)%N in
          let sol := if (isclose_count t save_at =? 0)%nat then sol else sol ++ [x] in
          dt <- (if (steps <? length t_span - 1)%nat
                 then tn <- mlift (pyget t_span (steps + 1)) ;; mret (tn - t)%N
                 else mret dt) ;;
          fixed_loop f step t_span save_at n' (steps + 1) x t dt sol
      end
  end.

(** The states are returned as a list; stacking them (lines 436-443, tensors or dicts of
    tensors) does not change their order.  [sol[0]] raises IndexError when nothing was saved. *)
Definition fixed_odeint (f : K -> X -> X) (x : X) (t_span : list K) (step : step_fun X)
  (save_at : list K) : M (K * X) (list K * list X) :=
  let save_at := match save_at with [] => t_span | _ => save_at end in
  if negb (forallb (fun t => (isclose_count t save_at =? 1)%nat) save_at)
  then mraise AssertionError else
  t0 <- mlift (pyget t_span 0) ;;
  _ <- mlift (pylast t_span) ;;
  t1 <- mlift (pyget t_span 1) ;;
  let dt := (t1 - t0)%N in
  let sol := if (isclose_count t0 save_at =? 0)%nat then [] else [x] in
  sol <- fixed_loop f step t_span save_at (length t_span - 1) 1 x t0 dt sol ;;
  match sol with
  | [] => mraise IndexError
  | _ => mret (save_at, sol)
  end.

End Fixed.

(** ** _adaptive_odeint, lines 326-408 *)

(** Scaled error norm, lines 365-372 (and 295-303).  [seminorm = None] models (False, _),
    [Some d] models (True, d). *)
Definition error_ratio (atol rtol : K) (seminorm : option nat) (x x_new x_err : V) : K :=
  let cut l := match seminorm with Some d => firstn d l | None => l end in
  let error := cut x_err in
  let scale := map (fun m => (atol + rtol * m)%N) (vmax (vabs (cut x)) (vabs (cut x_new))) in
  hairer_norm (vdiv error scale).

Record astate : Type := MkA {
  a_t : K; a_dt : K; a_x : V; a_k1 : V; a_ck : nat; a_times : list K; a_sol : list V }.

(** Interpolation loop, lines 379-387.  [n] bounds the iterations: ckpt_counter increases and
    must stay below len(t_eval). *)
Fixpoint interp_loop (n : nat) (bmid : list K) (t_eval : list K) (t dt : K)
  (x k1 f_new x_new : V) (stages : list V) (ck : nat) (times : list K) (sol : list V)
  : res (nat * list K * list V) :=
  match n with
  | O => Ok (ck, times, sol)
  | S n' =>
      match nth_error t_eval ck with
      | None => Ok (ck, times, sol)
      | Some tc =>
          if (tc <? t + dt)%N then
            rbind (bmid_sum bmid stages) (fun s =>
            let x_mid := (x + dt * s)%V in
            let coefs := fourth_fit dt k1 f_new x x_new x_mid in
            rbind (interp_evaluate coefs t (t + dt)%N tc) (fun x_in =>
            interp_loop n' bmid t_eval t dt x k1 f_new x_new stages (ck + 1)
              (times ++ [tc]) (sol ++ [x_in])))
          else Ok (ck, times, sol)
      end
  end.

(** Parameters that do not change during the loop *)
Record aparams : Type := MkP {
  p_f : K -> V -> V;
  p_solver : solver K V;
  p_T : K;
  p_t_eval : list K;
  p_atol : K; p_rtol : K;
  p_interp : option (list K);        (* bmid of the interpolator, if any *)
  p_all : bool;                      (* return_all_eval *)
  p_semi : option nat }.

(** Step size to be attempted, lines 352-361: clamps to T, then to the next checkpoint
    (saving the old value when the checkpoint flag is raised). *)
Definition attempt_dt (p : aparams) (st : astate) : K * option K :=
  let t := a_t st in
  let dt := a_dt st in
  let dt := if (p_T p <? t + dt)%N then (p_T p - t)%N else dt in
  match nth_error (p_t_eval p) (a_ck st) with
  | Some tc =>
      if (tc <? t + dt)%N
      then match p_interp p with
           | None => ((tc - t)%N, Some dt)
           | Some _ => (dt, None)
           end
      else (dt, None)
  | None => (dt, None)
  end.

(** Bookkeeping of an accepted step, lines 375-395: new checkpoint counter, times, states *)
Definition accept_out (p : aparams) (st : astate) (dt : K) (f_new x_new : V) (stages : list V)
  : res (nat * list K * list V) :=
  let t := a_t st in
  let x := a_x st in
  rbind (match p_interp p with
         | None => Ok (a_ck st, a_times st, a_sol st)
         | Some bmid =>
             interp_loop (length (p_t_eval p) - a_ck st) bmid (p_t_eval p) t dt x (a_k1 st)
               f_new x_new stages (a_ck st) (a_times st) (a_sol st)
         end) (fun '(ck, times, sol) =>
  rbind (pyget (p_t_eval p) ck) (fun tc =>
  let hit := ((t + dt) =? tc)%N in
  if hit || p_all p
  then Ok (if hit then ck + 1 else ck, times ++ [(t + dt)%N], sol ++ [x_new])
  else Ok (ck, times, sol))).

(** One iteration of the while loop, lines 352-407 *)
Definition adaptive_iter (p : aparams) (st : astate) : M (K * V) astate :=
  let '(dt, dt_old) := attempt_dt p st in
  r <- s_step (p_solver p) (p_f p) (a_x st) (a_t st) dt (Some (a_k1 st)) ;;
  match r with
  | Ret3 _ _ _ => mraise ValueError              (* not enough values to unpack *)
  | Ret4 f_new x_new x_err stages =>
      let ratio := error_ratio (p_atol p) (p_rtol p) (p_semi p) (a_x st) x_new x_err in
      let accept := (ratio <=? n1)%N in
      out <- (if accept
              then mlift (accept_out p st dt f_new x_new stages)
              else mret (a_ck st, a_times st, a_sol st)) ;;
      let '(ck, times, sol) := out in
      let t' := if accept then (a_t st + dt)%N else a_t st in
      let x' := if accept then x_new else a_x st in
      let k1' := if accept then f_new else a_k1 st in
      let dt := match dt_old with Some old => (old - dt)%N | None => dt end in
      let dt := adapt_step dt ratio (s_safety (p_solver p)) (s_min_factor (p_solver p))
                  (s_max_factor (p_solver p)) (s_order (p_solver p)) in
      mret (MkA t' dt x' k1' ck times sol)
  end.

Fixpoint adaptive_loop (fuel : nat) (p : aparams) (st : astate) : M (K * V) (list K * list V) :=
  if (a_t st <? p_T p)%N then
    match fuel with
    | O => mfuel
    | S fuel' => st' <- adaptive_iter p st ;; adaptive_loop fuel' p st'
    end
  else mret (a_times st, a_sol st).

(** lines 348-350, 408 *)
Definition adaptive_odeint (fuel : nat) (f : K -> V -> V) (k1 x : V) (dt : K) (t_span : list K)
  (s : solver K V) (atol rtol : K) (interp : option (list K)) (all : bool) (semi : option nat)
  : M (K * V) (list K * list V) :=
  t0 <- mlift (pyget t_span 0) ;;
  T <- mlift (pylast t_span) ;;
  let p := MkP f s T (skipn 1 t_span) atol rtol interp all semi in
  adaptive_loop fuel p (MkA t0 dt x k1 0 [t0] [x]).

(** ** odeint, lines 29-91 *)

(** t_span is a tensor or a Python list of tensors *)
Inductive tspan : Type := TTensor (l : list K) | TList (l : list K).
Definition ts_list (ts : tspan) : list K := match ts with TTensor l => l | TList l => l end.

Definition neg_field (f : K -> V -> V) : K -> V -> V := fun t x => vopp (f (- t)%N x).

(** Lines 54-60: reversed time negates the field and the grid; negating a Python list raises
    TypeError; a list is then concatenated. *)
Definition prep_time (f : K -> V -> V) (ts : tspan) : res ((K -> V -> V) * list K) :=
  rbind (pyget (ts_list ts) 1) (fun t1 =>
  rbind (pyget (ts_list ts) 0) (fun t0 =>
  if (t1 <? t0)%N
  then match ts with
       | TTensor l => Ok (neg_field f, map nopp l)
       | TList _ => Err TypeError
       end
  else Ok (f, ts_list ts))).

(** [interp]: '4th' given as a string or an interpolator object; forced to None for tsit5 *)
Definition odeint (fuel : nat) (f : K -> V -> V) (x : V) (ts : tspan) (s : solver K V)
  (atol rtol : K) (interp : bool) (all : bool) (save_at : list K) (semi : option nat)
  : M (K * V) (list K * list V) :=
  ft <- mlift (prep_time f ts) ;;
  let '(f_, t_span) := ft in
  let interp := if s_is_tsit5 s then None
                else if interp then Some (construct_4th K) else None in
  if s_fixed s then fixed_odeint f_ x t_span (s_step s) save_at
  else
    t <- mlift (pyget t_span 0) ;;
    k1 <- call f_ t x ;;
    dt <- init_step f k1 x t (s_order s) atol rtol ;;      (* line 89: [f], not [f_] *)
    adaptive_odeint fuel f_ k1 x dt t_span s atol rtol interp all semi.

(** ** odeint_symplectic, lines 95-150 *)

(** [f_order]: the attribute [f.order] if present; [is_alf]: isinstance(solver, ALF).
    Line 150 passes [return_all_eval] as the positional parameter [args] of _adaptive_odeint.
    For [f.order == 1] an adaptive solver is started with the slope [k1] of half of the state: a slope
    with one entry broadcasts in [x + dt * a * k1], any other size different from that of [x] raises
    RuntimeError in the first step (the adaptive leapfrog does not use [k1]). *)
Definition odeint_symplectic (fuel : nat) (f : K -> V -> V) (f_order : option nat) (x : V)
  (ts : tspan) (s : solver K V) (is_alf : bool) (atol rtol : K) (all : bool) (save_at : list K)
  : M (K * V) (list K * list V) :=
  ft <- mlift (prep_time f ts) ;;
  let '(f_, t_span) := ft in
  match f_order with
  | None => mraise RuntimeError
  | Some o =>
      if is_alf && (o =? 2)%nat then mraise RuntimeError else
      if s_fixed s then fixed_odeint f_ x t_span (s_step s) save_at
      else
        t <- mlift (pyget t_span 0) ;;
        let y := if (o =? 1)%nat then firstn (Nat.div (length x) 2) x else x in
        k1 <- call f t y ;;
        dt <- init_step f k1 y t (s_order s) atol rtol ;;
        T <- mlift (pylast t_span) ;;
        let k1 := match k1 with [c] => repeat c (length x) | _ => k1 end in
        if negb is_alf && negb (length k1 =? length x)%nat && (t <? T)%N then mraise RuntimeError else
        adaptive_odeint fuel f_ k1 x dt t_span s atol rtol None false None
  end.

(** ** odeint_hybrid, lines 183-323 *)

(** Event callbacks (utils.py lines 84-94); they are pure functions of (t, x). *)
Record callback : Type := MkCb { check_event : K -> V -> bool; jump_map : K -> V -> V }.

Definition event_flags (cbs : list callback) (t : K) (x : V) : list bool :=
  map (fun cb => check_event cb t x) cbs.

(** [sum([(a_ != b_) & (b_ == False) ...])] > 0; event_states is never updated, so b_ is False *)
Definition triggered (new_states event_states : list bool) : bool :=
  (0 <? count_true (map2 (fun a b => xorb a b && negb b) new_states event_states))%nat.

(** Bisection, lines 252-270.  [n] = max_iters - niters.
    Returns (t_inner, x_inner, k1, new_event_states). *)
Fixpoint bisect (n : nat) (f : K -> V -> V) (s : solver K V) (cbs : list callback)
  (event_states : list bool) (event_tol dt : K)
  (t_inner dt_inner : K) (x_inner : V) (k1 : option V) (flags : list bool)
  : M (K * V) (K * V * option V * list bool) :=
  match n with
  | O => mret (t_inner, x_inner, k1, flags)
  | S n' =>
      if (event_tol <? dt_inner)%N then
        let dt_inner := (dt_inner / nQ 2)%N in
        r <- s_step s f x_inner t_inner dt_inner k1 ;;
        match r with
        | Ret3 _ _ _ => mraise ValueError
        | Ret4 f_new x_ _ _ =>
            let flags := event_flags cbs (t_inner + dt_inner)%N x_ in
            if triggered flags event_states
            then bisect n' f s cbs event_states event_tol dt t_inner dt_inner x_inner k1 flags
            else bisect n' f s cbs event_states event_tol dt (t_inner + dt_inner)%N dt x_
                   (Some f_new) flags
        end
      else mret (t_inner, x_inner, k1, flags)
  end.

Record hstate : Type := MkH {
  h_t : K; h_dt : K; h_x : V; h_k1 : option V; h_ck : nat;
  h_old : option K;                       (* Some dt_old iff ckpt_flag *)
  h_times : list K; h_sol : list V }.

Record hparams : Type := MkHP {
  hp_f : K -> V -> V; hp_solver : solver K V; hp_cbs : list callback;
  hp_T : K; hp_t_eval : list K; hp_atol : K; hp_rtol : K; hp_etol : K; hp_semi : option nat }.

(** Lines 231-238 *)
Definition hybrid_attempt (p : hparams) (st : hstate) : K * option K * nat :=
  let t := h_t st in
  let dt := h_dt st in
  let dt := if (hp_T p <? t + dt)%N then (hp_T p - t)%N else dt in
  match nth_error (hp_t_eval p) (h_ck st) with
  | Some tc => if (tc <? t + dt)%N then ((tc - t)%N, Some dt, h_ck st + 1)
               else (dt, h_old st, h_ck st)
  | None => (dt, h_old st, h_ck st)
  end.

(** One iteration of the while loop, lines 231-321 *)
Definition hybrid_iter (p : hparams) (st : hstate) : M (K * V) hstate :=
  let '(dt, old, ck) := hybrid_attempt p st in
  let t := h_t st in
  let x := h_x st in
  let event_states := map (fun _ => false) (hp_cbs p) in
  r <- s_step (hp_solver p) (hp_f p) x t dt (h_k1 st) ;;
  match r with
  | Ret3 _ _ _ => mraise ValueError
  | Ret4 f_new x_new x_err _ =>
      let flags := event_flags (hp_cbs p) (t + dt)%N x_new in
      if triggered flags event_states then
        b <- bisect 100 (hp_f p) (hp_solver p) (hp_cbs p) event_states (hp_etol p) dt
               t dt x (h_k1 st) flags ;;
        let '(t', x', _, flags') := b in
        i <- mlift (first_true flags') ;;
        cb <- mlift (pyget (hp_cbs p) i) ;;
        let xj := jump_map cb t' x' in
        mret (MkH t' dt xj None ck old (h_times st ++ [t'; t']) (h_sol st ++ [x'; xj]))
      else
        let ratio := error_ratio (hp_atol p) (hp_rtol p) (hp_semi p) x x_new x_err in
        let accept := (ratio <=? n1)%N in
        let dt' := match old with Some o => (o - dt)%N | None => dt end in
        let dt' := adapt_step dt' ratio (s_safety (hp_solver p)) (s_min_factor (hp_solver p))
                     (s_max_factor (hp_solver p)) (s_order (hp_solver p)) in
        mret (if accept
              then MkH (t + dt)%N dt' x_new (Some f_new) ck None
                       (h_times st ++ [(t + dt)%N]) (h_sol st ++ [x_new])
              else MkH t dt' x (h_k1 st) ck None (h_times st) (h_sol st))
  end.

Fixpoint hybrid_loop (fuel : nat) (p : hparams) (jnum j_span : nat) (st : hstate)
  : M (K * V) (list K * list V) :=
  if (h_t st <? hp_T p)%N && (jnum <? j_span)%nat then
    match fuel with
    | O => mfuel
    | S fuel' => st' <- hybrid_iter p st ;; hybrid_loop fuel' p jnum j_span st'
    end
  else mret (h_times st, h_sol st).

(** Lines 201-229, 323; [jump_first] is [priority == 'jump'] *)
Definition odeint_hybrid (fuel : nat) (f : K -> V -> V) (x : V) (t_span : list K) (j_span : nat)
  (s : solver K V) (cbs : list callback) (atol rtol etol : K) (jump_first : bool)
  (semi : option nat) : M (K * V) (list K * list V) :=
  t <- mlift (pyget t_span 0) ;;
  T <- mlift (pylast t_span) ;;
  let event_states := map (fun _ => false) cbs in
  xj <- (if jump_first then
           let flags := event_flags cbs t x in
           if triggered flags event_states then
             i <- mlift (first_true flags) ;;
             cb <- mlift (pyget cbs i) ;;
             mret (jump_map cb t x, 1)
           else mret (x, 0)
         else mret (x, 0)) ;;
  let '(x, jnum) := xj in
  k1 <- call f t x ;;
  dt <- init_step f k1 x t (s_order s) atol rtol ;;
  hybrid_loop fuel (MkHP f s cbs T (skipn 1 t_span) atol rtol etol semi) jnum j_span
    (MkH t dt x (Some k1) 0 None [t] [x]).

(** ** _jagged_fixed_odeint, lines 471-506

    [bstep t x dt]: the three values returned by [solver.step(f, x, t, dt)] on the batch of
    sub-problem states; the code binds the THIRD one to x. *)
Section Jagged.
Context {X : Type}.

Definition batch_step : Type :=
  list K -> list X -> list K -> (option (list X) * option (list X) * option (list X)).

Definition not_converged (t T : list K) : list bool :=
  map2 (fun a b => negb (nabs (a - b) <=? nQ (1 # 1000000))%N) t T.

(** lines 496-503 *)
Definition jagged_dt (steps : nat) (t_span : list (list K)) (t : list K) : list K :=
  map2 (fun t_ tcur => match nth_error t_ steps with
                       | Some v => (v - tcur)%N
                       | None => n0            (* steps > len(t_) - 1 *)
                       end) t_span t.

Fixpoint jagged_loop (fuel : nat) (bstep : batch_step) (t_span : list (list K)) (T : list K)
  (steps : nat) (t : list K) (x : list X) (dt : list K) (sol : list (list X))
  : res (list (list X)) :=
  if existsb (fun b => b) (not_converged t T) then
    match fuel with
    | O => OutOfFuel
    | S fuel' =>
        let '(_, _, x3) := bstep t x dt in
        match x3 with
        | None => match sol with
                  | [] => OutOfFuel              (* no sub-problem: loop condition is false *)
                  | _ => Err TypeError           (* None[n] *)
                  end
        | Some x =>
            let sol := map2 (fun s xn => s ++ [xn]) sol x in
            let t := map2 nadd t dt in
            jagged_loop fuel' bstep t_span T (steps + 1) t x
              (jagged_dt (steps + 1) t_span t) sol
        end
    end
  else Ok sol.

Definition jagged_fixed_odeint (fuel : nat) (x : list X) (t_span : list (list K))
  (bstep : batch_step) : res (list (list X)) :=
  rbind (fold_right (fun l acc => rbind (pyget l 0) (fun a => rmap (cons a) acc)) (Ok []) t_span)
    (fun t =>
  rbind (fold_right (fun l acc => rbind (pylast l) (fun a => rmap (cons a) acc)) (Ok []) t_span)
    (fun T =>
  rbind (fold_right (fun l acc => rbind (pyget l 1) (fun a => rmap (cons a) acc)) (Ok []) t_span)
    (fun t1 =>
  let dt := map2 nsub t1 t in
  rbind (jagged_loop fuel bstep t_span T 0 t x dt (map (fun x => [x]) x)) (fun sol =>
  Ok (map2 (fun s t_ => firstn (length t_) s) sol t_span))))).

End Jagged.

(** ** _shifted_fixed_odeint, lines 448-467

    The free name [solver] (line 461) is not defined in the module: NameError on the first
    iteration; without an iteration [torch.stack([])] raises RuntimeError. *)
Definition shifted_fixed_odeint {X} (f : list K -> X -> X) (x : X) (t_span : list (list K))
  : M (list K * X) (list X) :=
  t <- mlift (fold_right (fun l acc => rbind (pyget l 0) (fun a => rmap (cons a) acc)) (Ok []) t_span) ;;
  T <- mlift (fold_right (fun l acc => rbind (pylast l) (fun a => rmap (cons a) acc)) (Ok []) t_span) ;;
  _ <- mlift (fold_right (fun l acc => rbind (pyget l 1) (fun a => rmap (cons a) acc)) (Ok []) t_span) ;;
  _ <- call f t x ;;
  if existsb (fun b => b) (not_converged t T) then mraise NameError else mraise RuntimeError.

End Odeint.
Arguments astate : clear implicits.
Arguments aparams : clear implicits.
Arguments hstate : clear implicits.
Arguments hparams : clear implicits.
Arguments callback : clear implicits.
Arguments tspan : clear implicits.
