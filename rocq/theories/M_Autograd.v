(** Model of what autograd computes through the solvers.

    [DualOps K]: numbers with a derivative in one direction.  Every operation of the model runs on them unchanged; the second
    component of the result is the derivative that autograd returns for that direction (reverse mode computes the same
    products in another order).  Derivatives of torch: |.| has derivative 0 at 0; binary max and min split the derivative of
    ties evenly; exponents of powers are constants in the code (utils.py lines 52 and 62); comparisons are not differentiated.

    torch.no_grad (utils.py line 57, odeint.py line 256) drops derivatives: [adapt_step] and the body of the bisection loop are
    repeated here with functions [dk], [dv] applied to the results computed inside; with [dk], [dv] the identity they are the functions
    of M_Utils.v and M_Odeint.v. *)
From Coq Require Import ZArith QArith List Bool.
From Verif Require Import Num Py Tensor M_Constants M_SolversOde M_Utils M_Interp M_Odeint.
Import ListNotations.
Local Open Scope nat_scope.

Section Dual.
Variable K : NumOps.
Definition dual : Type := (K * K)%type.
Definition dsign (a : K) : K := if (n0 <? a)%N then n1 else if (a <? n0)%N then (- n1)%N else n0.
Definition dpick (a b : dual) (first second : bool) : K :=
  if first then snd a else if second then snd b else (nhalf * (snd a + snd b))%N.
Definition DualOps : NumOps := {|
  num := dual;
  nQ := fun q => (nQ q, n0);
  nadd := fun a b => (fst a + fst b, snd a + snd b)%N;
  nsub := fun a b => (fst a - fst b, snd a - snd b)%N;
  nmul := fun a b => (fst a * fst b, snd a * fst b + fst a * snd b)%N;
  ndiv := fun a b => (fst a / fst b, (snd a * fst b - fst a * snd b) / (fst b * fst b))%N;
  nopp := fun a => (- fst a, - snd a)%N;
  nabs := fun a => (nabs (fst a), dsign (fst a) * snd a)%N;
  nsqrt := fun a => (nsqrt (fst a), snd a / (nQ 2 * nsqrt (fst a)))%N;
  npowr := fun a b => (npowr (fst a) (fst b), snd a * (fst b * npowr (fst a) (fst b - n1)))%N;
  nmax := fun a b => (nmax (fst a) (fst b), dpick a b (fst b <? fst a)%N (fst a <? fst b)%N);
  nmin := fun a b => (nmin (fst a) (fst b), dpick a b (fst a <? fst b)%N (fst b <? fst a)%N);
  nltb := fun a b => (fst a <? fst b)%N;
  nleb := fun a b => (fst a <=? fst b)%N;
  neqb := fun a b => (fst a =? fst b)%N |}.
(** A number without derivative *)
Definition cst (a : K) : DualOps := (a, n0).
Definition det (a : DualOps) : DualOps := cst (fst a).
Definition detv (v : vec DualOps) : vec DualOps := map det v.
End Dual.
Arguments cst {K}. Arguments det {K}. Arguments detv {K}.

Section NoGrad.
Context {K : NumOps}.
Notation V := (vec K).
Variables (dk : K -> K) (dv : V -> V).

(** adapt_step with its decorator, utils.py lines 57-63 *)
Definition adapt_step_ad (dt error_ratio safety min_factor max_factor : K) (order : nat) : K :=
  dk (adapt_step dt error_ratio safety min_factor max_factor order).

(** Bisection, odeint.py lines 252-273; lines 257-264 are inside [with torch.no_grad()] *)
Fixpoint bisect_ad (n : nat) (f : K -> V -> V) (s : solver K V) (cbs : list (@callback K))
  (event_states : list bool) (event_tol dt : K)
  (t_inner dt_inner : K) (x_inner : V) (k1 : option V) (flags : list bool)
  : M (K * V) (K * V * option V * list bool) :=
  match n with
  | O => mret (t_inner, x_inner, k1, flags)
  | S n' =>
      if (event_tol <? dt_inner)%N then
        let dt_inner := dk (dt_inner / nQ 2)%N in
        r <- s_step s f x_inner t_inner dt_inner k1 ;;
        match r with
        | Ret3 _ _ _ => mraise ValueError
        | Ret4 f_new x_ _ _ =>
            let f_new := dv f_new in
            let x_ := dv x_ in
            let flags := event_flags cbs (t_inner + dt_inner)%N x_ in
            if triggered flags event_states
            then bisect_ad n' f s cbs event_states event_tol dt t_inner dt_inner x_inner k1 flags
            else bisect_ad n' f s cbs event_states event_tol dt (t_inner + dt_inner)%N dt x_
                   (Some f_new) flags
        end
      else mret (t_inner, x_inner, k1, flags)
  end.

(** [hybrid_iter], [hybrid_loop] and [odeint_hybrid] of M_Odeint.v with these *)
Definition hybrid_iter_ad (p : @hparams K) (st : @hstate K) : M (K * V) (@hstate K) :=
  let '(dt, old, ck) := hybrid_attempt p st in
  let t := h_t st in
  let x := h_x st in
  let event_states := map (fun _ => false) (hp_cbs p) in
  r <- s_step (hp_solver p) (hp_f p) x t dt (h_k1 st) ;;
  match r with
  | Ret3 _ _ _ => mraise ValueError
  | Ret4 f_new x_new x_err _ =>
      let flags := event_flags (hp_cbs p) (t + dt)%N x_new in
      if triggered flags event_states then
        b <- bisect_ad 100 (hp_f p) (hp_solver p) (hp_cbs p) event_states (hp_etol p) dt
               t dt x (h_k1 st) flags ;;
        let '(t', x', _, flags') := b in
        i <- mlift (first_true flags') ;;
        cb <- mlift (pyget (hp_cbs p) i) ;;
        let xj := jump_map cb t' x' in
        mret (MkH t' dt xj None ck old (h_times st ++ [t'; t']) (h_sol st ++ [x'; xj]))
      else
        let ratio := error_ratio (hp_atol p) (hp_rtol p) (hp_semi p) x x_new x_err in
        let accept := (ratio <=? n1)%N in
        let dt' := match old with Some o => (o - dt)%N | None => dt end in
        let dt' := adapt_step_ad dt' ratio (s_safety (hp_solver p)) (s_min_factor (hp_solver p))
                     (s_max_factor (hp_solver p)) (s_order (hp_solver p)) in
        mret (if accept
              then MkH (t + dt)%N dt' x_new (Some f_new) ck None
                       (h_times st ++ [(t + dt)%N]) (h_sol st ++ [x_new])
              else MkH t dt' x (h_k1 st) ck None (h_times st) (h_sol st))
  end.

Fixpoint hybrid_loop_ad (fuel : nat) (p : @hparams K) (jnum j_span : nat) (st : @hstate K)
  : M (K * V) (list K * list V) :=
  if (h_t st <? hp_T p)%N && (jnum <? j_span)%nat then
    match fuel with
    | O => mfuel
    | S fuel' => st' <- hybrid_iter_ad p st ;; hybrid_loop_ad fuel' p jnum j_span st'
    end
  else mret (h_times st, h_sol st).

Definition odeint_hybrid_ad (fuel : nat) (f : K -> V -> V) (x : V) (t_span : list K) (j_span : nat)
  (s : solver K V) (cbs : list (@callback K)) (atol rtol etol : K) (jump_first : bool)
  (semi : option nat) : M (K * V) (list K * list V) :=
  t <- mlift (pyget t_span 0) ;;
  T <- mlift (pylast t_span) ;;
  let event_states := map (fun _ => false) cbs in
  xj <- (if jump_first then
           let flags := event_flags cbs t x in
           if triggered flags event_states then
             i <- mlift (first_true flags) ;;
             cb <- mlift (pyget cbs i) ;;
             mret (jump_map cb t x, 1)
           else mret (x, 0)
         else mret (x, 0)) ;;
  let '(x, jnum) := xj in
  k1 <- call f t x ;;
  dt <- init_step f k1 x t (s_order s) atol rtol ;;
  hybrid_loop_ad fuel (MkHP f s cbs T (skipn 1 t_span) atol rtol etol semi) jnum j_span
    (MkH t dt x (Some k1) 0 None [t] [x]).

(** [adaptive_iter], [adaptive_loop] and the adaptive case of [odeint] with [adapt_step_ad] *)
Definition adaptive_iter_ad (p : @aparams K) (st : @astate K) : M (K * V) (@astate K) :=
  let '(dt, dt_old) := attempt_dt p st in
  r <- s_step (p_solver p) (p_f p) (a_x st) (a_t st) dt (Some (a_k1 st)) ;;
  match r with
  | Ret3 _ _ _ => mraise ValueError
  | Ret4 f_new x_new x_err stages =>
      let ratio := error_ratio (p_atol p) (p_rtol p) (p_semi p) (a_x st) x_new x_err in
      let accept := (ratio <=? n1)%N in
      out <- (if accept
              then mlift (accept_out p st dt f_new x_new stages)
              else mret (a_ck st, a_times st, a_sol st)) ;;
      let '(ck, times, sol) := out in
      let t' := if accept then (a_t st + dt)%N else a_t st in
      let x' := if accept then x_new else a_x st in
      let k1' := if accept then f_new else a_k1 st in
      let dt := match dt_old with Some old => (old - dt)%N | None => dt end in
      let dt := adapt_step_ad dt ratio (s_safety (p_solver p)) (s_min_factor (p_solver p))
                  (s_max_factor (p_solver p)) (s_order (p_solver p)) in
      mret (MkA t' dt x' k1' ck times sol)
  end.

Fixpoint adaptive_loop_ad (fuel : nat) (p : @aparams K) (st : @astate K) : M (K * V) (list K * list V) :=
  if (a_t st <? p_T p)%N then
    match fuel with
    | O => mfuel
    | S fuel' => st' <- adaptive_iter_ad p st ;; adaptive_loop_ad fuel' p st'
    end
  else mret (a_times st, a_sol st).

Definition adaptive_odeint_ad (fuel : nat) (f : K -> V -> V) (k1 x : V) (dt : K) (t_span : list K)
  (s : solver K V) (atol rtol : K) (interp : option (list K)) (all : bool) (semi : option nat)
  : M (K * V) (list K * list V) :=
  t0 <- mlift (pyget t_span 0) ;;
  T <- mlift (pylast t_span) ;;
  let p := MkP f s T (skipn 1 t_span) atol rtol interp all semi in
  adaptive_loop_ad fuel p (MkA t0 dt x k1 0 [t0] [x]).

Definition odeint_ad (fuel : nat) (f : K -> V -> V) (x : V) (ts : @tspan K) (s : solver K V)
  (atol rtol : K) (interp : bool) (all : bool) (save_at : list K) (semi : option nat)
  : M (K * V) (list K * list V) :=
  ft <- mlift (prep_time f ts) ;;
  let '(f_, t_span) := ft in
  let interp := if s_is_tsit5 s then None
                else if interp then Some (construct_4th K) else None in
  if s_fixed s then fixed_odeint f_ x t_span (s_step s) save_at
  else
    t <- mlift (pyget t_span 0) ;;
    k1 <- call f_ t x ;;
    dt <- init_step f k1 x t (s_order s) atol rtol ;;
    adaptive_odeint_ad fuel f_ k1 x dt t_span s atol rtol interp all semi.
End NoGrad.

(** Keeping the derivatives gives the functions of M_Odeint.v. *)
Lemma adaptive_loop_ad_id {K : NumOps} : @adaptive_loop_ad K (fun a => a) = @adaptive_loop K.
Proof. reflexivity. Qed.
Lemma odeint_ad_id {K : NumOps} : @odeint_ad K (fun a => a) = @odeint K.
Proof. unfold odeint_ad, odeint, adaptive_odeint_ad, adaptive_odeint. rewrite adaptive_loop_ad_id. reflexivity. Qed.
Lemma bisect_ad_id {K : NumOps} : @bisect_ad K (fun a => a) (fun v => v) = @bisect K.
Proof. reflexivity. Qed.
Lemma hybrid_iter_ad_id {K : NumOps} : @hybrid_iter_ad K (fun a => a) (fun v => v) = @hybrid_iter K.
Proof. unfold hybrid_iter_ad, hybrid_iter. rewrite bisect_ad_id. reflexivity. Qed.
Lemma hybrid_loop_ad_id {K : NumOps} fuel : forall p jn js st,
  @hybrid_loop_ad K (fun a => a) (fun v => v) fuel p jn js st = @hybrid_loop K fuel p jn js st.
Proof.
  induction fuel as [|fuel IH]; intros p jn js st; cbn [hybrid_loop_ad hybrid_loop]; [reflexivity|].
  rewrite hybrid_iter_ad_id. destruct (_ && _)%bool; [|reflexivity]. unfold mbind. destruct (snd (hybrid_iter p st)); [|reflexivity|reflexivity].
  now rewrite IH.
Qed.

(** What the user gets *)
Definition odeint_autograd {K : NumOps} := @odeint_ad (DualOps K) det.
Definition odeint_hybrid_autograd {K : NumOps} := @odeint_hybrid_ad (DualOps K) det detv.
