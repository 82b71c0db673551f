(** Adaptive solves that never return; reversed grids; the first accepted step. *)
From Coq Require Import ZArith QArith Qreals Reals Lra Lia List Bool Sorted.
From Verif Require Import Num Py Tensor M_Constants M_SolversOde M_Utils M_Interp M_Odeint.
From Verif Require Import Spec_Ode Spec_Trees Spec_RK Spec_Norm Spec_Adaptive.
From Verif Require Import L_Base L_Fixed L_Vec L_Steps L_Tables L_Steps2 L_Interp L_Utils L_Fixed2 L_Adaptive L_Run.
From Verif Require Import L_Adaptive2 L_Term L_Growth L_Adaptive3.
Import ListNotations.
Local Open Scope R_scope.

Section Pair.
Variables (s : solver ROps (vec ROps)) (rows : list (R * list R)) (b bh : list R).
Hypothesis HP : embedded_pair s rows b bh.
Variables (n : nat) (f : R -> rvec -> rvec).
Hypothesis Hf : field_on n f.
Variables (atol rtol : R) (interp all : bool) (semi : option nat).
Let bmid := if s_is_tsit5 s then None else if interp then Some (construct_4th ROps) else None.
Let xn := erk_step rows b f.
Let err t h x := @vsub ROps (xn t h x) (erk_step rows bh f t h x).
Notation rat := (ratio atol rtol semi xn err).

Lemma rat_scaled t h x : rat t h x =
  scaled_error atol rtol semi x (xn t h x) (minus_list (xn t h x) (erk_step rows bh f t h x)).
Proof. unfold ratio. rewrite error_ratio_spec, minus_list_vsub. reflexivity. Qed.

Lemma p_iter T t_eval st rest : Inv f T t_eval n st rest -> a_t st < T ->
  let p := @MkP ROps f s T t_eval atol rtol bmid all semi in
  exists h old st' , attempt_dt p st = (h, old) /\ 0 < h /\ a_t st + h <= T /\
  snd (@adaptive_iter ROps p st) = Ok st' /\
  a_dt st' = @adapt_step ROps (match old with Some o => o - h | None => h end)
      (rat (a_t st) h (a_x st)) (s_safety s) (s_min_factor s) (s_max_factor s) (s_order s) /\
  ((1 < rat (a_t st) h (a_x st) /\ a_t st' = a_t st /\ a_x st' = a_x st /\
    a_times st' = a_times st /\ a_sol st' = a_sol st /\ Inv f T t_eval n st' rest) \/
   (accd atol rtol semi xn err (a_t st) h (a_x st) (a_x st') /\ a_t st' = a_t st + h /\
    exists crossed (hit : bool) rest',
      rest = crossed ++ (if hit then [a_t st + h] else []) ++ rest' /\
      (forall c, In c crossed -> a_t st < c < a_t st + h) /\ (bmid = None -> crossed = []) /\
      (forall c, In c rest' -> a_t st + h < c) /\
      a_times st' = a_times st ++ crossed ++ (if hit || all then [a_t st + h] else []) /\
      a_sol st' = a_sol st ++ map (pdense rows b f (a_t st) h (a_x st)) crossed ++ (if hit || all then [a_x st'] else []) /\
      Inv f T t_eval n st' rest')).
Proof.
  intros HI Ht p0. pose proof HP as (_ & H1' & H2 & H3 & _ & _). assert (H1 : 0 < s_min_factor s <= 1) by lra.
  apply (iter_spec f s T t_eval atol rtol bmid all semi n xn err (erk_stages rows f) (pdense rows b f)); auto.
  - intros y t h Hy. exact (p_step s rows b bh HP n f Hf y t h Hy).
  - intros y t h Hy. exact (p_len rows b n f Hf y t h Hy).
  - intros bm y t h c Hb. apply (p_dense s rows b bh HP n f Hf bmid); auto. apply bmid_cases.
Qed.

(** If no step size is accepted at the current state, the loop never ends. *)
Lemma loop_stuck T t_eval rest t0 x : t0 < T -> (forall h, 0 < h -> t0 + h <= T -> 1 < rat t0 h x) ->
  forall fuel (st : astate ROps), Inv f T t_eval n st rest -> a_t st = t0 -> a_x st = x ->
  snd (@adaptive_loop ROps fuel (@MkP ROps f s T t_eval atol rtol bmid all semi) st) = OutOfFuel.
Proof.
  intros HT Hst. set (p := @MkP ROps f s T t_eval atol rtol bmid all semi).
  induction fuel as [|fuel IH]; intros st HI Et Ex; cbn [adaptive_loop]; change (p_T p) with T; rops;
    rewrite (proj2 (Rltb_true (a_t st) T)) by lra; [reflexivity|].
  destruct (p_iter T t_eval st rest HI ltac:(lra)) as (h & old & st' & Ea & Hh & HhT & Ei & _ & Hc).
  fold p in Ei. rewrite snd_mbind. rbw Ei. cbn [rbind].
  destruct Hc as [(_ & E1 & E2 & _ & _ & HI')|((_ & Hacc) & _)].
  - apply IH; auto; congruence.
  - rewrite Et, Ex in *. specialize (Hst h Hh HhT). lra.
Qed.

Lemma odeint_stuck x t0 t1 ts save_at : StronglySorted Rlt (t0 :: t1 :: ts) -> length x = n ->
  (forall h, 0 < h -> t0 + h <= last (t1 :: ts) t0 ->
     1 < scaled_error atol rtol semi x (xn t0 h x) (minus_list (xn t0 h x) (erk_step rows bh f t0 h x))) ->
  forall fuel, snd (@odeint ROps fuel f x (@TTensor ROps (t0 :: t1 :: ts)) s atol rtol interp all save_at semi) = OutOfFuel.
Proof.
  intros Hs Hx Hst fuel.
  assert (Hlt : t0 < t1) by (inversion Hs as [|? ? ? Hf1]; subst; now inversion Hf1).
  destruct (odeint_adaptive_inc s rows b bh HP f atol rtol interp all semi fuel x t0 t1 ts save_at ltac:(lra))
    as (dt & lg & Hd & _ & Eo).
  rops. rewrite Eo. cbn [snd]. fold bmid.
  assert (El : @pylast R (t0 :: t1 :: ts) = Ok (last (t1 :: ts) t0)).
  { rewrite (pylast_last _ t0) by discriminate. reflexivity. }
  unfold adaptive_odeint. rewrite !snd_mbind. rewrite !snd_mlift. cbn [pyget nth_error rbind skipn].
  rewrite snd_mbind, snd_mlift. rbw El. cbn [rbind].
  apply (loop_stuck _ _ (t1 :: ts) t0 x); auto.
  - pose proof (init_inv n f Hf (f t0 x) x dt t0 (t1 :: ts) Hs ltac:(discriminate) Hx eq_refl Hd) as HI.
    destruct HI as (_ & _ & _ & _ & _ & Hc & _). destruct (Hc t1 (or_introl eq_refl)) as [_ H]. lra.
  - intros h Hh HhT. rewrite rat_scaled. auto.
  - exact (init_inv n f Hf (f t0 x) x dt t0 (t1 :: ts) Hs ltac:(discriminate) Hx eq_refl Hd).
Qed.

(** The first step, when it is accepted and does not reach a requested time *)
Lemma loop_first fuel x dt t0 ts times sol : StronglySorted Rlt (t0 :: ts) -> ts <> [] -> length x = n -> 0 < dt ->
  all = true -> (forall c, In c ts -> t0 + dt < c) -> rat t0 dt x <= 1 ->
  snd (@adaptive_odeint ROps fuel f (f t0 x) x dt (t0 :: ts) s atol rtol bmid all semi) = Ok (times, sol) ->
  nth_error times 1 = Some (t0 + dt).
Proof.
  intros Hs Hne Hx Hd Hall Hc Hr Ho.
  assert (El : @pylast R (t0 :: ts) = Ok (last ts t0)).
  { rewrite (pylast_last _ t0) by discriminate. destruct ts; [congruence|reflexivity]. }
  unfold adaptive_odeint in Ho. rewrite !snd_mbind in Ho. rewrite !snd_mlift in Ho. cbn [pyget nth_error rbind skipn] in Ho.
  rewrite snd_mbind, snd_mlift in Ho. rbwin El Ho. cbn [rbind] in Ho.
  set (T := last ts t0) in *.
  assert (HT : t0 + dt < T).
  { apply Hc. unfold T. destruct (exists_last Hne) as (l & a & ->). rewrite last_last. apply in_or_app; right; now left. }
  pose proof (init_inv n f Hf (f t0 x) x dt t0 ts Hs Hne Hx eq_refl Hd) as HI. fold T in HI.
  set (st := @MkA ROps t0 dt x (f t0 x) 0 [t0] [x]) in *.
  set (p := @MkP ROps f s T ts atol rtol bmid all semi) in *.
  assert (HtT : a_t st < T) by (cbn; lra).
  destruct (p_iter T ts st ts HI HtT) as (h & old & st' & Ea & Hh & HhT & Ei & _ & Hcase). fold p in Ea, Ei.
  assert (Hb : @nltb ROps (a_t st) (p_T p) = true) by (apply (proj2 (Rltb_true (a_t st) T)); exact HtT).
  change (snd (@adaptive_loop ROps fuel p st) = Ok (times, sol)) in Ho.
  destruct fuel as [|fuel]; cbn [adaptive_loop] in Ho; rewrite Hb in Ho; [discriminate|].
  rewrite snd_mbind in Ho. rbwin Ei Ho. cbn [rbind] in Ho.
  assert (Eh : h = dt /\ old = None).
  { unfold attempt_dt, p in Ea. cbn [p_T p_t_eval p_interp a_t a_dt a_ck st] in Ea. rops.
    rewrite (proj2 (Rltb_false T (t0 + dt))) in Ea by lra.
    destruct ts as [|c r]; [congruence|]. cbn [nth_error] in Ea.
    rewrite (proj2 (Rltb_false c (t0 + dt))) in Ea by (specialize (Hc c (or_introl eq_refl)); lra).
    destruct bmid; injection Ea as <- <-; auto. }
  destruct Eh as [-> ->]. cbn [a_t a_x a_times a_sol st] in Hcase.
  destruct Hcase as [(Hrej & _)|(Hacc & Et & crossed & hit & rest' & E1 & E2 & E3 & E4 & E5 & E6 & HI')].
  { lra. }
  assert (crossed = []).
  { destruct crossed as [|c cr]; auto. exfalso. specialize (E2 c (or_introl eq_refl)).
    specialize (Hc c). rewrite E1 in Hc. specialize (Hc (or_introl eq_refl)). lra. }
  subst crossed. rewrite Hall, orb_true_r in E5. cbn [app] in E5.
  pose proof HP as (_ & H1' & H2 & H3 & _ & _). assert (H1 : 0 < s_min_factor s <= 1) by lra.
  destruct (loop_run f s T ts atol rtol bmid all semi n xn err (erk_stages rows f) (pdense rows b f)
     (fun y t h Hy => p_step s rows b bh HP n f Hf y t h Hy) (fun y t h Hy => p_len rows b n f Hf y t h Hy)
     (fun bm y t h c Hb => p_dense s rows b bh HP n f Hf bmid bm y t h c (bmid_cases s interp) Hb) H1 H2 fuel st' rest' times sol HI' Ho)
    as (times' & sol' & E & _ & _).
  rewrite E, E5. reflexivity.
Qed.

End Pair.

(** odeint, decreasing grid: the loop runs with the reversed field on the negated grid, but the
    initial step is computed with the original field. *)
Lemma odeint_adaptive_dec s f atol rtol interp all semi fuel x t0 t1 ts save_at : s_fixed s = false -> t1 < t0 ->
  let fr := @neg_field ROps f in
  exists dt lg, 0 < dt /\
  @init_step ROps f (fr (- t0) x) x (- t0) (s_order s) atol rtol = ([lg], Ok dt) /\
  snd (@odeint ROps fuel f x (@TTensor ROps (t0 :: t1 :: ts)) s atol rtol interp all save_at semi) =
  snd (@adaptive_odeint ROps fuel fr (fr (- t0) x) x dt (map Ropp (t0 :: t1 :: ts)) s atol rtol
         (if s_is_tsit5 s then None else if interp then Some (construct_4th ROps) else None) all semi).
Proof.
  intros Hfx Hlt fr. destruct (init_step_value f (fr (- t0) x) x (- t0) (s_order s) atol rtol) as (dt & lg & E & Hd & _).
  exists dt, lg. split; auto. split; auto.
  unfold odeint, prep_time. cbn [ts_list pyget nth_error rbind]. rops.
  rewrite (proj2 (Rltb_true t1 t0)) by lra.
  rewrite snd_mbind, snd_mlift. cbn [rbind]. rewrite Hfx.
  rewrite snd_mbind, snd_mlift. cbn [rbind pyget nth_error map].
  rewrite snd_mbind. unfold call. cbn [snd rbind].
  rewrite snd_mbind. 
  match goal with |- rbind (snd ?m) _ = _ => assert (E' : m = ([lg], Ok dt)) by exact E; rewrite E' end.
  reflexivity.
Qed.
