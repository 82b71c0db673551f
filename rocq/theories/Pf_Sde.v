(** Proofs of the properties of the SDE solvers. *)
From Coq Require Import ZArith QArith Qreals Reals Lra Lia String List Bool.
From Verif Require Import Num Py Tensor M_SolversOde M_Odeint M_Sde Spec_Ode Spec_Sde.
From Verif Require Import L_Base L_Fixed L_Fixed2 L_Vec L_Jagged L_Conv L_MS L_Sde.
Import ListNotations.
Local Open Scope R_scope.
Notation length := List.length.

(** drift, diffusion and Brownian increments have the size of the state *)
Definition sized (n : nat) (sde : sde_func ROps) (bm : brownian ROps) : Prop :=
  (forall t x, length x = n -> length (sde_f sde t x) = n) /\
  (forall t x, length x = n -> length (sde_g sde t x) = n) /\ (forall s t, length (bm s t) = n).

Lemma em_sized n sde bm x t dt : sized n sde bm -> length x = n -> length (@em_step ROps sde bm x t dt) = n.
Proof.
  intros (Hf & Hg & Hb) Hx. unfold em_step. apply vadd_len'; [apply vadd_len'; auto; apply vscale_len'; auto|].
  apply vmul_len; auto. 
Qed.
Lemma heun_sized n sde bm x t dt : sized n sde bm -> length x = n -> length (@heun_step ROps sde bm x t dt) = n.
Proof.
  intros (Hf & Hg & Hb) Hx. unfold heun_step. cbv zeta. apply vadd_len'; [apply vadd_len'; auto; apply vscale_len'; auto|].
  apply vmul_len; auto. apply vscale_len'. apply vadd_len'; auto. apply Hg. apply vadd_len'; auto. apply vmul_len; auto.
Qed.
Lemma mil_pred_len n sde bm x t dt : sized n sde bm -> length x = n ->
  length (@vadd ROps (@vadd ROps x (@vscale ROps dt (sde_f sde t x))) (@vscale ROps (sqrt dt) (sde_g sde t x))) = n.
Proof. intros (Hf & Hg & Hb) Hx. apply vadd_len'; [apply vadd_len'; auto|]; apply vscale_len'; auto. Qed.
Lemma mil_sized n v sde bm x t dt : sized n sde bm -> (forall b h, length b = n -> length (v b h) = n) -> length x = n ->
  length (@milstein_step ROps v sde bm x t dt) = n.
Proof.
  intros Hs Hv Hx. pose proof (mil_pred_len n sde bm x t dt Hs Hx) as Hp. destruct Hs as (Hf & Hg & Hb).
  unfold milstein_step. cbv zeta. apply vadd_len'; [apply vadd_len'; [apply vadd_len'; auto; apply vscale_len'; auto|apply vmul_len; auto]|].
  apply vmul_len; [|auto]. etransitivity; [apply map_length|]. apply vsub_len'; auto.
Qed.

(** each step is the textbook scheme *)
Lemma em_scheme n sde bm x s t : sized n sde bm -> length x = n ->
  euler_maruyama (sde_f sde) (sde_g sde) bm s t x (@em_step ROps sde bm x s (t - s)).
Proof.
  intros Hs Hx. split; [now rewrite (em_sized n)|]. destruct Hs as (Hf & Hg & Hb). intros i Hi. rewrite Hx in Hi.
  unfold em_step. cbv zeta. rops. replace (s + (t - s)) with t by ring.
  rewrite (comp_vadd n), (comp_vadd n), (comp_vmul n); auto using vadd_len', vscale_len', vmul_len.
  unfold vscale. rewrite (comp_map n) by auto. rops. ring.
Qed.

Lemma Q2R_half : Q2R (1 # 2) = / 2.
Proof. unfold Q2R. cbn. lra. Qed.

Lemma heun_scheme n sde bm x s t : sized n sde bm -> length x = n ->
  euler_heun (sde_f sde) (sde_g sde) bm s t x (@heun_step ROps sde bm x s (t - s)).
Proof.
  intros Hs Hx. split; [now rewrite (heun_sized n)|]. destruct Hs as (Hf & Hg & Hb).
  exists (@vadd ROps x (@vmul ROps (sde_g sde s x) (bm s t))).
  assert (Hp : length (@vadd ROps x (@vmul ROps (sde_g sde s x) (bm s t))) = n) by auto using vadd_len', vmul_len.
  split; [exact (eq_trans Hp (eq_sym Hx))|]. split.
  - intros i Hi. rewrite Hx in Hi. rewrite (comp_vadd n), (comp_vmul n); auto using vmul_len.
  - intros i Hi. rewrite Hx in Hi. unfold heun_step. cbv zeta. rops. replace (s + (t - s)) with t by ring.
    set (p := @vadd ROps x _) in *.
    rewrite (comp_vadd n), (comp_vadd n), (comp_vmul n); auto 8 using vadd_len', vscale_len', vmul_len.
    unfold vscale. rewrite !(comp_map n) by (auto using vadd_len'). rewrite (comp_vadd n) by auto. rops. rewrite Q2R_half. field.
Qed.

Lemma mil_scheme n v c sde bm x s t : sized n sde bm -> length x = n ->
  (forall b h, length b = n -> length (v b h) = n) ->
  (forall b h i, length b = n -> (i < n)%nat -> comp (v b h) i = comp b i ^ 2 - c * h) ->
  milstein (sde_f sde) (sde_g sde) bm c s t x (@milstein_step ROps v sde bm x s (t - s)).
Proof.
  intros Hs Hx Hv Hc. split; [now rewrite (mil_sized n)|].
  pose proof (mil_pred_len n sde bm x s (t - s) Hs Hx) as Hp. destruct Hs as (Hf & Hg & Hb).
  exists (@vadd ROps (@vadd ROps x (@vscale ROps (t - s) (sde_f sde s x))) (@vscale ROps (sqrt (t - s)) (sde_g sde s x))).
  split; [exact (eq_trans Hp (eq_sym Hx))|]. split.
  - intros i Hi. rewrite Hx in Hi. rewrite !(comp_vadd n); auto using vadd_len', vscale_len'.
    unfold vscale. rewrite !(comp_map n) by auto. rops. ring.
  - intros i Hi. rewrite Hx in Hi. unfold milstein_step. cbv zeta. rops. replace (s + (t - s)) with t by ring.
    set (p := @vadd ROps (@vadd ROps x _) _) in *.
    assert (Hd : length (@vsub ROps (sde_g sde s p) (sde_g sde s x)) = n) by auto using vsub_len'.
    rewrite (comp_vadd n), (comp_vadd n), (comp_vadd n), !(comp_vmul n); auto 8 using vadd_len', vscale_len', vmul_len.
    2: { etransitivity; [apply map_length|exact Hd]. }
    2: { apply vmul_len; auto. etransitivity; [apply map_length|exact Hd]. }
    rewrite Hc by auto. unfold vscale. rewrite !(comp_map n) by auto. rewrite (comp_vsub n) by auto. rops.
    rewrite RMicromega.Q2R_1. replace (Q2R 2) with 2 by (unfold Q2R; cbn; lra). f_equal; [ring|]. unfold Rdiv. ring.
Qed.

Lemma v_ito_ok n b h i : length b = n -> (i < n)%nat -> comp (@v_ito ROps b h) i = comp b i ^ 2 - 1 * h.
Proof. intros Hb Hi. unfold v_ito. rewrite (comp_map n) by auto. rops. ring. Qed.
Lemma v_strat_ok n b h i : length b = n -> (i < n)%nat -> comp (@v_strat ROps b h) i = comp b i ^ 2 - 0 * h.
Proof. intros Hb Hi. unfold v_strat. rewrite (comp_map n) by auto. rops. ring. Qed.

Lemma solver_scheme n name sde bm s S : sized n sde bm ->
  @sde_str_to_solver ROps name sde bm = Ok s -> scheme_of name (sde_f sde) (sde_g sde) bm = Some S ->
  ss_fixed s = true /\
  (forall x t dt, length x = n -> length (ss_step s x t dt) = n) /\
  (forall x ta tb, length x = n -> S ta tb x (ss_step s x ta (tb - ta))).
Proof.
  intros Hs. unfold sde_str_to_solver, scheme_of.
  destruct (name =? "euler")%string.
  { unfold EulerMaruyama. destruct (check_types sde "ito" all_noises); cbn [rbind]; try discriminate.
    intros [= <-] [= <-]. split; [reflexivity|]. split; intros; [now apply em_sized|now apply (em_scheme n)]. }
  destruct (name =? "eulerHeun")%string.
  { unfold EulerHeun. destruct (check_types sde "stratonovich" all_noises); cbn [rbind]; try discriminate.
    intros [= <-] [= <-]. split; [reflexivity|]. split; intros; [now apply heun_sized|now apply (heun_scheme n)]. }
  destruct (name =? "midpoint")%string; [discriminate|].
  destruct (name =? "milstein_ito")%string.
  { intros [= <-] [= <-]. split; [reflexivity|]. cbn [ss_step].
    assert (Hv : forall b h, length b = n -> length (@v_ito ROps b h) = n) by (intros; unfold v_ito; rewrite map_length; auto).
    split; intros; [now apply mil_sized|]. apply (mil_scheme n); auto. intros; now apply (v_ito_ok n). }
  destruct (name =? "milstein_stratonovich")%string; [|discriminate].
  intros [= <-] [= <-]. split; [reflexivity|]. cbn [ss_step].
  assert (Hv : forall b h, length b = n -> length (@v_strat ROps b h) = n) by (intros; unfold v_strat; rewrite map_length; auto).
  split; intros; [now apply mil_sized|]. apply (mil_scheme n); auto. intros; now apply (v_strat_ok n).
Qed.

Lemma traj_follows n (S : R -> R -> rvec -> rvec -> Prop) (step : rvec -> R -> R -> rvec) :
  (forall x t dt, length x = n -> length (step x t dt) = n) ->
  (forall x ta tb, length x = n -> S ta tb x (step x ta (tb - ta))) ->
  forall ts x, length x = n -> ts <> [] -> follows S x ts (one_step_traj (fun t h x => step x t h) x ts).
Proof.
  intros Hl HS ts x Hx Hts. split; [apply traj_length|]. split.
  { destruct ts as [|a [|b ts]]; try congruence; reflexivity. }
  intros i. revert x ts Hx Hts. induction i as [|i IH]; intros x ts Hx Hts s t a b Hs Ht Ha Hb.
  - destruct ts as [|u [|v ts]]; try discriminate. injection Hs as <-. injection Ht as <-. injection Ha as <-.
    rewrite (traj_cons _ x u v ts) in Hb. destruct ts; injection Hb as <-; now apply HS.
  - destruct ts as [|u [|v ts]]; try discriminate.
    rewrite (traj_cons _ x u v ts) in Ha, Hb. apply (IH (step x u (v - u)) (v :: ts)); auto; discriminate.
Qed.

(** C41.  For every drift, diffusion, Brownian path and every grid with at least two points (no
    separation is needed), if the solver name is accepted then sdeint returns the grid and one state
    per time, starting with x, consecutive states being related by the documented scheme with the
    Brownian increment over exactly the interval between the two times. *)
Lemma C41_sde_trajectory_pf :
  forall n name sde bm s S x t0 t1 ts, sized n sde bm -> length x = n ->
  @sde_str_to_solver ROps name sde bm = Ok s -> scheme_of name (sde_f sde) (sde_g sde) bm = Some S ->
  exists xs, @sdeint ROps sde x (t0 :: t1 :: ts) name bm [] = Ok (t0 :: t1 :: ts, xs) /\ follows S x (t0 :: t1 :: ts) xs.
Proof.
  intros n name sde bm s S x t0 t1 ts Hz Hx Es ES.
  destruct (solver_scheme n name sde bm s S Hz Es ES) as (Hfix & Hl & HS).
  exists (one_step_traj (fun t h x => ss_step s x t h) x (t0 :: t1 :: ts)). split.
  - unfold sdeint. rewrite Es. cbn [rbind]. rewrite Hfix, fixed_sdeint_full. rewrite select_all; auto. apply traj_length.
  - apply (traj_follows n); auto. discriminate.
Qed.

Definition ex_sde (ty : string) : sde_func ROps :=
  @MkSde ROps (fun t x => map (Rmult t) x) (fun _ x => x) (Some "diagonal"%string) (Some ty).
Definition ex_bm : brownian ROps := fun s t => [t - s + 1].
Lemma ex_sized ty : sized 1 (ex_sde ty) ex_bm.
Proof. repeat split; intros; cbn; auto. now rewrite map_length. Qed.

Lemma C41_ex_pf :
  sized 1 (ex_sde "ito") ex_bm /\
  (exists s, @sde_str_to_solver ROps "euler" (ex_sde "ito") ex_bm = Ok s) /\
  @sdeint ROps (ex_sde "ito") [1] [0; 1; 3] "euler" ex_bm [] = Ok ([0; 1; 3], [[1]; [3]; [18]]).
Proof.
  split; [apply ex_sized|]. split; [eexists; reflexivity|].
  unfold sdeint. cbn [sde_str_to_solver String.eqb Ascii.eqb Bool.eqb]. cbv beta iota.
  change (EulerMaruyama (ex_sde "ito") ex_bm) with (@Ok (sde_solver ROps) (@MkSdeSolver ROps (@em_step ROps (ex_sde "ito") ex_bm) true 1)).
  cbn [rbind ss_fixed ss_step]. rewrite fixed_sdeint_full, select_all; [|apply traj_length|auto].
  cbn [one_step_traj]. unfold em_step, ex_sde, ex_bm, vadd, vmul, vscale. cbn [sde_f sde_g map map2]. rops.
  repeat f_equal; lra.
Qed.

(** C42, noise-free limit: with zero diffusion every scheme is the Euler step of the drift. *)
Lemma C42_zero_diffusion_pf :
  forall n name sde bm s x t h, sized n sde bm -> length x = n ->
  @sde_str_to_solver ROps name sde bm = Ok s ->
  (forall t x i, comp (sde_g sde t x) i = 0) ->
  let y := ss_step s x t h in
  length y = n /\ forall i, (i < n)%nat -> comp y i = comp x i + comp (sde_f sde t x) i * h.
Proof.
  intros n name sde bm s x t h Hz Hx Es Hg y.
  assert (HS : exists S, scheme_of name (sde_f sde) (sde_g sde) bm = Some S).
  { unfold sde_str_to_solver in Es. unfold scheme_of.
    destruct (name =? "euler")%string; [eauto|]. destruct (name =? "eulerHeun")%string; [eauto|].
    destruct (name =? "midpoint")%string; [discriminate|]. destruct (name =? "milstein_ito")%string; [eauto|].
    destruct (name =? "milstein_stratonovich")%string; [eauto|discriminate]. }
  destruct HS as [S ES]. destruct (solver_scheme n name sde bm s S Hz Es ES) as (_ & Hl & HS).
  split; [now apply Hl|]. intros i Hi. specialize (HS x t (t + h) Hx). change (num ROps) with R in *. replace (t + h - t) with h in HS by (clear; ring). fold y in HS.
  unfold scheme_of in ES. rewrite <- Hx in Hi.
  destruct (name =? "euler")%string.
  { injection ES as <-. destruct HS as [_ H]. rewrite H, Hg by auto. ring. }
  destruct (name =? "eulerHeun")%string.
  { injection ES as <-. destruct HS as (_ & p & _ & _ & H). rewrite H, !Hg by auto. field. }
  destruct (name =? "milstein_ito")%string.
  { injection ES as <-. destruct HS as (_ & p & _ & _ & H). rewrite H, !Hg by auto. replace (t + h - t) with h by ring. unfold Rdiv. ring. }
  destruct (name =? "milstein_stratonovich")%string; [|discriminate].
  injection ES as <-. destruct HS as (_ & p & _ & _ & H). rewrite H, !Hg by auto. replace (t + h - t) with h by ring. unfold Rdiv. ring.
Qed.

Lemma comp_ext n (a b : rvec) : length a = n -> length b = n -> (forall i, (i < n)%nat -> comp a i = comp b i) -> a = b.
Proof.
  intros Ha Hb H. apply (nth_ext _ _ 0 0); [congruence|]. intros i Hi. apply H. congruence.
Qed.

(** C42, additive noise: if the diffusion does not depend on the state, both Milstein steps equal the
    Euler-Maruyama step; if it does not depend on the time either, so does the Euler-Heun step. *)
Lemma C42_additive_noise_pf :
  forall n sde bm x t h, sized n sde bm -> length x = n ->
  (forall t x y, sde_g sde t x = sde_g sde t y) ->
  let em := @em_step ROps sde bm x t h in
  @milstein_step ROps (@v_ito ROps) sde bm x t h = em /\ @milstein_step ROps (@v_strat ROps) sde bm x t h = em /\
  ((forall s t x, sde_g sde s x = sde_g sde t x) -> @heun_step ROps sde bm x t h = em).
Proof.
  intros n sde bm x t h Hz Hx Hg em.
  pose proof (em_scheme n sde bm x t (t + h) Hz Hx) as [E1 E2]. change (num ROps) with R in *. replace (t + h - t) with h in * by (clear; ring). fold em in E1, E2.
  assert (Hv1 : forall b h, length b = n -> length (@v_ito ROps b h) = n) by (intros; unfold v_ito; rewrite map_length; auto).
  assert (Hv2 : forall b h, length b = n -> length (@v_strat ROps b h) = n) by (intros; unfold v_strat; rewrite map_length; auto).
  rewrite Hx in *. split; [|split; [|intros Hgt]].
  - destruct (mil_scheme n (@v_ito ROps) 1 sde bm x t (t + h) Hz Hx Hv1 (v_ito_ok n)) as (L & p & _ & _ & H).
    change (num ROps) with R in *. replace (t + h - t) with h in * by (clear; ring). rewrite Hx in *. apply (comp_ext n); auto. intros i Hi.
    rewrite H, E2 by auto. rewrite (Hg t p x). unfold Rdiv. ring.
  - destruct (mil_scheme n (@v_strat ROps) 0 sde bm x t (t + h) Hz Hx Hv2 (v_strat_ok n)) as (L & p & _ & _ & H).
    change (num ROps) with R in *. replace (t + h - t) with h in * by (clear; ring). rewrite Hx in *. apply (comp_ext n); auto. intros i Hi.
    rewrite H, E2 by auto. rewrite (Hg t p x). unfold Rdiv. ring.
  - destruct (heun_scheme n sde bm x t (t + h) Hz Hx) as (L & p & _ & _ & H).
    change (num ROps) with R in *. replace (t + h - t) with h in * by (clear; ring). rewrite Hx in *. apply (comp_ext n); auto. intros i Hi.
    rewrite H, E2 by auto. rewrite (Hg (t + h) p x), (Hgt (t + h) t x). field.
Qed.

(** C42: the Stratonovich and the Ito Milstein step differ exactly by (g(p) - g(x)) sqrt(h) / 2 where
    p = x + f h + g sqrt(h); for linear diffusion g(x) = b x (per component) this is the Ito correction
    b g h / 2 plus b f h^(3/2) / 2. *)
Lemma C42_ito_stratonovich_pf :
  forall n sde bm x t h, sized n sde bm -> length x = n -> 0 < h ->
  let yi := @milstein_step ROps (@v_ito ROps) sde bm x t h in
  let ys := @milstein_step ROps (@v_strat ROps) sde bm x t h in
  exists p, length p = n /\
    (forall i, (i < n)%nat -> comp p i = comp x i + comp (sde_f sde t x) i * h + comp (sde_g sde t x) i * sqrt h) /\
    (forall i, (i < n)%nat -> comp ys i - comp yi i = (comp (sde_g sde t p) i - comp (sde_g sde t x) i) * sqrt h / 2) /\
    (forall b, (forall t x i, comp (sde_g sde t x) i = comp b i * comp x i) ->
       forall i, (i < n)%nat -> comp ys i - comp yi i =
         comp b i * comp (sde_g sde t x) i * h / 2 + comp b i * comp (sde_f sde t x) i * (h * sqrt h) / 2).
Proof.
  intros n sde bm x t h Hz Hx Hh yi ys.
  assert (Hv1 : forall b h, length b = n -> length (@v_ito ROps b h) = n) by (intros; unfold v_ito; rewrite map_length; auto).
  assert (Hv2 : forall b h, length b = n -> length (@v_strat ROps b h) = n) by (intros; unfold v_strat; rewrite map_length; auto).
  destruct (mil_scheme n (@v_ito ROps) 1 sde bm x t (t + h) Hz Hx Hv1 (v_ito_ok n)) as (L & p & Lp & Hp & H).
  destruct (mil_scheme n (@v_strat ROps) 0 sde bm x t (t + h) Hz Hx Hv2 (v_strat_ok n)) as (L' & p' & Lp' & Hp' & H').
  change (num ROps) with R in *. replace (t + h - t) with h in * by (clear; ring). rewrite Hx in *.
  assert (p' = p) as ->. { apply (comp_ext n); auto. intros i Hi. rewrite Hp, Hp' by auto. reflexivity. }
  assert (Hq : sqrt h <> 0) by (apply Rgt_not_eq, sqrt_lt_R0; auto).
  assert (Hqq : sqrt h * sqrt h = h) by (apply sqrt_sqrt; lra).
  assert (D : forall i, (i < n)%nat -> comp ys i - comp yi i = (comp (sde_g sde t p) i - comp (sde_g sde t x) i) * sqrt h / 2).
  { intros i Hi. unfold ys, yi. rewrite H, H' by auto.
    set (d := comp (sde_g sde t p) i - comp (sde_g sde t x) i). set (w := comp (bm t (t + h)) i).
    transitivity (d / (2 * sqrt h) * h); [ring|]. rewrite <- Hqq at 2. field. auto. }
  exists p. split; [auto|]. split; [exact Hp|]. split; [exact D|].
  intros b Hb i Hi. rewrite D by auto. rewrite (Hb t p i). rewrite Hp by auto. rewrite (Hb t x i).
  transitivity (comp b i * (comp (sde_f sde t x) i * (h * sqrt h) + comp b i * comp x i * (sqrt h * sqrt h)) / 2); [field|].
  rewrite Hqq. field.
Qed.

(** C42 is not vacuous: x = 1, f = 0 at time 0, g(x) = x, h = 4, increment 5. *)
Lemma C42_ex_pf :
  @milstein_step ROps (@v_strat ROps) (ex_sde "ito") ex_bm [1] 0 4 = [1 + 5 + 25 / 2] /\
  @milstein_step ROps (@v_ito ROps) (ex_sde "ito") ex_bm [1] 0 4 = [1 + 5 + 21 / 2].
Proof.
  unfold milstein_step, v_strat, v_ito, ex_sde, ex_bm, vadd, vsub, vmul, vscale. cbn [sde_f sde_g map map2]. rops.
  replace (sqrt 4) with 2 by (symmetry; replace 4 with (2 * 2) by ring; apply sqrt_square; lra).
  rewrite RMicromega.Q2R_1. replace (Q2R 2) with 2 by (unfold Q2R; cbn; lra).
  split; f_equal; field.
Qed.

(** C43, the solvers that check: euler and eulerHeun accept an SDE exactly if its type is theirs and
    its noise type is one of the four documented ones; otherwise sdeint raises ValueError. *)
Definition type_of_solver (name : string) : option string :=
  (if name =? "euler" then Some "ito" else if name =? "eulerHeun" then Some "stratonovich" else None)%string.

Lemma C43_checked_partial_pf :
  forall name ty sde bm x ts save, type_of_solver name = Some ty ->
  (sde_type sde = Some ty /\ (exists nz, sde_noise sde = Some nz /\ In nz ["general"; "diagonal"; "scalar"; "additive"]%string) ->
     exists s, @sde_str_to_solver ROps name sde bm = Ok s) /\
  (~ (sde_type sde = Some ty /\ exists nz, sde_noise sde = Some nz /\ In nz ["general"; "diagonal"; "scalar"; "additive"]%string) ->
     @sdeint ROps sde x ts name bm save = Err ValueError).
Proof.
  intros name ty sde bm x ts save Hty.
  assert (G : forall ty, 
    (sde_type sde = Some ty /\ (exists nz, sde_noise sde = Some nz /\ In nz all_noises) -> @check_types ROps sde ty all_noises = Ok tt) /\
    (~ (sde_type sde = Some ty /\ exists nz, sde_noise sde = Some nz /\ In nz all_noises) -> @check_types ROps sde ty all_noises = Err ValueError)).
  { intros ty'. unfold check_types.
    assert (Ht : opt_eqb (sde_type sde) ty' = true <-> sde_type sde = Some ty').
    { unfold opt_eqb. destruct (sde_type sde) as [u|]; [|split; discriminate]. rewrite String.eqb_eq. split; congruence. }
    assert (Hn : existsb (opt_eqb (sde_noise sde)) all_noises = true <-> exists nz, sde_noise sde = Some nz /\ In nz all_noises).
    { rewrite existsb_exists. unfold opt_eqb. split.
      - intros (y & Hy & E). destruct (sde_noise sde) as [u|]; [|discriminate]. apply String.eqb_eq in E. subst. eauto.
      - intros (nz & E & Hnz). exists nz. rewrite E, String.eqb_refl. auto. }
    split.
    - intros [A B]. apply Ht in A. apply Hn in B. rewrite A, B. reflexivity.
    - intros N. destruct (opt_eqb (sde_type sde) ty'); [|reflexivity]. cbn [negb].
      destruct (existsb (opt_eqb (sde_noise sde)) all_noises); [|reflexivity]. exfalso. apply N. split; [now apply Ht|now apply Hn]. }
  change ["general"; "diagonal"; "scalar"; "additive"]%string with all_noises. destruct (G ty) as [G1 G2]. clear G.
  unfold sdeint, sde_str_to_solver, type_of_solver in *.
  destruct (name =? "euler")%string.
  { injection Hty as <-. unfold EulerMaruyama. split; intros A; [rewrite (G1 A); eexists; reflexivity|rewrite (G2 A); reflexivity]. }
  destruct (name =? "eulerHeun")%string; [|discriminate].
  injection Hty as <-. unfold EulerHeun. split; intros A; [rewrite (G1 A); eexists; reflexivity|rewrite (G2 A); reflexivity].
Qed.

(** Finding: the Milstein solvers never check.  An Ito solver runs on a Stratonovich SDE with an
    unknown noise type, for every drift, diffusion, path and grid. *)
Lemma C43_milstein_unchecked_refuted_pf :
  forall f g bm n x t0 t1 ts,
  sized n (@MkSde ROps f g (Some "unknown"%string) (Some "stratonovich"%string)) bm -> length x = n ->
  exists xs, @sdeint ROps (@MkSde ROps f g (Some "unknown"%string) (Some "stratonovich"%string)) x (t0 :: t1 :: ts) "milstein_ito" bm []
    = Ok (t0 :: t1 :: ts, xs).
Proof.
  intros f g bm n x t0 t1 ts Hz Hx.
  destruct (C41_sde_trajectory_pf n "milstein_ito" _ bm _ _ x t0 t1 ts Hz Hx eq_refl eq_refl) as (xs & E & _). eauto.
Qed.

(** Finding: the solver name 'midpoint' always raises TypeError (wrong constructor signature). *)
Lemma C43_midpoint_refuted_pf :
  forall sde x ts bm save, @sdeint ROps sde x ts "midpoint" bm save = Err TypeError.
Proof. reflexivity. Qed.

(** C60.  For noise type 'general' (diffusion matrices of shape (batch, d, m), increments (batch, m))
    the update never has the shape (batch, d) of the state: it fails or has three dimensions. *)
Lemma bcast_rev_len a : forall b c, bcast_rev a b = Ok c -> length c = Nat.max (length a) (length b).
Proof.
  induction a as [|p a IH]; intros [|q b] c H; cbn in H; try (injection H as <-; cbn; lia).
  destruct (if (p =? q)%nat then _ else _) as [d|e|]; cbn in H; try discriminate.
  destruct (bcast_rev a b) as [ds|e|] eqn:E; cbn in H; try discriminate. injection H as <-.
  cbn. now rewrite (IH _ _ E).
Qed.
Lemma bcast_len a b c : bcast a b = Ok c -> length c = Nat.max (length a) (length b).
Proof.
  unfold bcast, rmap. destruct (bcast_rev (rev a) (rev b)) as [ds|e|] eqn:E; cbn; try discriminate.
  intros [= <-]. rewrite rev_length, (bcast_rev_len _ _ _ E), !rev_length. reflexivity.
Qed.

Lemma C60_general_noise_refuted_pf :
  forall b d m, em_shape [b; d] [b; d] [b; d; m] [b; m] <> Ok [b; d].
Proof.
  intros b d m H. unfold em_shape in H.
  destruct (bcast [b; d] []) as [s1|?|] eqn:E1; cbn [rbind] in H; try discriminate.
  destruct (bcast [b; d] s1) as [s2|?|] eqn:E2; cbn [rbind] in H; try discriminate.
  destruct (bcast [b; d; m] [b; m]) as [s3|?|] eqn:E3; cbn [rbind] in H; try discriminate.
  apply bcast_len in E1, E2, E3, H. cbn [length] in *. lia.
Qed.

(** C60, the case that works: diagonal noise (all shapes equal). *)
Lemma C60_diagonal_shape_partial_pf :
  forall s, em_shape s s s s = Ok s.
Proof.
  assert (G : forall a, bcast_rev a a = Ok a).
  { induction a as [|p a IH]; [reflexivity|]. cbn. rewrite Nat.eqb_refl. cbn. now rewrite IH. }
  intros s. unfold em_shape.
  assert (E0 : bcast s [] = Ok s).
  { unfold bcast. destruct (rev s) eqn:E; cbn; f_equal; rewrite <- (rev_involutive s), E; reflexivity. }
  assert (E1 : bcast s s = Ok s). { unfold bcast. rewrite G. cbn. now rewrite rev_involutive. }
  rewrite E0. cbn [rbind]. rewrite E1. cbn [rbind]. exact E1.
Qed.

(** C60, another case that works: a diffusion of the shape of the state and one increment for all entries of a sample. *)
Lemma C60_shared_increment_partial_pf :
  forall b d, em_shape [b; d] [b; d] [b; d] [b; 1%nat] = Ok [b; d].
Proof.
  intros b d. unfold em_shape, bcast. cbn [rev app bcast_rev rmap rbind]. rewrite !Nat.eqb_refl. cbn [rbind].
  destruct (d =? 1)%nat eqn:E; cbn [rbind rmap rev app bcast_rev Nat.eqb]; rewrite ?Nat.eqb_refl, ?E; cbn [rbind rmap rev app bcast_rev]; rewrite ?Nat.eqb_refl;
  cbn [rbind rmap rev app]; try (apply Nat.eqb_eq in E; subst d); rewrite ?Nat.eqb_refl; reflexivity.
Qed.

(** C61, save_at for SDEs: the returned states are those of the full trajectory whose time is close to
    a requested time; if there is none, IndexError. *)
Lemma C61_save_at_actual_partial_pf :
  forall name sde bm s x t0 t1 ts sv svs, @sde_str_to_solver ROps name sde bm = Ok s -> ss_fixed s = true ->
  exists out, selected (sv :: svs) (t0 :: t1 :: ts) (one_step_traj (fun t h x => ss_step s x t h) x (t0 :: t1 :: ts)) out /\
    @sdeint ROps sde x (t0 :: t1 :: ts) name bm (sv :: svs) =
      match out with [] => Err IndexError | _ => Ok (sv :: svs, out) end.
Proof.
  intros name sde bm s x t0 t1 ts sv svs Es Hfix. eexists. split.
  - apply select_selected. symmetry. apply traj_length.
  - unfold sdeint. rewrite Es. cbn [rbind]. rewrite Hfix, fixed_sdeint_full. symmetry. apply saved_eta.
Qed.

(** C61, save_at a sub-grid of a separated grid: exactly the requested states. *)
Lemma C61_subgrid_partial_pf :
  forall name sde bm s x t0 t1 ts mask, @sde_str_to_solver ROps name sde bm = Ok s -> ss_fixed s = true ->
  separated (t0 :: t1 :: ts) -> length mask = length (t0 :: t1 :: ts) -> pick mask (t0 :: t1 :: ts) <> [] ->
  @sdeint ROps sde x (t0 :: t1 :: ts) name bm (pick mask (t0 :: t1 :: ts)) =
    Ok (pick mask (t0 :: t1 :: ts), pick mask (one_step_traj (fun t h x => ss_step s x t h) x (t0 :: t1 :: ts))).
Proof.
  intros name sde bm s x t0 t1 ts mask Es Hfix Hsep Hm Hne.
  unfold sdeint. rewrite Es. cbn [rbind]. rewrite Hfix.
  set (xs := one_step_traj (fun t h x => ss_step s x t h) x (t0 :: t1 :: ts)).
  assert (Hxs : length xs = length (t0 :: t1 :: ts)) by apply traj_length.
  pose proof (select_pick mask (t0 :: t1 :: ts) xs Hsep Hm Hxs) as Hsel.
  pose proof (pick_length mask (t0 :: t1 :: ts) _ xs (eq_sym Hxs)) as Hpl.
  destruct (pick mask (t0 :: t1 :: ts)) as [|p ps] eqn:Ep; [congruence|].
  rewrite fixed_sdeint_full. fold xs.
  assert (E : forall U : list rvec, U = pick mask xs ->
    match U with [] => Err IndexError | v :: l0 => Ok (p :: ps, v :: l0) end = Ok (p :: ps, pick mask xs)).
  { intros U ->. destruct (pick mask xs) eqn:Ex; [|reflexivity].
    exfalso. discriminate. }
  exact (E _ Hsel).
Qed.

(** Finding: nothing checks save_at.  A requested time off the grid is silently dropped, so the
    returned times and states do not correspond: two times, one state. *)
Lemma C61_off_grid_refuted_pf :
  @sdeint ROps (ex_sde "ito") [1] [0; 1] "euler" ex_bm [0; 1/2] = Ok ([0; 1/2], [[1]]).
Proof.
  destruct (C61_save_at_actual_partial_pf "euler" (ex_sde "ito") ex_bm _ [1] 0 1 [] 0 [1/2] eq_refl eq_refl) as (out & Hs & E).
  assert (out = [[1]]) as ->.
  { apply (selected_det [0; 1/2] [0; 1] (one_step_traj (fun t h x => @em_step ROps (ex_sde "ito") ex_bm x t h) [1] [0; 1])); [exact Hs|].
    cbn [one_step_traj]. apply sel_take.
    - exists 0. split; [now left|]. unfold close_to. rewrite Rminus_0_r, Rabs_R0. lra.
    - apply sel_skip; [|constructor]. intros u [<-|[<-|[]]]; unfold close_to; rewrite ?Rabs_right by lra; try lra. }
  exact E.
Qed.
