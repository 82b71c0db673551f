(** Proofs of the property about superposition for linear SDEs along one Brownian path. *)
From Coq Require Import ZArith QArith Qreals Reals Lra Lia String List Bool.
From Verif Require Import Num Py Tensor M_SolversOde M_Odeint M_Sde Spec_Ode Spec_Sde.
From Verif Require Import L_Base L_Fixed L_Fixed2 L_Vec L_Jagged L_Conv L_Sde Pf_Sde Pf_SdeLaws Pf_Super.
Import ListNotations.
Local Notation length := List.length.
Local Open Scope R_scope.

Section Lin.
Variables (a b : R).
Lemma add_lin u v u' v' : @vadd ROps (lin a b u v) (lin a b u' v') = lin a b (@vadd ROps u u') (@vadd ROps v v').
Proof.
  unfold vadd, lin. revert v u' v'. induction u as [|p u IH]; intros [|q v] [|p' u'] [|q' v']; cbn; auto; try (now destruct u); try (now destruct (map2 _ _ _)).
  f_equal; [rops; ring|apply IH].
Qed.
Lemma sub_lin u v u' v' : @vsub ROps (lin a b u v) (lin a b u' v') = lin a b (@vsub ROps u u') (@vsub ROps v v').
Proof.
  unfold vsub, lin. revert v u' v'. induction u as [|p u IH]; intros [|q v] [|p' u'] [|q' v']; cbn; auto; try (now destruct u); try (now destruct (map2 _ _ _)).
  f_equal; [rops; ring|apply IH].
Qed.
Lemma mul_lin u v w : @vmul ROps (lin a b u v) w = lin a b (@vmul ROps u w) (@vmul ROps v w).
Proof.
  unfold vmul, lin. revert v w. induction u as [|p u IH]; intros [|q v] [|r w]; cbn; auto; try (now destruct (map2 _ _ _)).
  f_equal; [rops; ring|apply IH].
Qed.
Lemma map_lin (k : R -> R) u v : (forall p q, k (a * p + b * q) = a * k p + b * k q) -> map k (lin a b u v) = lin a b (map k u) (map k v).
Proof. intros H. unfold lin. revert v. induction u as [|p u IH]; intros [|q v]; cbn; auto. f_equal; [apply H|apply IH]. Qed.
Lemma scale_lin h u v : @vscale ROps h (lin a b u v) = lin a b (@vscale ROps h u) (@vscale ROps h v).
Proof. unfold vscale. apply (map_lin (fun y => @nmul ROps h y)). intros p q. rops. ring. Qed.

(** drift and diffusion are linear with sources: those of [sde] at a u + b v combine those of the two parts *)
Definition combined (sde sde1 sde2 : sde_func ROps) : Prop :=
  (forall t u v, sde_f sde t (lin a b u v) = lin a b (sde_f sde1 t u) (sde_f sde2 t v)) /\
  (forall t u v, sde_g sde t (lin a b u v) = lin a b (sde_g sde1 t u) (sde_g sde2 t v)) /\
  sde_noise sde1 = sde_noise sde /\ sde_type sde1 = sde_type sde /\ sde_noise sde2 = sde_noise sde /\ sde_type sde2 = sde_type sde.

Variables (sde sde1 sde2 : sde_func ROps) (bm : brownian ROps).
Hypothesis HC : combined sde sde1 sde2.
Lemma em_lin u v t h : @em_step ROps sde bm (lin a b u v) t h = lin a b (@em_step ROps sde1 bm u t h) (@em_step ROps sde2 bm v t h).
Proof. destruct HC as (Hf & Hg & _). unfold em_step. cbv zeta. now rewrite Hf, Hg, scale_lin, mul_lin, !add_lin. Qed.
Lemma heun_lin u v t h : @heun_step ROps sde bm (lin a b u v) t h = lin a b (@heun_step ROps sde1 bm u t h) (@heun_step ROps sde2 bm v t h).
Proof. destruct HC as (Hf & Hg & _). unfold heun_step. cbv zeta. now rewrite Hf, Hg, scale_lin, mul_lin, !add_lin, Hg, add_lin, scale_lin, mul_lin, add_lin. Qed.
Lemma milstein_lin w u v t h : @milstein_step ROps w sde bm (lin a b u v) t h = lin a b (@milstein_step ROps w sde1 bm u t h) (@milstein_step ROps w sde2 bm v t h).
Proof.
  destruct HC as (Hf & Hg & _). unfold milstein_step. cbv zeta. rewrite Hf, Hg, !scale_lin, mul_lin, !add_lin, Hg, sub_lin.
  rewrite (map_lin (fun y : R => @ndiv ROps (@nmul ROps y (@nQ ROps 1)) (@nmul ROps (@nQ ROps 2) (@nsqrt ROps h)))); [now rewrite mul_lin, add_lin|].
  intros p q. rops. unfold Rdiv. ring.
Qed.
Lemma solver_lin name s : @sde_str_to_solver ROps name sde bm = Ok s -> exists s1 s2,
  @sde_str_to_solver ROps name sde1 bm = Ok s1 /\ @sde_str_to_solver ROps name sde2 bm = Ok s2 /\
  forall u v t h, ss_step s (lin a b u v) t h = lin a b (ss_step s1 u t h) (ss_step s2 v t h).
Proof.
  assert (C1 : forall k l, check_types sde1 k l = check_types sde k l) by (intros; destruct HC as (_ & _ & H1 & H2 & _); unfold check_types; now rewrite H1, H2).
  assert (C2 : forall k l, check_types sde2 k l = check_types sde k l) by (intros; destruct HC as (_ & _ & _ & _ & H1 & H2); unfold check_types; now rewrite H1, H2).
  unfold sde_str_to_solver, EulerMaruyama, EulerHeun, MilsteinIto, MilsteinStratonovich. rewrite !C1, !C2. intros H.
  destruct (name =? "euler")%string.
  { destruct (check_types sde "ito" all_noises); try discriminate. injection H as <-. do 2 eexists. do 2 (split; [reflexivity|]). intros. apply em_lin. }
  destruct (name =? "eulerHeun")%string.
  { destruct (check_types sde "stratonovich" all_noises); try discriminate. injection H as <-. do 2 eexists. do 2 (split; [reflexivity|]). intros. apply heun_lin. }
  destruct (name =? "midpoint")%string; [discriminate|].
  destruct (name =? "milstein_ito")%string; [|destruct (name =? "milstein_stratonovich")%string; [|discriminate]];
    injection H as <-; do 2 eexists; do 2 (split; [reflexivity|]); intros; apply milstein_lin.
Qed.
Lemma traj_sde_lin (one one1 one2 : R -> R -> list R -> list R) : (forall t h u v, one t h (lin a b u v) = lin a b (one1 t h u) (one2 t h v)) ->
  forall ts u v, one_step_traj one (lin a b u v) ts = map (fun p => lin a b (fst p) (snd p)) (combine (one_step_traj one1 u ts) (one_step_traj one2 v ts)).
Proof.
  intros H. induction ts as [|t [|t1 ts] IH]; intros u v; try reflexivity. rewrite !L_Jagged.traj_cons. cbn [combine map fst snd]. f_equal. rewrite H. apply IH.
Qed.
End Lin.

(** Superposition along one Brownian path: if drift and diffusion are linear with sources, the states from a x + b z are the combinations
    of the states from x and z of the two parts; all four solvers, both calculi, every grid. *)
Lemma C192_superposition_pf :
  forall name a b sde sde1 sde2 bm s x z ts, combined a b sde sde1 sde2 -> @sde_str_to_solver ROps name sde bm = Ok s -> (2 <= length ts)%nat ->
  exists s1 s2, @sdeint ROps sde1 x ts name bm [] = Ok (ts, s1) /\ @sdeint ROps sde2 z ts name bm [] = Ok (ts, s2) /\
    @sdeint ROps sde (lin a b x z) ts name bm [] = Ok (ts, map (fun p => lin a b (fst p) (snd p)) (combine s1 s2)) /\
    length s1 = length ts /\ length s2 = length ts.
Proof.
  intros name a b sde sde1 sde2 bm s x z ts HC Es Hl. destruct (solver_lin a b sde sde1 sde2 bm HC name s Es) as (q1 & q2 & E1 & E2 & H).
  do 2 eexists. split; [apply (sdeint_grid _ _ _ q1); eauto using solver_fixed|]. split; [apply (sdeint_grid _ _ _ q2); eauto using solver_fixed|].
  split; [|split; apply traj_length]. rewrite (sdeint_grid _ _ _ s); eauto using solver_fixed. do 2 f_equal. apply traj_sde_lin. intros. apply H.
Qed.

(** The hypotheses are met: geometric Brownian motion combined with itself. *)
Lemma C192_ex_pf :
  let gbm := @MkSde ROps (fun _ x => map (Rmult 3) x) (fun _ x => map (Rmult 5) x) (Some "diagonal"%string) (Some "ito"%string) in
  combined 2 7 gbm gbm gbm /\ (exists s, @sde_str_to_solver ROps "milstein_ito" gbm (fun r t => [t - r]) = Ok s) /\ lin 2 7 [1] [1] = [9].
Proof.
  intros gbm. split; [|split; [eexists; reflexivity|unfold lin; cbn; f_equal; ring]].
  split; [|split; [|repeat split]]; intros t u v; cbn [sde_f sde_g gbm]; apply map_lin; intros p q; ring.
Qed.
