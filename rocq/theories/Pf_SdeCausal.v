(** Proofs of the property that SDE solves do not look into the future. *)
From Coq Require Import ZArith QArith Qreals Reals Lra Lia String List Bool.
From Verif Require Import Num Py Tensor M_SolversOde M_Odeint M_Sde Spec_Ode Spec_Sde.
From Verif Require Import L_Base L_Fixed L_Sde.
Import ListNotations.
Local Notation length := List.length.
Local Open Scope R_scope.

(** the two SDEs and Brownian paths are the same at the times of the list [l] and on the intervals between neighbours in [l] *)
Definition agree_on (l : list R) (s s' : sde_func ROps) (bm bm' : brownian ROps) : Prop :=
  (forall t y, In t l -> sde_f s' t y = sde_f s t y /\ sde_g s' t y = sde_g s t y) /\
  (forall l1 a b l2, l = l1 ++ a :: b :: l2 -> bm' a b = bm a b).

Lemma agree_tl a l s s' bm bm' : agree_on (a :: l) s s' bm bm' -> agree_on l s s' bm bm'.
Proof. intros (H1 & H2). split; [intros; apply H1; now right|]. intros l1 u v l2 ->. exact (H2 (a :: l1) u v l2 eq_refl). Qed.

Lemma step_agree name s s' bm bm' q q' : @sde_str_to_solver ROps name s bm = Ok q -> @sde_str_to_solver ROps name s' bm' = Ok q' ->
  forall a b y, (forall y, sde_f s' a y = sde_f s a y /\ sde_g s' a y = sde_g s a y) -> (forall y, sde_g s' b y = sde_g s b y) -> bm' a b = bm a b ->
  ss_step q' y a (b - a) = ss_step q y a (b - a).
Proof.
  intros Q Q' a b y Ha Hb Hm.
  assert (Ef : forall y, sde_f s' a y = sde_f s a y) by (intros; apply Ha). assert (Eg : forall y, sde_g s' a y = sde_g s a y) by (intros; apply Ha).
  assert (Et : @nadd ROps a (b - a) = b) by (cbn; ring).
  assert (E1 : em_step s' bm' y a (b - a) = em_step s bm y a (b - a)) by (unfold em_step; cbv zeta; rewrite Et, Ef, Eg, Hm; reflexivity).
  assert (E2 : heun_step s' bm' y a (b - a) = heun_step s bm y a (b - a)) by (unfold heun_step; cbv zeta; rewrite Et, Ef, Eg, Hm, Hb; reflexivity).
  assert (E3 : forall v, milstein_step v s' bm' y a (b - a) = milstein_step v s bm y a (b - a)) by (intros v; unfold milstein_step; cbv zeta; rewrite Et, !Ef, !Eg, Hm; reflexivity).
  unfold sde_str_to_solver in Q, Q'. destruct (name =? "euler")%string.
  { unfold EulerMaruyama in Q, Q'. destruct (check_types s _ _); [|discriminate..]. destruct (check_types s' _ _); [|discriminate..]. injection Q as <-. injection Q' as <-. exact E1. }
  destruct (name =? "eulerHeun")%string.
  { unfold EulerHeun in Q, Q'. destruct (check_types s _ _); [|discriminate..]. destruct (check_types s' _ _); [|discriminate..]. injection Q as <-. injection Q' as <-. exact E2. }
  destruct (name =? "midpoint")%string; [discriminate|].
  destruct (name =? "milstein_ito")%string; [injection Q as <-; injection Q' as <-; apply E3|].
  destruct (name =? "milstein_stratonovich")%string; [injection Q as <-; injection Q' as <-; apply E3|discriminate].
Qed.

Lemma solver_fixed name s bm q : @sde_str_to_solver ROps name s bm = Ok q -> ss_fixed q = true.
Proof.
  unfold sde_str_to_solver, EulerMaruyama, EulerHeun. destruct (name =? "euler")%string; [destruct (check_types _ _ _); [|discriminate..]; now intros [= <-]|].
  destruct (name =? "eulerHeun")%string; [destruct (check_types _ _ _); [|discriminate..]; now intros [= <-]|].
  destruct (name =? "midpoint")%string; [discriminate|]. destruct (name =? "milstein_ito")%string; [now intros [= <-]|].
  destruct (name =? "milstein_stratonovich")%string; [now intros [= <-]|discriminate].
Qed.

Lemma sdeint_traj name s bm q x ts : @sde_str_to_solver ROps name s bm = Ok q -> (2 <= length ts)%nat ->
  @sdeint ROps s x ts name bm [] = Ok (ts, one_step_traj (fun t h x => ss_step q x t h) x ts).
Proof.
  intros Q Hl. destruct ts as [|t0 [|t1 ts]]; cbn in Hl; try lia. unfold sdeint. rewrite Q. cbn [rbind]. rewrite (solver_fixed _ _ _ _ Q), fixed_sdeint_full.
  rewrite select_all by (auto; apply traj_length). reflexivity.
Qed.

Lemma traj_agree name s s' bm bm' q q' : @sde_str_to_solver ROps name s bm = Ok q -> @sde_str_to_solver ROps name s' bm' = Ok q' ->
  forall pre x post post', agree_on pre s s' bm bm' ->
  firstn (length pre) (one_step_traj (fun t h x => ss_step q' x t h) x (pre ++ post')) = firstn (length pre) (one_step_traj (fun t h x => ss_step q x t h) x (pre ++ post)).
Proof.
  intros Q Q'. induction pre as [|a [|b pre] IH]; intros x post post' H; [reflexivity|reflexivity|].
  pose proof H as (H1 & H2).
  assert (E : ss_step q' x a (b - a) = ss_step q x a (b - a)).
  { apply (step_agree _ _ _ _ _ _ _ Q Q'); [intros; apply H1; now left|intros; apply H1; right; now left|exact (H2 [] a b pre eq_refl)]. }
  change (x :: firstn (length (b :: pre)) (one_step_traj (fun t h x => ss_step q' x t h) (ss_step q' x a (b - a)) ((b :: pre) ++ post')) =
          x :: firstn (length (b :: pre)) (one_step_traj (fun t h x => ss_step q x t h) (ss_step q x a (b - a)) ((b :: pre) ++ post))).
  rewrite E. f_equal. apply IH. exact (agree_tl _ _ _ _ _ _ H).
Qed.

(** The states up to a time depend on the drift, the diffusion, the Brownian path and the grid only up to that time: two solves that agree on the
    times [pre] return the same states there, whatever comes later. The path is read only between neighbouring times. *)
Lemma C200_causal_pf :
  forall name s s' bm bm' q q' x pre post post', @sde_str_to_solver ROps name s bm = Ok q -> @sde_str_to_solver ROps name s' bm' = Ok q' ->
  (2 <= length (pre ++ post))%nat -> (2 <= length (pre ++ post'))%nat -> agree_on pre s s' bm bm' ->
  exists xs ys ys', @sdeint ROps s x (pre ++ post) name bm [] = Ok (pre ++ post, xs ++ ys) /\
    @sdeint ROps s' x (pre ++ post') name bm' [] = Ok (pre ++ post', xs ++ ys') /\ length xs = length pre.
Proof.
  intros name s s' bm bm' q q' x pre post post' Q Q' H2 H2' H.
  pose proof (traj_agree _ _ _ _ _ _ _ Q Q' pre x post post' H) as E.
  set (T := one_step_traj (fun t h x => ss_step q x t h) x (pre ++ post)) in *. set (T' := one_step_traj (fun t h x => ss_step q' x t h) x (pre ++ post')) in *.
  exists (firstn (length pre) T), (skipn (length pre) T), (skipn (length pre) T'). split; [|split].
  - rewrite firstn_skipn. now apply sdeint_traj.
  - rewrite <- E, firstn_skipn. now apply sdeint_traj.
  - rewrite firstn_length. unfold T. rewrite traj_length, app_length. lia.
Qed.

(** The hypotheses are met by two different SDEs and paths that agree up to time 1, and the states at later times do differ. *)
Lemma C200_ex_pf :
  let s := @MkSde ROps (fun _ y => y) (fun _ _ => [1]) (Some "diagonal"%string) (Some "ito"%string) in
  let bm := fun u t : R => [t - u] in let bm' := fun u t : R => if Rleb t 1 then [t - u] else [7] in
  (exists q, @sde_str_to_solver ROps "euler" s bm = Ok q) /\ (exists q', @sde_str_to_solver ROps "euler" s bm' = Ok q') /\ agree_on [0; 1] s s bm bm' /\
  @sdeint ROps s [1] ([0; 1] ++ [2]) "euler" bm [] = Ok ([0; 1; 2], [[1]; [3]; [7]]) /\
  @sdeint ROps s [1] ([0; 1] ++ [2]) "euler" bm' [] = Ok ([0; 1; 2], [[1]; [3]; [13]]).
Proof.
  intros s bm bm'. assert (L1 : Rleb 1 1 = true) by (apply Rleb_true; lra). assert (L2 : Rleb 2 1 = false) by (apply Rleb_false; lra).
  assert (E1 : exists q, @sde_str_to_solver ROps "euler" s bm = Ok q) by (eexists; reflexivity).
  assert (E2 : exists q, @sde_str_to_solver ROps "euler" s bm' = Ok q) by (eexists; reflexivity).
  split; [exact E1|]. split; [exact E2|]. split; [|split].
  - split; [now split|]. intros [|u [|v l1]] a b l2 E; cbn in E.
    + injection E as <- <- _. unfold bm', bm. now rewrite L1.
    + injection E as _ _ E. discriminate.
    + injection E as _ _ E. destruct l1; discriminate.
  - rewrite (sdeint_traj "euler" s bm _ [1] _ eq_refl) by (cbn; lia). do 2 f_equal. unfold app. rewrite !traj_hd. cbn. unfold em_step, bm, vadd, vmul, vscale. cbn. repeat f_equal; ring.
  - rewrite (sdeint_traj "euler" s bm' _ [1] _ eq_refl) by (cbn; lia). do 2 f_equal. unfold app. rewrite !traj_hd. cbn. unfold em_step, bm', vadd, vmul, vscale. cbn.
    replace (0 + (1 - 0)) with 1 by ring. replace (1 + (2 - 1)) with 2 by ring. rewrite L1, L2. cbn. repeat f_equal; ring.
Qed.
