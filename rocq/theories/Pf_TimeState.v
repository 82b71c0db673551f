(** Proofs: time as a component of the state. *)
From Coq Require Import ZArith QArith Qreals Reals Lra Lia List Bool Arith.
From Verif Require Import Num Py Tensor M_Constants M_SolversOde M_Utils M_Interp M_Odeint.
From Verif Require Import Spec_Ode Spec_Trees Spec_RK Spec_Norm L_Base L_Fixed L_Vec L_Steps L_Tables L_Steps2 L_Fixed2 Pf_Fixed L_Adaptive2 L_Inv Pf_Steps Pf_Lin.
Import ListNotations.
Local Notation length := List.length.
Local Open Scope R_scope.

(** x' = f(t, x) as the autonomous equation of the pair (t, x): t' = 1, x' = f(t, x) *)
Definition timed (f : R -> list R -> list R) (_ : R) (z : list R) : list R :=
  match z with t :: x => 1 :: f t x | [] => [] end.

Fixpoint total (w : list R) : R := match w with [] => 0 | a :: w' => a + total w' end.
(** each row uses at most the stages before it and sums up to its node *)
Fixpoint consistent (m : nat) (rows : list (R * list R)) : Prop :=
  match rows with [] => True | r :: rows' => (length (snd r) <= m)%nat /\ total (snd r) = fst r /\ consistent (S m) rows' end.

Lemma comb_cons h : forall w ks t x, (length w <= length ks)%nat -> comb (t :: x) h w (map (cons 1) ks) = (t + h * total w) :: comb x h w ks.
Proof.
  unfold comb. induction w as [|a w IH]; intros ks t x Hl; [cbn; f_equal; ring|]. destruct ks as [|k ks]; [cbn in Hl; lia|].
  cbn [map combine fold_left fst snd total]. 
  change (axpy (h * a) (1 :: k) (t :: x)) with ((t + h * a * 1) :: axpy (h * a) k x). rewrite IH by (cbn in Hl; lia). f_equal. ring.
Qed.

Lemma timed_stages f rows s h t x : consistent 0 rows -> erk_stages rows (timed f) s h (t :: x) = map (cons 1) (erk_stages rows f t h x).
Proof.
  intros Hc. unfold erk_stages.
  assert (G : forall rows acc, consistent (length acc) rows ->
    fold_left (fun ks r => ks ++ [timed f (s + fst r * h) (comb (t :: x) h (snd r) ks)]) rows (map (cons 1) acc) =
    map (cons 1) (fold_left (fun ks r => ks ++ [f (t + fst r * h) (comb x h (snd r) ks)]) rows acc)).
  { clear rows Hc. induction rows as [|r rows IH]; intros acc Ha; [reflexivity|]. destruct Ha as (H1 & H2 & H3). cbn [fold_left].
    rewrite <- IH by (rewrite app_length, Nat.add_comm; exact H3). f_equal. rewrite map_app. f_equal. cbn [map]. rewrite comb_cons by exact H1.
    cbn [timed]. rewrite H2. do 4 f_equal. ring. }
  apply (G rows []). exact Hc.
Qed.
Lemma stages_len_rows rows f t h x : length (erk_stages rows f t h x) = length rows.
Proof.
  unfold erk_stages. assert (G : forall rows acc, length (fold_left (fun ks r => ks ++ [f (t + fst r * h) (comb x h (snd r) ks)]) rows acc) = (length rows + length acc)%nat).
  { clear rows. induction rows as [|r rows IH]; intros acc; [reflexivity|]. cbn [fold_left length]. rewrite IH, app_length. cbn. lia. }
  rewrite G. cbn. lia.
Qed.
Lemma timed_step f rows b s h t x : consistent 0 rows -> (length b <= length rows)%nat -> total b = 1 ->
  erk_step rows b (timed f) s h (t :: x) = (t + h) :: erk_step rows b f t h x.
Proof.
  intros Hc Hl Hb. unfold erk_step. rewrite timed_stages by exact Hc. rewrite comb_cons by (rewrite stages_len_rows; exact Hl). rewrite Hb. f_equal. ring.
Qed.
Lemma timed_field n f : field_on n f -> field_on (S n) (timed f).
Proof. intros Hf t [|a x] Hx; [discriminate|]. cbn. f_equal. apply Hf. now injection Hx. Qed.

Lemma timed_traj f rows b : consistent 0 rows -> (length b <= length rows)%nat -> total b = 1 -> forall ts t x,
  one_step_traj (erk_step rows b (timed f)) (t :: x) (t :: ts) = map2 cons (t :: ts) (one_step_traj (erk_step rows b f) x (t :: ts)).
Proof.
  intros Hc Hl Hb. induction ts as [|t1 ts IH]; intros t x; [reflexivity|].
  rewrite (traj_hd (erk_step rows b (timed f)) (t :: x) t (t1 :: ts)), (traj_hd (erk_step rows b f) x t (t1 :: ts)). cbn [map2]. f_equal.
  rewrite timed_step by auto. replace (t + (t1 - t)) with t1 by ring. apply IH.
Qed.

Lemma map_tl_cons : forall (l : list R) (ys : list (list R)), length ys = length l -> ys = map (@tl R) (map2 cons l ys).
Proof. induction l as [|a l IH]; intros [|y ys] Hl; try discriminate; [reflexivity|]. cbn. f_equal. apply IH. now injection Hl. Qed.
Lemma map_hd_cons : forall (l : list R) (ys : list (list R)), length ys = length l -> map (fun z => hd 0 z) (map2 cons l ys) = l.
Proof. induction l as [|a l IH]; intros [|y ys] Hl; try discriminate; [reflexivity|]. cbn. f_equal. apply IH. now injection Hl. Qed.

Lemma fixed_result_sol {X} sv l (xs : list X) times sol : fixed_result sv l xs = Ok (times, sol) -> sol = select sv l xs.
Proof. unfold fixed_result. destruct (select sv l xs); [discriminate|]. now intros [= _ <-]. Qed.

Lemma euler_consistent : consistent 0 (to_R_rows q_euler) /\ (length (to_R qb_euler) <= length (to_R_rows q_euler))%nat /\ total (to_R qb_euler) = 1.
Proof. cbn. unfold Q2R. cbn. repeat split; try lia; lra. Qed.
Lemma midpoint_consistent : consistent 0 (to_R_rows q_midpoint) /\ (length (to_R qb_midpoint) <= length (to_R_rows q_midpoint))%nat /\ total (to_R qb_midpoint) = 1.
Proof. cbn. unfold Q2R. cbn. repeat split; try lia; lra. Qed.
Lemma dopri5_consistent : consistent 0 (to_R_rows q_dopri5) /\ (length (to_R qb5_dopri5) <= length (to_R_rows q_dopri5))%nat /\ total (to_R qb5_dopri5) = 1 /\
  (length (to_R qb4_dopri5) <= length (to_R_rows q_dopri5))%nat /\ total (to_R qb4_dopri5) = 1.
Proof. cbn. unfold Q2R. cbn. repeat split; try lia; lra. Qed.

(** C169.  The time-dependent equation and the autonomous one with time as first component of the state have the same solutions:
    same outcome, the states of the first are those of the second without their first component ... *)
Lemma C169_time_state_pf :
  forall s n f x t0 t1 ts fuel atol rtol interp all save_at semi, s = Euler ROps \/ s = Midpoint ROps ->
  field_on n f -> List.length x = n ->
  snd (@odeint ROps fuel f x (@TTensor ROps (t0 :: t1 :: ts)) s atol rtol interp all save_at semi) =
  rmap (fun r => (fst r, map (@tl R) (snd r)))
    (snd (@odeint ROps fuel (timed f) (t0 :: x) (@TTensor ROps (t0 :: t1 :: ts)) s atol rtol interp all save_at semi)).
Proof.
  intros s n f x t0 t1 ts fuel atol rtol interp all save_at semi Hs Hf Hx.
  assert (G : exists rows b, erk_solver s rows b /\ consistent 0 rows /\ (length b <= length rows)%nat /\ total b = 1).
  { destruct Hs as [-> | ->]; do 2 eexists; [split; [apply C05_euler_pf|apply euler_consistent]|split; [apply C05_midpoint_pf|apply midpoint_consistent]]. }
  destruct G as (rows & b & HE & Hc & Hl & Hb).
  destruct (odeint_fixed_result fuel s rows b n f x t0 t1 ts atol rtol interp all save_at semi HE Hf Hx) as [A1 B1].
  destruct (odeint_fixed_result fuel s rows b (S n) (timed f) (t0 :: x) t0 t1 ts atol rtol interp all save_at semi HE (timed_field n f Hf) (f_equal S Hx)) as [A2 B2].
  cbv zeta in A1, B1, A2, B2. set (l := if Rlt_dec t1 t0 then map Ropp (t0 :: t1 :: ts) else t0 :: t1 :: ts) in *.
  set (sv := match save_at with [] => l | _ => save_at end) in *.
  destruct (Classical_Prop.classic (separated sv)) as [Hsep|Hsep].
  - assert (Et : one_step_traj (erk_step rows b f) x (t0 :: t1 :: ts) = map (@tl R) (one_step_traj (erk_step rows b (timed f)) (t0 :: x) (t0 :: t1 :: ts))).
    { refine (eq_trans _ (f_equal (map (@tl R)) (eq_sym (timed_traj f rows b Hc Hl Hb (t1 :: ts) t0 x)))).
      pose proof (traj_length (erk_step rows b f) x (t0 :: t1 :: ts)) as Len. apply map_tl_cons. exact Len. }
    refine (eq_trans (B1 Hsep) (eq_trans _ (eq_sym (f_equal (rmap (fun r => (fst r, map (@tl R) (snd r)))) (B2 Hsep))))).
    exact (eq_trans (f_equal (fixed_result sv l) Et) (fixed_result_map (@tl R) sv l _)).
  - exact (eq_trans (A1 Hsep) (eq_sym (f_equal (rmap (fun r => (fst r, map (@tl R) (snd r)))) (A2 Hsep)))).
Qed.

(** ... which is the time. *)
Lemma C169_clock_pf :
  forall s n f x t0 t1 ts fuel atol rtol interp all semi times sol, s = Euler ROps \/ s = Midpoint ROps ->
  field_on n f -> List.length x = n ->
  snd (@odeint ROps fuel (timed f) (t0 :: x) (@TTensor ROps (t0 :: t1 :: ts)) s atol rtol interp all [] semi) = Ok (times, sol) ->
  map (fun z => hd 0 z) sol = t0 :: t1 :: ts.
Proof.
  intros s n f x t0 t1 ts fuel atol rtol interp all semi times sol Hs Hf Hx Ho.
  assert (G : exists rows b, erk_solver s rows b /\ consistent 0 rows /\ (length b <= length rows)%nat /\ total b = 1).
  { destruct Hs as [-> | ->]; do 2 eexists; [split; [apply C05_euler_pf|apply euler_consistent]|split; [apply C05_midpoint_pf|apply midpoint_consistent]]. }
  destruct G as (rows & b & HE & Hc & Hl & Hb).
  destruct (odeint_fixed_result fuel s rows b (S n) (timed f) (t0 :: x) t0 t1 ts atol rtol interp all [] semi HE (timed_field n f Hf) (f_equal S Hx)) as [A2 B2].
  cbv zeta in A2, B2. set (l := if Rlt_dec t1 t0 then map Ropp (t0 :: t1 :: ts) else t0 :: t1 :: ts) in *.
  change (match @nil R with [] => l | _ => [] end) with l in *.
  destruct (Classical_Prop.classic (separated l)) as [Hsep|Hsep].
  - pose proof (eq_trans (eq_sym (B2 Hsep)) Ho) as E.
    assert (Ll : length l = length (t0 :: t1 :: ts)) by (unfold l; destruct (Rlt_dec t1 t0); [apply map_length|reflexivity]).
    assert (Et := timed_traj f rows b Hc Hl Hb (t1 :: ts) t0 x).
    pose proof (traj_length (erk_step rows b f) x (t0 :: t1 :: ts)) as Len.
    assert (Es : select l l (one_step_traj (erk_step rows b (timed f)) (t0 :: x) (t0 :: t1 :: ts)) = one_step_traj (erk_step rows b (timed f)) (t0 :: x) (t0 :: t1 :: ts)).
    { apply select_all; [auto|]. rewrite traj_length. exact Ll. }
    assert (E' := fixed_result_sol l l _ _ _ E).
    refine (eq_trans (f_equal (map (fun z => hd 0 z)) (eq_trans E' (eq_trans Es Et))) _). apply map_hd_cons. exact Len.
  - pose proof (eq_trans (eq_sym Ho) (A2 Hsep)) as E. discriminate.
Qed.

(** C169.  One step of dopri5 on the autonomous equation: time advances by the step, and the solution, the estimate of the error
    and the stages are those of the time-dependent equation (the step sizes of the two solves may differ: the error is averaged over
    one component more). *)
Lemma C169_dopri5_step_pf :
  forall n f s t h x, field_on n f -> List.length x = n ->
  exists k x5 e ks,
    snd (@dopri5_step ROps f x t h None) = Ok (Ret4 k x5 e ks) /\
    snd (@dopri5_step ROps (timed f) (t :: x) s h None) = Ok (Ret4 (1 :: k) ((t + h) :: x5) (0 :: e) (map (cons 1) ks)).
Proof.
  intros n f s t h x Hf Hx. destruct dopri5_consistent as (Hc & L5 & S5 & L4 & S4).
  do 4 eexists. split; [apply (C21_dopri5_step_pf n f t h x None Hf Hx); discriminate|].
  refine (eq_trans (C21_dopri5_step_pf (S n) (timed f) s h (t :: x) None (timed_field n f Hf) (f_equal S Hx) _) _); [discriminate|].
  rewrite !timed_step by auto. rewrite timed_stages by exact Hc. do 2 f_equal. unfold vsub. cbn [map2]. f_equal. cbn. ring.
Qed.

Lemma autonomous_stages (g : R -> list R -> list R) h t z : (forall s s' y, g s y = g s' y) -> forall rows rows' acc, map snd rows = map snd rows' ->
  fold_left (fun ks r => ks ++ [g (t + fst r * h) (comb z h (snd r) ks)]) rows acc = fold_left (fun ks r => ks ++ [g (t + fst r * h) (comb z h (snd r) ks)]) rows' acc.
Proof.
  intros Hg. induction rows as [|r rows IH]; intros [|r' rows'] acc E; try discriminate; [reflexivity|]. injection E as E1 E2. cbn [fold_left].
  rewrite E1, (Hg (t + fst r * h) (t + fst r' * h)). now apply IH.
Qed.
(** the step of RungeKutta4 on an equation without explicit time is the classical one *)
Lemma rk4_autonomous (g : R -> list R -> list R) : (forall s s' z, g s z = g s' z) -> forall t h z,
  erk_step (to_R_rows q_rk4_code) (to_R qb_rk4) g t h z = erk_step (to_R_rows q_rk4) (to_R qb_rk4) g t h z.
Proof.
  intros Hg t h z. unfold erk_step. f_equal. unfold erk_stages. apply autonomous_stages; [exact Hg|reflexivity].
Qed.
Lemma rk4_consistent : consistent 0 (to_R_rows q_rk4) /\ (length (to_R qb_rk4) <= length (to_R_rows q_rk4))%nat /\ total (to_R qb_rk4) = 1.
Proof. cbn. unfold Q2R. cbn. repeat split; try lia; lra. Qed.
Lemma traj_ext (p q : R -> R -> list R -> list R) : (forall t h z, p t h z = q t h z) -> forall ts x, one_step_traj p x ts = one_step_traj q x ts.
Proof.
  intros E. induction ts as [|t0 ts IH]; intros x; [reflexivity|]. destruct ts as [|t1 ts]; [reflexivity|]. rewrite !traj_hd. f_equal. rewrite E. apply IH.
Qed.

(** C169.  RungeKutta4 on the autonomous equation gives the classical Runge-Kutta trajectory of the time-dependent one ... *)
Lemma C169_rk4_classical_pf :
  forall n f x t0 t1 ts fuel atol rtol interp all semi, field_on n f -> List.length x = n ->
  let l := if Rlt_dec t1 t0 then map Ropp (t0 :: t1 :: ts) else t0 :: t1 :: ts in separated l ->
  snd (@odeint ROps fuel (timed f) (t0 :: x) (@TTensor ROps (t0 :: t1 :: ts)) (RungeKutta4 ROps) atol rtol interp all [] semi) =
  Ok (l, map2 cons (t0 :: t1 :: ts) (one_step_traj (erk_step (to_R_rows q_rk4) (to_R qb_rk4) f) x (t0 :: t1 :: ts))).
Proof.
  intros n f x t0 t1 ts fuel atol rtol interp all semi Hf Hx l Hsep.
  destruct (odeint_fixed_result fuel _ _ _ (S n) (timed f) (t0 :: x) t0 t1 ts atol rtol interp all [] semi C05_rk4_pf (timed_field n f Hf) (f_equal S Hx)) as [_ B].
  cbv zeta in B. fold l in B. refine (eq_trans (B Hsep) _). destruct rk4_consistent as (Hc & Hl & Hb).
  assert (Et : one_step_traj (erk_step (to_R_rows q_rk4_code) (to_R qb_rk4) (timed f)) (t0 :: x) (t0 :: t1 :: ts) =
    map2 cons (t0 :: t1 :: ts) (one_step_traj (erk_step (to_R_rows q_rk4) (to_R qb_rk4) f) x (t0 :: t1 :: ts))).
  { rewrite <- (timed_traj f _ _ Hc Hl Hb (t1 :: ts) t0 x). apply traj_ext. apply rk4_autonomous. reflexivity. }
  refine (eq_trans (f_equal (fixed_result l l) Et) _). unfold fixed_result. rewrite select_all; [|auto|].
  - rewrite traj_hd. reflexivity.
  - rewrite map2_length, traj_length. unfold l. destruct (Rlt_dec t1 t0); rewrite ?map_length; cbn [length]; lia.
Qed.

(** C169, refuted for RungeKutta4: x' = t from x(0) = 0 over one step to 1 gives 1/4, the autonomous equation 1/2. *)
Lemma C169_rk4_refuted_pf :
  forall fuel atol rtol interp all semi, let f := fun (t : R) (_ : list R) => [t] in
  snd (@odeint ROps fuel f [0] (@TTensor ROps [0; 1]) (RungeKutta4 ROps) atol rtol interp all [] semi) = Ok ([0; 1], [[0]; [1 / 4]]) /\
  snd (@odeint ROps fuel (timed f) [0; 0] (@TTensor ROps [0; 1]) (RungeKutta4 ROps) atol rtol interp all [] semi) = Ok ([0; 1], [[0; 0]; [1; 1 / 2]]).
Proof.
  intros fuel atol rtol interp all semi f. split; [apply C124_rk4_refuted_pf|].
  assert (Hf : field_on 1 f) by (intros u y _; reflexivity).
  assert (Sp : separated [0; 1]).
  { apply (spaced_separated _ 1 1); [|lra|].
    - intros t [<-|[<-|[]]]; rewrite Rabs_right; lra.
    - intros i j a b Hij Ha Hb. destruct i as [|[|i]]; try (destruct i; discriminate);
      destruct j as [|[|j]]; try lia; try (destruct j; discriminate);
      simpl in *; injection Ha as <-; injection Hb as <-; lra. }
  pose proof (C169_rk4_classical_pf 1 f [0] 0 1 [] fuel atol rtol interp all semi Hf eq_refl) as H. cbv zeta in H.
  destruct (Rlt_dec 1 0) as [C|_]; [lra|]. refine (eq_trans (H Sp) _). f_equal. f_equal. cbn [one_step_traj map2]. f_equal. f_equal. f_equal.
  unfold erk_step, erk_stages, to_R_rows, to_R, q_rk4, qb_rk4, f. cbn [map fold_left fst snd]. unfold Q2R. cbn. f_equal. lra.
Qed.

(** The hypotheses are satisfiable: x' = t x on a grid of three points. *)
Lemma C169_ex_pf : let f := fun (t : R) (z : list R) => map (Rmult t) z in
  field_on 2 f /\ List.length [1; 2] = 2%nat /\ separated [0; 1; 2] /\
  exists times sol, snd (@odeint ROps 0 (timed f) [0; 1; 2] (@TTensor ROps [0; 1; 2]) (Midpoint ROps) 0 0 false true [] None) = Ok (times, sol).
Proof.
  intros f. assert (Hf : field_on 2 f) by (intros u y Hy; unfold f; rewrite map_length; exact Hy).
  assert (Sp : separated [0; 1; 2]).
  { apply (spaced_separated _ 2 1); [|lra|].
    - intros t [<-|[<-|[<-|[]]]]; rewrite Rabs_right; lra.
    - intros i j a b Hij Ha Hb. destruct i as [|[|[|i]]]; try (destruct i; discriminate);
      destruct j as [|[|[|j]]]; try lia; try (destruct j; discriminate);
      simpl in *; injection Ha as <-; injection Hb as <-; lra. }
  split; [exact Hf|]. split; [reflexivity|]. split; [exact Sp|].
  destruct (odeint_fixed_result 0 _ _ _ 3 (timed f) [0; 1; 2] 0 1 [2] 0 0 false true [] None C05_midpoint_pf (timed_field 2 f Hf) eq_refl) as [_ B].
  cbv zeta in B. destruct (Rlt_dec 1 0) as [C|_]; [lra|]. do 2 eexists. refine (eq_trans (B Sp) _). unfold fixed_result. rewrite select_all; [|auto|reflexivity].
  rewrite traj_hd. reflexivity.
Qed.
