(** Proofs: accuracy of hypersolvers, hypersolvers in reversed time. *)
From Coq Require Import ZArith QArith Qreals Reals Lra Lia List Bool Sorted Factorial.
From Verif Require Import Num Py Tensor M_Constants M_SolversOde M_Utils M_Interp M_Odeint.
From Verif Require Import Spec_Ode Spec_Trees Spec_RK Spec_Norm Spec_Adaptive Spec_Conv Spec_Inv Spec_Order.
From Verif Require Import L_Base L_Fixed L_Vec L_Steps L_Tables L_Steps2 L_Interp L_Utils L_Fixed2 L_Adaptive L_Run.
From Verif Require Import L_Adaptive2 L_Adaptive3 L_Adaptive4 L_Conv Pf_Fixed Pf_Adaptive L_Reach L_Inv L_Order L_Order2 Pf_Conv Pf_Order.
Import ListNotations.
Local Notation length := List.length.
Local Open Scope R_scope.

(** The hypersolvers with network g: base solver, declared order *)
Definition hypersolver (g : R -> list R -> list R) (s base : solver ROps (vec ROps)) (p : nat) : Prop :=
  (s = @HyperEuler ROps g /\ base = Euler ROps /\ p = 1%nat) \/
  (s = @HyperMidpoint ROps g /\ base = Midpoint ROps /\ p = 2%nat) \/
  (s = @HyperRungeKutta4 ROps g /\ base = RungeKutta4 ROps /\ p = 4%nat).

(** A Runge-Kutta step with the correction h^(p+1) g(t, x), componentwise *)
Definition corrected (rows : list (R * list R)) (b : list R) (f : R -> list R -> list R) (p : nat) (g : R -> list R -> list R)
  (t h : R) (x : list R) : list R :=
  map2 (fun u v => u + h ^ S p * v) (erk_step rows b f t h x) (g t x).

Lemma nth_map2_corr (c : R) : forall u v n i, length u = n -> length v = n -> (i < n)%nat ->
  nth i (map2 (fun u v => u + c * v) u v) 0 = nth i u 0 + c * nth i v 0.
Proof.
  induction u as [|a u IH]; intros [|d v] n i Hu Hv Hi; cbn in *; try lia.
  destruct i as [|i]; [reflexivity|]. destruct n; [lia|]. apply (IH v n); lia.
Qed.
Lemma len_map2_corr (c : R) : forall u v n, length u = n -> length v = n -> length (map2 (fun u v : R => u + c * v) u v) = n.
Proof. induction u as [|a u IH]; intros [|d v] n Hu Hv; cbn in *; try lia. destruct n; [lia|]. f_equal. apply IH; lia. Qed.
Lemma nth_corrected n rows b f p g t h x i : field_on n f -> field_on n g -> length x = n -> (i < n)%nat ->
  nth i (corrected rows b f p g t h x) 0 = nth i (erk_step rows b f t h x) 0 + h ^ S p * nth i (g t x) 0.
Proof. intros. unfold corrected. apply (nth_map2_corr _ _ _ n); auto. now apply erk_step_len. Qed.
Lemma len_corrected n rows b f p g t h x : field_on n f -> field_on n g -> length x = n -> length (corrected rows b f p g t h x) = n.
Proof. intros. apply len_map2_corr; auto. now apply erk_step_len. Qed.

Lemma npow_pow (a : R) m : @npow ROps a m = a ^ m.
Proof. induction m as [|m IH]; [exact nQ1|]. cbn [npow pow]. now rewrite IH. Qed.
Lemma corr_vec (c : R) : forall u v : rvec, @vadd ROps u (@vscale ROps c v) = map2 (fun a b => a + c * b) u v.
Proof. induction u as [|a u IH]; intros [|d v]; try reflexivity. unfold vadd, vscale in *. cbn [map map2]. f_equal. apply IH. Qed.

Lemma hyper_step_one base order g f one lg : fixed_stepper base f one lg ->
  fixed_stepper (@hyper_step ROps base order g) f (fun t dt x => map2 (fun a b => a + dt ^ S order * b) (one t dt x) (g t x)) (fun t dt x => lg t dt x ++ []).
Proof.
  intros H x t dt. destruct (H x t dt) as (fn & e & E). exists None, None. unfold hyper_step. rewrite E. unfold mbind. cbn [snd fst mret].
  rewrite corr_vec, npow_pow. replace (order + 1)%nat with (S order) by lia. reflexivity.
Qed.

Lemma hyper_fixed g s base p : hypersolver g s base p -> s_fixed s = true /\ s_step s = @hyper_step ROps (s_step base) p g.
Proof. intros [(-> & -> & ->)|[(-> & -> & ->)|(-> & -> & ->)]]; split; reflexivity. Qed.

Lemma hyper_stepper_erk g s base p rows b n f : hypersolver g s base p -> builtin_fixed base rows b -> field_on n f -> field_on n g ->
  exists one lg, fixed_stepper (s_step s) f one lg /\ forall t h x, length x = n -> one t h x = corrected rows b f p g t h x.
Proof.
  intros Hs HB Hf Hg. destruct (hyper_fixed _ _ _ _ Hs) as [_ ->].
  destruct (builtin_fixed_erk _ _ _ HB) as [_ He]. destruct (He n f Hf) as (one & lg & Hst & Hone).
  do 2 eexists. split; [apply hyper_step_one; exact Hst|]. intros t h x Hx. cbv beta. unfold corrected. now rewrite Hone.
Qed.

Lemma hyper_grid fuel g s base p rows b n f x t0 t1 ts atol rtol interp all semi :
  hypersolver g s base p -> builtin_fixed base rows b -> field_on n f -> field_on n g -> length x = n -> t0 <= t1 -> separated (t0 :: t1 :: ts) ->
  snd (@odeint ROps fuel f x (@TTensor ROps (t0 :: t1 :: ts)) s atol rtol interp all [] semi)
  = Ok (t0 :: t1 :: ts, one_step_traj (corrected rows b f p g) x (t0 :: t1 :: ts)).
Proof.
  intros Hs HB Hf Hg Hx Hle Hsep. destruct (hyper_stepper_erk g s base p rows b n f Hs HB Hf Hg) as (one & lg & Hst & Hone).
  refine (eq_trans (C01_fixed_trajectory_pf fuel s f one lg x t0 t1 ts atol rtol interp all semi (proj1 (hyper_fixed _ _ _ _ Hs)) Hst Hsep Hle) _).
  do 2 f_equal. apply (one_step_traj_ext (corrected rows b f p g) one (fun y => length y = n)); auto.
  intros t h z Hz. now apply len_corrected.
Qed.

(** C145.  Along the exact solution y the correction network misses the scaled residual of the base method by at most delta.  Then
    the states returned by odeint with the hypersolver are within exp(Lam (t_k - t0)) (t_k - t0) delta H^p of y, H the largest step,
    Lam the growth constant of the base method plus (T - t0)^p times the Lipschitz constant of the network. *)
Lemma C145_hypersolver_error_pf :
  forall g s base p rows b n f L Lg y delta H t0 t1 ts fuel atol rtol interp all semi,
  hypersolver g s base p -> builtin_fixed base rows b -> field_on n f -> field_on n g ->
  0 <= L -> lipschitz n L f -> 0 <= Lg -> lipschitz n Lg g ->
  let T := last (t1 :: ts) t0 in
  (forall t, length (y t) = n) -> 0 <= delta ->
  (forall t h, t0 <= t -> 0 < h <= H -> t + h <= T -> forall i, (i < n)%nat ->
     Rabs ((nth i (y (t + h)) 0 - nth i (erk_step rows b f t h (y t)) 0) / h ^ S p - nth i (g t (y t)) 0) <= delta) ->
  increasing (t0 :: t1 :: ts) -> separated (t0 :: t1 :: ts) -> steps_at_most H (t0 :: t1 :: ts) ->
  let Lam := growth L (T - t0) rows b + (T - t0) ^ p * Lg in
  exists sol,
    snd (@odeint ROps fuel f (y t0) (@TTensor ROps (t0 :: t1 :: ts)) s atol rtol interp all [] semi) = Ok (t0 :: t1 :: ts, sol) /\
    length sol = length (t0 :: t1 :: ts) /\
    forall k tk xk, nth_error (t0 :: t1 :: ts) k = Some tk -> nth_error sol k = Some xk ->
      near n (exp (Lam * (tk - t0)) * (tk - t0) * delta * H ^ p) xk (y tk).
Proof.
  intros g s base p rows b n f L Lg y delta H t0 t1 ts fuel atol rtol interp all semi Hs HB Hf Hg HL Hlip HLg Hlipg T Hy Hd Hres Hinc Hsep HH Lam.
  assert (Hlt : t0 < t1) by (apply (Hinc 0%nat 1%nat); auto).
  assert (HT : t0 <= T) by (apply Rle_trans with t1; [lra|]; apply (inc_last t0 t1 ts Hinc); right; now left).
  assert (H0 : 0 < H) by (assert (t1 - t0 <= H) by (apply (HH 0%nat); auto); lra).
  exists (one_step_traj (corrected rows b f p g) (y t0) (t0 :: t1 :: ts)). split; [apply (hyper_grid fuel g s base p rows b n); auto; lra|].
  split; [apply traj_length|]. intros k tk xk Hk Hx.
  assert (HG : 0 <= growth L (T - t0) rows b) by (apply growth_pos; auto; lra).
  assert (HP : 0 <= (T - t0) ^ p * Lg) by (apply Rmult_le_pos; auto; apply pow_le; lra).
  refine (traj_bound n (corrected rows b f p g) y Lam delta t0 T (fun t h x Hx => len_corrected n rows b f p g t h x Hf Hg Hx) Hd _ _ Hy (H ^ p)
    (pow_le _ _ (Rlt_le _ _ H0)) (fun h => h <= H) _ (t1 :: ts) t0 (y t0) ltac:(lra) (Hy t0) _ Hinc _ _ k tk xk Hk Hx).
  - unfold Lam. lra.
  - intros t h x z D Ht Hh HTh Hx1 Hz HD Hn i Hi. rewrite !(nth_corrected n) by auto.
    pose proof (stable_step n f L rows b (T - t0) t0 T Hf HL Hlip t h x z D Ht Hh HTh ltac:(lra) Hx1 Hz HD Hn i Hi) as A.
    pose proof (Hlipg t x z D Hx1 Hz Hn i Hi) as B.
    replace (nth i (erk_step rows b f t h x) 0 + h ^ S p * nth i (g t x) 0 - (nth i (erk_step rows b f t h z) 0 + h ^ S p * nth i (g t z) 0))
      with ((nth i (erk_step rows b f t h x) 0 - nth i (erk_step rows b f t h z) 0) + h ^ S p * (nth i (g t x) 0 - nth i (g t z) 0)) by ring.
    eapply Rle_trans; [apply Rabs_triang|]. rewrite Rabs_mult, (Rabs_pos_eq (h ^ S p)) by (apply pow_le; lra).
    assert (C : h ^ S p * Rabs (nth i (g t x) 0 - nth i (g t z) 0) <= h * ((T - t0) ^ p * Lg) * D).
    { apply Rle_trans with (h ^ S p * (Lg * D)); [apply Rmult_le_compat_l; [apply pow_le; lra|exact B]|].
      replace (h * ((T - t0) ^ p * Lg) * D) with (h * (T - t0) ^ p * (Lg * D)) by ring.
      apply Rmult_le_compat_r; [now apply Rmult_le_pos|]. apply pow_split; lra. }
    unfold Lam. eapply Rle_trans; [apply Rplus_le_compat; [exact A|exact C]|]. right. ring.
  - intros t h Ht Hh HTh Hok i Hi. rewrite (nth_corrected n) by auto. cbv beta in Hok.
    pose proof (Hres t h Ht (conj Hh Hok) HTh i Hi) as A.
    assert (P : 0 < h ^ S p) by (apply pow_lt; lra).
    set (e := nth i (erk_step rows b f t h (y t)) 0) in *. set (u := nth i (g t (y t)) 0) in *. set (w := nth i (y (t + h)) 0) in *.
    replace (e + h ^ S p * u - w) with (- (h ^ S p * ((w - e) / h ^ S p - u))) by (field; lra).
    rewrite Rabs_Ropp, Rabs_mult, (Rabs_pos_eq (h ^ S p)) by lra.
    apply Rle_trans with (h ^ S p * delta); [apply Rmult_le_compat_l; lra|].
    replace (delta * (h * H ^ p)) with (h * H ^ p * delta) by ring. apply Rmult_le_compat_r; auto. apply pow_split; lra.
  - intros i Hi. unfold ebound. rewrite !Rminus_diag_eq, Rabs_R0 by reflexivity. lra.
  - intros i a b' Ha Hb. now apply (HH i).
  - intros a Ha. apply (inc_last t0 t1 ts Hinc); auto.
Qed.

(** C145 for HyperEuler: if the network is within eps of half the second derivative of the solution, and the third derivative is at
    most M, the error is at most exp(..) (t_k - t0) (eps H + M/6 H^2): second order up to the error of the network. *)
Lemma C145_hyper_euler_pf :
  forall g n f L Lg y y2 y3 eps M H t0 t1 ts fuel atol rtol interp all semi,
  field_on n f -> field_on n g -> 0 <= L -> lipschitz n L f -> 0 <= Lg -> lipschitz n Lg g ->
  let T := last (t1 :: ts) t0 in
  solves n t0 T f y -> curve_derivative n t0 T (fun t => f t (y t)) y2 -> curve_derivative n t0 T y2 y3 ->
  0 <= M -> curve_bound n t0 T M y3 -> 0 <= eps ->
  (forall t i, t0 <= t <= T -> (i < n)%nat -> Rabs (nth i (y2 t) 0 / 2 - nth i (g t (y t)) 0) <= eps) ->
  increasing (t0 :: t1 :: ts) -> separated (t0 :: t1 :: ts) -> steps_at_most H (t0 :: t1 :: ts) ->
  let Lam := L + (T - t0) * Lg in
  exists sol,
    snd (@odeint ROps fuel f (y t0) (@TTensor ROps (t0 :: t1 :: ts)) (@HyperEuler ROps g) atol rtol interp all [] semi) = Ok (t0 :: t1 :: ts, sol) /\
    length sol = length (t0 :: t1 :: ts) /\
    forall k tk xk, nth_error (t0 :: t1 :: ts) k = Some tk -> nth_error sol k = Some xk ->
      near n (exp (Lam * (tk - t0)) * (tk - t0) * (eps * H + M / 6 * (H * H))) xk (y tk).
Proof.
  intros g n f L Lg y y2 y3 eps M H t0 t1 ts fuel atol rtol interp all semi Hf Hg HL Hlip HLg Hlipg T [Hy Hd] Hy2 Hy3 HM HB He Hnet Hinc Hsep HH Lam.
  assert (Hlt : t0 < t1) by (apply (Hinc 0%nat 1%nat); auto).
  assert (HT : t0 <= T) by (apply Rle_trans with t1; [lra|]; apply (inc_last t0 t1 ts Hinc); right; now left).
  assert (H0 : 0 < H) by (assert (t1 - t0 <= H) by (apply (HH 0%nat); auto); lra).
  destruct (C145_hypersolver_error_pf g (@HyperEuler ROps g) (Euler ROps) 1 (to_R_rows q_euler) (to_R qb_euler) n f L Lg y (eps + M / 6 * H) H t0 t1 ts fuel atol rtol interp all semi)
    as (sol & E & Ls & B); auto.
  - left. auto.
  - left. auto.
  - assert (0 <= M / 6 * H) by (apply Rmult_le_pos; lra). lra.
  - intros t h Ht Hh HTh i Hi. fold T in HTh.
    assert (E1 : nth i (erk_step (to_R_rows q_euler) (to_R qb_euler) f t h (y t)) 0 = nth i (y t) 0 + h * nth i (f t (y t)) 0).
    { rewrite <- (euler_one_erk n f t h (y t)) by auto. unfold euler_one.
      refine (eq_trans (nth_vadd _ _ i n (Hy t) _ Hi) _); [rewrite vscale_len; now apply Hf|]. now rewrite nth_vscale. }
    rewrite E1.
    pose proof (taylor_n (fun m => match m with 0%nat => fun s => nth i (y s) 0 | 1%nat => fun s => nth i (f s (y s)) 0 | 2%nat => fun s => nth i (y2 s) 0 | _ => fun s => nth i (y3 s) 0 end) M t (t + h) 2 ltac:(lra)) as Ty.
    assert (TT : Rabs (nth i (y (t + h)) 0 - (nth i (y t) 0 + h * nth i (f t (y t)) 0 + h ^ 2 / 2 * nth i (y2 t) 0)) <= M * (h ^ 3 / 6)).
    { eapply Rle_trans; [|eapply Rle_trans; [apply Ty|]].
      - right. f_equal. cbn [psum]. cbv beta. replace (t + h - t) with h by ring. cbn [fact INR Nat.mul Nat.add pow]. field.
      - intros [|[|[|m]]] c Hm Hc; try lia; [apply Hd|apply Hy2|apply Hy3]; auto; split; lra.
      - intros c Hc. apply HB; auto; split; lra.
      - right. replace (t + h - t) with h by ring. f_equal. f_equal. cbn. ring. }
    clear Ty. specialize (Hnet t i ltac:(lra) Hi).
    set (a := nth i (y (t + h)) 0) in *. set (a0 := nth i (y t) 0) in *. set (a1 := nth i (f t (y t)) 0) in *. set (a2 := nth i (y2 t) 0) in *. set (u := nth i (g t (y t)) 0) in *.
    assert (P : 0 < h ^ 2) by (apply pow_lt; lra).
    replace ((a - (a0 + h * a1)) / h ^ 2 - u) with ((a - (a0 + h * a1 + h ^ 2 / 2 * a2)) / h ^ 2 + (a2 / 2 - u)) by (field; lra).
    eapply Rle_trans; [apply Rabs_triang|]. rewrite Rplus_comm. apply Rplus_le_compat; auto.
    unfold Rdiv at 1. rewrite Rabs_mult, (Rabs_pos_eq (/ h ^ 2)) by (left; now apply Rinv_0_lt_compat).
    apply Rle_trans with (M * (h ^ 3 / 6) * / h ^ 2); [apply Rmult_le_compat_r; [left; now apply Rinv_0_lt_compat|exact TT]|].
    replace (M * (h ^ 3 / 6) * / h ^ 2) with (M / 6 * h) by (field; lra). apply Rmult_le_compat_l; lra.
  - exists sol. split; [exact E|]. split; [exact Ls|]. intros k tk xk Hk Hx. specialize (B k tk xk Hk Hx).
    eapply near_le; [|exact B]. right. fold T. 
    assert (G : growth L (T - t0) (to_R_rows q_euler) (to_R qb_euler) = L).
    { unfold growth, stage_growth, stagewise. cbn. rewrite Rabs_pos_eq; unfold Q2R; cbn; lra. }
    rewrite G. unfold Lam. rewrite !pow_1. ring.
Qed.

(** C145: y' = y with the network x/2 (the exact correction), and with (1/2 + 1/100) x *)
Lemma C145_ex_pf :
  let f := fun (_ : R) (x : list R) => x in let y := fun t => [exp t] in
  let g := fun (_ : R) (x : list R) => map (Rmult (51 / 100)) x in
  field_on 1 f /\ field_on 1 g /\ lipschitz 1 1 f /\ lipschitz 1 (51 / 100) g /\
  solves 1 0 1 f y /\ curve_derivative 1 0 1 (fun t => f t (y t)) y /\ curve_bound 1 0 1 (exp 1) y /\
  (forall t i, 0 <= t <= 1 -> (i < 1)%nat -> Rabs (nth i (y t) 0 / 2 - nth i (g t (y t)) 0) <= exp 1 / 100) /\
  hypersolver g (@HyperEuler ROps g) (Euler ROps) 1.
Proof.
  cbv zeta.
  assert (B : forall t, 0 <= t <= 1 -> 0 < exp t <= exp 1).
  { intros t Ht. split; [apply exp_pos|]. destruct (Rle_lt_or_eq_dec t 1 (proj2 Ht)) as [H| ->]; [left; now apply exp_increasing|lra]. }
  assert (D : curve_derivative 1 0 1 (fun t => [exp t]) (fun t => [exp t])).
  { intros [|i] t Hi _; [|lia]. cbn. apply derivable_pt_lim_exp. }
  split; [intros t x Hx; exact Hx|]. split; [intros t x Hx; now rewrite map_length|].
  split; [intros t x z E Hx Hz H; rewrite Rmult_1_l; exact H|].
  split. { intros t x z E Hx Hz H [|i] Hi; [|lia]. specialize (H 0%nat Hi). destruct x as [|a [|]]; try discriminate. destruct z as [|c [|]]; try discriminate. cbn in *.
    replace (51 / 100 * a - 51 / 100 * c) with (51 / 100 * (a - c)) by ring. rewrite Rabs_mult, (Rabs_pos_eq (51 / 100)) by lra. apply Rmult_le_compat_l; lra. }
  split; [split; [reflexivity|exact D]|]. split; [exact D|].
  split. { intros [|i] t Hi Ht; [|lia]. cbn. specialize (B t Ht). rewrite Rabs_pos_eq; lra. }
  split; [|left; auto].
  intros t [|i] Ht Hi; [|lia]. cbn. specialize (B t Ht). replace (exp t / 2 - 51 / 100 * exp t) with (- (exp t / 100)) by lra. rewrite Rabs_Ropp, Rabs_pos_eq; lra.
Qed.

(** C146 (what the code does).  For decreasing grids the hypersolver steps negatively with the network (-1)^(p+1) g(-t, x) in place of g(t, x). *)
Lemma C146_reversed_network_pf :
  forall g s base p rows b n f x t0 t1 ts fuel atol rtol interp all semi,
  hypersolver g s base p -> builtin_fixed base rows b -> field_on n f -> field_on n g -> length x = n ->
  separated (t0 :: t1 :: ts) -> t1 < t0 ->
  rmap snd (snd (@odeint ROps fuel f x (@TTensor ROps (t0 :: t1 :: ts)) s atol rtol interp all [] semi))
  = Ok (one_step_traj (corrected rows b f p (fun t z => map (Rmult ((- (1)) ^ S p)) (g (- t) z))) x (t0 :: t1 :: ts)).
Proof.
  intros g s base p rows b n f x t0 t1 ts fuel atol rtol interp all semi Hs HB Hf Hg Hx Hsep Hlt.
  destruct (hyper_fixed _ _ _ _ Hs) as [Hfix _].
  rewrite (odeint_fixed_dec fuel s atol rtol interp all semi Hfix) by auto.
  destruct (hyper_stepper_erk g s base p rows b n (@neg_field ROps f) Hs HB (neg_field_on n f Hf) Hg) as (one & lg & Hst & Hone).
  pose proof (fixed_default s (@neg_field ROps f) one lg x (map Ropp (t0 :: t1 :: ts)) Hst) as H.
  assert (E : snd (@fixed_odeint ROps (vec ROps) (@neg_field ROps f) x (map Ropp (t0 :: t1 :: ts)) (s_step s) [])
     = Ok (map Ropp (t0 :: t1 :: ts), one_step_traj one x (map Ropp (t0 :: t1 :: ts)))).
  { rewrite H; auto. - simpl; lia. - now apply separated_opp in Hsep. }
  rewrite E. unfold rmap, rbind. f_equal. cbn [snd].
  rewrite (one_step_traj_ext (corrected rows b (@neg_field ROps f) p g) one (fun y => length y = n)); auto.
  - apply (traj_neg (corrected rows b f p (fun t z => map (Rmult ((- (1)) ^ S p)) (g (- t) z))) _ (fun y => length y = n)); auto.
    + intros t h y Hy. unfold corrected. rewrite erk_step_neg. 
      assert (Q : (- h) ^ S p * (- (1)) ^ S p = h ^ S p) by (rewrite <- Rpow_mult_distr; f_equal; ring).
      rewrite <- Q. clear Q. generalize (erk_step rows b f t (- h) y) (g (- t) y). intros u. induction u as [|a u IH]; intros [|d v]; try reflexivity.
      cbn [map map2]. f_equal; [ring|apply IH].
    + intros t h y Hy. apply len_corrected; auto. intros t' z Hz. rewrite map_length. now apply Hg.
  - intros t h y Hy. apply len_corrected; auto. now apply neg_field_on.
Qed.

(** C146 (the true part).  HyperEuler with a network that ignores time: reversed time is negative stepping. *)
Lemma C146_hyper_euler_partial_pf :
  forall g n f x t0 t1 ts fuel atol rtol interp all semi,
  field_on n f -> field_on n g -> (forall t t' z, g t z = g t' z) -> length x = n -> separated (t0 :: t1 :: ts) -> t1 < t0 ->
  rmap snd (snd (@odeint ROps fuel f x (@TTensor ROps (t0 :: t1 :: ts)) (@HyperEuler ROps g) atol rtol interp all [] semi))
  = Ok (one_step_traj (corrected (to_R_rows q_euler) (to_R qb_euler) f 1 g) x (t0 :: t1 :: ts)).
Proof.
  intros g n f x t0 t1 ts fuel atol rtol interp all semi Hf Hg Ha Hx Hsep Hlt.
  rewrite (C146_reversed_network_pf g _ (Euler ROps) 1 (to_R_rows q_euler) (to_R qb_euler) n f x t0 t1 ts); auto; [|left; auto|left; auto].
  f_equal. apply (one_step_traj_ext _ _ (fun y => length y = n)); auto.
  - intros t h y Hy. unfold corrected. f_equal. rewrite (Ha (- t) t). rewrite <- (map_id (g t y)) at 2. apply map_ext. intros a. ring.
  - intros t h y Hy. now apply len_corrected.
Qed.

(** C146 (REFUTED).  Zero field.  From time 1 back to 0, one step: HyperMidpoint with the constant network 1 must subtract 1 (the cube of the
    step -1) and adds it; HyperEuler with the network t must add 1 (the network at time 1) and subtracts it. *)
Lemma C146_reversed_refuted_pf :
  forall fuel atol rtol interp all semi,
  (let g := fun (_ : R) (_ : list R) => [1] in
   rmap snd (snd (@odeint ROps fuel (fun _ _ => [0]) [0] (@TTensor ROps [1; 0]) (@HyperMidpoint ROps g) atol rtol interp all [] semi)) = Ok [[0]; [1]] /\
   one_step_traj (corrected (to_R_rows q_midpoint) (to_R qb_midpoint) (fun _ _ => [0]) 2 g) [0] [1; 0] = [[0]; [- (1)]]) /\
  (let g := fun (t : R) (_ : list R) => [t] in
   rmap snd (snd (@odeint ROps fuel (fun _ _ => [0]) [0] (@TTensor ROps [1; 0]) (@HyperEuler ROps g) atol rtol interp all [] semi)) = Ok [[0]; [- (1)]] /\
   one_step_traj (corrected (to_R_rows q_euler) (to_R qb_euler) (fun _ _ => [0]) 1 g) [0] [1; 0] = [[0]; [1]]).
Proof.
  intros fuel atol rtol interp all semi. cbv zeta.
  assert (Sp : separated [1; 0]).
  { intros [|[|i]] [|[|j]] a c Hij Ha Hb; try lia; cbn in Ha, Hb; try (destruct i; discriminate); try (destruct j; discriminate);
      injection Ha as <-; injection Hb as <-; unfold close_to; unfold Rabs; repeat destruct (Rcase_abs _); lra. }
  split; split.
  - rewrite (C146_reversed_network_pf (fun _ _ => [1]) _ (Midpoint ROps) 2 (to_R_rows q_midpoint) (to_R qb_midpoint) 1);
      [|right; left; auto|right; left; auto|intros ? ? _; reflexivity|intros ? ? _; reflexivity|reflexivity|exact Sp|lra].
    cbn. unfold Q2R; cbn. repeat f_equal; field.
  - cbn. unfold Q2R; cbn. repeat f_equal; field.
  - rewrite (C146_reversed_network_pf (fun t _ => [t]) _ (Euler ROps) 1 (to_R_rows q_euler) (to_R qb_euler) 1);
      [|left; auto|left; auto|intros ? ? _; reflexivity|intros ? ? _; reflexivity|reflexivity|exact Sp|lra].
    cbn. unfold Q2R; cbn. repeat f_equal; field.
  - cbn. unfold Q2R; cbn. repeat f_equal; field.
Qed.
