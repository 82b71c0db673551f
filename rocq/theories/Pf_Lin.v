(** Integrals of polynomials, linear systems and stability. *)
From Coq Require Import ZArith QArith Qreals Reals Lra Lia List Bool Psatz.
From Verif Require Import Num Py Tensor M_Constants M_SolversOde M_Utils M_Interp M_Odeint.
From Verif Require Import Spec_Ode Spec_Trees Spec_RK Spec_Norm Spec_Adaptive Spec_Inv Spec_Lin.
From Verif Require Import L_Base L_Fixed L_Vec L_Steps L_Tables L_Steps2 L_Interp L_Utils L_Fixed2 L_Adaptive L_Run.
From Verif Require Import L_Adaptive2 L_Adaptive3 L_Adaptive4 Pf_Fixed Pf_Adaptive L_Reach L_Inv.
Import ListNotations.
Local Open Scope R_scope.

(** ** Quadrature *)
Lemma nth_axpy n j a k x : length k = n -> length x = n -> (j < n)%nat -> nth j (axpy a k x) 0 = nth j x 0 + a * nth j k 0.
Proof.
  revert j k x. induction n as [|n IH]; intros j [|c k] [|d x] Hk Hx Hj; simpl in *; try lia.
  destruct j as [|j]; [reflexivity|]. apply IH; lia.
Qed.

Lemma nth_comb n j h : (j < n)%nat -> forall w ks x, length x = n -> Forall (fun k => length k = n) ks ->
  nth j (comb x h w ks) 0 = nth j x 0 + h * fold_right Rplus 0 (map (fun p => fst p * nth j (snd p) 0) (combine w ks)).
Proof.
  intros Hj. unfold comb. induction w as [|w0 w IH]; intros [|k ks] x Hx Hk; cbn [combine fold_left map fold_right]; try ring.
  inversion Hk as [|? ? K1 K2]; subst. cbn [fst snd]. rewrite IH.
  - rewrite (nth_axpy (length x)) by auto. ring.
  - apply axpy_len; auto.
  - exact K2.
Qed.

Lemma stages_time rows (g : R -> list R) t h x : erk_stages rows (fun s _ => g s) t h x = map (fun r => g (t + fst r * h)) rows.
Proof.
  unfold erk_stages.
  assert (G : forall rows acc, fold_left (fun ks r => ks ++ [g (t + fst r * h)]) rows acc
    = acc ++ map (fun r : R * list R => g (t + fst r * h)) rows).
  { clear. induction rows as [|r rows IH]; intros acc; cbn [fold_left map]; [now rewrite app_nil_r|].
    rewrite IH, <- app_assoc. reflexivity. }
  apply (G rows []).
Qed.

Definition quad (rows : list (R * list R)) (b : list R) (p : R -> R) (t h : R) : R :=
  h * fold_right Rplus 0 (map (fun q => fst q * p (t + fst (snd q) * h)) (combine b rows)).

Lemma combine_map_r {A B C} (g : B -> C) (l : list A) : forall m, combine l (map g m) = map (fun p => (fst p, g (snd p))) (combine l m).
Proof. induction l as [|a l IH]; intros [|b m]; simpl; auto. now rewrite IH. Qed.

Lemma step_time n j rows b (g : R -> list R) t h x : (forall s, length (g s) = n) -> length x = n -> (j < n)%nat ->
  nth j (erk_step rows b (fun s _ => g s) t h x) 0 = nth j x 0 + quad rows b (fun s => nth j (g s) 0) t h.
Proof.
  intros Hg Hx Hj. unfold erk_step, quad. rewrite stages_time. rewrite (nth_comb n j h Hj).
  - rewrite combine_map_r, map_map. reflexivity.
  - exact Hx.
  - apply Forall_forall. intros k Hk. apply in_map_iff in Hk as (r & <- & _). apply Hg.
Qed.

Ltac peval_cases p := repeat (let a := fresh "a" in destruct p as [|a p]; [|]).

(** antiderivative of a polynomial *)
Fixpoint integ_from (k : nat) (p : list R) : list R :=
  match p with [] => [] | a :: p' => a / INR (S k) :: integ_from (S k) p' end.
Definition integ (p : list R) : list R := 0 :: integ_from 0 p.

Fixpoint ppow (k : nat) (p : list R) (s : R) : R := match p with [] => 0 | a :: p' => a * s ^ k + ppow (S k) p' s end.
Lemma peval_ppow p s : forall k, ppow k p s = s ^ k * peval p s.
Proof. induction p as [|a p IH]; intros k; cbn [ppow peval]; [ring|]. rewrite IH. simpl. ring. Qed.

Lemma integ_derivative p : forall k s, derivable_pt_lim (fun u => ppow (S k) (integ_from k p) u) s (ppow k p s).
Proof.
  induction p as [|a p IH]; intros k s; cbn [ppow integ_from].
  - apply derivable_pt_lim_const.
  - apply (derivable_pt_lim_plus (fun u => a / INR (S k) * u ^ (S k)) (fun u => ppow (S (S k)) (integ_from (S k) p) u)); [|apply IH].
    replace (a * s ^ k) with (a / INR (S k) * (INR (S k) * s ^ k)).
    + apply (derivable_pt_lim_scal (fun u => u ^ (S k)) (a / INR (S k)) s). apply (derivable_pt_lim_pow s (S k)).
    + field. apply not_0_INR. lia.
Qed.

Lemma peval_integ_derivative p s : derivable_pt_lim (peval (integ p)) s (peval p s).
Proof.
  pose proof (integ_derivative p 0 s) as H. rewrite peval_ppow in H. rewrite pow_O, Rmult_1_l in H.
  intros eps He. destruct (H eps He) as [d Hd]. exists d. intros u Hu Hud. specialize (Hd u Hu Hud).
  rewrite !peval_ppow in Hd. unfold integ. cbn [peval].
  replace (0 + (s + u) * peval (integ_from 0 p) (s + u) - (0 + s * peval (integ_from 0 p) s))
    with ((s + u) ^ 1 * peval (integ_from 0 p) (s + u) - s ^ 1 * peval (integ_from 0 p) s) by ring. exact Hd.
Qed.

Lemma antiderivative_unique (G F g : R -> R) : (forall s, derivable_pt_lim G s (g s)) -> (forall s, derivable_pt_lim F s (g s)) ->
  forall a b, G b - G a = F b - F a.
Proof.
  intros HG HF a b.
  assert (D : forall s, derivable_pt_lim (G - F)%F s 0).
  { intros s. replace 0 with (g s - g s) by ring. now apply derivable_pt_lim_minus. }
  assert (pr : derivable (G - F)%F) by (intros s; exists 0; apply D).
  assert (C : constant (G - F)%F).
  { apply (null_derivative_1 _ pr). intros s. apply derive_pt_eq_0. apply D. }
  specialize (C a b). unfold minus_fct in C. lra.
Qed.

(** the quadrature rule of a method is exact for polynomials of degree below m *)
Definition quad_exact (m : nat) rows b : Prop := forall p t h, (length p <= m)%nat ->
  quad rows b (peval p) t h = peval (integ p) (t + h) - peval (integ p) t.

Ltac quad_poly :=
  unfold quad, to_R_rows, to_R; cbn [combine map fold_right fst snd length integ integ_from peval INR]; qlit;
  repeat match goal with |- context [Q2R 0] => replace (Q2R 0) with 0 by (unfold Q2R; simpl; lra)
                       | |- context [Q2R 1] => replace (Q2R 1) with 1 by (unfold Q2R; simpl; lra) end; field; lra.

Lemma quad_euler : quad_exact 1 (to_R_rows q_euler) (to_R qb_euler).
Proof.
  intros p t h Hp. destruct p as [|a0 [|a1 p]]; cbn [length] in Hp; [| |lia]; unfold q_euler, qb_euler; quad_poly.
Qed.
Lemma quad_midpoint : quad_exact 2 (to_R_rows q_midpoint) (to_R qb_midpoint).
Proof.
  intros p t h Hp. destruct p as [|a0 [|a1 [|a2 p]]]; cbn [length] in Hp; [| | |lia]; unfold q_midpoint, qb_midpoint; quad_poly.
Qed.
Lemma quad_dopri5 : quad_exact 5 (to_R_rows q_dopri5) (to_R qb5_dopri5).
Proof.
  intros p t h Hp. destruct p as [|a0 [|a1 [|a2 [|a3 [|a4 [|a5 p]]]]]]; cbn [length] in Hp; [| | | | | |lia]; unfold q_dopri5, qb5_dopri5; quad_poly.
Qed.
Lemma quad_rk4 : quad_exact 1 (to_R_rows q_rk4_code) (to_R qb_rk4).
Proof.
  intros p t h Hp. destruct p as [|a0 [|a1 p]]; cbn [length] in Hp; [| |lia]; unfold q_rk4_code, qb_rk4; quad_poly.
Qed.

(** the solvers, with the number of coefficients of the polynomials that they integrate exactly *)
Definition exact_below (s : solver ROps (vec ROps)) (m : nat) : Prop :=
  (s = Euler ROps /\ m = 1%nat) \/ (s = Midpoint ROps /\ m = 2%nat) \/ (s = DormandPrince45 ROps /\ m = 5%nat) \/
  (s = RungeKutta4 ROps /\ m = 1%nat).

Lemma exact_below_method s m : exact_below s m -> exists rows b, builtin_method s rows b /\ quad_exact m rows b.
Proof.
  intros [[-> ->]|[[-> ->]|[[-> ->]|[-> ->]]]].
  - exists (to_R_rows q_euler), (to_R qb_euler). split; [left; left; auto | apply quad_euler].
  - exists (to_R_rows q_midpoint), (to_R qb_midpoint). split; [left; right; left; auto | apply quad_midpoint].
  - exists (to_R_rows q_dopri5), (to_R qb5_dopri5). split; [right; exists (to_R qb4_dopri5); left; auto | apply quad_dopri5].
  - exists (to_R_rows q_rk4_code), (to_R qb_rk4). split; [left; right; right; auto | apply quad_rk4].
Qed.

(** C124.  Integrals: if coordinate j of the field is a polynomial p_j in the time alone, of degree 0 (euler, rk4),
    at most 1 (midpoint) or at most 4 (dopri5), then coordinate j of every returned state, at time t, is exactly
    x_j plus the integral of p_j from t_0 to t (G_j is any antiderivative), whatever the grid and the tolerances. *)
Lemma C124_polynomial_integrals_pf :
  forall s m fuel (ps : list (list R)) x t0 ts atol rtol all semi times sol,
  exact_below s m -> Forall (fun p => (List.length p <= m)%nat) ps -> List.length x = List.length ps ->
  increasing (t0 :: ts) -> (1 <= List.length ts)%nat ->
  snd (@odeint ROps fuel (fun t _ => map (fun p => peval p t) ps) x (@TTensor ROps (t0 :: ts)) s atol rtol false all [] semi) = Ok (times, sol) ->
  List.length sol = List.length times /\
  forall i t y j (G : R -> R), nth_error times i = Some t -> nth_error sol i = Some y -> (j < List.length ps)%nat ->
  (forall u, derivable_pt_lim G u (peval (nth j ps []) u)) ->
  nth j y 0 = nth j x 0 + (G t - G t0).
Proof.
  intros s m fuel ps x t0 ts atol rtol all semi times sol HE Hps Hx Hinc Hl Hr.
  destruct (exact_below_method s m HE) as (rows & b & HM & HQ).
  set (g := fun t => map (fun p => peval p t) ps).
  assert (Hg : forall u, List.length (g u) = List.length ps) by (intros u; apply map_length).
  assert (Hf : field_on (List.length ps) (fun t _ => g t)) by (intros u y _; apply Hg).
  destruct (odeint_output_inc fuel s rows b (List.length ps) (fun t _ => g t) x t0 ts atol rtol false all semi times sol HM Hf Hx Hinc Hl Hr) as [HLn HO].
  split; [exact HLn|]. intros i t y j G Ht Hy Hj HG.
  rewrite (antiderivative_unique G (peval (integ (nth j ps []))) _ HG (peval_integ_derivative (nth j ps []))).
  destruct (HO i t y Ht Hy) as [H|(_ & H & _)]; [|discriminate].
  change (num ROps) with R. clear Ht Hy HO. induction H as [|t h z H IH]; [ring|].
  rewrite (step_time (List.length ps)); [|exact Hg|eapply reached_len; [exact Hf | exact Hx | exact H]|exact Hj].
  assert (E : quad rows b (fun s0 => nth j (g s0) 0) t h = quad rows b (peval (nth j ps [])) t h).
  { unfold quad. do 2 f_equal. apply map_ext. intros q. f_equal. unfold g.
    rewrite (nth_indep _ 0 (peval [] (t + fst (snd q) * h))) by (rewrite map_length; exact Hj).
    apply (map_nth (fun p => peval p (t + fst (snd q) * h))). }
  rewrite E, HQ.
  - rewrite IH. ring.
  - rewrite Forall_forall in Hps. apply Hps. now apply nth_In.
Qed.

(** y' = 3 t^2 - 1 with dopri5 *)
Lemma C124_ex_pf : exact_below (DormandPrince45 ROps) 5 /\ (List.length [-1; 0; 3]%R <= 5)%nat /\ peval [-1; 0; 3] 2 = 11 /\
  forall u, derivable_pt_lim (fun s => s ^ 3 - s) u (peval [-1; 0; 3] u).
Proof.
  split; [right; right; left; auto|]. split; [cbn; lia|]. split; [cbn; ring|].
  intros u. replace (peval [-1; 0; 3] u) with (INR 3 * u ^ 2 - 1) by (cbn; ring).
  apply derivable_pt_lim_minus; [apply (derivable_pt_lim_pow u 3) | apply derivable_pt_lim_id].
Qed.

(** rk4 does not even integrate y' = t: from y(0) = 0, one step to t = 1 gives 1/4 instead of 1/2. *)
Lemma C124_rk4_refuted_pf : forall fuel atol rtol interp all semi,
  snd (@odeint ROps fuel (fun t _ => [t]) [0] (@TTensor ROps [0; 1]) (RungeKutta4 ROps) atol rtol interp all [] semi)
  = Ok ([0; 1], [[0]; [1 / 4]]).
Proof.
  intros fuel atol rtol interp all semi.
  assert (HS : erk_solver (RungeKutta4 ROps) (to_R_rows q_rk4_code) (to_R qb_rk4)) by (apply builtin_fixed_erk; right; right; auto).
  assert (Hf : field_on 1 (fun t _ => [t])) by (intros u y _; reflexivity).
  destruct (odeint_fixed_result fuel _ _ _ 1 (fun t _ => [t]) [0] 0 1 [] atol rtol interp all [] semi HS Hf eq_refl) as [_ H].
  destruct (Rlt_dec 1 0) as [C|_]; [lra|].
  assert (Sp : separated [0; 1]).
  { apply (spaced_separated _ 1 1); [|lra|].
    - intros t [<-|[<-|[]]]; rewrite Rabs_right; lra.
    - intros i j a b Hij Ha Hb. destruct i as [|[|i]]; try (destruct i; discriminate);
      destruct j as [|[|j]]; try lia; try (destruct j; discriminate);
      simpl in *; injection Ha as <-; injection Hb as <-; lra. }
  refine (eq_trans (H Sp) _). unfold fixed_result. rewrite select_all; [|auto | reflexivity].
  cbn [one_step_traj]. f_equal. f_equal. f_equal. f_equal.
  assert (E := step_time 1 0 (to_R_rows q_rk4_code) (to_R qb_rk4) (fun t => [t]) 0 (1 - 0) [0] (fun _ => eq_refl) eq_refl ltac:(lia)).
  pose proof (erk_step_len 1 (to_R_rows q_rk4_code) (to_R qb_rk4) (fun t _ => [t]) 0 (1 - 0) [0] Hf eq_refl) as L.
  destruct (erk_step (to_R_rows q_rk4_code) (to_R qb_rk4) (fun t _ => [t]) 0 (1 - 0) [0]) as [|v [|? ?]]; try discriminate.
  f_equal. cbn [nth] in E. rewrite E. unfold q_rk4_code, qb_rk4, quad, to_R_rows, to_R; cbn [combine map fold_right fst snd]; qlit.
  repeat match goal with |- context [Q2R 0] => replace (Q2R 0) with 0 by (unfold Q2R; simpl; lra) end. lra.
Qed.

(** ** Linear systems *)
Fixpoint padd (a : R) (d c : list R) : list R :=
  match d, c with
  | [], _ => c
  | _, [] => map (Rmult a) d
  | u :: d', v :: c' => (v + a * u) :: padd a d' c'
  end.
Definition pcomb (w : list R) (ss : list (list R)) : list R :=
  fold_left (fun acc p => padd (fst p) (0 :: snd p) acc) (combine w ss) [1].
Definition pstages (rows : list (R * list R)) : list (list R) :=
  fold_left (fun ss r => ss ++ [pcomb (snd r) ss]) rows [].
Definition pstep (rows : list (R * list R)) (b : list R) : list R := pcomb b (pstages rows).

Lemma map_scal_axpy h a k y : map (Rmult h) (axpy a k y) = axpy a (map (Rmult h) k) (map (Rmult h) y).
Proof.
  unfold axpy. revert k. induction y as [|u y IH]; intros [|v k]; cbn; auto. f_equal; [ring|]. apply IH.
Qed.

Lemma scal_zeros h n : map (Rmult h) (repeat 0 n) = repeat 0 n.
Proof. induction n; cbn; auto. f_equal; [ring | exact IHn]. Qed.

Lemma axpy_zero_l a n y : length y = n -> axpy a (repeat 0 n) y = y.
Proof. intros <-. unfold axpy. induction y as [|u y IH]; cbn; auto. f_equal; [ring | exact IH]. Qed.

Lemma axpy_zero_r a k : axpy a k (repeat 0 (length k)) = map (Rmult a) k.
Proof. unfold axpy. induction k as [|u k IH]; cbn; auto. f_equal; [ring | exact IH]. Qed.

Lemma axpy_zero_r' a n k : length k = n -> axpy a k (repeat 0 n) = map (Rmult a) k.
Proof. intros <-. apply axpy_zero_r. Qed.

Section Linear.
Variables (n : nat) (A : list R -> list R) (h : R).
Hypothesis HA : linear_on n A.
Let mp := fun c y => matrix_poly n A c h y.

Lemma mp_len c : forall y, length y = n -> length (matrix_poly n A c h y) = n.
Proof.
  induction c as [|a c IH]; intros y Hy; cbn [matrix_poly]; [apply repeat_length|].
  apply axpy_len; [|exact Hy]. rewrite map_length. apply IH. now apply HA.
Qed.

Lemma mp_scal a : forall d y, length y = n -> map (Rmult a) (matrix_poly n A d h y) = matrix_poly n A (map (Rmult a) d) h y.
Proof.
  induction d as [|u d IH]; intros y Hy; cbn [matrix_poly map]; [apply scal_zeros|].
  rewrite <- IH by now apply HA. generalize (matrix_poly n A d h (A y)). clear. unfold axpy.
  induction y as [|e y IH]; intros [|g z]; cbn; auto. f_equal; [ring|]. apply IH.
Qed.

Lemma mp_add a : forall d c y, length y = n ->
  axpy a (matrix_poly n A d h y) (matrix_poly n A c h y) = matrix_poly n A (padd a d c) h y.
Proof.
  induction d as [|u d IH]; intros c y Hy.
  - cbn [matrix_poly padd]. apply axpy_zero_l. now apply mp_len.
  - destruct c as [|v c].
    + change (axpy a (matrix_poly n A (u :: d) h y) (repeat 0 n) = matrix_poly n A (map (Rmult a) (u :: d)) h y).
      rewrite axpy_zero_r' by now apply mp_len. now apply mp_scal.
    + cbn [matrix_poly padd]. rewrite <- IH by now apply HA. rewrite map_scal_axpy.
      assert (L1 : length (matrix_poly n A d h (A y)) = n) by (apply mp_len; now apply HA).
      assert (L2 : length (matrix_poly n A c h (A y)) = n) by (apply mp_len; now apply HA).
      revert L1 L2. generalize (matrix_poly n A d h (A y)) (matrix_poly n A c h (A y)). rewrite <- Hy. clear.
      unfold axpy. induction y as [|e y IH]; intros [|g z] [|g' z'] L1 L2; cbn in *; try lia; auto.
      f_equal; [ring|]. apply IH; lia.
Qed.

Lemma mp_one y : length y = n -> matrix_poly n A [1] h y = y.
Proof.
  intros Hy. cbn [matrix_poly]. rewrite scal_zeros. rewrite <- Hy. rewrite axpy_zero_r.
  rewrite <- (map_id y) at 2. apply map_ext. intros a. ring.
Qed.

Lemma A_zero : A (repeat 0 n) = repeat 0 n.
Proof.
  destruct HA as [H1 H2]. pose proof (repeat_length 0 n) as L.
  assert (E : axpy (-1) (repeat 0 n) (repeat 0 n) = repeat 0 n) by (now apply axpy_zero_l).
  rewrite <- E at 1. rewrite H2 by exact L. specialize (H1 _ L). revert H1.
  generalize (A (repeat 0 n)). clear. intros l. revert n. induction l as [|a l IH]; intros [|n] Hl; cbn in *; try lia; auto.
  f_equal; [ring|]. apply IH. lia.
Qed.

Lemma A_scal c y : length y = n -> A (map (Rmult c) y) = map (Rmult c) (A y).
Proof.
  intros Hy. destruct HA as [H1 H2]. rewrite <- axpy_zero_r, Hy. rewrite H2 by (auto; apply repeat_length).
  rewrite A_zero. rewrite <- (H1 y Hy) at 1. apply axpy_zero_r.
Qed.

Lemma A_mp c : forall y, length y = n -> A (matrix_poly n A c h y) = matrix_poly n A c h (A y).
Proof.
  induction c as [|a c IH]; intros y Hy; cbn [matrix_poly]; [apply A_zero|].
  assert (L : length (A y) = n) by now apply HA.
  rewrite (proj2 HA) by (auto; rewrite map_length; now apply mp_len).
  rewrite A_scal by now apply mp_len. now rewrite IH.
Qed.

Lemma mp_shift c w y acc : length y = n -> length acc = n ->
  axpy (h * w) (A (matrix_poly n A c h y)) acc = axpy w (matrix_poly n A (0 :: c) h y) acc.
Proof.
  intros Hy Ha. rewrite A_mp by exact Hy. cbn [matrix_poly].
  assert (L1 : length (matrix_poly n A c h (A y)) = n) by (apply mp_len; now apply HA).
  revert L1 Ha. generalize (matrix_poly n A c h (A y)). rewrite <- Hy. clear. revert acc.
  unfold axpy. induction y as [|e y IH]; intros [|g z] [|g' z'] L1 L2; cbn in *; try lia; auto.
  f_equal; [ring|]. apply IH; lia.
Qed.

Lemma comb_poly y : length y = n -> forall w ss,
  comb y h w (map (fun c => A (matrix_poly n A c h y)) ss) = matrix_poly n A (pcomb w ss) h y.
Proof.
  intros Hy w ss. unfold comb, pcomb.
  assert (G : forall w ss c, fold_left (fun acc p => axpy (h * fst p) (snd p) acc)
      (combine w (map (fun c => A (matrix_poly n A c h y)) ss)) (matrix_poly n A c h y)
    = matrix_poly n A (fold_left (fun acc p => padd (fst p) (0 :: snd p) acc) (combine w ss) c) h y).
  { clear w ss. induction w as [|w0 w IH]; intros [|s ss] c; cbn [map combine fold_left]; auto.
    cbn [fst snd]. rewrite mp_shift by (auto; now apply mp_len). rewrite mp_add by exact Hy. apply IH. }
  rewrite <- G. now rewrite mp_one.
Qed.

Lemma step_poly rows b t y : length y = n ->
  erk_step rows b (fun _ => A) t h y = matrix_poly n A (pstep rows b) h y.
Proof.
  intros Hy. unfold erk_step, pstep.
  assert (E : erk_stages rows (fun _ => A) t h y = map (fun c => A (matrix_poly n A c h y)) (pstages rows)).
  { unfold erk_stages, pstages.
    assert (G : forall rows ss, fold_left (fun ks (r : R * list R) => ks ++ [A (comb y h (snd r) ks)]) rows (map (fun c => A (matrix_poly n A c h y)) ss)
      = map (fun c => A (matrix_poly n A c h y)) (fold_left (fun ss r => ss ++ [pcomb (snd r) ss]) rows ss)).
    { clear rows b. induction rows as [|r rows IH]; intros ss; cbn [fold_left]; auto.
      rewrite <- IH. f_equal. rewrite map_app. cbn [map]. do 3 f_equal. now apply comb_poly. }
    apply (G rows []). }
  rewrite E. now apply comb_poly.
Qed.

Lemma mp_snoc0 c : forall y, length y = n -> matrix_poly n A (c ++ [0]) h y = matrix_poly n A c h y.
Proof.
  induction c as [|a c IH]; intros y Hy; cbn [app matrix_poly].
  - rewrite scal_zeros. rewrite <- Hy. rewrite axpy_zero_r. clear. induction y as [|e y IH]; cbn; auto. f_equal; [ring | exact IH].
  - rewrite IH by now apply HA. reflexivity.
Qed.
End Linear.

Ltac pcoef :=
  unfold pstep, pstages, pcomb, to_R_rows, to_R; cbn [map fold_left app fst snd combine padd]; qlit;
  repeat match goal with |- context [Q2R 0] => replace (Q2R 0) with 0 by (unfold Q2R; simpl; lra)
                       | |- context [Q2R 1] => replace (Q2R 1) with 1 by (unfold Q2R; simpl; lra) end;
  repeat (apply f_equal2; [field|]); try reflexivity.

Definition c_euler : list R := [1; 1].
Definition c_midpoint : list R := [1; 1; 1 / 2].
Definition c_rk4 : list R := [1; 1; 1 / 2; 1 / 6; 1 / 24].
Definition c_dopri5 : list R := [1; 1; 1 / 2; 1 / 6; 1 / 24; 1 / 120; 1 / 600].

Lemma pstep_euler : pstep (to_R_rows q_euler) (to_R qb_euler) = c_euler.
Proof. unfold q_euler, qb_euler, c_euler. pcoef. Qed.
Lemma pstep_midpoint : pstep (to_R_rows q_midpoint) (to_R qb_midpoint) = c_midpoint.
Proof. unfold q_midpoint, qb_midpoint, c_midpoint. pcoef. Qed.
Lemma pstep_rk4 : pstep (to_R_rows q_rk4_code) (to_R qb_rk4) = c_rk4.
Proof. unfold q_rk4_code, qb_rk4, c_rk4. pcoef. Qed.
Lemma pstep_dopri5 : pstep (to_R_rows q_dopri5) (to_R qb5_dopri5) = c_dopri5 ++ [0].
Proof. unfold q_dopri5, qb5_dopri5, c_dopri5. pcoef. Qed.

(** the solvers with the coefficients of their stability polynomial *)
Definition stability_coeffs (s : solver ROps (vec ROps)) (c : list R) : Prop :=
  (s = Euler ROps /\ c = [1; 1]) \/
  (s = Midpoint ROps /\ c = [1; 1; 1 / 2]) \/
  (s = RungeKutta4 ROps /\ c = [1; 1; 1 / 2; 1 / 6; 1 / 24]) \/
  (s = DormandPrince45 ROps /\ c = [1; 1; 1 / 2; 1 / 6; 1 / 24; 1 / 120; 1 / 600]).

Lemma stability_step s c : stability_coeffs s c -> exists rows b, builtin_method s rows b /\
  forall n A t h y, linear_on n A -> length y = n -> erk_step rows b (fun _ => A) t h y = matrix_poly n A c h y.
Proof.
  intros [[-> ->]|[[-> ->]|[[-> ->]|[-> ->]]]].
  - exists (to_R_rows q_euler), (to_R qb_euler). split; [left; left; auto|].
    intros n A t h y HA Hy. rewrite (step_poly n A h HA) by exact Hy. now rewrite pstep_euler.
  - exists (to_R_rows q_midpoint), (to_R qb_midpoint). split; [left; right; left; auto|].
    intros n A t h y HA Hy. rewrite (step_poly n A h HA) by exact Hy. now rewrite pstep_midpoint.
  - exists (to_R_rows q_rk4_code), (to_R qb_rk4). split; [left; right; right; auto|].
    intros n A t h y HA Hy. rewrite (step_poly n A h HA) by exact Hy. now rewrite pstep_rk4.
  - exists (to_R_rows q_dopri5), (to_R qb5_dopri5). split; [right; exists (to_R qb4_dopri5); left; auto|].
    intros n A t h y HA Hy. rewrite (step_poly n A h HA) by exact Hy. rewrite pstep_dopri5. now apply mp_snoc0.
Qed.

(** the coefficients of the fixed-step methods *)
Definition fixed_coeffs (s : solver ROps (vec ROps)) (c : list R) : Prop :=
  (s = Euler ROps /\ c = [1; 1]) \/
  (s = Midpoint ROps /\ c = [1; 1; 1 / 2]) \/
  (s = RungeKutta4 ROps /\ c = [1; 1; 1 / 2; 1 / 6; 1 / 24]).

Lemma fixed_step s c : fixed_coeffs s c -> exists rows b, erk_solver s rows b /\
  forall n A t h y, linear_on n A -> length y = n -> erk_step rows b (fun _ => A) t h y = matrix_poly n A c h y.
Proof.
  intros [[-> ->]|[[-> ->]|[-> ->]]].
  - exists (to_R_rows q_euler), (to_R qb_euler). split; [apply builtin_fixed_erk; left; auto|].
    intros n A t h y HA Hy. rewrite (step_poly n A h HA) by exact Hy. now rewrite pstep_euler.
  - exists (to_R_rows q_midpoint), (to_R qb_midpoint). split; [apply builtin_fixed_erk; right; left; auto|].
    intros n A t h y HA Hy. rewrite (step_poly n A h HA) by exact Hy. now rewrite pstep_midpoint.
  - exists (to_R_rows q_rk4_code), (to_R qb_rk4). split; [apply builtin_fixed_erk; right; right; auto|].
    intros n A t h y HA Hy. rewrite (step_poly n A h HA) by exact Hy. now rewrite pstep_rk4.
Qed.

(** C125.  Linear systems y' = A y: every state returned by euler, midpoint, rk4 or dopri5, at time t, is obtained from x by
    steps of sizes that add up to t - t_0, each applying the polynomial 1 + hA + (hA)^2/2 + ... of the method: the
    exponential series up to the order of the method (plus (hA)^6/600 for dopri5). *)
Lemma C125_linear_system_pf :
  forall s c fuel n A x t0 ts atol rtol all semi times sol,
  stability_coeffs s c -> linear_on n A -> List.length x = n -> increasing (t0 :: ts) -> (1 <= List.length ts)%nat ->
  snd (@odeint ROps fuel (fun _ => A) x (@TTensor ROps (t0 :: ts)) s atol rtol false all [] semi) = Ok (times, sol) ->
  List.length sol = List.length times /\
  forall i t y, nth_error times i = Some t -> nth_error sol i = Some y ->
  exists hs, fold_right Rplus 0 hs = t - t0 /\ y = fold_right (fun h z => matrix_poly n A c h z) x hs.
Proof.
  intros s c fuel n A x t0 ts atol rtol all semi times sol HS HA Hx Hinc Hl Hr.
  destruct (stability_step s c HS) as (rows & b & HM & HP).
  assert (Hf : field_on n (fun _ => A)) by (intros u y Hy; now apply HA).
  destruct (odeint_output_inc fuel s rows b n (fun _ => A) x t0 ts atol rtol false all semi times sol HM Hf Hx Hinc Hl Hr) as [HLn HO].
  split; [exact HLn|]. intros i t y Ht Hy.
  destruct (HO i t y Ht Hy) as [H|(_ & H & _)]; [|discriminate].
  clear Ht Hy HO. induction H as [|t h z H IH].
  - exists []. split; [cbn; ring | reflexivity].
  - destruct IH as (hs & E1 & E2). exists (h :: hs). cbn [fold_right]. split; [rewrite E1; ring|].
    rewrite <- E2. apply HP; [exact HA|]. exact (reached_len rows b (fun _ => A) t0 x n t z Hf Hx H).
Qed.

(** C125.  With a fixed-step solver the steps are the spacings of the grid. *)
Lemma C125_linear_fixed_pf :
  forall s c fuel n A x t0 t1 ts atol rtol interp all semi,
  fixed_coeffs s c -> linear_on n A -> List.length x = n -> separated (t0 :: t1 :: ts) -> t0 <= t1 ->
  snd (@odeint ROps fuel (fun _ => A) x (@TTensor ROps (t0 :: t1 :: ts)) s atol rtol interp all [] semi)
  = Ok (t0 :: t1 :: ts, one_step_traj (fun _ h y => matrix_poly n A c h y) x (t0 :: t1 :: ts)).
Proof.
  intros s c fuel n A x t0 t1 ts atol rtol interp all semi HS HA Hx Hsep Hle.
  destruct (fixed_step s c HS) as (rows & b & HM & HP).
  assert (Hf : field_on n (fun _ => A)) by (intros u y Hy; now apply HA).
  destruct (odeint_fixed_result fuel s rows b n (fun _ => A) x t0 t1 ts atol rtol interp all [] semi HM Hf Hx) as [_ H].
  destruct (Rlt_dec t1 t0) as [C|_]; [lra|]. refine (eq_trans (H Hsep) _). unfold fixed_result.
  rewrite select_all; [|auto | now rewrite traj_length].
  assert (E : one_step_traj (erk_step rows b (fun _ => A)) x (t0 :: t1 :: ts)
    = one_step_traj (fun _ h y => matrix_poly n A c h y) x (t0 :: t1 :: ts)).
  { apply (one_step_traj_ext (fun _ h y => matrix_poly n A c h y) (erk_step rows b (fun _ => A)) (fun y => length y = n)); auto.
    intros t h y Hy. now apply mp_len. }
  rewrite E. reflexivity.
Qed.

(** the matrix [[0 1][-2 -3]] with rk4 *)
Lemma C125_ex_pf : linear_on 2 (fun y => [nth 1 y 0; - 2 * nth 0 y 0 - 3 * nth 1 y 0]) /\
  fixed_coeffs (RungeKutta4 ROps) [1; 1; 1 / 2; 1 / 6; 1 / 24] /\ separated [0; 1; 2] /\
  matrix_poly 2 (fun y => [nth 1 y 0; - 2 * nth 0 y 0 - 3 * nth 1 y 0]) [1; 1; 1 / 2; 1 / 6; 1 / 24] 1 [1; 0] = [5 / 12; - (1 / 12)].
Proof.
  split; [|split; [right; right; auto|split; [apply grid3_separated|]]].
  - split; [intros; reflexivity|]. intros a k y Hk Hy.
    destruct k as [|k0 [|k1 [|? ?]]]; try discriminate. destruct y as [|y0 [|y1 [|? ?]]]; try discriminate.
    cbn. apply f_equal2; [ring|]. apply f_equal2; [ring | reflexivity].
  - cbn. apply f_equal2; [field|]. apply f_equal2; [field | reflexivity].
Qed.

(** ** Stability *)
Lemma mp_scalar n l h c : forall y, length y = n -> matrix_poly n (map (Rmult l)) c h y = map (Rmult (peval c (h * l))) y.
Proof.
  induction c as [|a c IH]; intros y Hy; cbn [matrix_poly peval].
  - rewrite <- Hy. clear. induction y as [|e y IH]; cbn; auto. f_equal; [ring | exact IH].
  - rewrite IH by now rewrite map_length. rewrite !map_map. clear. unfold axpy.
    induction y as [|e y IH]; cbn; auto. f_equal; [ring | exact IH].
Qed.

Lemma linear_scalar n l : linear_on n (map (Rmult l)).
Proof. split; [intros y Hy; now rewrite map_length|]. intros a k y _ _. apply map_scal_axpy. Qed.

Lemma traj_fold {X} (P : X -> Prop) (one : R -> R -> X -> X) (g : R -> R) (Q : R -> X -> Prop) :
  (forall t h r y, P y -> Q r y -> Q (g h * r) (one t h y)) -> (forall t h y, P y -> P (one t h y)) ->
  forall i x r ts y, P x -> Q r x -> nth_error (one_step_traj one x ts) i = Some y -> Q (grid_product g ts i * r) y.
Proof.
  intros HQ HP. induction i as [|i IH]; intros x r ts y Px Qx Hy.
  - destruct ts as [|t0 ts]; [discriminate|]. cbn in Hy. injection Hy as <-. cbn [grid_product].
    destruct ts; now rewrite Rmult_1_l.
  - destruct ts as [|t0 [|t1 ts]]; try discriminate.
    { cbn in Hy. destruct i; discriminate. }
    change (nth_error (one_step_traj one (one t0 (t1 - t0) x) (t1 :: ts)) i = Some y) in Hy.
    pose proof (IH (one t0 (t1 - t0) x) (g (t1 - t0) * r) (t1 :: ts) y (HP _ _ _ Px) (HQ _ _ _ _ Px Qx) Hy) as H.
    change (grid_product g (t0 :: t1 :: ts) (S i)) with (g (t1 - t0) * grid_product g (t1 :: ts) i).
    replace (g (t1 - t0) * grid_product g (t1 :: ts) i * r) with (grid_product g (t1 :: ts) i * (g (t1 - t0) * r)) by ring. exact H.
Qed.

Lemma product_le g : forall ts i, (forall h, In h (spacings ts) -> Rabs (g h) <= 1) -> Rabs (grid_product g ts i) <= 1.
Proof.
  induction ts as [|t0 [|t1 ts] IH]; intros [|i] H; try (cbn [grid_product]; rewrite Rabs_R1; lra).
  change (grid_product g (t0 :: t1 :: ts) (S i)) with (g (t1 - t0) * grid_product g (t1 :: ts) i).
  rewrite Rabs_mult. assert (H1 := H (t1 - t0) (or_introl eq_refl)).
  assert (H2 : Rabs (grid_product g (t1 :: ts) i) <= 1) by (apply IH; intros h Hh; apply H; now right).
  rewrite <- (Rmult_1_r 1). apply Rmult_le_compat; [apply Rabs_pos | apply Rabs_pos | exact H1 | exact H2].
Qed.

Lemma product_gt g : forall ts i, (forall h, In h (spacings ts) -> 1 < Rabs (g h)) -> (S i < length ts)%nat ->
  1 < Rabs (grid_product g ts (S i)).
Proof.
  induction ts as [|t0 [|t1 ts] IH]; intros i H Hi; cbn [length] in Hi; try lia.
  change (grid_product g (t0 :: t1 :: ts) (S i)) with (g (t1 - t0) * grid_product g (t1 :: ts) i).
  rewrite Rabs_mult. assert (H1 := H (t1 - t0) (or_introl eq_refl)).
  destruct i as [|i].
  - cbn [grid_product]. rewrite Rabs_R1. lra.
  - assert (H2 : 1 < Rabs (grid_product g (t1 :: ts) (S i))).
    { apply IH; [intros h Hh; apply H; now right | cbn [length]; lia]. }
    nra.
Qed.

Lemma Ok_pair {A B} (a c : A) (b d : B) : Ok (a, b) = Ok (c, d) -> a = c /\ b = d.
Proof. intros E. split; congruence. Qed.

(** C126.  Exponential decay y' = - lambda y: after i steps every coordinate has been multiplied by the values of the
    polynomial of the method at - lambda h, for the spacings h of the grid. *)
Lemma C126_decay_pf :
  forall s c fuel lambda x t0 t1 ts atol rtol interp all semi times sol,
  fixed_coeffs s c -> separated (t0 :: t1 :: ts) -> t0 <= t1 ->
  snd (@odeint ROps fuel (fun _ => map (Rmult (- lambda))) x (@TTensor ROps (t0 :: t1 :: ts)) s atol rtol interp all [] semi) = Ok (times, sol) ->
  times = t0 :: t1 :: ts /\ List.length sol = List.length times /\
  forall i y, nth_error sol i = Some y ->
  y = map (Rmult (grid_product (fun h => peval c (h * - lambda)) (t0 :: t1 :: ts) i)) x.
Proof.
  intros s c fuel lambda x t0 t1 ts atol rtol interp all semi times sol HS Hsep Hle Hr.
  pose proof (C125_linear_fixed_pf s c fuel (List.length x) (map (Rmult (- lambda))) x t0 t1 ts atol rtol interp all semi
    HS (linear_scalar _ _) eq_refl Hsep Hle) as E.
  assert (E' := eq_trans (eq_sym Hr) E). destruct (Ok_pair _ _ _ _ E') as [-> ->]. split; [reflexivity|]. split; [apply traj_length|].
  intros i y Hy.
  pose proof (traj_fold (fun z => length z = length x) (fun _ h z => matrix_poly (length x) (map (Rmult (- lambda))) c h z)
    (fun h => peval c (h * - lambda)) (fun r z => z = map (Rmult r) x)) as T.
  rewrite <- (Rmult_1_r (grid_product _ _ _)). apply (T) with (ts := t0 :: t1 :: ts) (x := x).
  - intros _ h r z Hz ->. rewrite mp_scalar by exact Hz. rewrite map_map. apply map_ext. intros a. ring.
  - intros _ h z Hz. apply mp_len; [apply linear_scalar | exact Hz].
  - reflexivity.
  - rewrite <- (map_id x) at 1. apply map_ext. intros a. ring.
  - exact Hy.
Qed.

Definition stable_limit (s : solver ROps (vec ROps)) (lo hi : R) : Prop :=
  (s = Euler ROps /\ lo = 2 /\ hi = 2) \/ (s = Midpoint ROps /\ lo = 2 /\ hi = 2) \/
  (s = RungeKutta4 ROps /\ lo = 278 / 100 /\ hi = 279 / 100).

Lemma stable_value s c lo hi z : fixed_coeffs s c -> stable_limit s lo hi ->
  (0 <= z <= lo -> Rabs (peval c (- z)) <= 1) /\ (hi < z -> 1 < Rabs (peval c (- z))).
Proof.
  intros HS HL. assert (Hne : Euler ROps <> Midpoint ROps /\ Euler ROps <> RungeKutta4 ROps /\ Midpoint ROps <> RungeKutta4 ROps).
  { repeat split; intros E; apply (f_equal (@s_order _ _)) in E; cbn in E; discriminate. }
  destruct Hne as (N1 & N2 & N3).
  destruct HS as [[-> ->]|[[-> ->]|[-> ->]]]; destruct HL as [(E & -> & ->)|[(E & -> & ->)|(E & -> & ->)]]; try congruence;
    try (symmetry in E; congruence); cbn [peval]; split; intros Hz.
  - apply Rabs_le. lra.
  - rewrite Rabs_left; lra.
  - apply Rabs_le. nra.
  - rewrite Rabs_right; nra.
  - assert (P : 0 <= 1 - z + z * z / 2 - z * z * z / 6 + z * z * z * z / 24).
    { pose proof (Rle_0_sqr (z * z - 2 * z)) as A. pose proof (Rle_0_sqr (2 * z - 3)) as B. unfold Rsqr in A, B. lra. }
    apply Rabs_le. split; [lra|].
    assert (Q : - 1 + z / 2 - z * z / 6 + z * z * z / 24 <= 0).
    { assert (F : 0 <= 1 / 2 - (z + 278/100) / 6 + (z * z + 278/100 * z + 278/100 * (278/100)) / 24) by (pose proof (Rle_0_sqr (2 * z - 4 + 278/100)) as B; unfold Rsqr in B; lra).
      assert (G : 0 <= (278/100 - z) * (1 / 2 - (z + 278/100) / 6 + (z * z + 278/100 * z + 278/100 * (278/100)) / 24)) by (apply Rmult_le_pos; lra).
      lra. }
    assert (0 <= z * - (- 1 + z / 2 - z * z / 6 + z * z * z / 24)) by (apply Rmult_le_pos; lra). lra.
  - assert (Q : 0 < - 1 + z / 2 - z * z / 6 + z * z * z / 24).
    { assert (F : 0 <= 1 / 2 - (z + 279/100) / 6 + (z * z + 279/100 * z + 279/100 * (279/100)) / 24) by (pose proof (Rle_0_sqr (2 * z - 4 + 279/100)) as B; unfold Rsqr in B; lra).
      assert (G : 0 <= (z - 279/100) * (1 / 2 - (z + 279/100) / 6 + (z * z + 279/100 * z + 279/100 * (279/100)) / 24)) by (apply Rmult_le_pos; lra).
      lra. }
    assert (0 < z * (- 1 + z / 2 - z * z / 6 + z * z * z / 24)) by (apply Rmult_lt_0_compat; lra).
    rewrite Rabs_right; lra.
Qed.

(** C126.  Within the stability interval (lambda h <= 2 for euler and midpoint, lambda h <= 2.78 for rk4) no coordinate
    ever exceeds its initial value; beyond it (lambda h > 2, lambda h > 2.79) every coordinate that is not zero grows. *)
Lemma C126_stability_limit_pf :
  forall s lo hi fuel lambda x t0 t1 ts atol rtol interp all semi times sol,
  stable_limit s lo hi -> separated (t0 :: t1 :: ts) -> t0 <= t1 ->
  snd (@odeint ROps fuel (fun _ => map (Rmult (- lambda))) x (@TTensor ROps (t0 :: t1 :: ts)) s atol rtol interp all [] semi) = Ok (times, sol) ->
  ((forall h, In h (spacings (t0 :: t1 :: ts)) -> 0 <= lambda * h <= lo) ->
   forall i y j, nth_error sol i = Some y -> Rabs (nth j y 0) <= Rabs (nth j x 0)) /\
  ((forall h, In h (spacings (t0 :: t1 :: ts)) -> hi < lambda * h) ->
   forall i y j, nth_error sol (S i) = Some y -> nth j x 0 <> 0 -> Rabs (nth j x 0) < Rabs (nth j y 0)).
Proof.
  intros s lo hi fuel lambda x t0 t1 ts atol rtol interp all semi times sol HL Hsep Hle Hr.
  assert (HC : exists c, fixed_coeffs s c).
  { destruct HL as [(-> & _)|[(-> & _)|(-> & _)]]; eexists; [left|right; left|right; right]; split; reflexivity. }
  destruct HC as [c HC].
  destruct (C126_decay_pf s c fuel lambda x t0 t1 ts atol rtol interp all semi times sol HC Hsep Hle Hr) as (-> & Len & H).
  assert (Nth : forall r j, nth j (map (Rmult r) x) 0 = r * nth j x 0).
  { intros r j. rewrite <- (Rmult_0_r r) at 1. apply (map_nth (Rmult r)). }
  split; intros Hh i y j Hy.
  - rewrite (H i y Hy). change (num ROps) with R. rewrite Nth, Rabs_mult.
    assert (B : Rabs (grid_product (fun h => peval c (h * - lambda)) (t0 :: t1 :: ts) i) <= 1).
    { apply product_le. intros h Hin. replace (h * - lambda) with (- (lambda * h)) by ring.
      apply (proj1 (stable_value s c lo hi (lambda * h) HC HL)). now apply Hh. }
    apply Rle_trans with (1 * Rabs (nth j x 0)); [apply Rmult_le_compat_r; [apply Rabs_pos | exact B] | rewrite Rmult_1_l; apply Rle_refl].
  - intros Hj. rewrite (H (S i) y Hy). change (num ROps) with R. rewrite Nth, Rabs_mult.
    assert (B : 1 < Rabs (grid_product (fun h => peval c (h * - lambda)) (t0 :: t1 :: ts) (S i))).
    { apply product_gt.
      - intros h Hin. replace (h * - lambda) with (- (lambda * h)) by ring.
        apply (proj2 (stable_value s c lo hi (lambda * h) HC HL)). now apply Hh.
      - assert (S i < length sol)%nat by (apply nth_error_Some; congruence). rewrite Len in H0. exact H0. }
    apply Rle_lt_trans with (1 * Rabs (nth j x 0)); [rewrite Rmult_1_l; apply Rle_refl | apply Rmult_lt_compat_r; [now apply Rabs_pos_lt | exact B]].
Qed.

(** ** Oscillators *)
Lemma pow2_pos (r : R) : r <> 0 -> 0 < r ^ 2.
Proof. intros H. replace (r ^ 2) with (Rsqr r) by (unfold Rsqr; ring). now apply Rlt_0_sqr. Qed.

Definition rotation (w : R) (y : list R) : list R := [w * nth 1 y 0; - w * nth 0 y 0].
Definition energy (y : list R) : R := nth 0 y 0 * nth 0 y 0 + nth 1 y 0 * nth 1 y 0.

Lemma linear_rotation w : linear_on 2 (rotation w).
Proof.
  split; [reflexivity|]. intros a k y Hk Hy.
  destruct k as [|k0 [|k1 [|? ?]]]; try discriminate. destruct y as [|y0 [|y1 [|? ?]]]; try discriminate.
  unfold rotation. cbn. apply f_equal2; [ring|]. apply f_equal2; [ring | reflexivity].
Qed.

(** the factor of the energy per step, as a function of z = h omega *)
Definition energy_factor (s : solver ROps (vec ROps)) (E : R -> R) : Prop :=
  (s = Euler ROps /\ E = fun z => 1 + z ^ 2) \/
  (s = Midpoint ROps /\ E = fun z => 1 + z ^ 4 / 4) \/
  (s = RungeKutta4 ROps /\ E = fun z => 1 - z ^ 6 / 72 + z ^ 8 / 576).

(** C126.  Harmonic oscillator q' = omega p, p' = - omega q: the energy q^2 + p^2 is multiplied by an explicit factor
    per step. *)
Lemma C126_oscillator_pf :
  forall s E fuel w x t0 t1 ts atol rtol interp all semi times sol,
  energy_factor s E -> List.length x = 2%nat -> separated (t0 :: t1 :: ts) -> t0 <= t1 ->
  snd (@odeint ROps fuel (fun _ => rotation w) x (@TTensor ROps (t0 :: t1 :: ts)) s atol rtol interp all [] semi) = Ok (times, sol) ->
  List.length sol = List.length (t0 :: t1 :: ts) /\
  forall i y, nth_error sol i = Some y ->
  energy y = grid_product (fun h => E (h * w)) (t0 :: t1 :: ts) i * energy x.
Proof.
  intros s E fuel w x t0 t1 ts atol rtol interp all semi times sol HE Hx Hsep Hle Hr.
  assert (HC : exists c, fixed_coeffs s c /\ forall h y, length y = 2%nat -> energy (matrix_poly 2 (rotation w) c h y) = E (h * w) * energy y).
  { destruct HE as [(-> & ->)|[(-> & ->)|(-> & ->)]]; eexists; split; [left; split; reflexivity| |right; left; split; reflexivity| |right; right; split; reflexivity|];
    intros h y Hy; destruct y as [|y0 [|y1 [|? ?]]]; try discriminate; unfold energy, rotation;
    cbn [matrix_poly axpy map combine fst snd nth repeat]; unfold axpy; cbn [map combine fst snd nth]; field. }
  destruct HC as (c & HC & HP).
  pose proof (C125_linear_fixed_pf s c fuel 2 (rotation w) x t0 t1 ts atol rtol interp all semi
    HC (linear_rotation w) Hx Hsep Hle) as EQ.
  assert (E' := eq_trans (eq_sym Hr) EQ). destruct (Ok_pair _ _ _ _ E') as [-> ->]. split; [apply traj_length|].
  intros i y Hy.
  pose proof (traj_fold (fun z => length z = 2%nat) (fun _ h z => matrix_poly 2 (rotation w) c h z)
    (fun h => E (h * w)) (fun r z => energy z = r)) as T.
  apply (T) with (ts := t0 :: t1 :: ts) (x := x).
  - intros _ h r z Hz <-. now apply HP.
  - intros _ h z Hz. apply mp_len; [apply linear_rotation | exact Hz].
  - exact Hx.
  - reflexivity.
  - exact Hy.
Qed.

(** C126.  With euler and midpoint the energy grows in every step, however small the steps; with rk4 it never grows if
    (omega h)^2 <= 8. *)
Lemma C126_oscillator_energy_pf :
  forall s E fuel w x t0 t1 ts atol rtol interp all semi times sol,
  energy_factor s E -> List.length x = 2%nat -> separated (t0 :: t1 :: ts) -> t0 <= t1 ->
  snd (@odeint ROps fuel (fun _ => rotation w) x (@TTensor ROps (t0 :: t1 :: ts)) s atol rtol interp all [] semi) = Ok (times, sol) ->
  ((s = Euler ROps \/ s = Midpoint ROps) -> w <> 0 -> 0 < energy x -> (forall h, In h (spacings (t0 :: t1 :: ts)) -> h <> 0) ->
   forall i y, nth_error sol (S i) = Some y -> energy x < energy y) /\
  (s = RungeKutta4 ROps -> (forall h, In h (spacings (t0 :: t1 :: ts)) -> (h * w) ^ 2 <= 8) ->
   forall i y, nth_error sol i = Some y -> energy y <= energy x).
Proof.
  intros s E fuel w x t0 t1 ts atol rtol interp all semi times sol HE Hx Hsep Hle Hr.
  destruct (C126_oscillator_pf s E fuel w x t0 t1 ts atol rtol interp all semi times sol HE Hx Hsep Hle Hr) as [Len H].
  assert (Hne : Euler ROps <> RungeKutta4 ROps /\ Midpoint ROps <> RungeKutta4 ROps).
  { repeat split; intros C; apply (f_equal (@s_order _ _)) in C; cbn in C; discriminate. }
  destruct Hne as (N2 & N3). split.
  - intros Hs Hw He Hh i y Hy. rewrite (H (S i) y Hy).
    assert (P : forall h, h <> 0 -> 1 < E (h * w)).
    { intros h Hh0. assert (Hz : h * w <> 0) by (apply Rmult_integral_contrapositive; auto).
      destruct HE as [(-> & ->)|[(-> & ->)|(-> & ->)]]; [| |destruct Hs; congruence].
      - assert (0 < (h * w) ^ 2) by (apply pow2_pos; exact Hz). lra.
      - assert (0 < ((h * w) ^ 2) ^ 2) by (apply pow2_pos; apply pow_nonzero; exact Hz). replace (((h * w) ^ 2) ^ 2) with ((h * w) ^ 4) in H0 by ring. lra. }
    assert (G : 1 < Rabs (grid_product (fun h => E (h * w)) (t0 :: t1 :: ts) (S i))).
    { apply product_gt.
      - intros h Hin. specialize (P h (Hh h Hin)). rewrite Rabs_right; lra.
      - assert (S i < length sol)%nat by (apply nth_error_Some; congruence). rewrite Len in H0. exact H0. }
    assert (Pos : forall ts i, (forall h, In h (spacings ts) -> h <> 0) -> 0 < grid_product (fun h => E (h * w)) ts i).
    { clear - P. induction ts as [|t0 [|t1 ts] IH]; intros [|i] Hs; cbn [grid_product]; try lra.
      apply Rmult_lt_0_compat; [assert (Q := P _ (Hs (t1 - t0) (or_introl eq_refl))); lra|]. apply IH. intros h Hin. apply Hs. now right. }
    specialize (Pos (t0 :: t1 :: ts) (S i) Hh). rewrite Rabs_right in G by lra. nra.
  - intros Hs Hh i y Hy. rewrite (H i y Hy).
    assert (B : Rabs (grid_product (fun h => E (h * w)) (t0 :: t1 :: ts) i) <= 1).
    { apply product_le. intros h Hin. specialize (Hh h Hin).
      destruct HE as [(-> & ->)|[(-> & ->)|(-> & ->)]]; try congruence.
      set (u := (h * w) ^ 2) in *. assert (U : 0 <= u) by apply pow2_ge_0.
      replace ((h * w) ^ 6) with (u ^ 3) by (unfold u; ring). replace ((h * w) ^ 8) with (u ^ 4) by (unfold u; ring).
      assert (0 <= u ^ 3) by now apply pow_le.
      assert (0 <= (8 - u) * u ^ 3) by (apply Rmult_le_pos; lra).
      assert (u ^ 4 = u * u ^ 3) by ring.
      assert (0 <= (u - 6) ^ 2 * (u ^ 2 + 4 * u + 12)) by (apply Rmult_le_pos; [apply pow2_ge_0 | pose proof (pow2_ge_0 u); lra]).
      assert ((u - 6) ^ 2 * (u ^ 2 + 4 * u + 12) = u ^ 4 - 8 * u ^ 3 + 432) by ring.
      apply Rabs_le. split; lra. }
    assert (0 <= energy x) by (unfold energy; nra).
    pose proof (Rle_abs (grid_product (fun h => E (h * w)) (t0 :: t1 :: ts) i)). nra.
Qed.

Lemma C126_stability_limit_ex_pf : stable_limit (RungeKutta4 ROps) (278 / 100) (279 / 100) /\ separated [0; 1; 2] /\
  (forall h, In h (spacings [0; 1; 2]) -> 0 <= 2 * h <= 278 / 100) /\ (forall h, In h (spacings [0; 1; 2]) -> 279 / 100 < 3 * h) /\
  grid_product (fun h => peval [1; 1; 1 / 2; 1 / 6; 1 / 24] (h * - 2)) [0; 1; 2] 2 = 1 / 9 /\
  grid_product (fun h => peval [1; 1; 1 / 2; 1 / 6; 1 / 24] (h * - 3)) [0; 1; 2] 2 = 121 / 64.
Proof.
  split; [right; right; auto|]. split; [apply grid3_separated|].
  split; [|split]; [intros h [<-|[<-|[]]]; lra | intros h [<-|[<-|[]]]; lra|].
  split; cbn; field.
Qed.

Lemma C126_oscillator_ex_pf : energy_factor (Midpoint ROps) (fun z => 1 + z ^ 4 / 4) /\ separated [0; 1; 2] /\
  energy (rotation 2 [3; 4]) = 100 /\ grid_product (fun h => 1 + (h * 2) ^ 4 / 4) [0; 1; 2] 2 = 25.
Proof.
  split; [right; left; auto|]. split; [apply grid3_separated|]. unfold energy, rotation. split; cbn; field.
Qed.
