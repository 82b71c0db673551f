(** Proofs: precision of the coefficients of the solvers. *)
From Coq Require Import ZArith QArith Qreals Reals Lra Lia List Bool Sorted.
From Verif Require Import Num Py Tensor M_Constants M_SolversOde M_Utils M_Interp M_Odeint M_Dtype.
From Verif Require Import Spec_Ode Spec_Trees Spec_RK Spec_Norm Spec_Adaptive Spec_Inv Spec_Dtype.
From Verif Require Import L_Base L_Fixed L_Vec L_Steps L_Tables L_Steps2 L_Interp L_Utils L_Fixed2 L_Adaptive L_Run L_Growth.
From Verif Require Import L_Adaptive2 L_Adaptive3 L_Adaptive4 Pf_Fixed Pf_Adaptive L_Reach L_Inv Pf_Inv L_Dtype.
Import ListNotations.
Local Open Scope R_scope.

(** ** Tableaux held by solver objects *)
Definition qb (T : qtableau) : list Q := let '(_, _, b, _) := T in b.
Definition qa (T : qtableau) : list (list Q) := let '(_, a, _, _) := T in a.
Definition qc (T : qtableau) : list Q := let '(c, _, _, _) := T in c.
(** the last row is the row of solution weights, at node 1 *)
Definition fsal (T : qtableau) : Prop :=
  nth 5 (qc T) 0%Q = 1%Q /\ forall j, (j < 6)%nat -> nth j (nth 5 (qa T) []) 0%Q = nth j (qb T) 0%Q.

Lemma round_0 p : round_to p 0 = 0%Q. Proof. reflexivity. Qed.
Lemma round_1 d : round_to (bits d) 1 = 1%Q. Proof. destruct d; vm_compute; reflexivity. Qed.
Lemma nth_round p l i : nth i (map (round_to p) l) 0%Q = round_to p (nth i l 0%Q).
Proof. exact (map_nth (round_to p) l 0%Q i). Qed.

Lemma sync_fsal d T : fsal T -> fsal (sync d T).
Proof.
  destruct T as [[[c a] b] e]. intros [H1 H2]. unfold fsal, sync in *. cbn [qc qa qb] in *. split.
  - rewrite nth_round, H1. apply round_1.
  - intros j Hj.
    rewrite (map_nth (map (round_to (bits d))) a [] 5 : nth 5 (map (map (round_to (bits d))) a) [] = _).
    rewrite !nth_round. now rewrite H2.
Qed.
Lemma new_fsal n d : n <> Rk4 -> fsal (new_tableau n d).
Proof.
  intros Hn. destruct n; [now contradict Hn| |].
  - split; [destruct d; vm_compute; reflexivity|]. intros j Hj.
    unfold new_tableau, values, construct_dopri5, qa, qb. cbv zeta. cbn [ta tb].
    do 6 (destruct j as [|j]; [cbn [nth]; reflexivity|]). lia.
  - split; [destruct d; vm_compute; reflexivity|]. intros j Hj.
    unfold new_tableau, values, construct_tsit5, qa, qb. cbv zeta. cbn [ta tb].
    do 6 (destruct j as [|j]; [cbn [nth]; reflexivity|]). lia.
Qed.
Lemma used_fsal ds : forall T, fsal T -> fsal (fold_left (fun T d => sync d T) ds T).
Proof. induction ds as [|d ds IH]; intros T H; cbn [fold_left]; auto. apply IH. now apply sync_fsal. Qed.

Lemma tget_over l i : @tget ROps (map (@nQ ROps) l) i = Q2R (nth i l 0%Q).
Proof. exact (map_nth Q2R l 0%Q i). Qed.
Lemma aget_over a i j : @aget ROps (map (map (@nQ ROps)) a) i j = Q2R (nth j (nth i a []) 0%Q).
Proof.
  unfold aget. rewrite (map_nth (map (@nQ ROps)) a [] i : nth i (map (map (@nQ ROps)) a) [] = _). apply tget_over.
Qed.

Definition minus_err (tab : tableau ROps) : list R := map (fun p => fst p - snd p) (combine (b7 tab ++ [0]) (e7 tab)).

Lemma fifth : literal Float (1 # 5) = (13421773 # 67108864)%Q. Proof. vm_compute. reflexivity. Qed.
Lemma ten : literal Float 10 = 10%Q. Proof. vm_compute. reflexivity. Qed.
Lemma nine_tenths : literal Float (9 # 10) = (7549747 # 8388608)%Q. Proof. vm_compute. reflexivity. Qed.

Lemma sub_sub (u v : R) : v = u - (u - v). Proof. ring. Qed.
Lemma object_pair n T : n <> Rk4 -> fsal T ->
  embedded_pair (solver_object ROps n T) (rows7 (over ROps T)) (b7 (over ROps T)) (minus_err (over ROps T)).
Proof.
  intros Hn HT. destruct T as [[[c a] b] e]. destruct HT as [H1 H2]. cbn [qc qa qb] in *.
  assert (F : forall q, nQ q = Q2R q :> ROps) by reflexivity.
  split; [destruct n; [now contradict Hn|reflexivity..]|].
  cbn [s_min_factor s_max_factor s_safety solver_object]. rewrite !F, fifth, ten, nine_tenths.
  assert (Q1 : 0 < Q2R (13421773 # 67108864) < 1) by (unfold Q2R; cbn [Qnum Qden]; lra).
  assert (Q2 : 1 <= Q2R 10) by (unfold Q2R; cbn [Qnum Qden]; lra).
  assert (Q3 : 0 < Q2R (7549747 # 8388608) < 1) by (unfold Q2R; cbn [Qnum Qden]; lra).
  split; [exact Q1|]. split; [exact Q2|]. split; [exact Q3|].
  split; [reflexivity|].
  intros m f t h x Hf Hx.
  assert (Es : s_step (solver_object ROps n (c, a, b, e)) = erk7_step (over ROps (c, a, b, e))) by (destruct n; [now contradict Hn|reflexivity..]).
  rewrite Es. rewrite (erk7_spec _ m f Hf t h x (Some (f t x)) Hx) by (intros k [= <-]; reflexivity).
  rewrite (fsal7 _ m f t h x Hf Hx).
  - rewrite (err_difference m _ f t h x (minus_err (over ROps (c, a, b, e))) Hf Hx eq_refl); [reflexivity|].
    intros i Hi. unfold minus_err, b7, e7. cbn [app combine map fst snd].
    do 7 (destruct i as [|i]; [cbn [nth]; exact (sub_sub _ _)|]). lia.
  - cbn [over tc]. rewrite tget_over, H1. apply RMicromega.Q2R_1.
  - intros j Hj. cbn [over ta tb]. rewrite aget_over, tget_over, H2 by auto. reflexivity.
Qed.

(** ** rk4 with any tableau *)
Definition rows4 (tab : tableau ROps) : list (R * list R) :=
  let c := @tget ROps (tc tab) in let a := @aget ROps (ta tab) in
  [(0, []); (c 0%nat, [a 0%nat 0%nat]); (c 1%nat, [a 1%nat 0%nat; a 1%nat 1%nat]);
   (c 2%nat, [a 2%nat 0%nat; a 2%nat 1%nat; a 2%nat 2%nat])].
Definition b4 (tab : tableau ROps) : list R :=
  let b := @tget ROps (tb tab) in [b 0%nat; b 1%nat; b 2%nat; b 3%nat].

Definition rk4_arg2 (tab : tableau ROps) (f : R -> rvec -> rvec) (t dt : R) (x : rvec) : rvec :=
  @vadd ROps x (@vscale ROps dt (@vscale ROps (@aget ROps (ta tab) 0 0) (f t x))).

Lemma rk4_tab_erk tab n f : field_on n f -> forall t dt x, length x = n ->
  snd (rk4_tab_step ROps tab f x t dt None) = Ok (Ret3 None (erk_step (rows4 tab) (b4 tab) f t dt x) None).
Proof.
  intros Hf t dt x Hx.
  unfold rk4_tab_step. cbv zeta. unfold first_stage, mbind, call, mret. cbn [fst snd app].
  apply f_equal. apply (f_equal (fun y => Ret3 None y None)).
  unfold erk_step, erk_stages, rows4, b4, comb. cbv zeta. cbn [map fold_left combine app fst snd]. rewrite !axpy_vadd. rops.
  replace (t + 0 * dt) with t by ring.
  set (c0 := @tget ROps (tc tab) 0). set (c1 := @tget ROps (tc tab) 1). set (c2 := @tget ROps (tc tab) 2).
  set (a00 := @aget ROps (ta tab) 0 0). set (a10 := @aget ROps (ta tab) 1 0). set (a11 := @aget ROps (ta tab) 1 1).
  set (a20 := @aget ROps (ta tab) 2 0). set (a21 := @aget ROps (ta tab) 2 1). set (a22 := @aget ROps (ta tab) 2 2).
  set (k1 := f t x).
  assert (L1 : length k1 = n) by vlen.
  assert (E2 : @vadd ROps x (@vscale ROps dt (@vscale ROps a00 k1)) = @vadd ROps x (@vscale ROps (dt * a00) k1)) by (vext n; ring).
  rewrite E2. match goal with |- context [f (t + c0 * dt) ?y] => set (k2 := f (t + c0 * dt) y) end.
  assert (L2 : length k2 = n) by vlen.
  assert (E3 : @vadd ROps x (@vscale ROps dt (@vadd ROps (@vscale ROps a10 k1) (@vscale ROps a11 k2)))
     = @vadd ROps (@vadd ROps x (@vscale ROps (dt * a10) k1)) (@vscale ROps (dt * a11) k2)) by (vext n; ring).
  rewrite E3. match goal with |- context [f (t + c1 * dt) ?y] => set (k3 := f (t + c1 * dt) y) end.
  assert (L3 : length k3 = n) by vlen.
  assert (E4 : @vadd ROps x (@vscale ROps dt (@vadd ROps (@vadd ROps (@vscale ROps a20 k1) (@vscale ROps a21 k2)) (@vscale ROps a22 k3)))
     = @vadd ROps (@vadd ROps (@vadd ROps x (@vscale ROps (dt * a20) k1)) (@vscale ROps (dt * a21) k2)) (@vscale ROps (dt * a22) k3)) by (vext n; ring).
  rewrite E4. match goal with |- context [f (t + c2 * dt) ?y] => set (k4 := f (t + c2 * dt) y) end.
  assert (L4 : length k4 = n) by vlen.
  vext n. ring.
Qed.

Lemma rk4_object_erk T : erk_solver (solver_object ROps Rk4 T) (rows4 (over ROps T)) (b4 (over ROps T)).
Proof.
  split; [reflexivity|]. intros n f Hf.
  exists (fun t h x => match snd (rk4_tab_step ROps (over ROps T) f x t h None) with Ok (Ret3 _ y _) => y | _ => [] end).
  eexists (fun t h x => fst (rk4_tab_step ROps (over ROps T) f x t h None)). split.
  - intros x t dt. exists None, None. reflexivity.
  - intros t h x Hx. now rewrite (rk4_tab_erk _ n f Hf).
Qed.

(** ** Constant fields *)
Definition sumR (l : list R) : R := fold_right Rplus 0 l.

Lemma reached_constant rows b v t0 x t y j : length v = length x -> (length b <= length rows)%nat -> (j < length x)%nat ->
  reached rows b (fun _ _ => v) t0 x t y -> nth j y 0 = nth j x 0 + sumR b * nth j v 0 * (t - t0).
Proof.
  intros Hv Hb Hj H. assert (Hf : field_on (length x) (fun _ _ => v)) by (intros u z _; exact Hv).
  destruct (inner_unit j (length x) Hj) as [w Hw].
  assert (G : inner w y = inner w x + sumR b * inner w v * (t - t0)).
  { clear Hw. induction H as [|t h z H IH].
    - rewrite Rminus_diag_eq, Rmult_0_r, Rplus_0_r by reflexivity. reflexivity.
    - assert (Lz : length z = length x) by exact (reached_len rows b (fun _ _ => v) t0 x (length x) t z Hf eq_refl H).
      rewrite (inner_step w (inner w v) (length x) rows b (fun _ _ => v) t h z Hf Lz (fun _ _ _ => eq_refl) Hb). rewrite IH. unfold sumR.
      set (B := fold_right Rplus 0 b). set (V := inner w v). set (X := inner w x). ring. }
  rewrite (Hw y (reached_len rows b (fun _ _ => v) t0 x (length x) t y Hf eq_refl H)), (Hw x eq_refl), (Hw v Hv) in G. exact G.
Qed.

(** the solution weights that the step reads *)
Definition weights (n : tabled) (T : qtableau) : list Q := firstn (match n with Rk4 => 4 | _ => 6 end) (qb T).
Definition sound (n : tabled) (T : qtableau) : Prop :=
  (n <> Rk4 -> fsal T) /\ length (weights n T) = (match n with Rk4 => 4 | _ => 6 end)%nat.
Definition qsum (l : list Q) : Q := fold_right Qplus 0%Q l.

Lemma sumR_qsum l : sumR (map Q2R l) = Q2R (qsum l).
Proof. induction l as [|q l IH]; cbn [map sumR qsum fold_right]; [now rewrite RMicromega.Q2R_0|]. rewrite Q2R_plus. unfold sumR, qsum in IH. now rewrite IH. Qed.

Lemma object_constant n T fuel x v t0 ts atol rtol all semi times sol : sound n T ->
  length v = length x -> increasing (t0 :: ts) -> (1 <= length ts)%nat ->
  snd (@odeint ROps fuel (fun _ _ => v) x (@TTensor ROps (t0 :: ts)) (solver_object ROps n T) atol rtol false all [] semi) = Ok (times, sol) ->
  constant_speed (Q2R (qsum (weights n T)) - 1) x v t0 times sol.
Proof.
  intros [HT HW] Hv Hinc Hl Hr. destruct ts as [|t1 ts]; [simpl in Hl; lia|].
  assert (Hf : field_on (length x) (fun _ _ => v)) by (intros u z _; exact Hv).
  assert (Hlt : t0 < t1) by (apply (Hinc 0%nat 1%nat); auto).
  assert (W : forall rows b, b = map Q2R (weights n T) -> (length b <= length rows)%nat ->
     (length sol = length times /\ forall i c z, nth_error times i = Some c -> nth_error sol i = Some z -> reached rows b (fun _ _ => v) t0 x c z) ->
     constant_speed (Q2R (qsum (weights n T)) - 1) x v t0 times sol).
  { intros rows b Eb Lb [L1 L2]. split; [exact L1|]. intros i t y Ht Hy. split; [exact (reached_len rows b (fun _ _ => v) t0 x (length x) t y Hf eq_refl (L2 i t y Ht Hy))|]. intros j Hj.
    rewrite (reached_constant rows b v t0 x t y j Hv Lb Hj (L2 i t y Ht Hy)).
    rewrite Eb, sumR_qsum. ring. }
  assert (D : n = Rk4 \/ n <> Rk4) by (destruct n; [left|right|right]; congruence).
  destruct T as [[[c a] b] e]. unfold weights in W, HW. cbn [qb] in W, HW. destruct D as [->|Hn].
  - do 4 (destruct b as [|? b]; [discriminate|]).
    destruct (fixed_sol fuel _ _ _ (length x) _ x t0 t1 ts atol rtol false all [] semi times sol (rk4_object_erk (c, a, q :: q0 :: q1 :: q2 :: b, e)) Hf eq_refl Hr) as [_ H].
    destruct (H eq_refl) as (Es & Et & _). specialize (Et ltac:(lra)).
    refine (W (rows4 (over ROps (c, a, q :: q0 :: q1 :: q2 :: b, e))) (b4 (over ROps (c, a, q :: q0 :: q1 :: q2 :: b, e))) eq_refl (le_n 4) (conj _ _)).
    + rewrite Es, Et. apply traj_length.
    + rewrite Es, Et. intros i u z Hu Hz. eapply traj_reached; eauto. constructor.
  - specialize (HT Hn). pose proof (object_pair n _ Hn HT) as HP. apply increasing_sorted in Hinc.
    destruct (odeint_run _ _ _ _ HP (length x) _ Hf _ _ _ _ _ _ _ _ _ _ _ _ _ Hinc eq_refl Hr) as (times' & sol' & -> & -> & Hrun).
    assert (Eb : b7 (over ROps (c, a, b, e)) = map Q2R (firstn (match n with Rk4 => 4 | _ => 6 end) b)).
    { unfold b7, over. cbn [tb]. assert (L6 : length (firstn 6 b) = 6%nat) by (destruct n; [now contradict Hn|exact HW..]).
      assert (E6 : (match n with Rk4 => 4 | _ => 6 end = 6)%nat) by (destruct n; [now contradict Hn|reflexivity..]). rewrite E6.
      do 6 (destruct b as [|? b]; [discriminate|]). reflexivity. }
    refine (W (rows7 (over ROps (c, a, b, e))) _ Eb _ (conj _ _)).
    + rewrite Eb. rewrite map_length, HW. change (length (rows7 (over ROps (c, a, b, e)))) with 7%nat. destruct n; lia.
    + cbn [length]. f_equal. exact (run_lengths _ _ _ _ _ Hrun).
    + intros i u z Hu Hz.
      destruct (run_reached _ _ _ t0 x (pair_accepts (rows7 (over ROps (c, a, b, e))) (b7 (over ROps (c, a, b, e))) (minus_err (over ROps (c, a, b, e))) (fun _ _ => v) atol rtol semi)
        _ _ _ _ _ _ ltac:(intros ? ? ? ? [E _]; exact E) Hrun i u z Hu Hz) as [H|(Hi & _)]; [exact H|].
      exfalso. unfold interp_on in Hi. destruct (s_is_tsit5 (solver_object ROps n (c, a, b, e))); discriminate.
Qed.

Lemma constant_growth (v : list R) n : exists L, 0 <= L /\ linear_growth n L (fun _ _ => v).
Proof.
  assert (B : exists L, 0 <= L /\ forall a, In a v -> Rabs a <= L).
  { induction v as [|a v (L & H0 & H)]; [exists 0; split; [lra|intros ? []]|].
    exists (L + Rabs a). pose proof (Rabs_pos a). split; [lra|]. intros c [<-|Hc]; [lra|]. specialize (H c Hc). lra. }
  destruct B as (L & H0 & H). exists L. split; [exact H0|]. intros t x B _ HB _ a Ha. specialize (H a Ha).
  apply Rle_trans with L; [exact H|]. rewrite <- (Rmult_1_r L) at 1. apply Rmult_le_compat_l; lra.
Qed.

Lemma object_returns n T (x v : list R) t0 t1 ts atol rtol : sound n T ->
  length v = length x -> increasing (t0 :: t1 :: ts) -> separated (t0 :: t1 :: ts) -> 0 < atol -> 0 <= rtol ->
  exists fuel sol, snd (@odeint ROps fuel (fun _ _ => v) x (@TTensor ROps (t0 :: t1 :: ts)) (solver_object ROps n T) atol rtol false false [] None)
    = Ok (t0 :: t1 :: ts, sol).
Proof.
  intros [HT HW] Hv Hinc Hsep Ha Hr0.
  assert (Hf : field_on (length x) (fun _ _ => v)) by (intros u z _; exact Hv).
  assert (Hlt : t0 < t1) by (apply (Hinc 0%nat 1%nat); auto).
  assert (D : n = Rk4 \/ n <> Rk4) by (destruct n; [left|right|right]; congruence).
  destruct D as [->|Hn].
  - exists 0%nat.
    destruct (odeint_fixed_result 0 _ _ _ (length x) _ x t0 t1 ts atol rtol false false [] None (rk4_object_erk T) Hf eq_refl) as [_ H].
    destruct (Rlt_dec t1 t0) as [N|_]; [lra|]. specialize (H Hsep). eexists. refine (eq_trans H _). unfold fixed_result.
    rewrite L_Fixed2.select_all by (auto; now rewrite traj_length).
    rewrite (traj_hd _ x t0 (t1 :: ts)). reflexivity.
  - pose proof (object_pair n _ Hn (HT Hn)) as HP. pose proof Hinc as Hinc'. apply increasing_sorted in Hinc'.
    destruct (constant_growth v (length x)) as (L & HL & HG).
    destruct (odeint_growth_halts _ _ _ _ HP (length x) _ Hf atol rtol false false None L x t0 t1 ts [] Hinc' eq_refl HL HG Ha Hr0)
      as (fuel & [times sol] & Hr).
    exists fuel, sol.
    destruct (odeint_run _ _ _ _ HP (length x) _ Hf _ _ _ _ _ _ _ _ _ _ _ _ _ Hinc' eq_refl Hr) as (times' & sol' & -> & -> & Hrun).
    pose proof (run_times _ _ _ _ _ Hrun eq_refl) as ->. exact Hr.
Qed.

Lemma weights_sync n d T : length (weights n (sync d T)) = length (weights n T).
Proof. destruct T as [[[c a] b] e]. unfold weights, sync. cbn [qb]. now rewrite !firstn_length, map_length. Qed.
Lemma sound_sync n d T : sound n T -> sound n (sync d T).
Proof. intros [H1 H2]. split; [intros Hn; apply sync_fsal; auto|]. now rewrite weights_sync. Qed.
Lemma sound_new n d : sound n (new_tableau n d).
Proof. split; [apply new_fsal|destruct n; reflexivity]. Qed.
Lemma sound_used n ds : forall T, sound n T -> sound n (fold_left (fun T d => sync d T) ds T).
Proof. induction ds as [|d ds IH]; intros T H; cbn [fold_left]; auto. apply IH. now apply sound_sync. Qed.

(** excess over 1 of the sum of the weights *)
Definition excess (n : tabled) (T : qtableau) : Q := Qred (qsum (weights n T) - 1).
Lemma excess_R n T : Q2R (qsum (weights n T)) - 1 = Q2R (excess n T).
Proof. unfold excess. rewrite (Qeq_eqR _ _ (Qred_correct _)), Q2R_minus, RMicromega.Q2R_1. reflexivity. Qed.

Lemma excess_named n : Q2R (excess n (sync Double (new_tableau n Double))) =
  match n with Rk4 => - / 2 ^ 54 | Dopri5 => - / 2 ^ 56 | Tsit5 => - 149 / 2 ^ 59 end.
Proof.
  assert (E : excess n (sync Double (new_tableau n Double)) =
    match n with Rk4 => -1 # 18014398509481984 | Dopri5 => -1 # 72057594037927936 | Tsit5 => -149 # 576460752303423488 end)
    by (destruct n; vm_compute; reflexivity).
  rewrite E. destruct n; unfold Q2R; cbn [Qnum Qden]; lra.
Qed.
Lemma excess_problem n : Q2R (excess n (sync Double (new_tableau n default_dtype))) =
  match n with Rk4 => / 2 ^ 25 | Dopri5 => 3 / 2 ^ 27 | Tsit5 => - 7 / 2 ^ 29 end.
Proof.
  assert (E : excess n (sync Double (new_tableau n default_dtype)) =
    match n with Rk4 => 1 # 33554432 | Dopri5 => 3 # 134217728 | Tsit5 => -7 # 536870912 end)
    by (destruct n; vm_compute; reflexivity).
  rewrite E. destruct n; unfold Q2R; cbn [Qnum Qden]; lra.
Qed.
Lemma excess_half n : Q2R (excess n (sync Double (sync Half (new_tableau n default_dtype)))) =
  match n with Rk4 => - / 2 ^ 12 | Dopri5 => - / 2 ^ 14 | Tsit5 => - 193 / 2 ^ 17 end.
Proof.
  assert (E : excess n (sync Double (sync Half (new_tableau n default_dtype))) =
    match n with Rk4 => -1 # 4096 | Dopri5 => -1 # 16384 | Tsit5 => -193 # 131072 end)
    by (destruct n; vm_compute; reflexivity).
  rewrite E. destruct n; unfold Q2R; cbn [Qnum Qden]; lra.
Qed.

Lemma grid01_separated : separated [0; 1].
Proof.
  apply (spaced_separated _ 2 1); [|lra|].
  - intros t [<-|[<-|[]]]; rewrite Rabs_right; lra.
  - intros i j a b Hij Ha Hb.
    destruct i as [|[|i]]; try (destruct i; discriminate);
    destruct j as [|[|j]]; try lia; try (destruct j; discriminate);
    simpl in *; injection Ha as <-; injection Hb as <-; lra.
Qed.
Lemma object_unit n T atol rtol : sound n T -> 0 < atol -> 0 <= rtol -> exists fuel,
  snd (@odeint ROps fuel (fun _ _ => [1]) [0] (@TTensor ROps [0; 1]) (solver_object ROps n T) atol rtol false false [] None)
    = Ok ([0; 1], [[0]; [1 + (Q2R (qsum (weights n T)) - 1)]]).
Proof.
  intros HT Ha Hr. assert (Hinc : increasing [0; 1]) by (apply increasing_sorted; repeat constructor; lra).
  destruct (object_returns n T [0] [1] 0 1 [] atol rtol HT eq_refl Hinc grid01_separated Ha Hr) as (fuel & sol & E).
  exists fuel. rewrite E. apply f_equal. apply f_equal.
  destruct (object_constant n T fuel [0] [1] 0 [1] atol rtol false None [0; 1] sol HT eq_refl Hinc (le_n 1) E) as [L H].
  destruct sol as [|y0 [|y1 [|]]]; try discriminate.
  destruct (H 0%nat 0 y0 eq_refl eq_refl) as [L0 H0]. destruct (H 1%nat 1 y1 eq_refl eq_refl) as [L1 H1].
  destruct y0 as [|u [|]]; try discriminate. destruct y1 as [|w [|]]; try discriminate.
  specialize (H0 0%nat (le_n 1)). specialize (H1 0%nat (le_n 1)). cbn [nth] in H0, H1.
  f_equal; [f_equal; lra|]. f_equal. f_equal. lra.
Qed.

(** C135, the coefficients: those of a solver built for a dtype are the numbers written in the source, rounded to
    nearest even to double precision (by Python) and then to the dtype (by torch). *)
Lemma C135_rounding_pf :
  forall d q, Q2R (literal d q) = nearest (bits d) (nearest 53 (Q2R q)).
Proof. intros d q. unfold literal, nearest. rewrite round_to_spec, round_to_spec; [reflexivity|lia|destruct d; cbn; lia]. Qed.

(** C135 for odeint called with the name of a solver and double precision data: a constant velocity is integrated
    with relative error below 2^-51, at every time of every grid and for all tolerances. *)
Lemma C135_named_pf :
  forall n, exists delta, Rabs delta <= / 2 ^ 51 /\
  forall fuel x v t0 ts atol rtol all semi times sol,
  length v = length x -> increasing (t0 :: ts) -> (1 <= length ts)%nat ->
  snd (@odeint ROps fuel (fun _ _ => v) x (@TTensor ROps (t0 :: ts)) (named_solver ROps n Double) atol rtol false all [] semi) = Ok (times, sol) ->
  constant_speed delta x v t0 times sol.
Proof.
  intros n. exists (Q2R (excess n (sync Double (new_tableau n Double)))). split.
  - rewrite excess_named. destruct n; rewrite Rabs_left; lra.
  - intros fuel x v t0 ts atol rtol all semi times sol Hv Hinc Hl Hr. rewrite <- excess_R.
    eapply object_constant; eauto. apply sound_sync, sound_new.
Qed.

(** C135, refuted for ODEProblem and NeuralODE: their solver is built before any data is seen, with float32
    coefficients, and only converted later.  In double precision a constant velocity is integrated with a relative
    error of 3e-8, 2e-8, 1e-8 (rk4, dopri5, tsit5), on every grid and for all tolerances. *)
Lemma C135_problem_refuted_pf :
  forall n, let delta := match n with Rk4 => / 2 ^ 25 | Dopri5 => 3 / 2 ^ 27 | Tsit5 => - 7 / 2 ^ 29 end in
  (forall fuel x v t0 ts atol rtol all semi times sol,
   length v = length x -> increasing (t0 :: ts) -> (1 <= length ts)%nat ->
   snd (@odeint ROps fuel (fun _ _ => v) x (@TTensor ROps (t0 :: ts)) (problem_solver ROps n Double) atol rtol false all [] semi) = Ok (times, sol) ->
   constant_speed delta x v t0 times sol) /\
  (forall atol rtol, 0 < atol -> 0 <= rtol -> exists fuel,
   snd (@odeint ROps fuel (fun _ _ => [1]) [0] (@TTensor ROps [0; 1]) (problem_solver ROps n Double) atol rtol false false [] None)
     = Ok ([0; 1], [[0]; [1 + delta]])).
Proof.
  intros n delta.
  assert (Ed : Q2R (qsum (weights n (sync Double (new_tableau n default_dtype)))) - 1 = delta) by (rewrite excess_R; apply excess_problem).
  assert (HT : sound n (sync Double (new_tableau n default_dtype))) by apply sound_sync, sound_new.
  split.
  - intros fuel x v t0 ts atol rtol all semi times sol Hv Hinc Hl Hr. rewrite <- Ed. eapply object_constant; eauto.
  - intros atol rtol Ha Hr. rewrite <- Ed. now apply object_unit.
Qed.

(** C135, what holds for problems: the relative error is below 1e-7; with single precision data the coefficients are
    those odeint uses for the name of the solver. *)
Lemma C135_problem_partial_pf :
  (forall (K : NumOps) n, problem_solver K n Float = named_solver K n Float) /\
  forall n, exists delta, Rabs delta <= 1 / 10 ^ 7 /\
  forall fuel x v t0 ts atol rtol all semi times sol,
  length v = length x -> increasing (t0 :: ts) -> (1 <= length ts)%nat ->
  snd (@odeint ROps fuel (fun _ _ => v) x (@TTensor ROps (t0 :: ts)) (problem_solver ROps n Double) atol rtol false all [] semi) = Ok (times, sol) ->
  constant_speed delta x v t0 times sol.
Proof.
  split; [reflexivity|]. intros n.
  exists (match n with Rk4 => / 2 ^ 25 | Dopri5 => 3 / 2 ^ 27 | Tsit5 => - 7 / 2 ^ 29 end). split.
  - destruct n; [rewrite Rabs_right|rewrite Rabs_right|rewrite Rabs_left]; lra.
  - apply (C135_problem_refuted_pf n).
Qed.

(** ** Reuse *)
Lemma sync_precise n d : d = Float \/ d = Double -> sync d (new_tableau n default_dtype) = new_tableau n default_dtype.
Proof. intros [->| ->]; destruct n; vm_compute; reflexivity. Qed.

(** C136.  Solves with single or double precision data leave no trace in the solver of a problem: later solves use
    the same coefficients as those of a new problem. *)
Lemma C136_precise_partial_pf :
  forall (K : NumOps) n used xd, (forall d, In d used -> d = Float \/ d = Double) ->
  used_solver K n used xd = problem_solver K n xd.
Proof.
  intros K n used xd H. unfold used_solver, problem_solver. f_equal. f_equal.
  induction used as [|d used IH]; [reflexivity|]. cbn [fold_left]. rewrite sync_precise by (apply H; now left).
  apply IH. intros d' Hd. apply H. now right.
Qed.

(** C136, refuted: after one solve with half precision data the solver keeps 11 bit coefficients.  In later double
    precision solves a constant velocity has the relative error 2e-4, 6e-5, 1e-3 (rk4, dopri5, tsit5), on every grid
    and for all tolerances. *)
Lemma C136_half_refuted_pf :
  forall n, let delta := match n with Rk4 => - / 2 ^ 12 | Dopri5 => - / 2 ^ 14 | Tsit5 => - 193 / 2 ^ 17 end in
  (forall fuel x v t0 ts atol rtol all semi times sol,
   length v = length x -> increasing (t0 :: ts) -> (1 <= length ts)%nat ->
   snd (@odeint ROps fuel (fun _ _ => v) x (@TTensor ROps (t0 :: ts)) (used_solver ROps n [Half] Double) atol rtol false all [] semi) = Ok (times, sol) ->
   constant_speed delta x v t0 times sol) /\
  (forall atol rtol, 0 < atol -> 0 <= rtol -> exists fuel,
   snd (@odeint ROps fuel (fun _ _ => [1]) [0] (@TTensor ROps [0; 1]) (used_solver ROps n [Half] Double) atol rtol false false [] None)
     = Ok ([0; 1], [[0]; [1 + delta]])).
Proof.
  intros n delta.
  assert (Ed : Q2R (qsum (weights n (sync Double (sync Half (new_tableau n default_dtype))))) - 1 = delta) by (rewrite excess_R; apply excess_half).
  assert (HT : sound n (sync Double (sync Half (new_tableau n default_dtype)))) by apply sound_sync, sound_sync, sound_new.
  split.
  - intros fuel x v t0 ts atol rtol all semi times sol Hv Hinc Hl Hr. rewrite <- Ed. eapply object_constant; eauto.
  - intros atol rtol Ha Hr. rewrite <- Ed. now apply object_unit.
Qed.

(** A problem used in both precisions; its coefficients are not those of the source. *)
Lemma C136_ex_pf : used_solver ROps Rk4 [Double; Float] Double = problem_solver ROps Rk4 Double /\
  literal Float (1 # 6) = (11184811 # 67108864)%Q.
Proof. split; [apply C136_precise_partial_pf; intros d [<-|[<-|[]]]; auto|vm_compute; reflexivity]. Qed.
