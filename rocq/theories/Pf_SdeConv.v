(** Proofs: pathwise convergence of the SDE solvers for additive noise. *)
From Coq Require Import ZArith QArith Qreals Reals Lra Lia String List Bool.
From Verif Require Import Num Py Tensor M_SolversOde M_Odeint M_Sde Spec_Ode Spec_Sde Spec_Conv.
From Verif Require Import L_Base L_Fixed L_Fixed2 L_Vec L_Jagged L_Conv L_MS L_Sde L_Models Pf_Sde.
Import ListNotations.
Local Open Scope R_scope.
Notation length := List.length.

(** with a constant diffusion every scheme is Euler-Maruyama *)
Lemma additive_scheme n name f g bm S sigma s t x y : scheme_of name f g bm = Some S ->
  (forall t x, length x = n -> g t x = sigma) -> length x = n -> s < t -> S s t x y ->
  length y = n /\ forall i, (i < n)%nat -> comp y i = comp x i + comp (f s x) i * (t - s) + comp sigma i * comp (bm s t) i.
Proof.
  unfold scheme_of. intros HS Hg Hx Hst HSy.
  destruct (name =? "euler")%string; [injection HS as <-|].
  { destruct HSy as [L E]. rewrite Hx in *. split; auto. intros i Hi. rewrite E, Hg; auto. }
  destruct (name =? "eulerHeun")%string; [injection HS as <-|].
  { destruct HSy as (L & p & Lp & _ & E). rewrite Hx in *. split; auto. intros i Hi. rewrite E, !Hg; auto. field. }
  assert (M : forall c, milstein f g bm c s t x y ->
    length y = n /\ forall i, (i < n)%nat -> comp y i = comp x i + comp (f s x) i * (t - s) + comp sigma i * comp (bm s t) i).
  { intros c (L & p & Lp & _ & E). rewrite Hx in *. split; auto. intros i Hi. rewrite E, !Hg; auto. unfold Rdiv. ring. }
  destruct (name =? "milstein_ito")%string; [injection HS as <-; eapply M; eauto|].
  destruct (name =? "milstein_stratonovich")%string; [injection HS as <-; eapply M; eauto|discriminate].
Qed.

Section Path.
Variables (n : nat) (f : R -> list R -> list R) (sigma : list R) (W X : R -> list R) (a T L w H : R).
Hypotheses (HL : 0 <= L) (Hw : 0 <= w) (Hlip : lipschitz n L f) (HX : additive_solution n a T f sigma W X)
  (Hmod : forall s t, a <= s <= T -> a <= t <= T -> Rabs (s - t) <= H -> near n w (f s (X s)) (f t (X t))).

Lemma path_step s t x y e : a <= s -> s < t -> t <= T -> t - s <= H -> length x = n -> 0 <= e ->
  near n e x (X s) ->
  (forall i, (i < n)%nat -> comp y i = comp x i + comp (f s x) i * (t - s) + comp sigma i * (comp (W t) i - comp (W s) i)) ->
  near n (exp (L * (t - s)) * (e + (t - s) * w)) y (X t).
Proof.
  intros Has Hst HtT HtH Hx He Hn Hy i Hi. destruct HX as [HXl HXd].
  change (Rabs (comp y i - comp (X t) i) <= exp (L * (t - s)) * (e + (t - s) * w)). rewrite Hy by auto.
  destruct (MVT_cor2 (fun s => comp (X s) i - comp sigma i * comp (W s) i) (fun t => comp (f t (X t)) i) s t Hst) as (c & E & Hc).
  { intros c Hc. apply HXd; auto. lra. }
  assert (N1 : Rabs (comp (f s (X s)) i - comp (f c (X c)) i) <= w) by (apply Hmod; auto; try lra; rewrite Rabs_left; lra).
  assert (N2 : Rabs (comp (f s x) i - comp (f s (X s)) i) <= L * e) by (apply (Hlip s x (X s) e); auto).
  specialize (Hn i Hi). fold (comp x i) in Hn. fold (comp (X s) i) in Hn.
  replace (comp x i + comp (f s x) i * (t - s) + comp sigma i * (comp (W t) i - comp (W s) i) - comp (X t) i)
    with ((comp x i - comp (X s) i) + (comp (f s x) i - comp (f s (X s)) i) * (t - s) + (comp (f s (X s)) i - comp (f c (X c)) i) * (t - s)) by lra.
  eapply Rle_trans; [apply Rabs_triang|]. rewrite Rabs_mult, (Rabs_right (t - s)) by lra.
  assert (Rabs (comp (f s (X s)) i - comp (f c (X c)) i) * (t - s) <= w * (t - s)) by (apply Rmult_le_compat_r; lra).
  assert (Rabs (comp x i - comp (X s) i + (comp (f s x) i - comp (f s (X s)) i) * (t - s)) <= e + L * e * (t - s)).
  { eapply Rle_trans; [apply Rabs_triang|]. rewrite Rabs_mult, (Rabs_right (t - s)) by lra. apply Rplus_le_compat; auto. apply Rmult_le_compat_r; lra. }
  pose proof (exp_ineq1_le (L * (t - s))) as Hexp. assert (0 <= L * (t - s)) by (apply Rmult_le_pos; lra).
  assert ((1 + L * (t - s)) * e <= exp (L * (t - s)) * e) by (apply Rmult_le_compat_r; lra).
  assert (0 <= (t - s) * w) by (apply Rmult_le_pos; lra).
  assert (1 * ((t - s) * w) <= exp (L * (t - s)) * ((t - s) * w)) by (apply Rmult_le_compat_r; lra). lra.
Qed.
End Path.

(** C110.  Additive noise: for every path W and every solution X of dX = f(t, X) dt + sigma dW along it, every SDE solver
    that is accepted returns states within exp(L (t - t0)) (e0 + (t - t0) w) of X(t), where L is the Lipschitz
    constant of the drift and w its oscillation along X over times at most one step apart. *)
Lemma C110_additive_noise_pf :
  forall n name sde bm s S sigma W X x t0 t1 ts L w H e0,
  sized n sde bm -> length x = n ->
  @sde_str_to_solver ROps name sde bm = Ok s -> scheme_of name (sde_f sde) (sde_g sde) bm = Some S ->
  (forall t x, length x = n -> sde_g sde t x = sigma) ->
  (forall u v i, (i < n)%nat -> comp (bm u v) i = comp (W v) i - comp (W u) i) ->
  let grid := t0 :: t1 :: ts in let T := last (t1 :: ts) t0 in
  increasing grid -> steps_at_most H grid ->
  0 <= L -> 0 <= w -> 0 <= e0 -> lipschitz n L (sde_f sde) -> additive_solution n t0 T (sde_f sde) sigma W X ->
  (forall u v, t0 <= u <= T -> t0 <= v <= T -> Rabs (u - v) <= H -> near n w (sde_f sde u (X u)) (sde_f sde v (X v))) ->
  near n e0 x (X t0) ->
  exists xs, @sdeint ROps sde x grid name bm [] = Ok (grid, xs) /\ length xs = length grid /\
    forall i t y, nth_error grid i = Some t -> nth_error xs i = Some y ->
      near n (exp (L * (t - t0)) * (e0 + (t - t0) * w)) y (X t).
Proof.
  intros n name sde bm s S sigma W X x t0 t1 ts L w H e0 Hsz Hx Hs HS Hg HW grid T Hinc Hst HL Hw He0 Hlip HX Hmod Hx0.
  destruct (C41_sde_trajectory_pf n name sde bm s S x t0 t1 ts Hsz Hx Hs HS) as (xs & E & Hlen & Hfirst & Hfol).
  exists xs. split; [exact E|]. split; [exact Hlen|]. fold grid in Hlen, Hfol.
  assert (Hin : forall i t, nth_error grid i = Some t -> t0 <= t <= T).
  { intros i t Ht. split; [|apply (inc_last t0 t1 ts Hinc); eapply nth_error_In; eauto].
    destruct i; [injection Ht as ->; lra|]. left. apply (Hinc 0%nat (Datatypes.S i) t0 t); [lia|reflexivity|exact Ht]. }
  assert (G : forall i t y, nth_error grid i = Some t -> nth_error xs i = Some y ->
     length y = n /\ near n (exp (L * (t - t0)) * (e0 + (t - t0) * w)) y (X t)).
  { induction i as [|i IH]; intros t y Ht Hy.
    - injection Ht as <-. pose proof (eq_trans (eq_sym Hfirst) Hy) as E0. injection E0 as <-. split; auto.
      replace (exp (L * (t0 - t0)) * (e0 + (t0 - t0) * w)) with e0; auto. replace (L * (t0 - t0)) with 0 by ring. rewrite exp_0. ring.
    - assert (Hi : (Datatypes.S i < length grid)%nat) by (apply nth_error_Some; congruence).
      destruct (nth_error grid i) as [u|] eqn:Eu; [|apply nth_error_None in Eu; lia].
      destruct (nth_error xs i) as [z|] eqn:Ez; [|exfalso; apply nth_error_None in Ez; revert Ez; apply Nat.lt_nge; refine (eq_ind_r (fun q => (i < q)%nat) _ Hlen); exact (Nat.lt_succ_l _ _ Hi)].
      destruct (IH u z eq_refl eq_refl) as [Lz Nz].
      assert (Hut : u < t) by (apply (Hinc i (Datatypes.S i) u t); auto).
      pose proof (Hin i u Eu) as Hu. pose proof (Hin _ t Ht) as Ht'.
      destruct (additive_scheme n name (sde_f sde) (sde_g sde) bm S sigma u t z y HS Hg Lz Hut (Hfol i u t z y Eu Ht Ez Hy)) as [Ly Ey].
      split; auto. set (e := exp (L * (u - t0)) * (e0 + (u - t0) * w)) in *.
      assert (Pe : 0 <= (u - t0) * w) by (apply Rmult_le_pos; lra).
      assert (He : 0 <= e) by (unfold e; apply Rmult_le_pos; [left; apply exp_pos|lra]).
      pose proof (path_step n (sde_f sde) sigma W X t0 T L w H HL Hw Hlip HX Hmod u t z y e (proj1 Hu) Hut (proj2 Ht') (Hst i u t Eu Ht) Lz He Nz) as P.
      assert (Hyc : forall i, (i < n)%nat -> comp y i = comp z i + comp (sde_f sde u z) i * (t - u) + comp sigma i * (comp (W t) i - comp (W u) i)).
      { intros j Hj. rewrite Ey by auto. rewrite HW by auto. reflexivity. }
      intros j Hj. eapply Rle_trans; [apply (P Hyc j Hj)|].
      replace (exp (L * (t - t0))) with (exp (L * (t - u)) * exp (L * (u - t0))) by (rewrite <- exp_plus; f_equal; ring).
      rewrite Rmult_assoc. apply Rmult_le_compat_l; [left; apply exp_pos|].
      replace (exp (L * (u - t0)) * (e0 + (t - t0) * w)) with (e + exp (L * (u - t0)) * ((t - u) * w)) by (unfold e; ring).
      apply Rplus_le_compat_l. assert (0 <= (t - u) * w) by (apply Rmult_le_pos; lra).
      assert (0 <= L * (u - t0)) by (apply Rmult_le_pos; lra).
      pose proof (exp_ineq1_le (L * (u - t0))).
      assert (1 * ((t - u) * w) <= exp (L * (u - t0)) * ((t - u) * w)) by (apply Rmult_le_compat_r; lra). lra. }
  intros i t y Ht Hy. apply (G i t y Ht Hy).
Qed.

(** C110, the oscillation in terms of the modulus of the path: if the drift is bounded by F along X, Lipschitz in time
    with constant M, and the path moves by at most om over times at most H apart, then
    w = M H + L (F H + |sigma| om) works; it tends to 0 with H for continuous paths. *)
Lemma C110_oscillation_pf :
  forall n f sigma W X a T L M F sg om H,
  0 <= L -> 0 <= M -> 0 <= F -> 0 <= H -> lipschitz n L f ->
  (forall s t x, length x = n -> near n (M * Rabs (s - t)) (f s x) (f t x)) ->
  additive_solution n a T f sigma W X -> 
  (forall t i, a <= t <= T -> (i < n)%nat -> Rabs (comp (f t (X t)) i) <= F) ->
  (forall i, (i < n)%nat -> Rabs (comp sigma i) <= sg) ->
  (forall s t i, a <= s <= T -> a <= t <= T -> Rabs (s - t) <= H -> (i < n)%nat -> Rabs (comp (W s) i - comp (W t) i) <= om) ->
  forall s t, a <= s <= T -> a <= t <= T -> Rabs (s - t) <= H ->
    near n (M * H + L * (F * H + sg * om)) (f s (X s)) (f t (X t)).
Proof.
  intros n f sigma W X a T L M F sg om H HL HM HF HH Hlip Htime [HXl HXd] HFb Hsg HW s t Hs Ht Hst.
  assert (NX : near n (F * H + sg * om) (X s) (X t)).
  { intros i Hi. set (Z := fun s => comp (X s) i - comp sigma i * comp (W s) i).
    assert (HZ : Rabs (Z s - Z t) <= F * H).
    { destruct (Rtotal_order s t) as [Hlt|[->|Hlt]].
      - destruct (MVT_cor2 Z (fun t => comp (f t (X t)) i) s t Hlt) as (c & E & Hc); [intros c Hc; apply HXd; auto; lra|].
        rewrite <- Rabs_Ropp, Ropp_minus_distr, E, Rabs_mult. rewrite (Rabs_minus_sym t s). apply Rmult_le_compat; auto using Rabs_pos. apply HFb; auto; lra.
      - rewrite Rminus_diag_eq, Rabs_R0 by reflexivity. apply Rmult_le_pos; auto.
      - destruct (MVT_cor2 Z (fun t => comp (f t (X t)) i) t s Hlt) as (c & E & Hc); [intros c Hc; apply HXd; auto; lra|].
        rewrite E, Rabs_mult. apply Rmult_le_compat; auto using Rabs_pos. apply HFb; auto; lra. }
    change (Rabs (comp (X s) i - comp (X t) i) <= F * H + sg * om).
    replace (comp (X s) i - comp (X t) i) with ((Z s - Z t) + comp sigma i * (comp (W s) i - comp (W t) i)) by (unfold Z; ring).
    eapply Rle_trans; [apply Rabs_triang|]. apply Rplus_le_compat; auto. rewrite Rabs_mult. apply Rmult_le_compat; auto using Rabs_pos. }
  intros i Hi. replace (nth i (f s (X s)) 0 - nth i (f t (X t)) 0)
    with ((nth i (f s (X s)) 0 - nth i (f t (X s)) 0) + (nth i (f t (X s)) 0 - nth i (f t (X t)) 0)) by ring.
  eapply Rle_trans; [apply Rabs_triang|]. apply Rplus_le_compat.
  - eapply Rle_trans; [apply (Htime s t (X s) (HXl s) i Hi)|]. apply Rmult_le_compat_l; auto.
  - apply (Hlip t (X s) (X t) _ (HXl s) (HXl t) NX i Hi).
Qed.

(** C110: dX = dt + 2 dW along the path W(t) = |t - 1|, which is not differentiable; X(t) = t + 2 |t - 1|, w = 0 *)
Lemma C110_ex_pf :
  let W := fun t => [Rabs (t - 1)] in
  let bm := fun s t => [Rabs (t - 1) - Rabs (s - 1)] in
  let sde := @MkSde ROps (fun _ _ => [1]) (fun _ _ => [2]) (Some "additive"%string) (Some "ito"%string) in
  let X := fun t => [t + 2 * Rabs (t - 1)] in
  sized 1 sde bm /\ (exists s, @sde_str_to_solver ROps "euler" sde bm = Ok s) /\
  (exists S, scheme_of "euler" (sde_f sde) (sde_g sde) bm = Some S) /\
  (forall u v i, (i < 1)%nat -> comp (bm u v) i = comp (W v) i - comp (W u) i) /\
  additive_solution 1 0 2 (sde_f sde) [2] W X /\ lipschitz 1 1 (sde_f sde) /\
  (forall u v, near 1 0 (sde_f sde u (X u)) (sde_f sde v (X v))).
Proof.
  cbv zeta. split; [repeat split; intros; reflexivity|]. split; [eexists; reflexivity|]. split; [eexists; reflexivity|].
  split; [intros u v i Hi; assert (i = 0)%nat by lia; subst; reflexivity|].
  split; [split; [reflexivity|]|split].
  - intros i t Hi Ht. assert (i = 0)%nat by lia; subst i. unfold comp. cbn [nth sde_f].
    apply (derivable_pt_lim_ext' id); [|apply derivable_pt_lim_id]. intros s. unfold id. ring.
  - intros t x y D Hx Hy Hn i Hi. assert (i = 0)%nat by lia; subst i. cbn. rewrite Rminus_diag_eq, Rabs_R0 by reflexivity.
    specialize (Hn 0%nat Hi). pose proof (Rabs_pos (nth 0 x 0 - nth 0 y 0)). lra.
  - intros u v i Hi. assert (i = 0)%nat by lia; subst i. cbn. rewrite Rminus_diag_eq, Rabs_R0 by reflexivity. lra.
Qed.
