(** Proofs: integral losses propagated in the state. *)
From Coq Require Import ZArith QArith Qreals Reals Lra Lia String List Bool.
From Verif Require Import Num Py Tensor M_Constants M_SolversOde M_Utils M_Interp M_Odeint M_Core.
From Verif Require Import Spec_Ode Spec_Trees Spec_RK Spec_Norm Spec_Adaptive Spec_Inv Spec_Core Spec_Loss.
From Verif Require Import L_Base L_Fixed L_Vec L_Steps L_Tables L_Steps2 L_Utils L_Fixed2 L_Adaptive.
From Verif Require Import L_Adaptive2 L_Adaptive3 Pf_Fixed Pf_Adaptive L_Reach L_Inv Pf_Inv Pf_Core.
Import ListNotations.
Local Notation length := List.length.
Local Open Scope R_scope.

(** ** Batches *)
Lemma skip_skip (y : list R) : forall m j, skipn j (skipn m y) = skipn (m + j) y.
Proof. induction y as [|u y IH]; intros [|m] j; cbn; auto; now destruct j. Qed.
Lemma sample_S d i (y : list R) : sample d (S i) y = sample d i (skipn d y).
Proof. unfold sample. now rewrite skip_skip. Qed.
Lemma batch_rows_S d k y : batch_rows d (S k) y = firstn d y :: batch_rows d k (skipn d y).
Proof.
  unfold batch_rows. cbn [seq map]. f_equal. rewrite <- seq_shift, map_map. apply map_ext. intros i. apply sample_S.
Qed.
Lemma nth_skip (y : list R) : forall m j, nth j (skipn m y) 0 = nth (m + j) y 0.
Proof. induction y as [|u y IH]; intros [|m] j; auto; destruct j; cbn; auto; try apply (IH m 0%nat); apply (IH m (S j)). Qed.
Lemma losses_S d k y : losses d (S k) y = nth 0 y 0 :: losses d k (skipn (S d) y).
Proof.
  unfold losses. cbn [seq map]. f_equal. rewrite <- seq_shift, map_map. apply map_ext. intros i. now rewrite nth_skip.
Qed.
Lemma states_S d k y : states d (S k) y = tl (firstn (S d) y) ++ states d k (skipn (S d) y).
Proof.
  unfold states. cbn [seq flat_map]. f_equal. rewrite <- seq_shift, !flat_map_concat_map, map_map. f_equal.
  apply map_ext. intros i. now rewrite sample_S.
Qed.
Lemma losses_len d k y : length (losses d k y) = k.
Proof. unfold losses. now rewrite map_length, seq_length. Qed.
Lemma nth_losses d k y i : (i < k)%nat -> nth i (losses d k y) 0 = nth (i * S d) y 0.
Proof.
  revert y i. induction k as [|k IH]; intros y i Hi; [lia|]. rewrite losses_S. destruct i as [|i]; [reflexivity|].
  cbn [nth]. rewrite IH by lia. now rewrite nth_skip.
Qed.
Lemma states_len d k : forall y, length y = (k * S d)%nat -> length (states d k y) = (k * d)%nat.
Proof.
  induction k as [|k IH]; intros y Hy; [reflexivity|]. rewrite states_S, app_length, IH by (rewrite skipn_length; lia).
  destruct y as [|u y]; [discriminate|]. cbn [firstn tl]. rewrite firstn_length. cbn [length] in Hy. lia.
Qed.
Lemma axpy_app a k k' x x' : length k = length x -> axpy a (k ++ k') (x ++ x') = axpy a k x ++ axpy a k' x'.
Proof. revert k. induction x as [|u x IH]; intros [|v k] H; try discriminate; auto. unfold axpy in *. cbn. f_equal. apply IH. now injection H. Qed.
Lemma axpy_skipn a m : forall k x : list R, skipn m (axpy a k x) = axpy a (skipn m k) (skipn m x).
Proof.
  unfold axpy. induction m as [|m IH]; intros k x; auto. destruct x as [|u x], k as [|v k]; cbn; auto.
  now destruct (skipn m x).
Qed.
Lemma axpy_firstn a m : forall k x : list R, firstn m (axpy a k x) = axpy a (firstn m k) (firstn m x).
Proof. unfold axpy. induction m as [|m IH]; intros k x; auto. destruct x as [|u x], k as [|v k]; cbn; auto. f_equal. apply IH. Qed.
Lemma axpy_tl a (k x : list R) : length k = length x -> tl (axpy a k x) = axpy a (tl k) (tl x).
Proof. destruct k, x; try discriminate; reflexivity. Qed.
Lemma states_axpy d a k : forall u y, length u = (k * S d)%nat -> length y = (k * S d)%nat ->
  states d k (axpy a u y) = axpy a (states d k u) (states d k y).
Proof.
  induction k as [|k IH]; intros u y Hu Hy; [reflexivity|]. rewrite !states_S, axpy_firstn, axpy_skipn, axpy_tl by (rewrite !firstn_length; lia).
  rewrite IH by (rewrite skipn_length; lia). symmetry. apply axpy_app.
  destruct u as [|u0 u], y as [|y0 y]; try discriminate. cbn [firstn tl length] in *. rewrite !firstn_length. lia.
Qed.

(** ** One step *)
Lemma stages_points rows g t h x : erk_stages rows g t h x = map (fun p => g (fst p) (snd p)) (stage_points rows g t h x).
Proof.
  unfold erk_stages, stage_points.
  assert (G : forall rows acc,
    fold_left (fun ks r => ks ++ [g (t + fst r * h) (comb x h (snd r) ks)]) rows (map (fun p : R * list R => g (fst p) (snd p)) acc) =
    map (fun p => g (fst p) (snd p)) (fold_left (fun ps r => ps ++ [(t + fst r * h, comb x h (snd r) (map (fun p => g (fst p) (snd p)) ps))]) rows acc)).
  { clear rows. induction rows as [|r rows IH]; intros acc; cbn [fold_left]; auto. rewrite <- IH, map_app. reflexivity. }
  apply (G rows []).
Qed.
Lemma wsum_inner i : forall w (ks : list (list R)), wsum i w ks = inner w (map (fun k => nth i k 0) ks).
Proof. induction w as [|a w IH]; intros [|k ks]; cbn; auto. now rewrite IH. Qed.

Section Step.
Variables (d k : nat) (l g F : R -> list R -> list R).
Hypothesis HA : augmented d k l g F.
Let n := (k * S d)%nat.
Let Hg : field_on (k * d) g := proj1 HA.
Let HF : field_on n F := proj1 (proj2 HA).
Let HL : forall t y, length y = n -> losses d k (F t y) = l t (states d k y) /\ states d k (F t y) = g t (states d k y) := proj2 (proj2 HA).

Lemma points_states rows t h y : length y = n ->
  stage_points rows g t h (states d k y) = map (fun p => (fst p, states d k (snd p))) (stage_points rows F t h y) /\
  (forall p, In p (stage_points rows F t h y) -> length (snd p) = n).
Proof.
  intros Hy. unfold stage_points.
  assert (G : forall rows acc, (forall p, In p acc -> length (snd p) = n) ->
    fold_left (fun ps r => ps ++ [(t + fst r * h, comb (states d k y) h (snd r) (map (fun p : R * list R => g (fst p) (snd p)) ps))]) rows
      (map (fun p : R * list R => (fst p, states d k (snd p))) acc) =
    map (fun p => (fst p, states d k (snd p)))
      (fold_left (fun ps r => ps ++ [(t + fst r * h, comb y h (snd r) (map (fun p => F (fst p) (snd p)) ps))]) rows acc) /\
    (forall p, In p (fold_left (fun ps r => ps ++ [(t + fst r * h, comb y h (snd r) (map (fun p => F (fst p) (snd p)) ps))]) rows acc) -> length (snd p) = n)).
  { clear rows. induction rows as [|r rows IH]; intros acc Ha; cbn [fold_left]; auto.
    assert (LK : forall q, In q (map (fun p : R * list R => F (fst p) (snd p)) acc) -> length q = n).
    { intros q Hq. apply in_map_iff in Hq. destruct Hq as (p & <- & Hp). apply HF, Ha, Hp. }
    destruct (IH (acc ++ [(t + fst r * h, comb y h (snd r) (map (fun p => F (fst p) (snd p)) acc))])) as [I1 I2].
    { intros p Hp. apply in_app_or in Hp. destruct Hp as [Hp|[<-|[]]]; auto. cbn [snd]. now apply comb_len. }
    split; [|exact I2]. rewrite <- I1, map_app. f_equal. f_equal. cbn [map fst snd]. f_equal. f_equal.
    rewrite (comb_map n (states d k) (states d k)) by (auto; intros; now apply states_axpy).
    f_equal. rewrite !map_map. apply map_ext_in. intros p Hp. cbn [fst snd]. symmetry. now apply HL, Ha. }
  apply (G rows []). intros p [].
Qed.

Lemma step_states rows b t h y : length y = n ->
  states d k (erk_step rows b F t h y) = erk_step rows b g t h (states d k y) /\
  forall i, (i < k)%nat -> nth i (losses d k (erk_step rows b F t h y)) 0 =
    nth i (losses d k y) 0 + h * inner b (map (fun p => nth i (l (fst p) (snd p)) 0) (stage_points rows g t h (states d k y))).
Proof.
  intros Hy. destruct (points_states rows t h y Hy) as [E HP].
  assert (LK : forall q, In q (map (fun p : R * list R => F (fst p) (snd p)) (stage_points rows F t h y)) -> length q = n).
  { intros q Hq. apply in_map_iff in Hq. destruct Hq as (p & <- & Hp). apply HF, HP, Hp. }
  unfold erk_step. rewrite !stages_points. split.
  - rewrite (comb_map n (states d k) (states d k)) by (auto; intros; now apply states_axpy).
    f_equal. rewrite E, !map_map. apply map_ext_in. intros p Hp. cbn [fst snd]. now apply HL, HP.
  - intros i Hi. rewrite !nth_losses by auto.
    rewrite (L_Steps2.nth_comb n) by (auto; unfold n; nia). rewrite wsum_inner. do 3 f_equal. rewrite E, !map_map.
    apply map_ext_in. intros p Hp. cbn [fst snd]. destruct (HL (fst p) (snd p) (HP p Hp)) as [H _].
    rewrite <- H. now rewrite nth_losses.
Qed.

Lemma reached_quadrature rows b t0 y0 t y : length y0 = n -> reached rows b F t0 y0 t y ->
  quadrature rows b l g t0 (states d k y0) (losses d k y0) t (states d k y) (losses d k y).
Proof.
  intros H0. induction 1 as [|t h y H IH]; [constructor|].
  assert (Hy : length y = n) by (eapply reached_len; eauto).
  destruct (step_states rows b t h y Hy) as [E1 E2]. rewrite E1.
  eapply quad_step; eauto; [now rewrite !losses_len|]. intros i Hi. rewrite losses_len in Hi. now apply E2.
Qed.
End Step.

(** C137.  A solve with the loss in the first column of the state, with any built-in solver without dense output, all
    grids and tolerances: the other columns are states of the solver for the field alone, and the first one holds the
    sums of the solver's quadrature formula for the loss along exactly these steps. *)
Lemma C137_quadrature_pf :
  forall fuel s rows b d k l g F y0 t0 ts atol rtol all semi times sol,
  builtin_method s rows b -> augmented d k l g F -> length y0 = (k * S d)%nat -> increasing (t0 :: ts) -> (1 <= length ts)%nat ->
  snd (@odeint ROps fuel F y0 (@TTensor ROps (t0 :: ts)) s atol rtol false all [] semi) = Ok (times, sol) ->
  length sol = length times /\
  forall i t y, nth_error times i = Some t -> nth_error sol i = Some y ->
    quadrature rows b l g t0 (states d k y0) (losses d k y0) t (states d k y) (losses d k y).
Proof.
  intros fuel s rows b d k l g F y0 t0 ts atol rtol all semi times sol HM HA Hy0 Hinc Hl Hr.
  destruct (odeint_output_inc fuel s rows b _ F y0 t0 ts atol rtol false all semi times sol HM (proj1 (proj2 HA)) Hy0 Hinc Hl Hr) as [L1 L2].
  split; [exact L1|]. intros i t y Ht Hy. destruct (L2 i t y Ht Hy) as [H|(_ & E & _)]; [|discriminate].
  eapply reached_quadrature; eauto.
Qed.

(** C137.  With a fixed-step solver the loss does not change the states: they are what the solve without loss returns
    (same times, same exceptions). *)
Lemma C137_same_states_pf :
  forall fuel s rows b d k l g F y0 t0 t1 ts atol rtol interp all save_at semi,
  erk_solver s rows b -> augmented d k l g F -> length y0 = (k * S d)%nat ->
  snd (@odeint ROps fuel g (states d k y0) (@TTensor ROps (t0 :: t1 :: ts)) s atol rtol interp all save_at semi) =
  rmap (fun r => (fst r, map (states d k) (snd r)))
    (snd (@odeint ROps fuel F y0 (@TTensor ROps (t0 :: t1 :: ts)) s atol rtol interp all save_at semi)).
Proof.
  intros fuel s rows b d k l g F y0 t0 t1 ts atol rtol interp all save_at semi Hs (Hg & HF & HL) Hy0.
  apply (odeint_fixed_map fuel s rows b (k * S d) (k * d) F g (states d k) (states d k)); auto.
  - now apply states_len.
  - intros a u y Hu Hy. now apply states_axpy.
  - intros t y Hy. symmetry. now apply HL.
Qed.

(** C137.  A constant loss v adds exactly v (t - t0) (tsit5: within a relative error of 1e-80). *)
Lemma inner_const b v m : (length b <= m)%nat -> inner b (repeat v m) = fold_right Rplus 0 b * v.
Proof.
  revert m. induction b as [|a b IH]; intros m Hm; cbn [inner fold_right]; [ring|]. destruct m as [|m]; cbn [length] in Hm; [lia|].
  cbn [repeat]. rewrite IH by lia. ring.
Qed.
Lemma points_times rows g t h x : map fst (stage_points rows g t h x) = map (fun r => t + fst r * h) rows.
Proof.
  unfold stage_points.
  assert (G : forall rows acc, map fst (fold_left (fun ps r => ps ++ [(t + fst r * h, comb x h (snd r) (map (fun p => g (fst p) (snd p)) ps))]) rows acc)
    = map fst acc ++ map (fun r : R * list R => t + fst r * h) rows).
  { clear rows. induction rows as [|r rows IH]; intros acc; cbn [fold_left map]; [now rewrite app_nil_r|]. rewrite IH, map_app, <- app_assoc. reflexivity. }
  apply (G rows []).
Qed.
Lemma points_len rows g t h x : length (stage_points rows g t h x) = length rows.
Proof. rewrite <- (map_length fst), points_times. apply map_length. Qed.
Lemma C137_constant_pf :
  forall s rows b, builtin_method s rows b ->
  exists beta, Rabs (beta - 1) <= 1 / 10 ^ 80 /\ (s <> Tsitouras45 ROps -> beta = 1) /\
  forall l g t0 x a t y c i v, quadrature rows b l g t0 x a t y c -> (i < length a)%nat -> (forall t y, nth i (l t y) 0 = v) ->
  nth i c 0 = nth i a 0 + beta * v * (t - t0).
Proof.
  intros s rows b HM. destruct (sum_weights s rows b HM) as (beta & Eb & H1 & H2 & HL).
  exists beta. split; auto. split; auto. intros l g t0 x a t y c i v H Hi Hv.
  assert (G : length c = length a /\ nth i c 0 = nth i a 0 + beta * v * (t - t0)); [|apply G].
  induction H as [|t h y c c' H [IH1 IH2] Hc Hq]; [split; [reflexivity|ring]|]. split; [congruence|].
  rewrite Hq by lia. rewrite IH2.
  rewrite (map_ext (fun p : R * list R => nth i (l (fst p) (snd p)) 0) (fun _ => v)) by (intros; apply Hv).
  assert (E : forall m : list (R * list R), map (fun _ => v) m = repeat v (length m)) by (induction m; cbn; congruence).
  rewrite E, points_len, inner_const by exact HL. rewrite <- Eb. ring.
Qed.

(** ** NeuralODE *)
Lemma batch_split d k : forall y, length y = (k * S d)%nat ->
  batch_rows (S d) k y = map (fun q => fst q :: snd q) (combine (losses d k y) (batch_rows d k (states d k y))).
Proof.
  induction k as [|k IH]; intros y Hy; [reflexivity|]. rewrite losses_S, states_S, !batch_rows_S.
  destruct y as [|u y]; [discriminate|]. cbn [length] in Hy.
  change (skipn (S d) (u :: y)) with (skipn d y). cbn [firstn tl nth combine map fst snd].
  assert (E : length (firstn d y) = d) by (rewrite firstn_length; lia).
  rewrite firstn_app, skipn_app, E, Nat.sub_diag. cbn [firstn skipn]. rewrite app_nil_r.
  rewrite (firstn_all2 (firstn d y)) by lia. rewrite (skipn_all2 (firstn d y)) by lia. cbn [app].
  f_equal. apply IH. rewrite skipn_length. lia.
Qed.
Lemma concat_split d : forall k l X, length l = k -> shaped d k X ->
  let y := concat (map (fun q : R * list R => fst q :: snd q) (combine l X)) in
  length y = (k * S d)%nat /\ losses d k y = l /\ states d k y = concat X.
Proof.
  induction k as [|k IH]; intros l X Hl [HX HF].
  - destruct l, X; try discriminate. split; [|split]; reflexivity.
  - destruct l as [|u l], X as [|r X]; try discriminate. cbn [combine map concat fst snd].
    inversion HF as [|? ? Hr HF' E1]; subst. injection Hl as Hl. injection HX as HX.
    destruct (IH l X Hl (conj HX HF')) as (I1 & I2 & I3). cbv zeta. rewrite losses_S, states_S.
    set (z := concat _) in *. cbn [app]. change (skipn (S (length r)) (u :: r ++ z)) with (skipn (length r) (r ++ z)).
    cbn [firstn tl nth]. rewrite firstn_app, skipn_app, Nat.sub_diag, firstn_all, skipn_all. cbn [firstn skipn app]. rewrite app_nil_r.
    split; [|split]; [|now f_equal|now f_equal]. cbn [length]. rewrite app_length, I1. lia.
Qed.
Lemma shaped_batch d k : forall y, length y = (k * d)%nat -> shaped d k (batch_rows d k y).
Proof.
  induction k as [|k IH]; intros y Hy; [split; [reflexivity|constructor]|]. rewrite batch_rows_S.
  destruct (IH (skipn d y)) as [I1 I2]; [rewrite skipn_length; lia|]. split; [cbn; congruence|].
  constructor; auto. rewrite firstn_length. lia.
Qed.
Lemma shaped_concat d k : forall X, shaped d k X -> length (concat X) = (k * d)%nat.
Proof.
  induction k as [|k IH]; intros X [H1 H2]; destruct X as [|r X]; try discriminate; [reflexivity|].
  inversion H2; subst. cbn [concat]. rewrite app_length, IH; [lia|]. split; auto.
Qed.

(** C137.  The field of a NeuralODE with an integral loss (order 1, sensitivity 'autograd') is such an augmented field:
    for every vector field of an accepted signature and every loss with one value per sample, a batch of k rows
    (loss, state) is mapped to the rows (loss of the states, field of the states). *)
Lemma C137_neuralode_pf :
  forall (A : Type) (empty : A) (c : @callable ROps A) (il : R -> list (list R) -> @loss_val ROps)
    (G : R -> list (list R) -> list (list R)) (L : R -> list (list R) -> list R) d k,
  (forall t X, shaped d k X -> exists env, @evaluates ROps A empty c t X env /\ @c_body ROps A c (Some t) env = Ok (G t X)) ->
  (forall t X, shaped d k X -> shaped d k (G t X)) ->
  (forall t X, shaped d k X -> il t X = @Loss1 ROps (L t X) /\ length (L t X) = k) ->
  exists v, @neuralode_vf ROps A c 1 (Some il) "autograd" = Ok v /\
    (forall t Y, shaped (S d) k Y -> exists Z, @solver_call ROps A empty v t Y = Ok Z /\ shaped (S d) k Z) /\
    augmented d k (fun t x => L t (batch_rows d k x)) (fun t x => concat (G t (batch_rows d k x)))
      (fun t y => match @solver_call ROps A empty v t (batch_rows (S d) k y) with Ok Z => concat Z | _ => [] end).
Proof.
  intros A empty c il G L d k HG HS HL.
  assert (C : forall t a X, length a = k -> shaped d k X ->
    exists v, @neuralode_vf ROps A c 1 (Some il) "autograd" = Ok v /\
    @solver_call ROps A empty v t (map (fun q => fst q :: snd q) (combine a X)) = Ok (map (fun q => fst q :: snd q) (combine (L t X) (G t X)))).
  { intros t a X Ha HX. destruct (HG t X HX) as (env & He & Hd). destruct (HL t X HX) as [Hl Hll].
    apply (C44_integral_loss_order1_pf ROps A empty c il t a X (L t X) env (G t X)); auto.
    - exact (eq_trans Ha (eq_sym (proj1 HX))).
    - exact (eq_trans Hll (eq_sym (proj1 (HS t X HX)))). }
  assert (Z0 : shaped d k (batch_rows d k (repeat 0 (k * d)))) by (apply shaped_batch, repeat_length).
  destruct (C 0 (repeat 0 k) _ (repeat_length _ _) Z0) as (v & Hv & _). exists v.
  assert (D : forall t a X, length a = k -> shaped d k X ->
    @solver_call ROps A empty v t (map (fun q => fst q :: snd q) (combine a X)) = Ok (map (fun q => fst q :: snd q) (combine (L t X) (G t X)))).
  { intros t a X Ha HX. destruct (C t a X Ha HX) as (v' & Hv' & E). rewrite Hv in Hv'. injection Hv' as <-. exact E. }
  split; [exact Hv|]. split; [|split; [|split]].
  - intros t Y [HY1 HY2].
    assert (EY : Y = map (fun q : R * list R => fst q :: snd q) (combine (map (hd 0) Y) (map (@tl R) Y)) /\ shaped d k (map (@tl R) Y)).
    { clear - HY1 HY2. revert k HY1. induction HY2 as [|r Y Hr HY IH]; intros k Hk.
      - subst k. split; [reflexivity|split; [reflexivity|constructor]].
      - destruct k as [|k]; [discriminate|]. destruct (IH k ltac:(now injection Hk)) as (E & S1 & S2).
        destruct r as [|u r]; [discriminate|]. split; [cbn; now f_equal|]. split; [cbn; now f_equal|]. constructor; [now injection Hr|exact S2]. }
    destruct EY as [EY HX]. eexists. split.
    + refine (eq_trans (f_equal (@solver_call ROps A empty v t) EY) _). apply D; [|exact HX]. rewrite map_length. exact HY1.
    + destruct (HS t _ HX) as [S1 S2]. destruct (HL t _ HX) as [_ S3].
      split; [rewrite map_length, combine_length, S1, S3; lia|].
      apply Forall_forall. intros r Hr. apply in_map_iff in Hr. destruct Hr as ([a q] & <- & Hq).
      apply in_combine_r in Hq. rewrite Forall_forall in S2. cbn. now rewrite (S2 _ Hq).
  - intros t x Hx. apply shaped_concat, HS, shaped_batch, Hx.
  - intros t y Hy. rewrite batch_split by exact Hy.
    assert (HX : shaped d k (batch_rows d k (states d k y))) by (apply shaped_batch, states_len, Hy).
    rewrite D by (auto; apply losses_len). apply concat_split; auto; now apply HL.
  - intros t y Hy. rewrite batch_split by exact Hy.
    assert (HX : shaped d k (batch_rows d k (states d k y))) by (apply shaped_batch, states_len, Hy).
    rewrite D by (auto; apply losses_len).
    destruct (concat_split d k (L t (batch_rows d k (states d k y))) (G t (batch_rows d k (states d k y)))) as (_ & E1 & E2); auto.
    now apply HL.
Qed.

Lemma inner_dotp : forall w v, inner w v = dotp w v.
Proof. induction w as [|a w IH]; intros [|v0 v]; cbn; auto. Qed.
(** C137, refuted for the adaptive solvers: the loss takes part in the error control.  The state 1 of the field 0 with the
    loss 1/t (0 at t <= 0): dopri5 returns on [0; 1] without the loss, and never returns with it. *)
Lemma C137_adaptive_refuted_pf :
  exists l g F ts, augmented 1 1 l g F /\ increasing ts /\
  let solve f x fuel := snd (@odeint ROps fuel f x (@TTensor ROps ts) (DormandPrince45 ROps) (1/1000) (1/1000)
       false false [] None) in
  (exists fuel r, solve g [1] fuel = Ok r) /\ states 1 1 [0; 1] = [1] /\ (forall fuel, solve F [0; 1] fuel = OutOfFuel).
Proof.
  set (l := fun (t : R) (x : list R) => [pole t]). set (g := fun (t : R) (x : list R) => [0]).
  set (F := fun (t : R) (y : list R) => [pole t; 0]). exists l, g, F, [0; 1].
  assert (Hi : increasing [0; 1]) by (apply increasing_sorted; repeat constructor; lra).
  assert (HA : augmented 1 1 l g F) by (split; [|split]; intros t y Hy; [reflexivity|reflexivity|split; reflexivity]).
  split; [exact HA|]. split; [exact Hi|]. cbv zeta. split; [|split; [reflexivity|]].
  - apply (C84_returns_pf _ (to_R_rows q_dopri5) (to_R qb5_dopri5) (to_R qb4_dopri5) 1); auto; try lra; try discriminate.
    { left; auto. }
    intros t x Hx. reflexivity.
  - assert (HF : field_on 2 F) by (intros u z Hz; reflexivity).
    apply (C15_no_step_limit_pf _ (to_R_rows q_dopri5) (to_R qb5_dopri5) (to_R qb4_dopri5) 2); auto.
    { left; auto. }
    intros h Hh _.
    set (B w := h * dotp (to_R w) (map (fun r => pole (0 + fst r * h)) (to_R_rows q_dopri5))).
    assert (Ew : forall w, erk_step (to_R_rows q_dopri5) (to_R w) F 0 h [0; 1] = [B w; 1]).
    { intros w. destruct (step_states 1 1 l g F HA (to_R_rows q_dopri5) (to_R w) 0 h [0; 1] eq_refl) as [E1 E2].
      specialize (E2 0%nat ltac:(lia)). revert E1 E2.
      assert (L2 : length (erk_step (to_R_rows q_dopri5) (to_R w) F 0 h [0; 1]) = 2%nat) by (apply erk_step_len; auto).
      assert (Eg : erk_step (to_R_rows q_dopri5) (to_R w) g 0 h [1] = [1]) by (apply (erk_step_equilibrium 1); auto).
      change (states 1 1 [0; 1]) with [1]. rewrite Eg.
      destruct (erk_step (to_R_rows q_dopri5) (to_R w) F 0 h [0; 1]) as [|u [|v [|]]]; try discriminate L2.
      cbn. intros E1 E2. injection E1 as ->. f_equal. rewrite E2, Rplus_0_l. unfold B. f_equal. }
    rewrite !Ew.
    assert (H0 : forall c, c = 0 -> pole (0 + c * h) = 0).
    { intros c ->. unfold pole. destruct (Rle_dec (0 + 0 * h) 0); auto. exfalso; lra. }
    assert (Hc : forall c, 0 < c -> pole (0 + c * h) = 1 / (c * h)).
    { intros c Hc. unfold pole. pose proof (Rmult_lt_0_compat _ _ Hc Hh).
      destruct (Rle_dec (0 + c * h) 0); [lra|]. f_equal. ring. }
    assert (EB : B qb5_dopri5 = 500 / 1113 * (10 / 3) + 125 / 192 * (5 / 4) + -2187 / 6784 * (9 / 8) + 11 / 84).
    { unfold B. unfold to_R, to_R_rows, q_dopri5, qb5_dopri5. cbn [map fst snd dotp]. qlit.
      rewrite (H0 (0 / 1)) by lra. rewrite !Hc by lra. field. lra. }
    assert (EB4 : B qb4_dopri5 = 22642 / 50085 * (10 / 3) + 451 / 720 * (5 / 4) + -12231 / 42400 * (9 / 8) + 649 / 6300 + 1 / 60).
    { unfold B. unfold to_R, to_R_rows, q_dopri5, qb4_dopri5. cbn [map fst snd dotp]. qlit.
      rewrite (H0 (0 / 1)) by lra. rewrite !Hc by lra. field. lra. }
    set (B5 := B qb5_dopri5) in *. set (B4 := B qb4_dopri5) in *. clearbody B5 B4.
    unfold scaled_error, minus_list. cbn [combine map fst snd].
    rewrite Rabs_R0, Rabs_R1. rewrite (Rabs_right B5) by lra. rewrite (Rmax_right 0 B5) by lra.
    set (e := (B5 - B4) / (1 / 1000 + 1 / 1000 * B5)).
    assert (He : 2 < e * e).
    { assert (Hm : - e >= 17/10).
      { assert (X : - e * (1 / 1000 + 1 / 1000 * B5) = B4 - B5) by (unfold e; field; lra).
        apply Rle_ge. apply (Rmult_le_reg_r (1 / 1000 + 1 / 1000 * B5)); [lra|]. rewrite X. lra. }
      nra. }
    clearbody e. unfold rms. cbn [sum_sq List.length INR].
    replace (1 - 1) with 0 by ring. unfold Rdiv at 2. rewrite Rmult_0_l.
    rewrite <- sqrt_1 at 1. apply sqrt_lt_1; lra.
Qed.

(** Concrete case: the states (x, v) of a batch of two samples, the loss x v and a rotation. *)
Lemma C137_ex_pf :
  let l t y := match y with [a; b; c; d] => [a * b; c * d] | _ => [] end in
  let g t y := match y with [a; b; c; d] => [b; - a; d; - c] | _ => y end in
  let F t y := match y with [_; a; b; _; c; d] => [a * b; b; - a; c * d; d; - c] | _ => y end in
  augmented 2 2 l g F /\ losses 2 2 [0; 1; 2; 0; 3; 4] = [0; 0] /\ states 2 2 [0; 1; 2; 0; 3; 4] = [1; 2; 3; 4].
Proof.
  cbv zeta. split; [|split; reflexivity]. split; [|split].
  - intros t y Hy. destruct y as [|a [|b [|c [|e [|]]]]]; try discriminate Hy; reflexivity.
  - intros t y Hy. destruct y as [|u [|a [|b [|w [|c [|e [|]]]]]]]; try discriminate Hy; reflexivity.
  - intros t y Hy. destruct y as [|u [|a [|b [|w [|c [|e [|]]]]]]]; try discriminate Hy; split; reflexivity.
Qed.
