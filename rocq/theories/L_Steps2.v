(** Step functions: pairs with error estimate, rk4, leapfrog, hypersolvers, interpolation. *)
From Coq Require Import ZArith QArith Qreals Reals Lra Lia List Bool.
From Verif Require Import Num Py Tensor M_Constants M_SolversOde M_Utils M_Interp M_Odeint.
From Verif Require Import Spec_Ode Spec_Trees Spec_RK L_Base L_Fixed L_Vec L_Trees L_Steps L_Tables.
Import ListNotations.
Local Open Scope R_scope.

(** ** Weighted sums pointwise *)
Fixpoint wsum (i : nat) (w : list R) (ks : list rvec) : R :=
  match w, ks with w0 :: w', k :: ks' => w0 * nth i k 0 + wsum i w' ks' | _, _ => 0 end.

Lemma nth_axpy n a k x i : (i < n)%nat -> length k = n -> length x = n ->
  nth i (axpy a k x) 0 = nth i x 0 + a * nth i k 0.
Proof.
  intros Hi Hk Hx. rewrite axpy_vadd. rewrite (nth_vadd n i Hi) by vlen. now rewrite (nth_vscale n i Hi) by vlen.
Qed.

Lemma nth_comb n i x h w ks : (i < n)%nat -> length x = n -> (forall k, In k ks -> length k = n) ->
  nth i (comb x h w ks) 0 = nth i x 0 + h * wsum i w ks.
Proof.
  intros Hi. unfold comb. revert x w; induction ks as [|k ks IH]; intros x [|w0 w] Hx Hk; cbn [combine fold_left wsum]; try lra.
  cbn [fst snd]. rewrite IH.
  - rewrite (nth_axpy n) by (auto; apply Hk; now left). ring.
  - apply axpy_len; auto. apply Hk; now left.
  - intros k' Hk'; apply Hk; now right.
Qed.

Lemma erk_stages_len n rows f t h x : field_on n f -> length x = n ->
  forall k, In k (erk_stages rows f t h x) -> length k = n.
Proof.
  intros Hf Hx. unfold erk_stages.
  assert (G : forall rows acc, (forall k, In k acc -> length k = n) ->
     forall k, In k (fold_left (fun ks r => ks ++ [f (t + fst r * h) (comb x h (snd r) ks)]) rows acc) -> length k = n).
  { clear rows. induction rows as [|r rows IH]; intros acc Ha k Hk; simpl in Hk; auto.
    revert k Hk. apply IH. intros k Hk. apply in_app_or in Hk. destruct Hk as [Hk|[<-|[]]]; auto.
    apply Hf. apply comb_len; auto. }
  apply G. intros k [].
Qed.
Lemma erk_step_len n rows b f t h x : field_on n f -> length x = n ->
  length (erk_step rows b f t h x) = n.
Proof. intros Hf Hx. apply comb_len; auto. now apply erk_stages_len. Qed.

Lemma erk_stages_count rows f t h x : length (erk_stages rows f t h x) = length rows.
Proof.
  unfold erk_stages.
  assert (G : forall rows acc, length (fold_left (fun ks r => ks ++ [f (t + fst r * h) (comb x h (snd r) ks)]) rows acc)
     = (length acc + length rows)%nat).
  { clear. induction rows as [|r rows IH]; intros acc; simpl; [lia|]. rewrite IH, app_length. simpl. lia. }
  rewrite G. reflexivity.
Qed.

(** difference of two weightings *)
Lemma wsum_sub i w w' ks : length w = length w' ->
  wsum i (map (fun p => fst p - snd p) (combine w w')) ks = wsum i w ks - wsum i w' ks.
Proof.
  revert w w'; induction ks as [|k ks IH]; intros [|a w] [|a' w'] H; simpl in *; try discriminate; try lra.
  rewrite IH by lia. ring.
Qed.
Lemma wsum_zero_tail i w ks : wsum i (w ++ [0]) ks = wsum i w ks.
Proof.
  revert ks; induction w as [|a w IH]; intros [|k ks]; cbn [app wsum]; auto.
  - destruct ks; cbn [wsum]; ring.
  - now rewrite IH.
Qed.

(** The error estimate is the difference of the two solutions *)
Lemma err_difference n tab f t h x (b4 : list R) : field_on n f -> length x = n ->
  length b4 = 7%nat ->
  (forall i, (i < 7)%nat -> nth i (e7 tab) 0 = nth i (b7 tab ++ [0]) 0 - nth i b4 0) ->
  comb (@vzeros ROps n) h (e7 tab) (erk_stages (rows7 tab) f t h x) =
  @vsub ROps (erk_step (rows7 tab) (b7 tab) f t h x) (erk_step (rows7 tab) b4 f t h x).
Proof.
  intros Hf Hx Hl He. pose proof (erk_stages_len n (rows7 tab) f t h x Hf Hx) as Hk.
  apply (list_ext n).
  - apply comb_len; auto. apply vzeros_len.
  - apply vsub_len; apply erk_step_len; auto.
  - intros i Hi. rewrite (nth_vsub n i Hi) by (apply erk_step_len; auto).
    unfold erk_step. rewrite !(nth_comb n) by (auto; try apply vzeros_len).
    rewrite nth_vzeros.
    rewrite <- (wsum_zero_tail i (b7 tab)).
    assert (E : e7 tab = map (fun p => fst p - snd p) (combine (b7 tab ++ [0]) b4)).
    { do 7 (destruct b4 as [|? b4]; [discriminate|]). destruct b4; [|discriminate].
      pose proof (He 0%nat ltac:(lia)). pose proof (He 1%nat ltac:(lia)). pose proof (He 2%nat ltac:(lia)).
      pose proof (He 3%nat ltac:(lia)). pose proof (He 4%nat ltac:(lia)). pose proof (He 5%nat ltac:(lia)).
      pose proof (He 6%nat ltac:(lia)).
      unfold e7, b7 in *. cbn [nth app map combine fst snd] in *. congruence. }
    rewrite E, wsum_sub by (rewrite Hl; reflexivity). ring.
Qed.

(** ** dopri5 *)
Lemma dopri5_table : rows7 (construct_dopri5 ROps) = to_R_rows q_dopri5.
Proof. rewrite dopri5_rows. reflexivity. Qed.

Lemma erk_step_zero_tail n rows b f t h x : field_on n f -> length x = n ->
  erk_step rows (b ++ [0]) f t h x = erk_step rows b f t h x.
Proof.
  intros Hf Hx. pose proof (erk_stages_len n rows f t h x Hf Hx) as Hk.
  apply (list_ext n); try (apply erk_step_len; auto).
  intros i Hi. unfold erk_step. rewrite !(nth_comb n) by auto. now rewrite wsum_zero_tail.
Qed.

Lemma dopri5_full n f t h x k1o : field_on n f -> length x = n ->
  (forall k, k1o = Some k -> k = f t x) ->
  let x5 := erk_step (to_R_rows q_dopri5) (to_R qb5_dopri5) f t h x in
  let x4 := erk_step (to_R_rows q_dopri5) (to_R qb4_dopri5) f t h x in
  snd (@dopri5_step ROps f x t h k1o) =
  Ok (Ret4 (f (t + h) x5) x5 (@vsub ROps x5 x4) (erk_stages (to_R_rows q_dopri5) f t h x)).
Proof.
  intros Hf Hx Hk x5 x4. unfold dopri5_step.
  rewrite (erk7_spec _ n f Hf t h x k1o Hx Hk).
  rewrite (dopri5_fsal n f t h x Hf Hx).
  rewrite (err_difference n _ f t h x (to_R qb4_dopri5) Hf Hx eq_refl).
  2: { intros i Hi. rewrite dopri5_e, dopri5_b.
       assert (G : forall (l m : list Q) (p : list R) j, (j < length l)%nat -> length m = length l ->
          (forallb (fun x => Qeq_bool (fst x) (snd x)) (combine l m) = true) -> p = to_R m -> nth j (to_R l) 0 = nth j p 0).
       { clear. intros l m p j Hj Hl Hc ->. unfold to_R.
         rewrite (nth_indep (map Q2R l) 0 (Q2R 0%Q)), map_nth by (rewrite map_length; auto).
         rewrite (nth_indep (map Q2R m) 0 (Q2R 0%Q)), map_nth by (rewrite map_length; lia).
         apply Qreals.Qeq_eqR, Qeq_bool_iff. rewrite forallb_forall in Hc.
         apply (Hc (nth j l 0%Q, nth j m 0%Q)).
         rewrite <- combine_nth by auto. apply nth_In. rewrite combine_length. lia. }
       rewrite (G _ (map (fun p => (fst p - snd p)%Q) (combine qb5_dopri5 qb4_dopri5))
                  (map (fun p => (fst p - snd p)) (combine (to_R qb5_dopri5) (to_R qb4_dopri5))) i); auto.
       - do 7 (destruct i as [|i]; [cbn [map to_R combine nth app qb5_dopri5 qb4_dopri5 fst snd]; try reflexivity; cbn; unfold Q2R; simpl; lra|]). lia.
       - unfold to_R. cbn [map combine qb5_dopri5 qb4_dopri5 fst snd].
         now rewrite !Qreals.Q2R_minus. }
  assert (E : erk_step (rows7 (construct_dopri5 ROps)) (b7 (construct_dopri5 ROps)) f t h x = x5).
  { unfold x5. rewrite dopri5_table, dopri5_b.
    rewrite <- (erk_step_zero_tail n) by auto. f_equal.
    unfold to_R, qb5_dopri5. cbn -[Q2R]. now rewrite RMicromega.Q2R_0. }
  rewrite E. rewrite dopri5_table. reflexivity.
Qed.

(** ** tsit5 *)
Lemma embedded_len tab : length (q_embedded tab) = 7%nat.
Proof. unfold q_embedded. rewrite map_length, combine_length. reflexivity. Qed.

Lemma Q2R_eqb p q : Qeq_bool p q = true -> Q2R p = Q2R q.
Proof. intros H. apply Qreals.Qeq_eqR, Qeq_bool_iff, H. Qed.

Lemma nth_to_R l i : nth i (to_R l) 0 = Q2R (nth i l 0%Q).
Proof. unfold to_R. rewrite <- RMicromega.Q2R_0. apply map_nth. Qed.

Lemma tsit5_full n f t h x k1o : field_on n f -> length x = n ->
  (forall k, k1o = Some k -> k = f t x) ->
  let rows := to_R_rows (qrows7 (construct_tsit5 QRaw)) in
  let x5 := erk_step rows (to_R (qb7 (construct_tsit5 QRaw))) f t h x in
  let x4 := erk_step rows (to_R (q_embedded (construct_tsit5 QRaw))) f t h x in
  snd (@tsit5_step ROps f x t h k1o) =
  Ok (Ret4 (f (t + h) x5) x5 (@vsub ROps x5 x4) (erk_stages rows f t h x)).
Proof.
  intros Hf Hx Hk rows x5 x4. unfold tsit5_step.
  rewrite (erk7_spec _ n f Hf t h x k1o Hx Hk).
  rewrite (tsit5_fsal n f t h x Hf Hx).
  rewrite (err_difference n _ f t h x (to_R (q_embedded (construct_tsit5 QRaw))) Hf Hx).
  2: { unfold to_R. rewrite map_length. apply embedded_len. }
  2: { intros i Hi. rewrite tsit5_e, tsit5_b.
       replace (to_R (qb7 (construct_tsit5 QRaw)) ++ [0]) with (to_R (qb7 (construct_tsit5 QRaw) ++ [0%Q]))
         by (unfold to_R; rewrite map_app; cbn [map]; now rewrite RMicromega.Q2R_0).
       rewrite !nth_to_R, <- Qreals.Q2R_minus. apply Q2R_eqb.
       pose proof tsit5_embedded as C. unfold check_embedded in C. rewrite forallb_forall in C.
       pose proof (embedded_len (construct_tsit5 QRaw)) as L.
       revert C L. generalize (q_embedded (construct_tsit5 QRaw)). intros bh C L.
       specialize (C (nth i (qe7 (construct_tsit5 QRaw)) 0%Q,
         (nth i (qb7 (construct_tsit5 QRaw) ++ [0%Q]) 0 - nth i bh 0)%Q)).
       apply C. do 7 (destruct bh as [|? bh]; [discriminate|]). destruct bh; [|discriminate].
       unfold qe7, qb7. cbn [app combine map fst snd In nth].
       do 7 (destruct i as [|i]; [cbn [nth]; tauto|]). lia. }
  assert (E : erk_step (rows7 (construct_tsit5 ROps)) (b7 (construct_tsit5 ROps)) f t h x = x5).
  { unfold x5, rows. now rewrite tsit5_rows, tsit5_b. }
  rewrite E. rewrite tsit5_rows. reflexivity.
Qed.

(** ** rk4 *)
Lemma rk4_autonomous n f t h x : field_on n f -> length x = n -> autonomous f ->
  erk_step (to_R_rows q_rk4_code) (to_R qb_rk4) f t h x =
  erk_step (to_R_rows q_rk4) (to_R qb_rk4) f t h x.
Proof.
  intros Hf Hx Ha. unfold erk_step, erk_stages. unfold to_R_rows, q_rk4, q_rk4_code.
  cbn [map fold_left app fst snd].
  rewrite !(Ha (t + Q2R 0 * h) t), !(Ha (t + Q2R (1#2) * h) t), !(Ha (t + Q2R 1 * h) t).
  reflexivity.
Qed.

Lemma rk4_order4 : rk_order q_rk4 qb_rk4 4.
Proof. apply check_order_ok. vm_compute. reflexivity. Qed.
Lemma rk4_row_sums : row_sums q_rk4.
Proof. apply check_row_sums_ok. vm_compute. reflexivity. Qed.
Lemma midpoint_order2 : rk_order q_midpoint qb_midpoint 2.
Proof. apply check_order_ok. vm_compute. reflexivity. Qed.
Lemma euler_order1 : rk_order q_euler qb_euler 1.
Proof. apply check_order_ok. vm_compute. reflexivity. Qed.

(** The vector field x' = t *)
Definition clock : R -> rvec -> rvec := fun t x => map (fun _ => t) x.

Lemma rk4_clock t h x :
  snd (@rk4_step ROps clock [x] t h None) = Ok (Ret3 None [x + h * t + h ^ 2 / 4] None).
Proof.
  rewrite (rk4_code 1 clock) by (try reflexivity; intros ? y Hy; unfold clock; now rewrite map_length).
  do 2 f_equal. unfold erk_step, erk_stages, comb, axpy, clock, to_R_rows, to_R, q_rk4_code, qb_rk4.
  cbn [map fold_left app fst snd combine]. f_equal. qlit. field.
Qed.
Lemma rk4_clock_textbook t h x :
  erk_step (to_R_rows q_rk4) (to_R qb_rk4) clock t h [x] = [x + h * t + h ^ 2 / 2].
Proof.
  unfold erk_step, erk_stages, comb, axpy, clock, to_R_rows, to_R, q_rk4, qb_rk4.
  cbn [map fold_left app fst snd combine]. f_equal. qlit. field.
Qed.

Definition rk4_one (f : R -> rvec -> rvec) (t dt : R) (x : rvec) : rvec :=
  match snd (@rk4_step ROps f x t dt None) with Ok (Ret3 _ y _) => y | _ => [] end.
Definition rk4_log (f : R -> rvec -> rvec) (t dt : R) (x : rvec) : list (R * rvec) :=
  fst (@rk4_step ROps f x t dt None).
Lemma rk4_stepper f : fixed_stepper (@rk4_step ROps) f (rk4_one f) (rk4_log f).
Proof. intros x t dt. exists None, None. reflexivity. Qed.
Lemma rk4_one_erk n f t h x : field_on n f -> length x = n ->
  rk4_one f t h x = erk_step (to_R_rows q_rk4_code) (to_R qb_rk4) f t h x.
Proof. intros Hf Hx. unfold rk4_one. now rewrite (rk4_code n f Hf t h x Hx). Qed.
Lemma rk4_log_len f t dt x : length (rk4_log f t dt x) = 4%nat.
Proof. reflexivity. Qed.

(** ** Leapfrog *)
Lemma alf_value adaptive n f x v t h : length x = n -> length v = n -> field_on n f ->
  snd (@alf_step ROps adaptive f (x ++ v) t h None) =
  let xm := @vadd ROps x (@vscale ROps (/2 * h) v) in
  let v' := @vadd ROps (@vscale ROps 2 (@vsub ROps (f (t + /2 * h) xm) v)) v in
  Ok (Ret3 None (@vadd ROps xm (@vscale ROps (/2 * h) v') ++ v')
     (if adaptive then Some (@vzeros ROps n ++ v) else None)).
Proof.
  intros Hx Hv Hf. unfold alf_step.
  assert (Hl : Nat.div (length (x ++ v)) 2 = n).
  { rewrite app_length, Hx, Hv. replace (n + n)%nat with (n * 2)%nat by lia. apply Nat.div_mul; lia. }
  rops. rewrite Hl.
  assert (E1 : firstn n (x ++ v) = x) by (rewrite firstn_app, Hx, Nat.sub_diag, <- Hx, firstn_all, firstn_O, app_nil_r; reflexivity).
  assert (E2 : skipn n (x ++ v) = v) by (rewrite skipn_app, Hx, Nat.sub_diag, <- Hx, skipn_all, skipn_O; reflexivity).
  rewrite E1, E2. mred. rops. qlit. rewrite Hx.
  replace (1 / 2) with (/ 2) by lra. replace (2 / 1 * (1 / 1)) with 2 by lra. reflexivity.
Qed.

Lemma alf_reversible n f x v t h : length x = n -> length v = n -> field_on n f ->
  exists y, length y = (2 * n)%nat /\
  (exists e, snd (@alf_step ROps false f (x ++ v) t h None) = Ok (Ret3 None y e)) /\
  (exists e, snd (@alf_step ROps false f y (t + h) (- h) None) = Ok (Ret3 None (x ++ v) e)).
Proof.
  intros Hx Hv Hf.
  set (xm := @vadd ROps x (@vscale ROps (/2 * h) v)).
  set (v' := @vadd ROps (@vscale ROps 2 (@vsub ROps (f (t + /2 * h) xm) v)) v).
  set (x' := @vadd ROps xm (@vscale ROps (/2 * h) v')).
  assert (Lm : length xm = n) by (unfold xm; vlen).
  assert (Lv' : length v' = n) by (unfold v'; vlen).
  assert (Lx' : length x' = n) by (unfold x'; vlen).
  exists (x' ++ v'). split; [rewrite app_length; lia|]. split.
  - eexists. rewrite (alf_value false n) by auto. reflexivity.
  - eexists. rewrite (alf_value false n) by auto. cbv zeta.
    assert (Em : @vadd ROps x' (@vscale ROps (/2 * - h) v') = xm).
    { unfold x'. vext n. lra. }
    rewrite Em. replace (t + h + / 2 * - h) with (t + / 2 * h) by lra.
    assert (Ev : @vadd ROps (@vscale ROps 2 (@vsub ROps (f (t + /2 * h) xm) v')) v' = v).
    { unfold v'. vext n. lra. }
    rewrite Ev.
    assert (Ex : @vadd ROps xm (@vscale ROps (/2 * - h) v) = x).
    { unfold xm. vext n. lra. }
    rewrite Ex. reflexivity.
Qed.

Lemma alf_calls adaptive f xv t h : length (fst (@alf_step ROps adaptive f xv t h None)) = 2%nat.
Proof. reflexivity. Qed.

(** ** Hypersolvers *)
Lemma hyper_value base p net f x t dt k1 lg fn y e :
  base f x t dt k1 = (lg, Ok (Ret3 fn y e)) ->
  @hyper_step ROps base p net f x t dt k1 =
  (lg, Ok (Ret3 None (@vadd ROps y (@vscale ROps (dt ^ (p + 1)) (net t x))) None)).
Proof.
  intros H. unfold hyper_step. rewrite H, mbind_Ok. unfold mret. cbn [fst snd].
  rewrite app_nil_r, npow_pow. reflexivity.
Qed.

(** ** Implicit Euler residual *)
Lemma vsum_from (l : rvec) : forall a, fold_left Rplus l a = a + fold_left Rplus l 0.
Proof. induction l as [|b l IH]; intros a; simpl; [ring|]. rewrite IH, (IH (0 + b)). ring. Qed.
Lemma vsum_cons a (l : rvec) : @vsum ROps (a :: l) = a + @vsum ROps l.
Proof. unfold vsum. rops. rewrite Q2R_0'. simpl. rewrite vsum_from. ring. Qed.
Lemma vsum_nil : @vsum ROps [] = 0.
Proof. unfold vsum. rops. apply Q2R_0'. Qed.

Lemma sum_sq_nonneg (d : rvec) : 0 <= @vsum ROps (@vmul ROps d d).
Proof.
  induction d as [|a d IH]; [change (@vsum ROps (@vmul ROps [] [])) with (@vsum ROps []); rewrite vsum_nil; lra|].
  change (@vmul ROps (a :: d) (a :: d)) with (a * a :: @vmul ROps d d). rewrite vsum_cons.
  pose proof (Rle_0_sqr a). unfold Rsqr in *. lra.
Qed.
Lemma sum_sq_zero (d : rvec) : @vsum ROps (@vmul ROps d d) = 0 <-> forall i, (i < length d)%nat -> nth i d 0 = 0.
Proof.
  induction d as [|a d IH].
  - change (@vsum ROps (@vmul ROps [] [])) with (@vsum ROps []). rewrite vsum_nil. split; auto. intros _ i Hi; simpl in Hi; lia.
  - change (@vmul ROps (a :: d) (a :: d)) with (a * a :: @vmul ROps d d). rewrite vsum_cons.
    pose proof (Rle_0_sqr a) as Ha. pose proof (sum_sq_nonneg d) as Hd. unfold Rsqr in *. split.
    + intros H. assert (a * a = 0) by lra. assert (@vsum ROps (@vmul ROps d d) = 0) as Hz by lra.
      rewrite IH in Hz. assert (a = 0) by nra. intros [|i] Hi; simpl in *; auto. apply Hz; lia.
    + intros H. pose proof (H 0%nat ltac:(simpl; lia)) as H0. simpl in H0. subst a.
      assert (Hz : @vsum ROps (@vmul ROps d d) = 0).
      { apply IH. intros i Hi. apply (H (S i)). simpl; lia. }
      rewrite Hz. rops. ring.
Qed.

Lemma ie_residual_zero n f x t dt y : field_on n f -> length x = n -> length y = n ->
  @implicit_euler_residual ROps f x t dt y = 0 <->
  y = @vadd ROps x (@vscale ROps dt (f t y)).
Proof.
  intros Hf Hx Hy. unfold implicit_euler_residual. cbv zeta.
  set (d := @vsub ROps (@vsub ROps y x) (@vscale ROps dt (f t y))).
  assert (Ld : length d = n) by (unfold d; vlen).
  rewrite sum_sq_zero. rops. rewrite Ld. split.
  - intros H. apply (list_ext n); [vlen|vlen|]. intros i Hi. specialize (H i Hi).
    unfold d in H. rewrite (nth_vsub n i Hi), (nth_vsub n i Hi), (nth_vscale n i Hi) in H by vlen.
    rewrite (nth_vadd n i Hi), (nth_vscale n i Hi) by vlen. lra.
  - intros H i Hi. unfold d. rewrite (nth_vsub n i Hi), (nth_vsub n i Hi), (nth_vscale n i Hi) by vlen.
    assert (E := f_equal (fun l => @nth R i l 0) H). cbv beta in E.
    rewrite (nth_vadd n i Hi), (nth_vscale n i Hi) in E by vlen. lra.
Qed.
