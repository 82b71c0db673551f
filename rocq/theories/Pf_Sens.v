(** Proofs of the properties of the adjoint sensitivities. *)
From Coq Require Import ZArith QArith Qreals Reals Lra Lia List Bool Floats.
From Verif Require Import Num Py Tensor M_SolversOde M_Utils M_Odeint M_Root M_Sens Spec_Ode Spec_Trees Spec_RK Spec_Root Spec_Sens.
From Verif Require Import L_Base L_Fixed L_Vec L_Steps L_Steps2 L_Fixed2 L_Root L_Sens Pf_Fixed.
Import ListNotations.
Local Open Scope R_scope.

Lemma neg_vopp_dot : forall (a v : rvl), dot (@vopp ROps a) v = - dot a v.
Proof.
  induction a as [|x a IH]; intros [|y v]; try (cbn; lra).
  change (@vopp ROps (x :: a)) with ((- x) :: @vopp ROps a). rewrite !dot_cons, IH. ring.
Qed.

Lemma apply_lin n M : is_matrix n n M -> lin n (apply M).
Proof.
  intros (H1 & H2). split.
  - intros x Hx. now rewrite apply_len.
  - intros a k x Hk Hx. unfold apply, axpy. clear H1. induction M as [|r M IH]; [reflexivity|].
    apply Forall_cons_iff in H2. destruct H2 as (Hr & H2). cbn. f_equal; [|now apply IH].
    exact (dot_axpy_r x k r a ltac:(lia)).
Qed.

Lemma vopp_vopp (l : rvl) : @vopp ROps (@vopp ROps l) = l.
Proof. unfold vopp. rops. rewrite map_map. rewrite <- (map_id l) at 2. apply map_ext. intros; lra. Qed.

(** the last state of a solve over [t0; t1] in either direction *)
Lemma two_point fuel s rows b N F A t0 t1 atol rtol semi : erk_solver s rows b -> field_on N F -> length A = N -> separated [t0; t1] ->
  exists times, snd (@odeint ROps fuel F A (@TTensor ROps [t0; t1]) s atol rtol false false [] semi)
  = Ok (times, [A; erk_step rows b F t0 (t1 - t0) A]).
Proof.
  intros Hs HF HA Hsep. destruct (Rlt_dec t1 t0) as [Hlt|Hge].
  - pose proof (C05_reverse_is_negative_stepping_pf fuel s rows b N F A t0 t1 [] atol rtol false false semi Hs HF HA Hsep Hlt) as H.
    match goal with |- context [snd ?m] => destruct (snd m) as [[tm sl]|e|] end; cbn in H; try discriminate.
    injection H as ->. exists tm. reflexivity.
  - destruct Hs as (Hfix & Hs). destruct (Hs N F HF) as (one & lg & Hst & Hone).
    exists [t0; t1]. rewrite (C01_fixed_trajectory_pf fuel s F one lg A t0 t1 []) by (auto; lra).
    cbn [one_step_traj]. now rewrite Hone.
Qed.

Lemma nth_skipn_cons {A} : forall (l : list A) j a, nth_error l j = Some a -> skipn j l = a :: skipn (S j) l.
Proof. induction l as [|y l IH]; intros [|j] a H; try discriminate; [now injection H as ->|]. cbn in H. now apply IH. Qed.

Lemma nth_firstn_lt {A} : forall (l : list A) j k, (j < k)%nat -> nth_error (firstn k l) j = nth_error l j.
Proof. induction l as [|y l IH]; intros [|j] [|k] H; try lia; auto. cbn. apply IH. lia. Qed.

Section LTI.
Context (n nmu : nat) (M : list rvl) (F : adj_field (K := ROps)).
Hypothesis HM : is_matrix n n M.
Hypothesis HJ : transposed_product n M (af_vjp_x F).
Hypothesis Hdg : af_dg F = None.
Hypothesis Hf : field_on n (af_f F).
Hypothesis HP : forall t x w, length w = n -> length (cat_params (af_vjp_p F t x w)) = nmu.

Let T (w : rvl) : rvl := @vecmat ROps n w M.
Lemma T_len w : length (T w) = n.
Proof. apply vecmat_len. apply HM. Qed.
Lemma T_dot w v : dot (T w) v = dot w (apply M v).
Proof. apply vecmat_dot. apply HM. Qed.
Lemma vjp_T t x w : length w = n -> af_vjp_x F t x w = T w.
Proof.
  intros Hw. destruct (HJ t x w Hw) as (H1 & H2). apply (dot_ext n); auto; [apply T_len|].
  intros v Hv. rewrite H2 by auto. symmetry. apply T_dot.
Qed.
Lemma T_opp w : length w = n -> T (@vopp ROps w) = @vopp ROps (T w).
Proof.
  intros Hw. apply (dot_ext n); [apply T_len|apply vopp_len, T_len|].
  intros v Hv. now rewrite T_dot, !neg_vopp_dot, T_dot.
Qed.

(** the adjoint solve over one interval transposes the forward step *)
Lemma back_step rows b t t' h l u : length l = n -> length u = n ->
  dot (erk_step rows b (fun _ l => T (@vopp ROps l)) t (- h) l) u = dot l (erk_step rows b (fun _ => apply M) t' h u).
Proof.
  intros Hl Hu. 
  etransitivity; [apply (f_equal (fun z => dot z u)); symmetry; exact (erk_step_neg rows b (fun _ l => T (@vopp ROps l)) t h l)|].
  rewrite (erk_ext n rows b _ (fun _ => T)); auto.
  - apply (erk_adjoint n (apply M) T); auto; [now apply apply_lin|intros; apply T_len|intros; apply T_dot].
  - intros t0 x Hx. unfold neg_field. apply vopp_len. apply T_len.
  - intros t0 x Hx. unfold neg_field. rewrite T_opp by auto. apply vopp_vopp.
Qed.

Definition asize : nat := n + n + nmu + 1.

Lemma dyn_on : field_on asize (@adjoint_dynamics ROps F n).
Proof.
  intros t A HA. unfold adjoint_dynamics, asize in *. rewrite !app_length.
  assert (L1 : length (firstn n A) = n) by (rewrite firstn_length; lia).
  assert (L2 : length (firstn n (skipn n A)) = n) by (rewrite firstn_length, skipn_length; lia).
  assert (L3 : length (@vopp ROps (firstn n (skipn n A))) = n) by (now apply vopp_len).
  pose proof (Hf t _ L1) as E1. pose proof (HP t (firstn n A) _ L3) as E3.
  assert (E2 : length (dlam F t (firstn n A) (firstn n (skipn n A))) = n).
  { unfold dlam. rewrite Hdg. rewrite vjp_T by exact L3. apply T_len. }
  change (num ROps) with R in *. change (vec ROps) with rvl in *. rewrite E1, E2, E3. cbn. lia.
Qed.

Lemma block_app (lo m : nat) (a b c : rvl) : length a = lo -> length b = m -> block lo m (a ++ b ++ c) = b.
Proof.
  intros Ha Hb. unfold block. rewrite skipn_app, skipn_all2 by lia. rewrite Ha, Nat.sub_diag. cbn [app skipn].
  rewrite firstn_app, firstn_all2 by lia. rewrite Hb, Nat.sub_diag. cbn. apply app_nil_r.
Qed.

Lemma block0_app (m : nat) (b c : rvl) : length b = m -> block 0 m (b ++ c) = b.
Proof. intros Hb. exact (block_app 0 m [] b c eq_refl Hb). Qed.

Lemma dyn_block t A : length A = asize -> block n n (@adjoint_dynamics ROps F n t A) = T (@vopp ROps (block n n A)).
Proof.
  intros HA. unfold adjoint_dynamics.
  assert (L1 : length (firstn n A) = n) by (rewrite firstn_length; unfold asize in HA; lia).
  assert (L2 : length (firstn n (skipn n A)) = n) by (rewrite firstn_length, skipn_length; unfold asize in HA; lia).
  assert (L3 : length (@vopp ROps (firstn n (skipn n A))) = n) by (now apply vopp_len).
  unfold dlam. rewrite Hdg. rewrite vjp_T by exact L3.
  apply (block_app n n); [now apply Hf|apply T_len].
Qed.

Lemma pyslice_mu (A : rvl) : length A = asize -> length (pyslice (Some (- Z.of_nat nmu - 1)%Z) (Some (-1)%Z) A) = nmu.
Proof.
  intros HA. unfold pyslice, slice_bound, asize in *. rewrite HA.
  replace (- Z.of_nat nmu - 1 <? 0)%Z with true by (symmetry; apply Z.ltb_lt; lia).
  cbn [Z.ltb Z.compare]. rewrite firstn_length, skipn_length, HA. lia.
Qed.

Lemma pylast_some {A} (l : list A) : l <> [] -> exists a, pylast l = Ok a.
Proof. intros H. unfold pylast. destruct (rev l) as [|a r] eqn:E; [|eauto]. exfalso. apply H. rewrite <- (rev_involutive l), E. reflexivity. Qed.

Context (fuel : nat) (s : solver ROps (vec ROps)) (rows : list (R * rvl)) (b : rvl) (atol rtol : R).
Hypothesis Hs : erk_solver s rows b.

Lemma adj_interval_lti t_prev t_i g gt A : separated [t_i; t_prev] -> length A = asize -> length g = n ->
  exists A' dL, @adj_interval ROps fuel F n nmu s atol rtol t_prev t_i g gt A = Ok (A', dL) /\ length A' = asize /\
  forall u, length u = n ->
    dot (block n n A') u = dot (block n n A) (erk_step rows b (fun _ => apply M) t_prev (t_i - t_prev) u) + dot g u.
Proof.
  intros Hsep HA Hg. unfold adj_interval.
  assert (E0 : Nat.eqb (length (@adjoint_dynamics ROps F n t_i A)) (length A) = true).
  { apply Nat.eqb_eq. etransitivity; [apply dyn_on, HA|symmetry; exact HA]. }
  change (num ROps) with R in *. change (vec ROps) with rvl in *. rewrite E0. cbn [negb].
  destruct (two_point fuel s rows b asize (@adjoint_dynamics ROps F n) A t_i t_prev atol rtol (Some (n + n)%nat) Hs dyn_on HA Hsep) as (tm & E).
  change (num ROps) with R in *. change (vec ROps) with rvl in *. rewrite E. cbn [rbind snd].
  set (A1 := erk_step rows b (@adjoint_dynamics ROps F n) t_i (t_prev - t_i) A).
  assert (H1 : length A1 = asize) by (apply erk_step_len; [exact dyn_on|exact HA]).
  cbn [pylast rev app rbind].
  destruct (pylast_some A1) as (lt & ->). { intros E1. rewrite E1 in H1. unfold asize in H1. cbn in H1. lia. }
  cbn [rbind]. do 2 eexists. split; [reflexivity|].
  assert (L1 : length (firstn n A1) = n) by (rewrite firstn_length; unfold asize in H1; lia).
  assert (L2 : length (firstn n (skipn n A1)) = n) by (rewrite firstn_length, skipn_length; unfold asize in H1; lia).
  assert (L4 : length (@vadd ROps (firstn n (skipn n A1)) g) = n) by (now apply vadd_len).
  split.
  - pose proof (pyslice_mu A1 H1) as L5. rewrite !app_length. change (num ROps) with R in *. change (vec ROps) with rvl in *.
    rewrite L1, L4, L5. unfold asize. cbn. lia.
  - intros u Hu. rewrite (block_app n n) by auto. rewrite vadd_plus, dot_plus_l by lia. f_equal.
    change (firstn n (skipn n A1)) with (block n n A1). unfold A1.
    rewrite (block_step n n asize rows b _ (fun _ l => T (@vopp ROps l))) by (first [exact dyn_on | exact HA | intros; now apply dyn_block]).
    replace (t_prev - t_i) with (- (t_i - t_prev)) by ring. apply back_step; auto.
    apply block_len. unfold asize in HA. lia.
Qed.

Lemma pair_separated (pre suf : list R) a c : separated (pre ++ a :: c :: suf) -> separated [c; a].
Proof.
  intros H i j x y Hij Hx Hy.
  assert (Ha : nth_error (pre ++ a :: c :: suf) (length pre) = Some a) by (rewrite nth_error_app2, Nat.sub_diag by lia; reflexivity).
  assert (Hc : nth_error (pre ++ a :: c :: suf) (length pre + 1) = Some c).
  { rewrite nth_error_app2 by lia. replace (length pre + 1 - length pre)%nat with 1%nat by lia. reflexivity. }
  destruct i as [|[|i]]; destruct j as [|[|j]]; try lia; cbn in Hx, Hy; try (destruct i; discriminate); try (destruct j; discriminate).
  - injection Hx as <-. injection Hy as <-. apply (H (length pre + 1)%nat (length pre)); auto; lia.
  - injection Hx as <-. injection Hy as <-. apply (H (length pre) (length pre + 1)%nat); auto; lia.
Qed.

Lemma adj_loop_lti : forall rpre grpre gtpre t g gt suf gsuf A dL,
  length rpre = length grpre -> length rpre = length gtpre ->
  separated (rev rpre ++ t :: suf) -> length A = asize -> Forall (fun g => length g = n) grpre ->
  (forall u, length u = n -> dot (block n n A) u = pairing (g :: gsuf) (one_step_traj (erk_step rows b (fun _ => apply M)) u (t :: suf))) ->
  exists A' dL', @adj_loop ROps fuel F n nmu s atol rtol (t :: rpre) (g :: grpre) (gt :: gtpre) A dL = Ok (A', dL') /\ length A' = asize /\
  forall u, length u = n -> dot (block n n A') u
    = pairing (rev grpre ++ g :: gsuf) (one_step_traj (erk_step rows b (fun _ => apply M)) u (rev rpre ++ t :: suf)).
Proof.
  induction rpre as [|t1 rpre IH]; intros [|g1 grpre] [|gt1 gtpre] t g gt suf gsuf A dL E1 E2 Hsep HA Hg HI; try discriminate.
  - exists A, dL. split; [reflexivity|]. split; [exact HA|]. exact HI.
  - cbn [rev] in *. rewrite <- !app_assoc in *. cbn [app] in *.
    apply Forall_cons_iff in Hg. destruct Hg as (Hg1 & Hg).
    destruct (adj_interval_lti t1 t g1 gt1 A (pair_separated _ _ _ _ Hsep) HA Hg1) as (A1 & dL1 & Ea & HA1 & Hd).
    destruct (IH grpre gtpre t1 g1 gt1 (t :: suf) (g :: gsuf) A1 dL1 ltac:(now injection E1) ltac:(now injection E2) Hsep HA1 Hg) as (A' & dL' & El & HA' & HI').
    { intros u Hu. rewrite Hd by auto. rewrite HI.
      - cbn [one_step_traj pairing]. lra.
      - apply erk_step_len; auto. apply lin_field. now apply apply_lin. }
    exists A', dL'. split; [|split; [exact HA'|exact HI']].
    cbn [adj_loop]. etransitivity; [apply (f_equal (fun z => rbind z _)); exact Ea|]. cbn [rbind]. exact El.
Qed.

Lemma adjoint_backward_lti t_sol sol gt gx :
  separated t_sol -> t_sol <> [] -> length gx = length t_sol -> length gt = length t_sol ->
  length (last sol []) = n -> sol <> [] -> Forall (fun g => length g = n) gx ->
  exists out, @adjoint_backward ROps fuel F nmu s atol rtol t_sol sol gt gx = Ok out /\ length (ao_x out) = n /\
  forall u, length u = n -> dot (ao_x out) u = pairing gx (one_step_traj (erk_step rows b (fun _ => apply M)) u t_sol).
Proof.
  intros Hsep Hne Hgx Hgt Hsol Hsn Hg. unfold adjoint_backward.
  destruct (exists_last Hsn) as (sol0 & xT & ->). rewrite last_last in Hsol.
  destruct (exists_last Hne) as (ts0 & tT & ->).
  assert (Hgn : gx <> []) by (intros ->; rewrite app_length in Hgx; cbn in Hgx; lia).
  assert (Hgtn : gt <> []) by (intros ->; rewrite app_length in Hgt; cbn in Hgt; lia).
  destruct (exists_last Hgn) as (gx0 & lT & ->). destruct (exists_last Hgtn) as (gt0 & gtT & ->).
  rewrite !app_length in *. cbn [length] in *.
  unfold pylast. rewrite !rev_app_distr. cbn [rev app rbind].
  apply Forall_app in Hg. destruct Hg as (Hg & HlT). apply Forall_cons_iff in HlT. destruct HlT as (HlT & _).
  change (num ROps) with R in *. change (vec ROps) with rvl in *. rewrite Hsol.
  set (ltT := @vdot ROps lT (af_f F tT xT)).
  destruct (adj_loop_lti (rev ts0) (rev gx0) (rev gt0) tT lT gtT [] [] (xT ++ lT ++ @vzeros ROps nmu ++ [ltT]) ltT) as (A' & dL' & E & HA' & HI).
  - rewrite !rev_length. lia.
  - rewrite !rev_length. lia.
  - rewrite rev_involutive. exact Hsep.
  - pose proof (vzeros_len nmu) as Hz. rewrite !app_length. change (num ROps) with R in *. change (vec ROps) with rvl in *. rewrite Hz. unfold asize. cbn. lia.
  - apply Forall_rev. exact Hg.
  - intros u Hu. rewrite (block_app n n) by auto. cbn. lra.
  - change (num ROps) with R in *. change (vec ROps) with rvl in *.
    eexists. split; [etransitivity; [apply (f_equal (fun z => rbind z _)); exact E|]; reflexivity|].
    cbn [ao_x]. rewrite rev_involutive in HI. rewrite rev_involutive in HI. split.
    + apply block_len. unfold asize in HA'. lia.
    + exact HI.
Qed.

(** ** interpolated adjoint *)
Context (path : R -> rvl).
Let isize : nat := n + nmu.

Lemma idyn_on : field_on isize (@interp_dynamics ROps F path n).
Proof.
  intros t A HA. unfold interp_dynamics, isize in *. rewrite !app_length.
  assert (L2 : length (firstn n A) = n) by (rewrite firstn_length; lia).
  assert (L3 : length (@vopp ROps (firstn n A)) = n) by (now apply vopp_len).
  pose proof (HP t (path t) _ L3) as E3.
  assert (E2 : length (dlam F t (path t) (firstn n A)) = n).
  { unfold dlam. rewrite Hdg. rewrite vjp_T by exact L3. apply T_len. }
  change (num ROps) with R in *. change (vec ROps) with rvl in *. rewrite E2, E3. reflexivity.
Qed.

Lemma idyn_block t A : length A = isize -> block 0 n (@interp_dynamics ROps F path n t A) = T (@vopp ROps (block 0 n A)).
Proof.
  intros HA. unfold interp_dynamics.
  assert (L2 : length (firstn n A) = n) by (rewrite firstn_length; unfold isize in HA; lia).
  assert (L3 : length (@vopp ROps (firstn n A)) = n) by (now apply vopp_len).
  unfold dlam. rewrite Hdg. rewrite vjp_T by exact L3.
  apply (block0_app n); apply T_len.
Qed.

Lemma pyslice_imu (A : rvl) : length A = isize -> (0 < nmu)%nat -> length (pyslice (Some (- Z.of_nat nmu)%Z) None A) = nmu.
Proof.
  intros HA H0. unfold pyslice, slice_bound, isize in *. rewrite HA.
  replace (- Z.of_nat nmu <? 0)%Z with true by (symmetry; apply Z.ltb_lt; lia).
  rewrite firstn_length, skipn_length, HA. lia.
Qed.

Lemma interp_interval_lti t_prev t_i g A : (0 < nmu)%nat -> separated [t_i; t_prev] -> length A = isize -> length g = n ->
  exists A', @interp_interval ROps fuel F path n nmu s atol rtol t_prev t_i g A = Ok A' /\ length A' = isize /\
  forall u, length u = n ->
    dot (block 0 n A') u = dot (block 0 n A) (erk_step rows b (fun _ => apply M) t_prev (t_i - t_prev) u) + dot g u.
Proof.
  intros Hmu Hsep HA Hg. unfold interp_interval.
  assert (E0 : Nat.eqb (length (@interp_dynamics ROps F path n t_i A)) (length A) = true).
  { apply Nat.eqb_eq. etransitivity; [apply idyn_on, HA|symmetry; exact HA]. }
  change (num ROps) with R in *. change (vec ROps) with rvl in *. rewrite E0. cbn [negb].
  destruct (two_point fuel s rows b isize (@interp_dynamics ROps F path n) A t_i t_prev atol rtol None Hs idyn_on HA Hsep) as (tm & E).
  change (num ROps) with R in *. change (vec ROps) with rvl in *. rewrite E. cbn [rbind snd].
  set (A1 := erk_step rows b (@interp_dynamics ROps F path n) t_i (t_prev - t_i) A).
  assert (H1 : length A1 = isize) by (apply erk_step_len; [exact idyn_on|exact HA]).
  cbn [pylast rev app rbind]. eexists. split; [reflexivity|].
  assert (L2 : length (firstn n A1) = n) by (rewrite firstn_length; unfold isize in H1; lia).
  assert (L4 : length (@vadd ROps (firstn n A1) g) = n) by (now apply vadd_len).
  split.
  - pose proof (pyslice_imu A1 H1 Hmu) as L5. rewrite !app_length. change (num ROps) with R in *. change (vec ROps) with rvl in *.
    rewrite L4, L5. reflexivity.
  - intros u Hu. rewrite (block0_app n) by auto. rewrite vadd_plus, dot_plus_l by lia. f_equal.
    change (firstn n A1) with (block 0 n A1). unfold A1.
    rewrite (block_step 0 n isize rows b _ (fun _ l => T (@vopp ROps l))) by (first [exact idyn_on | exact HA | intros; now apply idyn_block]).
    replace (t_prev - t_i) with (- (t_i - t_prev)) by ring. apply back_step; auto.
    apply block_len. unfold isize in HA. lia.
Qed.

Lemma interp_loop_lti ts gx : (0 < nmu)%nat -> separated ts -> length gx = length ts -> Forall (fun g => length g = n) gx ->
  forall k A, (k < length ts)%nat -> length A = isize ->
  (forall u, length u = n -> dot (block 0 n A) u = pairing (skipn k gx) (one_step_traj (erk_step rows b (fun _ => apply M)) u (skipn k ts))) ->
  exists A', @interp_loop_adj ROps fuel F path n nmu s atol rtol ts gx k A = Ok A' /\ length A' = isize /\
  forall u, length u = n -> dot (block 0 n A') u = pairing gx (one_step_traj (erk_step rows b (fun _ => apply M)) u ts).
Proof.
  intros Hmu Hsep Hl Hg. induction k as [|j IH]; intros A Hk HA HI.
  - exists A. split; [reflexivity|]. split; auto.
  - destruct (nth_error ts (S j)) as [t_i|] eqn:Ei; [|apply nth_error_None in Ei; lia].
    destruct (nth_error ts j) as [t_prev|] eqn:Ep; [|apply nth_error_None in Ep; lia].
    destruct (nth_error gx j) as [g|] eqn:Eg; [|apply nth_error_None in Eg; lia].
    assert (Hgl : length g = n). { rewrite Forall_forall in Hg. apply Hg. now apply nth_error_In in Eg. }
    assert (Hs2 : separated [t_i; t_prev]).
    { intros a c x y Hac Hx Hy. destruct a as [|[|a]]; destruct c as [|[|c]]; try lia; cbn in Hx, Hy; try (destruct a; discriminate); try (destruct c; discriminate);
      injection Hx as <-; injection Hy as <-; [apply (Hsep (S j) j)|apply (Hsep j (S j))]; auto. }
    destruct (interp_interval_lti t_prev t_i g A Hmu Hs2 HA Hgl) as (A1 & E1 & HA1 & Hd).
    cbn [interp_loop_adj]. unfold pyget.
    change (num ROps) with R in *. change (vec ROps) with rvl in *. rewrite Ei, Ep, Eg. cbn [rbind].
    destruct (IH A1 ltac:(lia) HA1) as (A' & E' & HA' & HI').
    { intros u Hu. rewrite Hd by auto. rewrite HI by (apply erk_step_len; auto; apply lin_field; now apply apply_lin).
      assert (S1 : skipn j ts = t_prev :: skipn (S j) ts) by (apply nth_skipn_cons; auto).
      assert (S2 : skipn j gx = g :: skipn (S j) gx) by (apply nth_skipn_cons; auto).
      rewrite S1, S2. assert (S3 : skipn (S j) ts = t_i :: skipn (S (S j)) ts) by (apply nth_skipn_cons; auto). rewrite S3.
      cbn [one_step_traj pairing]. lra. }
    exists A'. split; [|split; auto]. etransitivity; [apply (f_equal (fun z => rbind z _)); exact E1|]. exact E'.
Qed.

Lemma interp_backward_lti ts gx : (0 < nmu)%nat -> separated ts -> ts <> [] -> length gx = length ts -> Forall (fun g => length g = n) gx ->
  exists mu lam, @interp_adjoint_backward ROps fuel F path nmu s atol rtol ts gx = Ok (mu, lam) /\ length lam = n /\
  forall u, length u = n -> dot lam u = pairing gx (one_step_traj (erk_step rows b (fun _ => apply M)) u ts).
Proof.
  intros Hmu Hsep Hne Hl Hg. unfold interp_adjoint_backward.
  destruct (exists_last Hne) as (ts0 & tT & E). 
  assert (Hgn : gx <> []) by (intros ->; subst ts; rewrite app_length in Hl; cbn in Hl; lia).
  destruct (exists_last Hgn) as (gx0 & lT & Eg).
  assert (Ep : pylast gx = Ok lT) by (subst gx; unfold pylast; rewrite rev_app_distr; reflexivity).
  assert (Hlt : length lT = n). { rewrite Forall_forall in Hg. apply Hg. subst gx. apply in_or_app. right. now left. }
  change (num ROps) with R in *. change (vec ROps) with rvl in *. rewrite Ep. cbn [rbind]. rewrite Hlt.
  assert (Lts : length ts = S (length ts0)) by (subst ts; rewrite app_length; cbn; lia).
  assert (Lgx : length gx0 = length ts0) by (subst gx; rewrite app_length in Hl; cbn in Hl; lia).
  destruct (interp_loop_lti ts gx Hmu Hsep Hl Hg (length ts - 1)%nat (lT ++ @vzeros ROps nmu)) as (A' & E' & HA' & HI).
  - lia.
  - pose proof (vzeros_len nmu) as Hz. rewrite !app_length. change (num ROps) with R in *. change (vec ROps) with rvl in *. rewrite Hz, Hlt. reflexivity.
  - intros u Hu. rewrite (block0_app n) by auto.
    replace (length ts - 1)%nat with (length ts0) by lia.
    assert (S1 : skipn (length ts0) ts = [tT]) by (subst ts; rewrite skipn_app, skipn_all, Nat.sub_diag; reflexivity).
    assert (S2 : skipn (length ts0) gx = [lT]) by (subst gx; rewrite <- Lgx, skipn_app, skipn_all, Nat.sub_diag; reflexivity).
    rewrite S1, S2. cbn. lra.
  - change (num ROps) with R in *. change (vec ROps) with rvl in *.
    do 2 eexists. split; [etransitivity; [apply (f_equal (fun z => rbind z _)); exact E'|]; reflexivity|]. split.
    + apply (block_len 0 n). unfold isize in HA'. lia.
    + exact HI.
Qed.
End LTI.

Lemma traj_rows n rows b f : forall l x, field_on n f -> length x = n -> Forall (fun y : rvl => length y = n) (one_step_traj (erk_step rows b f) x l).
Proof.
  induction l as [|a l IH]; intros x Hf Hx; [constructor|].
  cbn [one_step_traj]. constructor; auto. destruct l; [constructor|]. apply IH; auto. now apply erk_step_len.
Qed.

(** C48, every explicit Runge-Kutta fixed-step solver (euler, midpoint, rk4 below), not only euler, and
    every field f(t, x) = M x + c(t): the vector returned by the adjoint for the initial state is
    the gradient of the loss.  [gx] are the gradients of the loss with respect to the returned states;
    along them the change of the trajectory for any other initial state is given by the product with the
    returned vector. *)
Lemma C48_adjoint_gradient_pf :
  forall fuel fuel' s rows b n nmu M (F : adj_field (K := ROps)) x t0 t1 ts gt gx atol rtol atol' rtol' interp,
  erk_solver s rows b -> constant_jacobian n M (af_f F) -> transposed_product n M (af_vjp_x F) -> af_dg F = None ->
  (forall t y w, length w = n -> length (cat_params (af_vjp_p F t y w)) = nmu) ->
  separated (t0 :: t1 :: ts) -> t0 <= t1 -> length x = n ->
  length gx = length (t0 :: t1 :: ts) -> length gt = length (t0 :: t1 :: ts) -> Forall (fun g => length g = n) gx ->
  let solve x := snd (@odeint ROps fuel (af_f F) x (@TTensor ROps (t0 :: t1 :: ts)) s atol rtol interp false [] None) in
  exists t_sol sol out, solve x = Ok (t_sol, sol) /\
    @adjoint_backward ROps fuel' F nmu s atol' rtol' t_sol sol gt gx = Ok out /\ length (ao_x out) = n /\
    forall x', length x' = n -> exists sol', solve x' = Ok (t_sol, sol') /\
      pairing gx sol' - pairing gx sol = dot (ao_x out) (minus_vec x' x).
Proof.
  intros fuel fuel' s rows b n nmu M F x t0 t1 ts gt gx atol rtol atol' rtol' interp Hs (HM & Hf & HJf) HJ Hdg HP Hsep Hle Hx Hgx Hgt Hg solve.
  pose proof Hs as (Hfix & Hs'). destruct (Hs' n (af_f F) Hf) as (one & lg & Hst & Hone).
  assert (Hsol : forall y, length y = n -> solve y = Ok (t0 :: t1 :: ts, one_step_traj (erk_step rows b (af_f F)) y (t0 :: t1 :: ts))).
  { intros y Hy. unfold solve. rewrite (C01_fixed_trajectory_pf fuel s (af_f F) one lg) by auto. do 2 f_equal.
    apply (one_step_traj_ext (erk_step rows b (af_f F)) one (fun z => length z = n)); auto.
    intros t h z Hz. now apply erk_step_len. }
  set (sol := one_step_traj (erk_step rows b (af_f F)) x (t0 :: t1 :: ts)).
  assert (Hall : Forall (fun y : rvl => length y = n) sol).
  { now apply traj_rows. }
  assert (Hsn : sol <> []) by (unfold sol; cbn; discriminate).
  destruct (adjoint_backward_lti n nmu M F HM HJ Hdg Hf HP fuel' s rows b atol' rtol' Hs (t0 :: t1 :: ts) sol gt gx) as (out & E & Hl & HI); auto; try discriminate.
  { destruct (exists_last Hsn) as (l0 & y & Ey). rewrite Ey in *. rewrite last_last. apply Forall_app in Hall. destruct Hall as (_ & H1). now apply Forall_cons_iff in H1. }
  exists (t0 :: t1 :: ts), sol, out. split; [now apply Hsol|]. split; [exact E|]. split; [exact Hl|].
  intros x' Hx'. exists (one_step_traj (erk_step rows b (af_f F)) x' (t0 :: t1 :: ts)). split; [now apply Hsol|].
  unfold sol. rewrite (traj_pairing_minus n (af_f F) (apply M)); auto; [|now apply apply_lin].
  symmetry. apply HI. apply minus_len; auto.
Qed.

(** the gradient for the solvers of the library *)
Lemma C48_solvers_pf : erk_solver (Euler ROps) (to_R_rows q_euler) (to_R qb_euler) /\
  erk_solver (Midpoint ROps) (to_R_rows q_midpoint) (to_R qb_midpoint) /\
  erk_solver (RungeKutta4 ROps) (to_R_rows q_rk4_code) (to_R qb_rk4).
Proof. split; [exact C05_euler_pf|split; [exact C05_midpoint_pf|exact C05_rk4_pf]]. Qed.

Definition scalar_field : adj_field (K := ROps) := @MkAF ROps (fun _ x => x) (fun _ _ w => w) (fun _ _ _ => None) (fun _ _ _ => [None]) None.

Lemma scalar_jac : constant_jacobian 1 [[1]] (af_f scalar_field).
Proof.
  split; [|split].
  - split; [reflexivity|]. repeat constructor.
  - intros t x Hx. exact Hx.
  - intros t [|y [|? ?]] [|z [|? ?]] Hy Hz; try discriminate. unfold apply, minus_vec, dot. cbn. f_equal. ring.
Qed.
Lemma scalar_vjp : transposed_product 1 [[1]] (af_vjp_x scalar_field).
Proof.
  intros t x [|w [|? ?]] Hw; try discriminate. split; [reflexivity|]. intros [|v [|? ?]] Hv; try discriminate. unfold apply, dot. cbn. ring.
Qed.

Lemma C48_ex_pf : constant_jacobian 1 [[1]] (af_f scalar_field) /\ transposed_product 1 [[1]] (af_vjp_x scalar_field) /\
  (forall t y w, length w = 1%nat -> length (cat_params (af_vjp_p scalar_field t y w)) = 1%nat) /\ separated [0; 1; 2].
Proof.
  split; [exact scalar_jac|]. split; [exact scalar_vjp|]. split; [reflexivity|exact grid3_separated].
Qed.

(** C48 also holds for the interpolated adjoint, whatever path the spline takes, and for increasing and
    decreasing t_span: [sol] are the states of the forward solve. *)
Lemma C48_interpolated_pf :
  forall fuel fuel' s rows b n nmu M (F : adj_field (K := ROps)) path x t0 t1 ts gx atol rtol atol' rtol' interp all,
  erk_solver s rows b -> constant_jacobian n M (af_f F) -> transposed_product n M (af_vjp_x F) -> af_dg F = None -> (0 < nmu)%nat ->
  (forall t y w, length w = n -> length (cat_params (af_vjp_p F t y w)) = nmu) ->
  separated (t0 :: t1 :: ts) -> length x = n -> length gx = length (t0 :: t1 :: ts) -> Forall (fun g => length g = n) gx ->
  let solve x := rmap snd (snd (@odeint ROps fuel (af_f F) x (@TTensor ROps (t0 :: t1 :: ts)) s atol rtol interp all [] None)) in
  exists sol mu lam, solve x = Ok sol /\
    @interp_adjoint_backward ROps fuel' F path nmu s atol' rtol' (t0 :: t1 :: ts) gx = Ok (mu, lam) /\ length lam = n /\
    forall x', length x' = n -> exists sol', solve x' = Ok sol' /\
      pairing gx sol' - pairing gx sol = dot lam (minus_vec x' x).
Proof.
  intros fuel fuel' s rows b n nmu M F path x t0 t1 ts gx atol rtol atol' rtol' interp all Hs (HM & Hf & HJf) HJ Hdg Hmu HP Hsep Hx Hgx Hg solve.
  pose proof Hs as (Hfix & Hs'). destruct (Hs' n (af_f F) Hf) as (one & lg & Hst & Hone).
  assert (Hsol : forall y, length y = n -> solve y = Ok (one_step_traj (erk_step rows b (af_f F)) y (t0 :: t1 :: ts))).
  { intros y Hy. unfold solve. destruct (Rlt_dec t1 t0) as [Hlt|Hge]; [now apply (C05_reverse_is_negative_stepping_pf fuel s rows b n)|].
    rewrite (C01_fixed_trajectory_pf fuel s (af_f F) one lg) by (auto; lra). cbn [rmap rbind snd]. f_equal.
    apply (one_step_traj_ext (erk_step rows b (af_f F)) one (fun z => length z = n)); auto.
    intros t h z Hz. now apply erk_step_len. }
  destruct (interp_backward_lti n nmu M F HM HJ Hdg HP fuel' s rows b atol' rtol' Hs path (t0 :: t1 :: ts) gx) as (mu & lam & E & Hl & HI); auto; try discriminate.
  do 3 eexists. split; [now apply Hsol|]. split; [exact E|]. split; [exact Hl|].
  intros x' Hx'. eexists. split; [now apply Hsol|].
  rewrite (traj_pairing_minus n (af_f F) (apply M)); auto; [|now apply apply_lin].
  symmetry. apply HI. apply minus_len; auto.
Qed.

(** C49 for the interpolated adjoint and fields M x + c(t); missing: fields whose Jacobian depends on the
    state, for which the spline through the negated times matters. *)
Lemma C49_interpolated_partial_pf :
  forall fuel fuel' s rows b n nmu M (F : adj_field (K := ROps)) path x t0 t1 ts gx atol rtol atol' rtol' interp all,
  erk_solver s rows b -> constant_jacobian n M (af_f F) -> transposed_product n M (af_vjp_x F) -> af_dg F = None -> (0 < nmu)%nat ->
  (forall t y w, length w = n -> length (cat_params (af_vjp_p F t y w)) = nmu) ->
  separated (t0 :: t1 :: ts) -> t1 < t0 -> length x = n -> length gx = length (t0 :: t1 :: ts) -> Forall (fun g => length g = n) gx ->
  let solve x := rmap snd (snd (@odeint ROps fuel (af_f F) x (@TTensor ROps (t0 :: t1 :: ts)) s atol rtol interp all [] None)) in
  exists sol mu lam, solve x = Ok sol /\
    @interp_adjoint_backward ROps fuel' F path nmu s atol' rtol' (t0 :: t1 :: ts) gx = Ok (mu, lam) /\ length lam = n /\
    forall x', length x' = n -> exists sol', solve x' = Ok sol' /\
      pairing gx sol' - pairing gx sol = dot lam (minus_vec x' x).
Proof.
  intros. eapply C48_interpolated_pf; eauto.
Qed.

(** C49, what the adjoint does on a decreasing grid: the returned vector is the gradient of the
    trajectory along the negated grid, i.e. of the flow run in the other direction. *)
Lemma C49_adjoint_value_partial_pf :
  forall fuel fuel' s rows b n nmu M (F : adj_field (K := ROps)) x t0 t1 ts gt gx atol rtol atol' rtol' interp,
  erk_solver s rows b -> constant_jacobian n M (af_f F) -> transposed_product n M (af_vjp_x F) -> af_dg F = None ->
  (forall t y w, length w = n -> length (cat_params (af_vjp_p F t y w)) = nmu) ->
  separated (t0 :: t1 :: ts) -> t1 < t0 -> length x = n ->
  length gx = length (t0 :: t1 :: ts) -> length gt = length (t0 :: t1 :: ts) -> Forall (fun g => length g = n) gx ->
  exists t_sol sol out,
    snd (@odeint ROps fuel (af_f F) x (@TTensor ROps (t0 :: t1 :: ts)) s atol rtol interp false [] None) = Ok (t_sol, sol) /\
    sol = one_step_traj (erk_step rows b (af_f F)) x (t0 :: t1 :: ts) /\
    @adjoint_backward ROps fuel' F nmu s atol' rtol' t_sol sol gt gx = Ok out /\ length (ao_x out) = n /\
    forall u, length u = n ->
      dot (ao_x out) u = pairing gx (one_step_traj (erk_step rows b (fun _ => apply M)) u (map Ropp (t0 :: t1 :: ts))).
Proof.
  intros fuel fuel' s rows b n nmu M F x t0 t1 ts gt gx atol rtol atol' rtol' interp Hs (HM & Hf & HJf) HJ Hdg HP Hsep Hlt Hx Hgx Hgt Hg.
  pose proof Hs as (Hfix & Hs'). destruct (Hs' n (@neg_field ROps (af_f F)) (neg_field_on n _ Hf)) as (one & lg & Hst & Hone).
  pose proof (C06_reversed_times_exact_pf fuel s (af_f F) one lg x t0 t1 ts atol rtol interp false None Hfix Hst Hsep Hlt) as Et.
  pose proof (C05_reverse_is_negative_stepping_pf fuel s rows b n (af_f F) x t0 t1 ts atol rtol interp false None Hs Hf Hx Hsep Hlt) as Es.
  match goal with |- context [snd ?m] => destruct (snd m) as [[tm sl]|e|] end; cbn [rmap rbind snd fst] in Et, Es; try discriminate.
  injection Et as Et. injection Es as Es.
  assert (Hall : Forall (fun y : rvl => length y = n) sl).
  { rewrite Es. exact (traj_rows n rows b (af_f F) (t0 :: t1 :: ts) x Hf Hx). }
  assert (Hsn : sl <> []) by (rewrite Es; cbn; discriminate).
  destruct (adjoint_backward_lti n nmu M F HM HJ Hdg Hf HP fuel' s rows b atol' rtol' Hs (map Ropp (t0 :: t1 :: ts)) sl gt gx) as (out & E & Hl & HI); auto; try discriminate.
  { now apply separated_opp in Hsep. }
  { now rewrite map_length. }
  { now rewrite map_length. }
  { destruct (exists_last Hsn) as (l0 & y & Ey). rewrite Ey in *. rewrite last_last. apply Forall_app in Hall. destruct Hall as (_ & H1). now apply Forall_cons_iff in H1. }
  exists tm, sl, out. split; [reflexivity|]. split; [exact Es|]. split; [|split; [exact Hl|exact HI]].
  cbn [map] in Et. rewrite Et. exact E.
Qed.

Lemma two_separated a c : 0 <= a <= 2 -> 0 <= c <= 2 -> 1/10 <= Rabs (a - c) -> separated [a; c].
Proof.
  intros Ha Hc Hd i j x y Hij Hx Hy. unfold close_to.
  destruct i as [|[|i]]; destruct j as [|[|j]]; try lia; cbn in Hx, Hy; try (destruct i; discriminate); try (destruct j; discriminate);
  injection Hx as <-; injection Hy as <-.
  - rewrite (Rabs_pos_eq c) by lra. lra.
  - rewrite (Rabs_pos_eq a), Rabs_minus_sym by lra. lra.
Qed.

(** C49 fails for the adjoint: f(t, x) = x, euler, t_span = [1, 0], loss x(0).  The state at time 0 is
    x + (0 - 1) x = 0 for every x, so the gradient is 0, but the adjoint returns 2. *)
Lemma C49_adjoint_reversed_refuted_pf :
  forall fuel fuel' atol rtol atol' rtol' interp x0,
  let solve x := snd (@odeint ROps fuel (af_f scalar_field) [x] (@TTensor ROps [1; 0]) (Euler ROps) atol rtol interp false [] None) in
  exists t_sol sol out, solve x0 = Ok (t_sol, sol) /\
    @adjoint_backward ROps fuel' scalar_field 1 (Euler ROps) atol' rtol' t_sol sol [0; 0] [[0]; [1]] = Ok out /\ ao_x out = [2] /\
    forall x, exists sol', rmap snd (solve x) = Ok sol' /\ pairing [[0]; [1]] sol' = 0.
Proof.
  intros fuel fuel' atol rtol atol' rtol' interp x0 solve.
  assert (Hsep : separated [1; 0]) by (apply two_separated; try lra; replace (1 - 0) with 1 by ring; rewrite Rabs_R1; lra).
  destruct (C49_adjoint_value_partial_pf fuel fuel' (Euler ROps) _ _ 1 1 [[1]] scalar_field [x0] 1 0 [] [0; 0] [[0]; [1]] atol rtol atol' rtol' interp
    C05_euler_pf scalar_jac scalar_vjp eq_refl (fun _ _ _ _ => eq_refl) Hsep ltac:(lra) eq_refl eq_refl eq_refl ltac:(repeat constructor)) as (t_sol & sol & out & E1 & E2 & E3 & Hl & HI).
  exists t_sol, sol, out. split; [exact E1|]. split; [exact E3|]. split.
  - destruct (ao_x out) as [|l [|? ?]]; try discriminate. specialize (HI [1] eq_refl).
    unfold one_step_traj, erk_step, erk_stages, to_R_rows, q_euler, to_R, qb_euler, comb, axpy, apply, pairing, dot in HI. cbn in HI.
    rewrite ?Q2R_0', ?Q2R_1' in HI. f_equal. lra.
  - intros x. eexists. split.
    + apply (C05_reverse_is_negative_stepping_pf fuel (Euler ROps) _ _ 1 (af_f scalar_field) [x] 1 0 [] atol rtol interp false None C05_euler_pf); auto; [|lra].
      intros t y Hy. exact Hy.
    + unfold one_step_traj, erk_step, erk_stages, to_R_rows, q_euler, to_R, qb_euler, comb, axpy, apply, pairing, dot. cbn.
      rewrite ?Q2R_0', ?Q2R_1'. lra.
Qed.

(** C67.  [sizes]: the numbers of elements of the parameter tensors.  One unused tensor with more than one
    element makes the backward pass of the adjoint raise RuntimeError: torch.zeros(1) takes its place. *)
Definition products_of (sizes : list nat) (ps : list (option rvl)) : Prop :=
  Forall2 (fun k o => match o with Some v => length v = k | None => True end) sizes ps.

Lemma cat_params_short : forall sizes ps, products_of sizes ps -> Forall (fun k => (0 < k)%nat) sizes ->
  (length (@cat_params ROps ps) <= list_sum sizes)%nat /\
  ((exists j k, nth_error sizes j = Some k /\ (1 < k)%nat /\ nth_error ps j = Some None) -> (length (@cat_params ROps ps) < list_sum sizes)%nat).
Proof.
  intros sizes ps H. induction H as [|k o sizes ps Ho H IH]; intros Hk.
  - split; [cbn; lia|]. intros (j & k & Hj & _). destruct j; discriminate.
  - apply Forall_cons_iff in Hk. destruct Hk as (Hk & Hks). destruct (IH Hks) as (I1 & I2).
    assert (E : length (@cat_params ROps (o :: ps)) = (match o with Some v => length v | None => 1 end + length (@cat_params ROps ps))%nat).
    { unfold cat_params. cbn [map concat]. rewrite app_length. now destruct o. }
    rewrite E. clear E. change (list_sum (k :: sizes)) with (k + list_sum sizes)%nat.
    assert (Hle : (match o with Some v => length v | None => 1%nat end <= k)%nat) by (destruct o; cbn in *; lia).
    split; [now apply Nat.add_le_mono|].
    intros ([|j] & k' & Hj & Hk' & Hn).
    + injection Hj as <-. injection Hn as ->. lia.
    + apply Nat.add_le_lt_mono; [exact Hle|]. apply I2. exists j, k'. auto.
Qed.

Lemma C67_unused_parameter_refuted_pf :
  forall fuel (F : adj_field (K := ROps)) sizes n s atol rtol t_sol sol gt gx xT lT tT,
  (0 < n)%nat -> Forall (fun k => (0 < k)%nat) sizes ->
  (forall t y w, length w = n -> products_of sizes (af_vjp_p F t y w)) ->
  (forall t y, length y = n -> length (af_f F t y) = n) ->
  (forall t y w, length w = n -> length (af_vjp_x F t y w) = n) -> af_dg F = None ->
  (exists j k, nth_error sizes j = Some k /\ (1 < k)%nat /\ forall t y w, nth_error (af_vjp_p F t y w) j = Some None) ->
  (2 <= length t_sol)%nat -> length gx = length t_sol -> length gt = length t_sol ->
  last t_sol 0 = tT -> sol <> [] -> last sol [] = xT -> length xT = n -> last gx [] = lT -> length lT = n ->
  @adjoint_backward ROps fuel F (list_sum sizes) s atol rtol t_sol sol gt gx = Err RuntimeError.
Proof.
  intros fuel F sizes n s atol rtol t_sol sol gt gx xT lT tT Hn Hpos HP Hf HJ Hdg (j & k & Hj & Hk & Hnone) H2 Hgx Hgt EtT Hsn ExT HxT ElT HlT.
  unfold adjoint_backward. change (num ROps) with R in *. change (vec ROps) with rvl in *.
  assert (Hgn : gx <> []) by (intros ->; cbn in Hgx; lia). assert (Htn : t_sol <> []) by (intros ->; cbn in H2; lia).
  assert (Hgtn : gt <> []) by (intros ->; cbn in Hgt; lia).
  destruct (exists_last Hsn) as (sol0 & xT' & ->). destruct (exists_last Htn) as (ts0 & tT' & ->).
  destruct (exists_last Hgn) as (gx0 & lT' & ->). destruct (exists_last Hgtn) as (gt0 & gtT & ->).
  rewrite last_last in *. subst xT' tT' lT'. rewrite !app_length in *. cbn [length] in *.
  destruct (exists_last (l := ts0)) as (ts1 & tp & ->). { intros ->. cbn in H2. lia. }
  destruct (exists_last (l := gx0)) as (gx1 & gp & ->). { intros ->. rewrite app_length in Hgx. cbn in Hgx. lia. }
  destruct (exists_last (l := gt0)) as (gt1 & gtp & ->). { intros ->. rewrite app_length in Hgt. cbn in Hgt. lia. }
  unfold pylast. rewrite !rev_app_distr. cbn [rev app rbind adj_loop]. rewrite HxT.
  set (A := xT ++ lT ++ @vzeros ROps (list_sum sizes) ++ [@vdot ROps lT (af_f F tT xT)]).
  assert (E : forall gp gtp, @adj_interval ROps fuel F n (list_sum sizes) s atol rtol tp tT gp gtp A = Err RuntimeError).
  { intros g0 gt0. unfold adj_interval.
    assert (Ef : firstn n A = xT) by (unfold A; rewrite firstn_app, firstn_all2, HxT, Nat.sub_diag by lia; cbn; apply app_nil_r).
    assert (Eg : firstn n (skipn n A) = lT) by (apply (block_app n n xT lT); auto).
    unfold adjoint_dynamics. change (num ROps) with R in *. change (vec ROps) with rvl in *. rewrite Ef, Eg.
    assert (L3 : length (@vopp ROps lT) = n) by (now apply vopp_len).
    destruct (cat_params_short sizes _ (HP tT xT (@vopp ROps lT) L3) Hpos) as (_ & Hs).
    assert (Hlt : (length (@cat_params ROps (af_vjp_p F tT xT (@vopp ROps lT))) < list_sum sizes)%nat) by (apply Hs; exists j, k; auto).
    assert (LA : length A = (n + (n + (list_sum sizes + 1)))%nat).
    { unfold A. pose proof (vzeros_len (list_sum sizes)) as Hz. rewrite !app_length. change (num ROps) with R in *. change (vec ROps) with rvl in *. rewrite Hz, HxT, HlT. reflexivity. }
    unfold dlam. rewrite Hdg.
    assert (Eb : Nat.eqb (length (af_f F tT xT ++ af_vjp_x F tT xT (@vopp ROps lT) ++ @cat_params ROps (af_vjp_p F tT xT (@vopp ROps lT)) ++
       [match af_vjp_t F tT xT (@vopp ROps lT) with Some d => d | None => @nQ ROps 0 end])) (length A) = false).
    { apply Nat.eqb_neq. rewrite !app_length, LA. pose proof (Hf tT xT HxT) as E1. pose proof (HJ tT xT _ L3) as E2.
      change (num ROps) with R in *. change (vec ROps) with rvl in *. rewrite E1, E2. cbn [length]. lia. }
    change (num ROps) with R in *. change (vec ROps) with rvl in *. rewrite Eb. reflexivity. }
  rewrite E. reflexivity.
Qed.

(** a field with a used parameter tensor of 1 element and an unused one of 2 meets the hypotheses *)
Lemma C67_ex_pf : products_of [1%nat; 2%nat] [Some [5]; None] /\ @cat_params ROps [Some [5]; None] = [5; Q2R 0] /\
  nth_error [1%nat; 2%nat] 1 = Some 2%nat /\ nth_error [Some [5]; None] 1 = Some (@None rvl).
Proof. repeat constructor. Qed.

(** C68: the gradient returned for t_span always has two entries, whatever the length of t_span *)
Lemma C68_two_entries_refuted_pf :
  forall (K : NumOps) fuel (F : adj_field (K := K)) nmu s atol rtol t_sol sol gt gx out,
  @adjoint_backward K fuel F nmu s atol rtol t_sol sol gt gx = Ok out -> length (ao_tspan out) = 2%nat.
Proof.
  intros K fuel F nmu s atol rtol t_sol sol gt gx out H. unfold adjoint_backward in H.
  destruct (pylast sol); try discriminate. destruct (pylast gx); try discriminate. destruct (pylast t_sol); try discriminate. cbn [rbind] in H.
  destruct (adj_loop _ _ _ _ _ _ _ _ _ _ _ _) as [[A dL]| |]; try discriminate. injection H as <-. reflexivity.
Qed.

(** C68, the entry for the initial time has the wrong sign: f(t, x) = x, euler, loss x(t1).  The loss
    (1 + t1 - t0) x0 falls with t0 at rate x0 > 0, the returned entry is positive. *)
Lemma C68_start_time_refuted_pf :
  forall fuel fuel' atol rtol atol' rtol' interp x0 t0 t1 gt0 gt1,
  0 < x0 -> t0 < t1 -> t1 - t0 < 1 -> separated [t0; t1] ->
  let solve t0 := snd (@odeint ROps fuel (af_f scalar_field) [x0] (@TTensor ROps [t0; t1]) (Euler ROps) atol rtol interp false [] None) in
  exists sol out d0 d1, solve t0 = Ok ([t0; t1], sol) /\
    @adjoint_backward ROps fuel' scalar_field 1 (Euler ROps) atol' rtol' [t0; t1] sol [gt0; gt1] [[0]; [1]] = Ok out /\
    ao_tspan out = [d0; d1] /\ 0 < d0 /\
    forall t0', t0' <= t1 -> separated [t0'; t1] -> exists sol', solve t0' = Ok ([t0'; t1], sol') /\
      pairing [[0]; [1]] sol' - pairing [[0]; [1]] sol = - x0 * (t0' - t0).
Proof.
  intros fuel fuel' atol rtol atol' rtol' interp x0 t0 t1 gt0 gt1 Hx Ht Hh Hsep solve.
  assert (Hsol : forall t, t <= t1 -> separated [t; t1] -> solve t = Ok ([t; t1], [[x0]; [x0 + (t1 - t) * x0]])).
  { intros t Hle Hs. unfold solve. pose proof C05_euler_pf as (Hfix & Hs').
    destruct (Hs' 1%nat (af_f scalar_field)) as (one & lg & Hst & Hone); [intros ? y Hy; exact Hy|].
    rewrite (C01_fixed_trajectory_pf fuel (Euler ROps) (af_f scalar_field) one lg) by (auto; lra).
    cbn [one_step_traj]. rewrite Hone by reflexivity. do 4 f_equal.
    unfold erk_step, erk_stages, to_R_rows, q_euler, to_R, qb_euler, comb, axpy. cbn. rewrite ?Q2R_0', ?Q2R_1'. f_equal. ring. }
  exists [[x0]; [x0 + (t1 - t0) * x0]].
  set (x1 := x0 + (t1 - t0) * x0).
  assert (Hsep' : separated [t1; t0]) by (apply (pair_separated [] [] t0 t1); exact Hsep).
  set (A := [x1; 1; @nQ ROps 0; @vdot ROps [1] [x1]]).
  destruct (two_point fuel' (Euler ROps) _ _ 4 (@adjoint_dynamics ROps scalar_field 1) A t1 t0 atol' rtol' (Some 2%nat) C05_euler_pf) as (tm & E).
  { exact (dyn_on 1 1 [[1]] scalar_field (proj1 scalar_jac) scalar_vjp eq_refl (proj1 (proj2 scalar_jac)) (fun _ _ _ _ => eq_refl)). }
  { reflexivity. }
  { exact Hsep'. }
  assert (EA : erk_step (to_R_rows q_euler) (to_R qb_euler) (@adjoint_dynamics ROps scalar_field 1) t1 (t0 - t1) A
     = [x1 + (t0 - t1) * x1; 1 + (t1 - t0); 0; x1]).
  { unfold A, adjoint_dynamics, erk_step, erk_stages, to_R_rows, q_euler, to_R, qb_euler, comb, axpy, vdot, vsum, dlam, cat_params. cbn. rewrite ?Q2R_0', ?Q2R_1'.
    repeat (f_equal; [ring|]). f_equal. ring. }
  rewrite EA in E.
  eexists. exists ((1 + (t1 - t0)) * (x1 + (t0 - t1) * x1)), (@vdot ROps [1] [x1]).
  split; [apply Hsol; auto; lra|]. split; [|split; [|split]].
  - unfold adjoint_backward. cbn [pylast rev app rbind adj_loop length].
    etransitivity; [|reflexivity]. unfold adj_interval.
    cbn [rbind]. 
    match goal with |- context [odeint ?a ?b ?c ?d ?e ?f ?g ?h ?i ?j ?k] => 
      replace (snd (odeint a b c d e f g h i j k)) with (Ok (tm, [A; [x1 + (t0 - t1) * x1; 1 + (t1 - t0); 0; x1]])) by (symmetry; exact E) end.
    reflexivity.
  - cbn [ao_tspan]. f_equal. unfold vdot, vsum. cbn. rewrite Q2R_0'. ring.
  - assert (0 < x1) by (unfold x1; nra). apply Rmult_lt_0_compat; nra.
  - intros t0' Hle Hs. eexists. split; [now apply Hsol|]. unfold pairing, dot, x1. cbn. ring.
Qed.

(** C69: the interpolated adjoint uses the gradients of the loss with respect to the last returned state and
    to the first len(t_span) - 1 returned states only.  With an adaptive solver the returned
    trajectory has more states (all evaluations). *)
Lemma C69_rows_ignored_pf :
  forall (K : NumOps) fuel (F : adj_field (K := K)) path nmu s atol rtol t_span gx gx',
  pylast gx = pylast gx' -> firstn (length t_span - 1) gx = firstn (length t_span - 1) gx' ->
  @interp_adjoint_backward K fuel F path nmu s atol rtol t_span gx = @interp_adjoint_backward K fuel F path nmu s atol rtol t_span gx'.
Proof.
  intros K fuel F path nmu s atol rtol t_span gx gx' E1 E2. unfold interp_adjoint_backward. rewrite <- E1. destruct (pylast gx) as [lT| |]; auto. cbn [rbind].
  assert (G : forall k A n, (k <= length t_span - 1)%nat -> @interp_loop_adj K fuel F path n nmu s atol rtol t_span gx k A = @interp_loop_adj K fuel F path n nmu s atol rtol t_span gx' k A).
  { induction k as [|j IH]; intros A n Hk; [reflexivity|]. cbn [interp_loop_adj].
    assert (Eg : pyget gx j = pyget gx' j).
    { unfold pyget. replace (nth_error gx j) with (nth_error (firstn (length t_span - 1) gx) j) by (apply nth_firstn_lt; lia).
      rewrite E2. now rewrite nth_firstn_lt by lia. }
    rewrite Eg. destruct (pyget t_span (S j)); auto. destruct (pyget t_span j); auto. destruct (pyget gx' j); auto. cbn [rbind].
    destruct (interp_interval _ _ _ _ _ _ _ _ _ _ _ _); auto. cbn [rbind]. apply IH. lia. }
  now rewrite G by lia.
Qed.

(** C69 fails: f(t, x) = 0, dopri5, t_span = [0, 1], x = 1.  The forward pass returns 8 states, all equal to
    x; for the loss "second returned state" the gradient is 1, the interpolated adjoint returns 0. *)
Lemma C69_interpolated_adaptive_refuted_pf :
  forall pw : float -> float -> float,
  let F := @MkAF (FloatOps pw) (fun _ _ => [0%float]) (fun _ _ _ => [0%float]) (fun _ _ _ => None) (fun _ _ _ => [None]) None in
  let gx := [[0%float]; [1%float]; [0%float]; [0%float]; [0%float]; [0%float]; [0%float]; [0%float]] in
  (exists times, snd (@odeint (FloatOps pw) 20 (af_f F) [1%float] (@TTensor (FloatOps pw) [0%float; 1%float]) (DormandPrince45 (FloatOps pw))
      0.001%float 0.001%float false true [] None) = Ok (times, repeat [1%float] 8)) /\
  forall path, @interp_adjoint_backward (FloatOps pw) 20 F path 1 (DormandPrince45 (FloatOps pw)) 0.001%float 0.001%float
      [0%float; 1%float] gx = Ok ([0%float], [0%float]).
Proof.
  intros pw F gx. split.
  - eexists. vm_compute. reflexivity.
  - intros path. vm_compute. reflexivity.
Qed.
