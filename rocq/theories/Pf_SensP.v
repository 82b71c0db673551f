(** Proofs about the parameter gradients of the adjoint sensitivity. *)
From Coq Require Import ZArith QArith Qreals Reals Lra Lia List Bool.
From Verif Require Import Num Py Tensor M_SolversOde M_Utils M_Odeint M_Root M_Sens Spec_Ode Spec_Trees Spec_RK Spec_Root Spec_Sens.
From Verif Require Import L_Base L_Fixed L_Vec L_Steps L_Steps2 L_Fixed2 L_Root L_Sens L_SensP Pf_Fixed Pf_Sens.
Import ListNotations.
Local Open Scope R_scope.

Lemma skipn_add {A} : forall j k (l : list A), skipn j (skipn k l) = skipn (k + j) l.
Proof. intros j. induction k as [|k IH]; intros l; [reflexivity|]. destruct l; [now rewrite !skipn_nil|]. cbn. apply IH. Qed.

Lemma block_app3 (lo p q : nat) (a b c d : rvl) : length a = lo -> length b = p -> length c = q -> block lo (p + q) (a ++ b ++ c ++ d) = b ++ c.
Proof. intros Ha Hb Hc. rewrite (app_assoc b). apply block_app; auto. rewrite app_length. lia. Qed.

Section LTI.
Context (n m : nat) (M N : list rvl) (F : adj_field (K := ROps)).
Hypothesis HM : is_matrix n n M.
Hypothesis HN : is_matrix n m N.
Hypothesis HJ : transposed_product n M (af_vjp_x F).
Hypothesis HP : forall t x w, length w = n -> length (@cat_params ROps (af_vjp_p F t x w)) = m /\
  forall q, length q = m -> dot (@cat_params ROps (af_vjp_p F t x w)) q = dot w (apply N q).
Hypothesis Hdg : af_dg F = None.
Hypothesis Hf : field_on n (af_f F).

Let L := aug_lin n m M N.
Let T (w : rvl) : rvl := @vecmat ROps n (block 0 n w) M ++ @vecmat ROps m (block 0 n w) N.

Lemma vjp_M t x w : length w = n -> af_vjp_x F t x w = @vecmat ROps n w M.
Proof. intros Hw. exact (vjp_T n M F HM HJ t x w Hw). Qed.
Lemma vjp_N t x w : length w = n -> @cat_params ROps (af_vjp_p F t x w) = @vecmat ROps m w N.
Proof.
  intros Hw. destruct (HP t x w Hw) as (H1 & H2). apply (dot_ext m); auto; [apply vecmat_len; apply HN|].
  intros v Hv. rewrite H2 by auto. symmetry. apply vecmat_dot. apply HN.
Qed.
Lemma T_len' w : length (T w) = (n + m)%nat.
Proof. unfold T. rewrite app_length. f_equal; apply vecmat_len; [apply HM|apply HN]. Qed.
Lemma split_block (v : rvl) : length v = (n + m)%nat -> v = block 0 n v ++ block n m v.
Proof. intros H. unfold block. cbn [skipn]. rewrite (firstn_all2 (n := m)) by (rewrite skipn_length; lia). symmetry. apply firstn_skipn. Qed.
Lemma T_dot' w v : length w = (n + m)%nat -> length v = (n + m)%nat -> dot (T w) v = dot w (L v).
Proof.
  intros Hw Hv. unfold T, L, aug_lin. rewrite (split_block v Hv) at 1. rewrite (split_block w Hw) at 3.
  rewrite !dot_app.
  - rewrite (dot_comm (block n m w)), dot_zero.
    pose proof (vecmat_dot n M (block 0 n w) (block 0 n v) (proj2 HM)) as E1. pose proof (vecmat_dot m N (block 0 n w) (block n m v) (proj2 HN)) as E2.
    change (num ROps) with R in *. rewrite E1, E2. rewrite (dot_comm _ (plus_vec _ _)), dot_plus_l by (rewrite !apply_len; destruct HM, HN; congruence).
    rewrite (dot_comm (apply M _)), (dot_comm (apply N _)). lra.
  - rewrite block_len by lia. symmetry. apply plus_len; rewrite apply_len; [apply HM|apply HN].
  - rewrite block_len by lia. apply vecmat_len. apply HM.
Qed.
Lemma block_vopp lo k (w : rvl) : block lo k (@vopp ROps w) = @vopp ROps (block lo k w).
Proof. unfold block, vopp. now rewrite skipn_map, firstn_map. Qed.
Lemma vecmat_opp c (w : rvl) (J : list rvl) : Forall (fun r => length r = c) J -> @vecmat ROps c (@vopp ROps w) J = @vopp ROps (@vecmat ROps c w J).
Proof.
  intros HJ'. apply (dot_ext c); [now apply vecmat_len|apply vopp_len; now apply vecmat_len|].
  intros v Hv. rewrite vecmat_dot, !neg_vopp_dot, vecmat_dot; auto.
Qed.
Lemma vopp_app (a c : rvl) : @vopp ROps (a ++ c) = @vopp ROps a ++ @vopp ROps c.
Proof. unfold vopp. apply map_app. Qed.
Lemma T_opp' w : T (@vopp ROps w) = @vopp ROps (T w).
Proof.
  unfold T. rewrite block_vopp. pose proof (vecmat_opp n (block 0 n w) M (proj2 HM)) as E1. pose proof (vecmat_opp m (block 0 n w) N (proj2 HN)) as E2.
  change (num ROps) with R in *. change (vec ROps) with rvl in *. rewrite E1, E2. symmetry. apply vopp_app.
Qed.

Lemma back_step' rows b t t' h l u : length l = (n + m)%nat -> length u = (n + m)%nat ->
  dot (erk_step rows b (fun _ l => T (@vopp ROps l)) t (- h) l) u = dot l (erk_step rows b (fun _ => L) t' h u).
Proof.
  intros Hl Hu.
  etransitivity; [apply (f_equal (fun z => dot z u)); symmetry; exact (erk_step_neg rows b (fun _ l => T (@vopp ROps l)) t h l)|].
  rewrite (erk_ext (n + m) rows b _ (fun _ => T)); auto.
  - apply (erk_adjoint (n + m) L T); auto; [now apply aug_lin_lin|intros; apply T_len'|intros; now apply T_dot'].
  - intros t0 x Hx. unfold neg_field. apply vopp_len. apply T_len'.
  - intros t0 x Hx. unfold neg_field. rewrite T_opp'. apply vopp_vopp.
Qed.

Let asz := asize n m.
Lemma HP1 : forall t x w, length w = n -> length (@cat_params ROps (af_vjp_p F t x w)) = m.
Proof. intros. now apply HP. Qed.
Lemma dyn_on' : field_on asz (@adjoint_dynamics ROps F n).
Proof. exact (dyn_on n m M F HM HJ Hdg Hf HP1). Qed.

Lemma firstn_block k lo j (A : rvl) : (k <= j)%nat -> firstn k (skipn lo A) = block 0 k (block lo j A).
Proof. intros H. unfold block. cbn [skipn]. rewrite firstn_firstn. now rewrite Nat.min_l by lia. Qed.

Lemma dyn_block' t A : length A = asz -> block n (n + m) (@adjoint_dynamics ROps F n t A) = T (@vopp ROps (block n (n + m) A)).
Proof.
  intros HA. unfold adjoint_dynamics, asz, asize in *.
  assert (L1 : length (firstn n A) = n) by (rewrite firstn_length; lia).
  assert (L2 : length (firstn n (skipn n A)) = n) by (rewrite firstn_length, skipn_length; lia).
  assert (L3 : length (@vopp ROps (firstn n (skipn n A))) = n) by (now apply vopp_len).
  unfold dlam. rewrite Hdg. rewrite vjp_M by exact L3. rewrite vjp_N by exact L3.
  unfold T. rewrite block_vopp, <- (firstn_block n n (n + m)) by lia.
    apply (block_app3 n n m); [now apply Hf|apply vecmat_len; apply HM|apply vecmat_len; apply HN].
Qed.

Context (fuel : nat) (s : solver ROps (vec ROps)) (rows : list (R * rvl)) (b : rvl) (atol rtol : R).
Hypothesis Hs : erk_solver s rows b.

Lemma pyslice_mu' (A : rvl) : length A = asz -> pyslice (Some (- Z.of_nat m - 1)%Z) (Some (-1)%Z) A = block (n + n) m A.
Proof.
  intros HA. unfold pyslice, slice_bound, block, asz, asize in *. rewrite HA.
  replace (- Z.of_nat m - 1 <? 0)%Z with true by (symmetry; apply Z.ltb_lt; lia).
  cbn [Z.ltb Z.compare]. f_equal; [|f_equal]; lia.
Qed.

Lemma block_split_mu (A : rvl) : length A = asz -> block n (n + m) A = firstn n (skipn n A) ++ block (n + n) m A.
Proof.
  intros HA. unfold asz, asize, block in *. 
  rewrite <- (firstn_skipn n (firstn (n + m) (skipn n A))) at 1. f_equal.
  - rewrite firstn_firstn. f_equal. lia.
  - rewrite skipn_firstn_comm, skipn_add. f_equal. lia.
Qed.

Lemma adj_interval_par t_prev t_i g gt A : separated [t_i; t_prev] -> length A = asz -> length g = n ->
  exists A' dL, @adj_interval ROps fuel F n m s atol rtol t_prev t_i g gt A = Ok (A', dL) /\ length A' = asz /\
  forall u, length u = (n + m)%nat ->
    dot (block n (n + m) A') u = dot (block n (n + m) A) (erk_step rows b (fun _ => L) t_prev (t_i - t_prev) u) + dot (g ++ repeat 0 m) u.
Proof.
  intros Hsep HA Hg. unfold adj_interval.
  assert (E0 : Nat.eqb (length (@adjoint_dynamics ROps F n t_i A)) (length A) = true).
  { apply Nat.eqb_eq. etransitivity; [apply dyn_on', HA|symmetry; exact HA]. }
  change (num ROps) with R in *. change (vec ROps) with rvl in *. rewrite E0. cbn [negb].
  destruct (two_point fuel s rows b asz (@adjoint_dynamics ROps F n) A t_i t_prev atol rtol (Some (n + n)%nat) Hs dyn_on' HA Hsep) as (tm & E).
  change (num ROps) with R in *. change (vec ROps) with rvl in *. rewrite E. cbn [rbind snd].
  set (A1 := erk_step rows b (@adjoint_dynamics ROps F n) t_i (t_prev - t_i) A).
  assert (H1 : length A1 = asz) by (apply erk_step_len; [exact dyn_on'|exact HA]).
  cbn [pylast rev app rbind].
  destruct (pylast_some A1) as (lt & ->). { intros E1. rewrite E1 in H1. unfold asz, asize in H1. cbn in H1. lia. }
  cbn [rbind]. do 2 eexists. split; [reflexivity|].
  pose proof (pyslice_mu' A1 H1) as Emu. change (num ROps) with R in *. change (vec ROps) with rvl in *. rewrite Emu.
  assert (L1 : length (firstn n A1) = n) by (rewrite firstn_length; unfold asz, asize in H1; lia).
  assert (L2 : length (firstn n (skipn n A1)) = n) by (rewrite firstn_length, skipn_length; unfold asz, asize in H1; lia).
  assert (L4 : length (@vadd ROps (firstn n (skipn n A1)) g) = n) by (now apply vadd_len).
  assert (L5 : length (block (n + n) m A1) = m) by (apply block_len; unfold asz, asize in H1; lia).
  split.
  - rewrite !app_length. change (num ROps) with R in *. change (vec ROps) with rvl in *.
    rewrite L1, L4, L5. unfold asz, asize. cbn. lia.
  - intros u Hu. rewrite (block_app3 n n m) by auto.
    rewrite (split_block u Hu) at 1. rewrite dot_app by (rewrite block_len by lia; exact L4).
    rewrite vadd_plus, dot_plus_l by lia.
    assert (Eg : dot (g ++ repeat 0 m) u = dot g (block 0 n u)).
    { rewrite (split_block u Hu) at 1. rewrite dot_app by (rewrite block_len by lia; exact Hg). rewrite dot_zero. lra. }
    rewrite Eg.
    assert (Em : dot (firstn n (skipn n A1)) (block 0 n u) + dot (block (n + n) m A1) (block n m u) = dot (block n (n + m) A1) u).
    { rewrite (block_split_mu A1 H1). rewrite (split_block u Hu) at 3. rewrite dot_app; [reflexivity|]. rewrite block_len by lia. exact L2. }
    assert (Es : dot (block n (n + m) A1) u = dot (block n (n + m) A) (erk_step rows b (fun _ => L) t_prev (t_i - t_prev) u)).
    { unfold A1. rewrite (block_step n (n + m) asz rows b _ (fun _ l => T (@vopp ROps l))) by (first [exact dyn_on' | exact HA | intros; now apply dyn_block']).
      replace (t_prev - t_i) with (- (t_i - t_prev)) by ring. apply back_step'; auto.
      apply block_len. unfold asz, asize in HA. lia. }
    lra.
Qed.

Notation pad gs := (map (fun k : rvl => k ++ repeat 0 m) gs).

Lemma adj_loop_par : forall rpre grpre gtpre t g gt suf gsuf A dL,
  length rpre = length grpre -> length rpre = length gtpre ->
  separated (rev rpre ++ t :: suf) -> length A = asz -> Forall (fun g => length g = n) grpre ->
  (forall u, length u = (n + m)%nat -> dot (block n (n + m) A) u = pairing (pad (g :: gsuf)) (one_step_traj (erk_step rows b (fun _ => L)) u (t :: suf))) ->
  exists A' dL', @adj_loop ROps fuel F n m s atol rtol (t :: rpre) (g :: grpre) (gt :: gtpre) A dL = Ok (A', dL') /\ length A' = asz /\
  forall u, length u = (n + m)%nat -> dot (block n (n + m) A') u
    = pairing (pad (rev grpre ++ g :: gsuf)) (one_step_traj (erk_step rows b (fun _ => L)) u (rev rpre ++ t :: suf)).
Proof.
  induction rpre as [|t1 rpre IH]; intros [|g1 grpre] [|gt1 gtpre] t g gt suf gsuf A dL E1 E2 Hsep HA Hg HI; try discriminate.
  - exists A, dL. split; [reflexivity|]. split; [exact HA|]. exact HI.
  - cbn [rev] in *. rewrite <- !app_assoc in *. cbn [app] in *.
    apply Forall_cons_iff in Hg. destruct Hg as (Hg1 & Hg).
    destruct (adj_interval_par t1 t g1 gt1 A (pair_separated _ _ _ _ Hsep) HA Hg1) as (A1 & dL1 & Ea & HA1 & Hd).
    destruct (IH grpre gtpre t1 g1 gt1 (t :: suf) (g :: gsuf) A1 dL1 ltac:(now injection E1) ltac:(now injection E2) Hsep HA1 Hg) as (A' & dL' & El & HA' & HI').
    { intros u Hu. rewrite Hd by auto. rewrite HI.
      - cbn [one_step_traj pairing map]. apply Rplus_comm.
      - apply erk_step_len; auto. apply lin_field. now apply aug_lin_lin. }
    exists A', dL'. split; [|split; [exact HA'|exact HI']].
    cbn [adj_loop]. etransitivity; [apply (f_equal (fun z => rbind z _)); exact Ea|]. cbn [rbind]. exact El.
Qed.

Lemma adjoint_backward_par t_sol sol gt gx :
  separated t_sol -> t_sol <> [] -> length gx = length t_sol -> length gt = length t_sol ->
  length (last sol []) = n -> sol <> [] -> Forall (fun g => length g = n) gx ->
  exists out, @adjoint_backward ROps fuel F m s atol rtol t_sol sol gt gx = Ok out /\ length (ao_x out) = n /\ length (ao_params out) = m /\
  forall u q, length u = n -> length q = m -> dot (ao_x out) u + dot (ao_params out) q
     = pairing (pad gx) (one_step_traj (erk_step rows b (fun _ => L)) (u ++ q) t_sol).
Proof.
  intros Hsep Hne Hgx Hgt Hsol Hsn Hg. unfold adjoint_backward.
  destruct (exists_last Hsn) as (sol0 & xT & ->). rewrite last_last in Hsol.
  destruct (exists_last Hne) as (ts0 & tT & ->).
  assert (Hgn : gx <> []) by (intros ->; rewrite app_length in Hgx; cbn in Hgx; lia).
  assert (Hgtn : gt <> []) by (intros ->; rewrite app_length in Hgt; cbn in Hgt; lia).
  destruct (exists_last Hgn) as (gx0 & lT & ->). destruct (exists_last Hgtn) as (gt0 & gtT & ->).
  rewrite !app_length in *. cbn [length] in *.
  unfold pylast. rewrite !rev_app_distr. cbn [rev app rbind].
  apply Forall_app in Hg. destruct Hg as (Hg & HlT). apply Forall_cons_iff in HlT. destruct HlT as (HlT & _).
  change (num ROps) with R in *. change (vec ROps) with rvl in *. rewrite Hsol.
  set (ltT := @vdot ROps lT (af_f F tT xT)).
  destruct (adj_loop_par (rev ts0) (rev gx0) (rev gt0) tT lT gtT [] [] (xT ++ lT ++ @vzeros ROps m ++ [ltT]) ltT) as (A' & dL' & E & HA' & HI).
  - rewrite !rev_length. lia.
  - rewrite !rev_length. lia.
  - rewrite rev_involutive. exact Hsep.
  - pose proof (vzeros_len m) as Hz. rewrite !app_length. change (num ROps) with R in *. change (vec ROps) with rvl in *. rewrite Hz. unfold asz, asize. cbn. lia.
  - apply Forall_rev. exact Hg.
  - intros u Hu. assert (Ez : @vzeros ROps m = repeat 0 m) by (unfold vzeros; rops; now rewrite Q2R_0').
    change (num ROps) with R in *. change (vec ROps) with rvl in *. rewrite Ez.
    rewrite (block_app3 n n m) by (auto; apply repeat_length). cbn [map pairing one_step_traj]. lra.
  - change (num ROps) with R in *. change (vec ROps) with rvl in *.
    eexists. split; [etransitivity; [apply (f_equal (fun z => rbind z _)); exact E|]; reflexivity|].
    cbn [ao_x ao_params]. rewrite rev_involutive in HI. rewrite rev_involutive in HI.
    pose proof (pyslice_mu' A' HA') as Emu. change (num ROps) with R in *. change (vec ROps) with rvl in *. rewrite Emu.
    assert (L2 : length (firstn n (skipn n A')) = n) by (rewrite firstn_length, skipn_length; unfold asz, asize in HA'; lia).
    split; [exact L2|]. split; [apply block_len; unfold asz, asize in HA'; lia|].
    intros u q Hu Hq. rewrite <- HI by (rewrite app_length; lia). rewrite (block_split_mu A' HA'). rewrite dot_app by (rewrite Hu; exact L2). reflexivity.
Qed.
End LTI.

(** C70: for f(t, x, p) = M x + N p + c(t) and every explicit Runge-Kutta fixed-step solver the adjoint
    returns exactly the gradient of the loss with respect to the initial state and the parameters:
    [gx] are the gradients with respect to the returned states. *)
Lemma C70_parameter_gradient_pf :
  forall fuel fuel' s rows b n m M N (f : rvl -> R -> rvl -> rvl) p (F : adj_field (K := ROps)) x t0 t1 ts gt gx atol rtol atol' rtol' interp,
  erk_solver s rows b -> is_matrix n n M -> is_matrix n m N ->
  (forall p, length p = m -> field_on n (f p)) ->
  (forall p q t y z, length p = m -> length q = m -> length y = n -> length z = n ->
     minus_vec (f p t y) (f q t z) = plus_vec (apply M (minus_vec y z)) (apply N (minus_vec p q))) ->
  af_f F = f p -> length p = m -> transposed_product n M (af_vjp_x F) ->
  (forall t y w, length w = n -> length (@cat_params ROps (af_vjp_p F t y w)) = m /\
     forall q, length q = m -> dot (@cat_params ROps (af_vjp_p F t y w)) q = dot w (apply N q)) ->
  af_dg F = None -> separated (t0 :: t1 :: ts) -> t0 <= t1 -> length x = n ->
  length gx = length (t0 :: t1 :: ts) -> length gt = length (t0 :: t1 :: ts) -> Forall (fun g => length g = n) gx ->
  let solve p x := snd (@odeint ROps fuel (f p) x (@TTensor ROps (t0 :: t1 :: ts)) s atol rtol interp false [] None) in
  exists t_sol sol out, solve p x = Ok (t_sol, sol) /\
    @adjoint_backward ROps fuel' F m s atol' rtol' t_sol sol gt gx = Ok out /\ length (ao_x out) = n /\ length (ao_params out) = m /\
    forall p' x', length p' = m -> length x' = n -> exists sol', solve p' x' = Ok (t_sol, sol') /\
      pairing gx sol' - pairing gx sol = dot (ao_x out) (minus_vec x' x) + dot (ao_params out) (minus_vec p' p).
Proof.
  intros fuel fuel' s rows b n m M N f p F x t0 t1 ts gt gx atol rtol atol' rtol' interp Hs HM HN Hf Hd Ef Hp HJ HP Hdg Hsep Hle Hx Hgx Hgt Hg solve.
  pose proof Hs as (Hfix & Hs').
  assert (Hsol : forall q y, length q = m -> length y = n -> solve q y = Ok (t0 :: t1 :: ts, one_step_traj (erk_step rows b (f q)) y (t0 :: t1 :: ts))).
  { intros q y Hq Hy. destruct (Hs' n (f q) (Hf q Hq)) as (one & lg & Hst & Hone). unfold solve.
    rewrite (C01_fixed_trajectory_pf fuel s (f q) one lg) by auto. do 2 f_equal.
    apply (one_step_traj_ext (erk_step rows b (f q)) one (fun z => length z = n)); auto.
    intros t h z Hz. apply erk_step_len; auto. }
  set (sol := one_step_traj (erk_step rows b (f p)) x (t0 :: t1 :: ts)).
  assert (Hall : Forall (fun y : rvl => length y = n) sol) by (apply traj_rows; auto).
  assert (Hsn : sol <> []) by (unfold sol; cbn; discriminate).
  assert (HfF : field_on n (af_f F)) by (rewrite Ef; auto).
  destruct (adjoint_backward_par n m M N F HM HN HJ HP Hdg HfF fuel' s rows b atol' rtol' Hs (t0 :: t1 :: ts) sol gt gx) as (out & E & Hl & Hl2 & HI); auto; try discriminate.
  { destruct (exists_last Hsn) as (l0 & y & Ey). rewrite Ey in *. rewrite last_last. apply Forall_app in Hall. destruct Hall as (_ & H1). now apply Forall_cons_iff in H1. }
  exists (t0 :: t1 :: ts), sol, out. split; [now apply Hsol|]. split; [exact E|]. split; [exact Hl|]. split; [exact Hl2|].
  intros p' x' Hp' Hx'. exists (one_step_traj (erk_step rows b (f p')) x' (t0 :: t1 :: ts)). split; [now apply Hsol|].
  unfold sol. rewrite HI by (apply minus_len; auto).
  set (g := fun t (v : rvl) => f (block n m v) t (block 0 n v) ++ repeat 0 m).
  assert (Hgq : forall q, length q = m -> forall t y, length y = n -> g t (y ++ q) = f q t y ++ repeat 0 m).
  { intros q Hq t y Hy. unfold g. f_equal. rewrite (block0_app n) by auto. f_equal.
    unfold block. rewrite skipn_app, skipn_all2 by lia. rewrite Hy, Nat.sub_diag. cbn. apply firstn_all2. lia. }
  rewrite <- (ext_pairing n m rows b g (f p')) with (q := p') by auto.
  rewrite <- (ext_pairing n m rows b g (f p)) with (q := p) by auto.
  rewrite (traj_pairing_minus (n + m) g (aug_lin n m M N)).
  - rewrite (minus_app x' x p' p) by (exact (eq_trans Hx' (eq_sym Hx))). reflexivity.
  - intros t v Hv. unfold g. rewrite app_length, repeat_length. f_equal. apply Hf; apply block_len; lia.
  - now apply aug_lin_lin.
  - intros t y z Hy Hz. unfold g, aug_lin.
    rewrite minus_app.
    2:{ transitivity n; [|symmetry]; apply Hf; apply block_len; lia. }
    rewrite Hd by (apply block_len; lia). f_equal.
    + rewrite !block_minus by lia. reflexivity.
    + clear. unfold minus_vec. induction m; cbn; [reflexivity|]. f_equal; auto. ring.
  - rewrite app_length; f_equal; assumption.
  - rewrite app_length; f_equal; assumption.
  - apply Forall_map. eapply Forall_impl; [|exact Hg]. cbn. intros k Hk. rewrite app_length, repeat_length. lia.
Qed.

(** f(t, x, p) = x + p + t in dimension 1 meets the hypotheses *)
Lemma C70_ex_pf :
  let f := fun (p : rvl) (t : R) (x : rvl) => map (fun c => fst c + snd c + t) (combine x p) in
  let F := @MkAF ROps (f [3]) (fun _ _ w => w) (fun _ _ w => None) (fun _ _ w => [Some w]) None in
  is_matrix 1 1 [[1]] /\ (forall p, length p = 1%nat -> field_on 1 (f p)) /\
  (forall p q t y z, length p = 1%nat -> length q = 1%nat -> length y = 1%nat -> length z = 1%nat ->
     minus_vec (f p t y) (f q t z) = plus_vec (apply [[1]] (minus_vec y z)) (apply [[1]] (minus_vec p q))) /\
  transposed_product 1 [[1]] (af_vjp_x F) /\
  (forall t y w, length w = 1%nat -> length (@cat_params ROps (af_vjp_p F t y w)) = 1%nat /\
     forall q, length q = 1%nat -> dot (@cat_params ROps (af_vjp_p F t y w)) q = dot w (apply [[1]] q)).
Proof.
  intros f F. split; [split; [reflexivity|repeat constructor]|]. split; [|split; [|split]].
  - intros p Hp t x Hx. unfold f. rewrite map_length, combine_length. lia.
  - intros [|p [|? ?]] [|q [|? ?]] t [|y [|? ?]] [|z [|? ?]] H1 H2 H3 H4; try discriminate.
    unfold f, minus_vec, plus_vec, apply, dot. cbn. f_equal. ring.
  - exact scalar_vjp.
  - intros t y [|w [|? ?]] Hw; try discriminate. split; [reflexivity|]. intros [|q [|? ?]] Hq; try discriminate.
    unfold cat_params, apply, dot. cbn. ring.
Qed.
