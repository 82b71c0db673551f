(** Lemmas on root finding. *)
From Coq Require Import ZArith QArith Qreals Reals Lra Lia String List Bool.
From Verif Require Import Num Py Tensor M_Root Spec_Root L_Base.
Import ListNotations.
Local Open Scope R_scope.
Notation length := List.length.
Notation rv := (list R).

Lemma Q2R_two : Q2R 2 = 2.
Proof. unfold Q2R. cbn. lra. Qed.

(** ** Vectors and matrices *)
Lemma fold_left_plus (l : rv) : forall a, fold_left Rplus l a = a + fold_right Rplus 0 l.
Proof. induction l as [|x l IH]; intros a; cbn; [lra|]. rewrite IH. lra. Qed.
Lemma vsum_fold (l : rv) : @vsum ROps l = fold_right Rplus 0 l.
Proof. unfold vsum. rops. rewrite Q2R_0'. rewrite fold_left_plus. lra. Qed.
Lemma map2_combine {A B C} (f : A -> B -> C) : forall l m, map2 f l m = map (fun p => f (fst p) (snd p)) (combine l m).
Proof. induction l as [|a l IH]; intros [|b m]; cbn; auto. now rewrite IH. Qed.
Lemma vdot_dot (a b : rv) : @vdot ROps a b = dot a b.
Proof. unfold vdot. rewrite vsum_fold. unfold vmul. rewrite map2_combine. reflexivity. Qed.
Lemma vsum_sq (a : rv) : @vsum ROps (@vmul ROps a a) = dot a a.
Proof. exact (vdot_dot a a). Qed.
Lemma matvec_apply (J : list rv) v : @matvec ROps J v = apply J v.
Proof. unfold matvec, apply. apply map_ext. intros r. apply vdot_dot. Qed.
Lemma vsub_minus (a b : rv) : @vsub ROps a b = minus_vec a b.
Proof. unfold vsub. rewrite map2_combine. reflexivity. Qed.
Lemma vadd_plus (a b : rv) : @vadd ROps a b = plus_vec a b.
Proof. unfold vadd. rewrite map2_combine. reflexivity. Qed.
Lemma vscale_times c (a : rv) : @vscale ROps c a = times c a.
Proof. reflexivity. Qed.

Lemma dot_cons x a y b : dot (x :: a) (y :: b) = x * y + dot a b.
Proof. reflexivity. Qed.
Lemma dot_nil_l b : dot [] b = 0. Proof. reflexivity. Qed.
Lemma dot_nil_r a : dot a [] = 0. Proof. destruct a; reflexivity. Qed.
Lemma dot_comm : forall a b, dot a b = dot b a.
Proof. induction a as [|x a IH]; intros [|y b]; auto. rewrite !dot_cons, IH. ring. Qed.
Lemma dot_plus_l : forall a b v, length a = length b -> dot (plus_vec a b) v = dot a v + dot b v.
Proof.
  induction a as [|x a IH]; intros [|y b] [|z v] E; try discriminate; try (cbn; lra).
  change (plus_vec (x :: a) (y :: b)) with ((x + y) :: plus_vec a b). rewrite !dot_cons, IH by (now injection E). ring.
Qed.
Lemma dot_times_l c : forall a v, dot (times c a) v = c * dot a v.
Proof.
  induction a as [|x a IH]; intros [|z v]; try (cbn; lra).
  change (times c (x :: a)) with ((c * x) :: times c a). rewrite !dot_cons, IH. ring.
Qed.
Lemma dot_zero : forall c v, dot (repeat 0 c) v = 0.
Proof. induction c as [|c IH]; intros [|z v]; try reflexivity. cbn [repeat]. rewrite dot_cons, IH. ring. Qed.
Lemma plus_len n a b : length a = n -> length b = n -> length (plus_vec a b) = n.
Proof. intros Ha Hb. unfold plus_vec. rewrite map_length, combine_length. lia. Qed.
Lemma minus_len n a b : length a = n -> length b = n -> length (minus_vec a b) = n.
Proof. intros Ha Hb. unfold minus_vec. rewrite map_length, combine_length. lia. Qed.
Lemma times_len c a : length (times c a) = length a.
Proof. apply map_length. Qed.
Lemma dot_nonneg a : 0 <= dot a a.
Proof. induction a as [|x a IH]; [rewrite dot_nil_l; lra|]. rewrite dot_cons. nra. Qed.
Lemma apply_len J v : length (apply J v) = length J.
Proof. apply map_length. Qed.

Lemma vecmat_len c : forall (J : list rv) u, Forall (fun r => length r = c) J -> length (@vecmat ROps c u J) = c.
Proof.
  unfold vecmat. induction J as [|r J IH]; intros [|x u] H; cbn; try apply repeat_length.
  inversion H; subst. rewrite vadd_plus. apply plus_len; [|now apply IH]. etransitivity; [apply map_length|reflexivity].
Qed.
Lemma vecmat_dot c : forall (J : list rv) u v, Forall (fun r => length r = c) J ->
  dot (@vecmat ROps c u J) v = dot u (apply J v).
Proof.
  unfold vecmat. induction J as [|r J IH]; intros [|x u] v H; cbn [map2 fold_right apply map].
  - unfold vzeros. rops. rewrite Q2R_0'. rewrite dot_zero. reflexivity.
  - unfold vzeros. rops. rewrite Q2R_0'. rewrite dot_zero. now rewrite dot_nil_r.
  - unfold vzeros. rops. rewrite Q2R_0'. rewrite dot_zero. reflexivity.
  - apply Forall_cons_iff in H; destruct H as (Hr & HJ). rewrite vadd_plus, vscale_times. rewrite dot_plus_l.
    + rewrite dot_times_l. rewrite dot_cons. f_equal. apply IH. exact HJ.
    + rewrite times_len. symmetry. rewrite Hr. apply (vecmat_len c). exact HJ.
Qed.

Lemma madd_outer_apply c : forall (J : list rv) a p v, Forall (fun r => length r = c) J -> length p = c -> length a = length J ->
  apply (@madd ROps J (@outer ROps a p)) v = plus_vec (apply J v) (times (dot p v) a).
Proof.
  induction J as [|r J IH]; intros [|x a] p v H Hp Ha; try discriminate; [reflexivity|].
  apply Forall_cons_iff in H; destruct H as (Hr & HJ).
  change (@madd ROps (r :: J) (@outer ROps (x :: a) p)) with (@vadd ROps r (@vscale ROps x p) :: @madd ROps J (@outer ROps a p)).
  cbn [apply map]. change (map (fun row => dot row v) (@madd ROps J (@outer ROps a p))) with (apply (@madd ROps J (@outer ROps a p)) v).
  rewrite IH by (auto; now injection Ha). rewrite vadd_plus, vscale_times.
  rewrite dot_plus_l by (rewrite times_len; exact (eq_trans Hr (eq_sym Hp))). rewrite dot_times_l.
  change (dot r v + x * dot p v :: plus_vec (apply J v) (times (dot p v) a) = (dot r v + dot p v * x) :: plus_vec (apply J v) (times (dot p v) a)).
  f_equal. apply (f_equal (Rplus (dot r v))). apply Rmult_comm.
Qed.
Lemma madd_outer_matrix c : forall (J : list rv) a p, Forall (fun r => length r = c) J -> length p = c -> length a = length J ->
  is_matrix (length J) c (@madd ROps J (@outer ROps a p)).
Proof.
  induction J as [|r J IH]; intros [|x a] p H Hp Ha; try discriminate; [split; auto; constructor|].
  apply Forall_cons_iff in H; destruct H as (Hr & HJ). destruct (IH a p HJ Hp ltac:(now injection Ha)) as (L & F).
  change (@madd ROps (r :: J) (@outer ROps (x :: a) p)) with (@vadd ROps r (@vscale ROps x p) :: @madd ROps J (@outer ROps a p)).
  split; [cbn; now rewrite L|]. constructor; auto. rewrite vadd_plus, vscale_times. apply plus_len; auto. rewrite times_len. auto.
Qed.
(** dividing the outer product = dividing its left factor *)
Lemma outer_div (a p : rv) d : map (map (fun x => (x / d)%R)) (@outer ROps a p) = @outer ROps (map (fun x => x / d) a) p.
Proof.
  unfold outer. rewrite !map_map. apply map_ext. intros x. unfold vscale. rewrite map_map. apply map_ext. intros y. rops. unfold Rdiv. ring.
Qed.

(** ** Naive search *)
Lemma pow_small q m : 0 <= q < 1 -> 0 < m -> exists N, forall k, (N <= k)%nat -> q ^ k < m.
Proof.
  intros Hq Hm. destruct (pow_lt_1_zero q ltac:(rewrite Rabs_right; lra) m Hm) as (N & HN).
  exists N. intros k Hk. specialize (HN k Hk). apply Rabs_def2 in HN. lra.
Qed.

Lemma naive_run (phi : R -> R) phi0 m q : forall fuel a,
  (exists k, (k < fuel)%nat /\ (phi (q ^ k * a) <= phi0 \/ q ^ k * a <= m)) ->
  exists k, (k < fuel)%nat /\ @naive_loop ROps fuel phi phi0 m q a (phi a) = Ok (q ^ k * a, phi (q ^ k * a)) /\
    (phi (q ^ k * a) <= phi0 \/ q ^ k * a <= m) /\
    forall j, (j < k)%nat -> phi0 < phi (q ^ j * a) /\ m < q ^ j * a.
Proof.
  induction fuel as [|fuel IH]; intros a (k & Hk & H); [lia|]. cbn [naive_loop]. rops.
  destruct (Rltb_spec phi0 (phi a)) as [H1|H1]; [destruct (Rltb_spec m a) as [H2|H2]|]; cbn [andb].
  - assert (k <> 0%nat). { intros ->. cbn in H. rewrite Rmult_1_l in H. lra. }
    assert (Eq : forall j, q ^ j * (q * a) = q ^ S j * a) by (intros j; cbn; ring).
    destruct (IH (q * a)) as (k' & Hk' & E & P & F).
    { exists (pred k). split; [lia|]. rewrite Eq. replace (S (pred k)) with k by lia. exact H. }
    exists (S k'). split; [lia|]. rewrite Eq in *. split; [exact E|]. split; [exact P|].
    intros [|j] Hj; [cbn; rewrite Rmult_1_l; auto|]. rewrite <- Eq. apply F. lia.
  - exists 0%nat. split; [lia|]. cbn. rewrite !Rmult_1_l. split; [reflexivity|]. split; [right; lra|]. intros j Hj; lia.
  - exists 0%nat. split; [lia|]. cbn. rewrite !Rmult_1_l. split; [reflexivity|]. split; [left; lra|]. intros j Hj; lia.
Qed.

(** ** Armijo search *)
Lemma armijo_run (phi : R -> R) phi0 c1 d : forall n fuel a0 a1 p0 p1,
  a1 <= 2 ^ n / 100 -> (n < fuel)%nat ->
  exists a p, @armijo_loop ROps fuel phi phi0 c1 d a0 a1 p0 p1 = Ok (a, p) /\
    ((p = phi a /\ phi a <= phi0 + c1 * a * d) \/ a = 1 / 100).
Proof.
  induction n as [|n IH]; intros fuel a0 a1 p0 p1 Ha Hf; (destruct fuel as [|fuel]; [lia|]); cbn [armijo_loop]; rops; cbv zeta.
  - destruct (Rltb_spec (Q2R (1 # 100)) a1) as [H|H]; [rewrite Q2R_lit in H; cbn in Ha; lra|].
    do 2 eexists. split; [reflexivity|]. right. apply Q2R_lit.
  - destruct (Rltb_spec (Q2R (1 # 100)) a1) as [H|H].
    2: { do 2 eexists. split; [reflexivity|]. right. apply Q2R_lit. }
    rewrite Q2R_lit in H.
    match goal with |- context [phi ?x] => set (a2 := x) end.
    destruct (Rleb_spec (phi a2) (phi0 + c1 * a2 * d)) as [H2|H2].
    { exists a2, (phi a2). split; [reflexivity|]. left. auto. }
    match goal with |- context [if ?b then _ else _] => assert (Hb : b = true) end.
    { apply orb_true_iff. destruct (Rlt_le_dec (a1 / 2) (a1 - a2)) as [G|G].
      - left. apply Rltb_true. rewrite Q2R_two. exact G.
      - right. apply Rltb_true. rewrite Q2R_1', Q2R_lit.
        apply Rmult_lt_reg_r with a1; [lra|]. unfold Rdiv. rewrite Rmult_minus_distr_r, Rmult_assoc, Rinv_l by lra. lra. }
    rewrite Hb. apply IH; [|lia]. cbn in Ha. rewrite Q2R_two. lra.
Qed.

(** ** Line searches inside root_find *)
Lemma phi_nonneg g z dz a : 0 <= @phi_of ROps g z dz a.
Proof. unfold phi_of, sq. rops. nra. Qed.
Lemma phi0_nonneg g : 0 <= @phi0_of ROps g.
Proof. unfold phi0_of, sq. rops. nra. Qed.

Lemma new_alpha_total sf s g ge dz z a : (8 <= sf)%nat -> exists a', @new_alpha ROps sf s g ge dz z a = Ok a'.
Proof.
  intros Hs. destruct s; cbn [new_alpha]; [eexists; reflexivity| |].
  - unfold naive_search.
    destruct (naive_run (phi_of g z dz) (phi0_of ge) (Q2R (1 # 1000000)) (Q2R (1 # 10)) sf (Q2R 1)) as (k & _ & E & _).
    { exists 6%nat. split; [lia|]. right. rewrite Q2R_1', !Q2R_lit. cbn. lra. }
    eexists. unfold rmap. rops. rewrite E. reflexivity.
  - unfold armijo_search. cbv zeta. set (P := phi_of g z dz n1). set (p0 := phi0_of ge).
    assert (HP : 0 <= P) by apply phi_nonneg. assert (H0 : 0 <= p0) by apply phi0_nonneg.
    rops. destruct (Rltb_spec P (p0 + Q2R (1 # 10000) * Q2R 1 * - P)) as [H|H]; [eexists; reflexivity|].
    match goal with |- context [@armijo_loop ROps _ _ _ _ _ _ ?x _ _] => set (a1 := x) end.
    assert (Ha : a1 <= 2 ^ 6 / 100).
    { unfold a1. cbn [npow]. rops. rewrite !Q2R_1', !Q2R_two. rewrite !Q2R_1', Q2R_lit in H.
      replace (P - p0 - - P * 1) with (2 * P - p0) by ring. replace (- - P * (1 * (1 * 1)) / 2) with (P / 2) by field.
      destruct (Req_dec P 0) as [->|N]; [unfold Rdiv at 1 2; rewrite !Rmult_0_l; lra|].
      assert (D : 9999 / 10000 * P <= 2 * P - p0) by lra. assert (0 < P) by lra.
      apply Rmult_le_reg_r with (2 * P - p0); [lra|]. unfold Rdiv at 1. rewrite Rmult_assoc, Rinv_l by lra. lra. }
    destruct (armijo_run (phi_of g z dz) p0 (Q2R (1 # 10000)) (- P) 6 sf (Q2R 1) a1 P (phi_of g z dz a1) Ha ltac:(lia)) as (a' & p & E & _).
    exists a'. unfold rmap. rops. rewrite E. reflexivity.
Qed.

(** ** The loop *)
Definition good_method (m : method) : Prop := m = BroydenFull \/ m = BroydenBad.

(** what holds when the loop stops by its condition; [f0] is the residual norm recorded at the first check *)
Definition stop_ok (tl : tols (K := ROps)) (f0 : rv) (st : rstate (K := ROps)) : Prop :=
  Forall (fun row => euclid row <= f_tol tl) (r_ge st) /\
  Forall (fun p => euclid (fst p) / f_rtol tl <= snd p) (combine (r_ge st) f0) /\
  Forall (fun row => euclid row <= x_tol tl) (r_dz st) /\
  Forall (fun p => euclid (fst p) / x_rtol tl <= euclid (snd p)) (combine (r_dz st) (r_z st)).

Lemma row_norm_euclid (v : rv) : @row_norm ROps v = euclid v.
Proof. unfold row_norm, euclid. rops. f_equal. apply vsum_sq. Qed.

Lemma all_map {A} (f : A -> bool) l : forallb (fun b => b) (map f l) = true <-> Forall (fun a => f a = true) l.
Proof. induction l as [|a l IH]; cbn; [split; auto|]. rewrite andb_true_iff, IH, Forall_cons_iff. reflexivity. Qed.

Lemma combine_map {A B C D} (f : A -> C) (h : B -> D) : forall l m, combine (map f l) (map h m) = map (fun p => (f (fst p), h (snd p))) (combine l m).
Proof. induction l as [|a l IH]; intros [|b m]; cbn; auto. now rewrite IH. Qed.
Lemma combine_map_l {A B C} (f : A -> C) : forall (l : list A) (m : list B), combine (map f l) m = map (fun p => (f (fst p), snd p)) (combine l m).
Proof. induction l as [|a l IH]; intros [|b m]; cbn; auto. now rewrite IH. Qed.

Lemma tc_check_true tl f0 ge z dz : fst (@tc_check ROps tl f0 ge z dz) = true <->
  (Forall (fun row => euclid row <= f_tol tl) ge /\
   Forall (fun p => euclid (fst p) / f_rtol tl <= snd p) (combine ge (snd (@tc_check ROps tl f0 ge z dz)))) /\
  Forall (fun row => euclid row <= x_tol tl) dz /\
  Forall (fun p => euclid (fst p) / x_rtol tl <= euclid (snd p)) (combine dz z).
Proof.
  unfold tc_check. cbv zeta. cbn [fst snd]. rewrite !andb_true_iff. rewrite !map2_combine, !all_map.
  set (f1 := match f0 with Some f => f | None => _ end).
  rewrite !Forall_map, combine_map, combine_map_l, !Forall_map. cbn [fst snd]. rops.
  assert (A : forall l, Forall (fun x => Rleb (@row_norm ROps x) (f_tol tl) = true) l <-> Forall (fun row => euclid row <= f_tol tl) l).
  { intros l. split; apply Forall_impl; intros a; rewrite row_norm_euclid, Rleb_true; auto. }
  assert (B : forall l, Forall (fun x => Rleb (@row_norm ROps x) (x_tol tl) = true) l <-> Forall (fun row => euclid row <= x_tol tl) l).
  { intros l. split; apply Forall_impl; intros a; rewrite row_norm_euclid, Rleb_true; auto. }
  assert (C : forall l, Forall (fun x => Rleb (@row_norm ROps (fst x) / f_rtol tl) (snd x) = true) l <->
     Forall (fun p => euclid (fst p) / f_rtol tl <= snd p) l).
  { intros l. split; apply Forall_impl; intros a; rewrite row_norm_euclid, Rleb_true; auto. }
  assert (D : forall l, Forall (fun x => Rleb (@row_norm ROps (fst x) / x_rtol tl) (@row_norm ROps (snd x)) = true) l <->
     Forall (fun p => euclid (fst p) / x_rtol tl <= euclid (snd p)) l).
  { intros l. split; apply Forall_impl; intros a; rewrite !row_norm_euclid, Rleb_true; auto. }
  rewrite A, B, C, D. reflexivity.
Qed.

Lemma tc_check_f0 tl f0 ge z dz : snd (@tc_check ROps tl f0 ge z dz) = match f0 with Some f => f | None => map euclid ge end.
Proof. unfold tc_check. cbn. destruct f0; auto. apply map_ext. intros v. apply row_norm_euclid. Qed.

Definition moved (z_prev : list rv) (a : R) (dz : list rv) : list rv := map (fun p => minus_vec (fst p) (times a (snd p))) (combine z_prev dz).

Lemma root_loop_some m s tl g : good_method m -> forall k sf st f1,
  (8 <= sf)%nat -> r_ge st = g (r_z st) -> r_f0 st = Some f1 -> r_conv st = false ->
  exists st', @root_loop ROps k sf m s tl g st = Ok st' /\ r_ge st' = g (r_z st') /\
    (r_steps st' <= r_steps st + k)%nat /\ (r_conv st' = false -> r_steps st' = (r_steps st + k)%nat) /\
    (r_conv st' = true -> stop_ok tl f1 st' /\ exists zp a, r_z st' = moved zp a (r_dz st')).
Proof.
  intros Hm. induction k as [|k IH]; intros sf st f1 Hs Hg Hf Hc.
  - exists st. cbn. split; auto. split; auto. split; [lia|]. split; [lia|]. congruence.
  - cbn [root_loop].
    assert (E : solver_step m g (r_z st) (r_J st) (r_ge st) (r_alpha st) = Ok (broyden_step m g (r_z st) (r_J st) (r_ge st) (r_alpha st)))
      by (destruct Hm as [-> | ->]; reflexivity).
    rewrite E. cbn [rbind]. unfold broyden_step. set (dz := map2 matvec (r_J st) (r_ge st)).
    set (z := map2 _ (r_z st) dz). cbv zeta. set (J := map2 _ _ (r_J st)).
    destruct (new_alpha_total sf s g (g z) dz z (r_alpha st) Hs) as (a' & Ea). rewrite Ea. cbn [rbind].
    pose proof (tc_check_true tl (r_f0 st) (g z) z dz) as T. pose proof (tc_check_f0 tl (r_f0 st) (g z) z dz) as F.
    destruct (tc_check tl (r_f0 st) (g z) z dz) as (stop, f0). cbn [fst snd] in T, F. rewrite Hf in F. subst f0.
    destruct stop.
    + destruct (proj1 T eq_refl) as ((T1 & T2) & T3 & T4). eexists. split; [reflexivity|]. cbn. split; auto. split; [lia|]. split; [discriminate|].
      intros _. split; [split; cbn; auto|]. exists (r_z st), (r_alpha st). unfold z, moved. rewrite map2_combine. apply map_ext.
      intros p. rewrite vsub_minus, vscale_times. reflexivity.
    + destruct (IH sf (MkR z dz (g z) J a' (Some f1) (S (r_steps st)) false) f1) as (st' & E' & P); auto.
      exists st'. split; [exact E'|]. cbn in P. replace (r_steps st + S k)%nat with (S (r_steps st + k)) by lia. exact P.
Qed.

Lemma root_loop_first m s tl g : good_method m -> forall k sf st,
  (8 <= sf)%nat -> r_ge st = g (r_z st) -> r_f0 st = None -> r_conv st = false ->
  exists st', @root_loop ROps k sf m s tl g st = Ok st' /\ r_ge st' = g (r_z st') /\
    (r_steps st' <= r_steps st + k)%nat /\ (r_conv st' = false -> r_steps st' = (r_steps st + k)%nat) /\
    (r_conv st' = true ->
       stop_ok tl (map euclid (g (moved (r_z st) (r_alpha st) (map (fun p => apply (fst p) (snd p)) (combine (r_J st) (r_ge st)))))) st' /\
       exists zp a, r_z st' = moved zp a (r_dz st')).
Proof.
  intros Hm k sf st Hs Hg Hf Hc. destruct k as [|k].
  - exists st. cbn. split; auto. split; auto. split; [lia|]. split; [lia|]. congruence.
  - cbn [root_loop].
    assert (E : solver_step m g (r_z st) (r_J st) (r_ge st) (r_alpha st) = Ok (broyden_step m g (r_z st) (r_J st) (r_ge st) (r_alpha st)))
      by (destruct Hm as [-> | ->]; reflexivity).
    rewrite E. cbn [rbind]. unfold broyden_step. set (dz := map2 matvec (r_J st) (r_ge st)).
    set (z := map2 _ (r_z st) dz). cbv zeta. set (J := map2 _ _ (r_J st)).
    assert (Edz : map (fun p => apply (fst p) (snd p)) (combine (r_J st) (r_ge st)) = dz).
    { unfold dz. rewrite map2_combine. apply map_ext. intros p. symmetry. apply matvec_apply. }
    assert (Ez : moved (r_z st) (r_alpha st) dz = z).
    { unfold z, moved. rewrite map2_combine. apply map_ext. intros p. symmetry. apply vsub_minus. }
    rewrite Edz, Ez.
    destruct (new_alpha_total sf s g (g z) dz z (r_alpha st) Hs) as (a' & Ea). rewrite Ea. cbn [rbind].
    pose proof (tc_check_true tl (r_f0 st) (g z) z dz) as T. pose proof (tc_check_f0 tl (r_f0 st) (g z) z dz) as F.
    destruct (tc_check tl (r_f0 st) (g z) z dz) as (stop, f0). cbn [fst snd] in T, F. rewrite Hf in F. subst f0.
    destruct stop.
    + destruct (proj1 T eq_refl) as ((T1 & T2) & T3 & T4). eexists. split; [reflexivity|]. cbn. split; auto. split; [lia|]. split; [discriminate|].
      intros _. split; [split; cbn; auto|]. exists (r_z st), (r_alpha st). now rewrite Ez.
    + destruct (root_loop_some m s tl g Hm k sf (MkR z dz (g z) J a' (Some (map euclid (g z))) (S (r_steps st)) false) (map euclid (g z))) as (st' & E' & P); auto.
      exists st'. split; [exact E'|]. cbn in P. replace (r_steps st + S k)%nat with (S (r_steps st + k)) by lia. exact P.
Qed.
