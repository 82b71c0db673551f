(** Proofs of the properties of root finding. *)
From Coq Require Import ZArith QArith Qreals Reals Lra Lia String List Bool Floats.
From Verif Require Import Num Py Tensor M_Root Spec_Root L_Base L_Root.
Import ListNotations.
Local Open Scope R_scope.
Notation length := List.length.

Definition broyden_name (s : string) : Prop := s = "broyden"%string \/ s = "broyden_fast"%string.
Definition search_name (s : string) : Prop := s = "naive"%string \/ s = "armijo"%string \/ s = "none"%string.

Lemma norm_pairs c : forall l k, Forall (fun p => euclid (fst p) / c <= snd p) (combine l (map euclid k)) ->
  Forall (fun p => euclid (fst p) / c <= euclid (snd p)) (combine l k).
Proof.
  induction l as [|a l IH]; intros [|b k] H; cbn in *; auto. apply Forall_cons_iff in H. destruct H as (H1 & H2). constructor; auto.
Qed.

(** ** C38 *)

(** C38.  For every function, starting batch, initial inverse Jacobian, step size, tolerances and
    maxiters, and for every line search, root_find with a Broyden method returns (8 units of fuel are
    enough for the line searches) after at most maxiters + 1 steps; it uses all of them if it does not
    report its termination condition.  If it does, then for every batch element: the residual at the
    returned point is at most f_tol, and at most f_rtol times the residual after the first step; the
    last direction dz (the returned point is z_prev - a dz) is at most x_tol, and at most x_rtol
    times the returned point. *)
Lemma C38_root_find_pf :
  forall sf (g : list rv -> list rv) z (J : list (list rv)) alpha (tl : tols (K := ROps)) maxiters m s,
  (8 <= sf)%nat -> broyden_name m -> search_name s ->
  exists st, @root_find ROps sf g z J alpha tl maxiters m s = Ok st /\
    (r_steps st <= Z.to_nat (maxiters + 1))%nat /\
    (r_conv st = false -> r_steps st = Z.to_nat (maxiters + 1)) /\
    (r_conv st = true ->
       let dz0 := map (fun p => apply (fst p) (snd p)) (combine J (g z)) in
       let first := map (fun p => minus_vec (fst p) (times alpha (snd p))) (combine z dz0) in
       Forall (fun row => euclid row <= f_tol tl) (g (r_z st)) /\
       Forall (fun p => euclid (fst p) / f_rtol tl <= euclid (snd p)) (combine (g (r_z st)) (g first)) /\
       Forall (fun row => euclid row <= x_tol tl) (r_dz st) /\
       Forall (fun p => euclid (fst p) / x_rtol tl <= euclid (snd p)) (combine (r_dz st) (r_z st)) /\
       exists z_prev a, r_z st = map (fun p => minus_vec (fst p) (times a (snd p))) (combine z_prev (r_dz st))).
Proof.
  intros sf g z J alpha tl maxiters m s Hs Hm Hn. unfold root_find.
  assert (Em : exists mm, method_of m = Ok mm /\ good_method mm).
  { destruct Hm as [-> | ->]; eexists; (split; [reflexivity|]); [left|right]; reflexivity. }
  destruct Em as (mm & -> & Hg).
  assert (Es : exists ss, search_of s = Ok ss) by (destruct Hn as [-> | [-> | ->]]; eexists; reflexivity).
  destruct Es as (ss & ->). cbn [rbind].
  destruct (root_loop_first mm ss tl g Hg (Z.to_nat (maxiters + 1)) sf (MkR z [] (g z) J alpha None 0 false) Hs eq_refl eq_refl eq_refl)
    as (st & E & E1 & E2 & E3 & E4).
  exists st. split; [exact E|]. cbn in E2, E3. split; [exact E2|]. split; [exact E3|]. intros Hc. cbv zeta.
  destruct (E4 Hc) as ((T1 & T2 & T3 & T4) & zp & a & Ez). cbn in T2. rewrite E1 in T1, T2.
  split; [exact T1|]. split.
  - apply norm_pairs in T2. exact T2.
  - split; [exact T3|]. split; [exact T4|]. exists zp, a. exact Ez.
Qed.

(** C38 with the default tolerances (0.01, 0.1, 0.01 and 1): when the method reports convergence, every row of g is at most 0.01 and
    at most a tenth of what it was after the first step, and every row of the last step is at most 0.01 and at most as long as the row of the iterate. *)
Lemma C38_defaults_pf :
  forall sf (g : list rv -> list rv) z (J : list (list rv)) alpha maxiters m s st,
  (8 <= sf)%nat -> broyden_name m -> search_name s ->
  @root_find ROps sf g z J alpha default_tols maxiters m s = Ok st -> r_conv st = true ->
  let dz0 := map (fun p => apply (fst p) (snd p)) (combine J (g z)) in
  let first := map (fun p => minus_vec (fst p) (times alpha (snd p))) (combine z dz0) in
  Forall (fun row => euclid row <= 1 / 100) (g (r_z st)) /\
  Forall (fun p => euclid (fst p) <= 1 / 10 * euclid (snd p)) (combine (g (r_z st)) (g first)) /\
  Forall (fun row => euclid row <= 1 / 100) (r_dz st) /\
  Forall (fun p => euclid (fst p) <= euclid (snd p)) (combine (r_dz st) (r_z st)).
Proof.
  intros sf g z J alpha maxiters m s st Hs Hm Hn E C. cbv zeta.
  destruct (C38_root_find_pf sf g z J alpha default_tols maxiters m s Hs Hm Hn) as (st' & E' & _ & _ & H).
  assert (st' = st) by congruence. subst st'. destruct (H C) as (A1 & A2 & A3 & A4 & _).
  assert (T1 : f_tol (@default_tols ROps) = 1 / 100) by (cbn; rewrite Q2R_lit; reflexivity).
  assert (T2 : f_rtol (@default_tols ROps) = 1 / 10) by (cbn; rewrite Q2R_lit; reflexivity).
  assert (T3 : x_tol (@default_tols ROps) = 1 / 100) by (cbn; rewrite Q2R_lit; reflexivity).
  assert (T4 : x_rtol (@default_tols ROps) = 1) by (cbn; unfold Q2R; cbn; lra).
  rewrite T1 in A1. rewrite T2 in A2. rewrite T3 in A3. rewrite T4 in A4.
  split; [exact A1|]. split; [eapply Forall_impl; [|exact A2]; cbn beta; intros; lra|]. split; [exact A3|].
  eapply Forall_impl; [|exact A4]. cbn beta. intros; lra.
Qed.

(** C38: the other advertised methods and unknown names raise. *)
Lemma C38_unsupported_pf :
  forall sf (g : list rv -> list rv) z J alpha (tl : tols (K := ROps)) maxiters m s,
  (search_name s -> (0 <= maxiters)%Z -> m = "newton"%string \/ m = "chord"%string ->
     @root_find ROps sf g z J alpha tl maxiters m s = Err NotImplementedError) /\
  (~ broyden_name m -> m <> "newton"%string -> m <> "chord"%string ->
     @root_find ROps sf g z J alpha tl maxiters m s = Err AssertionError) /\
  (broyden_name m -> ~ search_name s -> @root_find ROps sf g z J alpha tl maxiters m s = Err AssertionError).
Proof.
  intros sf g z J alpha tl maxiters m s. split; [|split].
  - intros Hs Hi Hm. unfold root_find. destruct (Z.to_nat (maxiters + 1)) eqn:E; [lia|].
    destruct Hm as [-> | ->]; destruct Hs as [-> | [-> | ->]]; reflexivity.
  - intros H1 H2 H3. unfold root_find, method_of.
    destruct (String.eqb_spec m "broyden_fast"); [exfalso; apply H1; right; auto|].
    destruct (String.eqb_spec m "broyden"); [exfalso; apply H1; left; auto|].
    destruct (String.eqb_spec m "newton"); [congruence|]. destruct (String.eqb_spec m "chord"); [congruence|]. reflexivity.
  - intros Hm Hs. unfold root_find.
    assert (E : search_of s = Err AssertionError).
    { unfold search_of. destruct (String.eqb_spec s "naive"); [exfalso; apply Hs; left; auto|].
      destruct (String.eqb_spec s "armijo"); [exfalso; apply Hs; right; left; auto|].
      destruct (String.eqb_spec s "none"); [exfalso; apply Hs; right; right; auto|]. reflexivity. }
    destruct Hm as [-> | ->]; cbn; now rewrite E.
Qed.

(** ** C39 *)
Lemma secant_alg s e : s + e <> 0 -> forall dz w, length w = length dz ->
  plus_vec w (times s (map (fun a => a / (s + e)) (minus_vec dz w))) = minus_vec dz (times (e / (s + e)) (minus_vec dz w)).
Proof.
  intros Hs. induction dz as [|a dz IH]; intros [|b w] L; try discriminate; [reflexivity|].
  injection L as L. cbn. f_equal; [field; exact Hs|]. apply IH. exact L.
Qed.


Lemma secant_zero s : forall dz w, length w = length dz -> minus_vec dz (times (0 / s) w) = dz.
Proof. induction dz as [|a dz IH]; intros [|b w] L; try discriminate; [reflexivity|]. injection L as L. cbn. f_equal; [unfold Rdiv; ring|]. apply IH; auto. Qed.

(** C39.  The full update of an n x m inverse Jacobian is again n x m; with s = dz . (J dg) and
    s + eps <> 0 it maps dg to dz - eps/(s + eps) (dz - J dg), that is to dz itself for eps = 0, and
    it does not change J v for every v with dz . (J v) = 0. *)
Lemma C39_broyden_secant_pf :
  forall n m eps dg dz (J : list rv), is_matrix n m J -> length dg = m -> length dz = n ->
  let s := dot dz (apply J dg) in s + eps <> 0 ->
  let J' := @update_full ROps eps dg dz J in
  is_matrix n m J' /\
  apply J' dg = minus_vec dz (times (eps / (s + eps)) (minus_vec dz (apply J dg))) /\
  (eps = 0 -> apply J' dg = dz) /\
  forall v, length v = m -> dot dz (apply J v) = 0 -> apply J' v = apply J v.
Proof.
  intros n m eps dg dz J (HJ & HR) Hg Hz s Hs J'. unfold J', update_full. cbv zeta.
  assert (Eden : @nadd ROps (@vdot ROps dz (@matvec ROps J dg)) eps = s + eps).
  { rops. rewrite vdot_dot, matvec_apply. reflexivity. }
  rewrite Eden. rewrite matvec_apply, vsub_minus. change (num ROps) with R in *. rewrite Hg.
  set (num := minus_vec dz (apply J dg)). set (q := map _ num). set (p := @vecmat ROps m dz J).
  assert (Hn : length num = n) by (apply minus_len; auto; rewrite apply_len; auto).
  assert (Hq : length q = length J) by (unfold q; etransitivity; [apply map_length|]; etransitivity; [exact Hn|auto]).
  assert (Hp : length p = m) by (apply vecmat_len; auto).
  assert (A : forall v, apply (@madd ROps J (@outer ROps q p)) v = plus_vec (apply J v) (times (dot dz (apply J v)) q)).
  { intros v. rewrite (madd_outer_apply m); auto. unfold p. f_equal. f_equal. exact (vecmat_dot m J dz v HR). }
  split; [rewrite <- HJ; apply madd_outer_matrix; auto|].
  assert (S : apply (@madd ROps J (@outer ROps q p)) dg = minus_vec dz (times (eps / (s + eps)) num)).
  { rewrite A. fold s. unfold q, num. assert (L : length (apply J dg) = length dz) by (rewrite apply_len; congruence).
    exact (secant_alg s eps Hs dz _ L). }
  split; [exact S|]. split.
  - intros E0. etransitivity; [exact S|]. rewrite E0. apply secant_zero. congruence.
  - intros v Hv H0. rewrite A, H0. assert (L : length (apply J v) = length q) by (rewrite apply_len; congruence). revert L. generalize q. clear.
    induction (apply J v) as [|a l IH]; intros [|b w] L; try discriminate; [reflexivity|]. injection L as L. cbn. f_equal; [rops; ring|]. apply IH; auto.
Qed.

(** C39, bad update: with N = |dg|^2 and N + tol <> 0 the update maps dg to
    dz - tol/(N + tol) (dz - J dg) and does not change J v for every v orthogonal to dg. *)
Lemma C39_broyden_fast_secant_pf :
  forall n m tol dg dz (J : list rv), is_matrix n m J -> length dg = m -> length dz = n ->
  let N := dot dg dg in N + tol <> 0 ->
  let J' := @update_bad ROps tol dg dz J in
  is_matrix n m J' /\
  apply J' dg = minus_vec dz (times (tol / (N + tol)) (minus_vec dz (apply J dg))) /\
  (tol = 0 -> apply J' dg = dz) /\
  forall v, length v = m -> dot dg v = 0 -> apply J' v = apply J v.
Proof.
  intros n m tol dg dz J (HJ & HR) Hg Hz N HN J'. unfold J', update_bad. cbv zeta.
  assert (Eden : @nadd ROps (@vsum ROps (@vmul ROps dg dg)) tol = N + tol).
  { rops. rewrite vsum_sq. reflexivity. }
  rewrite Eden. rewrite matvec_apply, vsub_minus.
  set (num := minus_vec dz (apply J dg)).
  replace (map (map (fun a : ROps => @ndiv ROps a (N + tol))) (@outer ROps num dg)) with (@outer ROps (map (fun x => x / (N + tol)) num) dg)
    by (symmetry; apply outer_div).
  set (q := map _ num).
  assert (Hn : length num = n) by (apply minus_len; auto; rewrite apply_len; auto).
  assert (Hq : length q = length J) by (unfold q; etransitivity; [apply map_length|]; etransitivity; [exact Hn|auto]).
  assert (A : forall v, apply (@madd ROps J (@outer ROps q dg)) v = plus_vec (apply J v) (times (dot dg v) q)).
  { intros v. rewrite (madd_outer_apply m); auto. }
  split; [rewrite <- HJ; apply madd_outer_matrix; auto|].
  assert (S : apply (@madd ROps J (@outer ROps q dg)) dg = minus_vec dz (times (tol / (N + tol)) num)).
  { rewrite A. fold N. unfold q, num. assert (L : length (apply J dg) = length dz) by (rewrite apply_len; congruence).
    exact (secant_alg N tol HN dz _ L). }
  split; [exact S|]. split.
  - intros E0. etransitivity; [exact S|]. rewrite E0. apply secant_zero. exact (eq_trans Hn (eq_sym Hz)).
  - intros v Hv H0. rewrite A, H0. assert (L : length (apply J v) = length q) by (rewrite apply_len; symmetry; exact Hq). revert L. generalize q. clear.
    induction (apply J v) as [|a l IH]; intros [|b w] L; try discriminate; [reflexivity|]. injection L as L. cbn. f_equal; [rops; ring|]. apply IH; auto.
Qed.

Lemma nth_error_map2 {A B C} (f : A -> B -> C) : forall l m i a b, nth_error l i = Some a -> nth_error m i = Some b -> nth_error (map2 f l m) i = Some (f a b).
Proof.
  induction l as [|x l IH]; intros [|y m] [|i] a b Ha Hb; try discriminate; cbn in *.
  - injection Ha as ->. injection Hb as ->. reflexivity.
  - apply IH; auto.
Qed.
Lemma nth_error_combine {A B} : forall (l : list A) (m : list B) i a b, nth_error l i = Some a -> nth_error m i = Some b -> nth_error (combine l m) i = Some (a, b).
Proof.
  induction l as [|x l IH]; intros [|y m] [|i] a b Ha Hb; try discriminate; cbn in *.
  - injection Ha as ->. injection Hb as ->. reflexivity.
  - apply IH; auto.
Qed.

Lemma plus_minus_back : forall a b : rv, length a = length b -> minus_vec (plus_vec a b) a = b.
Proof.
  unfold minus_vec, plus_vec. induction a as [|x a IH]; intros [|y b] H; try discriminate; auto. cbn. f_equal; [ring|]. apply IH. now injection H.
Qed.

(** C39, one step of the root finder on a batch.  Sample i moves by -alpha J_i g0_i, the residual is evaluated at
    the new iterates, and the new inverse Jacobian of sample i maps the change of its residual to the change of
    its iterate up to the regularisation 1e-6 (w is the share of the old matrix). *)
Lemma C39_step_pf :
  forall me g z0 J g0 alpha z dz ge J' n m i zi Ji gi ei,
  me = BroydenFull \/ me = BroydenBad ->
  @broyden_step ROps me g z0 J g0 alpha = (z, dz, ge, J') ->
  nth_error z0 i = Some zi -> nth_error J i = Some Ji -> nth_error g0 i = Some gi -> nth_error ge i = Some ei ->
  is_matrix n m Ji -> length zi = n -> length gi = m -> length ei = m ->
  let move := times (- alpha) (apply Ji gi) in
  let change := minus_vec ei gi in
  let d := match me with BroydenFull => dot move (apply Ji change) | _ => dot change change end in
  ge = g z /\ nth_error z i = Some (plus_vec zi move) /\
  exists Ji', nth_error J' i = Some Ji' /\
    (d + 1 / 1000000 <> 0 -> is_matrix n m Ji' /\
     apply Ji' change = minus_vec move (times (1 / 1000000 / (d + 1 / 1000000)) (minus_vec move (apply Ji change)))).
Proof.
  intros me g z0 J g0 alpha z dz ge J' n m i zi Ji gi ei Hme E Hz0 HJ Hg0 Hge HM Hzi Hgi Hei move change d.
  unfold broyden_step in E. injection E as Ez Edz Ege EJ.
  assert (Hmv : @vsub ROps zi (@vscale ROps alpha (@matvec ROps Ji gi)) = plus_vec zi move).
  { rewrite vsub_minus, vscale_times, matvec_apply. unfold move. clear. generalize (apply Ji gi).
    unfold minus_vec, plus_vec, times. induction zi as [|a l IH]; intros [|b v]; cbn; auto. f_equal; [ring|apply IH]. }
  assert (Hd : nth_error dz i = Some (@matvec ROps Ji gi)) by (rewrite <- Edz; apply nth_error_map2; auto).
  assert (Hz : nth_error z i = Some (plus_vec zi move)).
  { rewrite <- Ez, <- Hmv. rewrite Edz. apply (nth_error_map2 (fun a d => @vsub ROps a (@vscale ROps alpha d)) z0 dz i zi (@matvec ROps Ji gi)); auto. }
  destruct HM as [HL HR]. 
  assert (Hml : length move = n) by (unfold move; rewrite times_len, apply_len; exact HL).
  assert (Hcl : length change = m) by (apply minus_len; auto).
  assert (HDz : minus_vec (plus_vec zi move) zi = move).
  { apply plus_minus_back. rewrite Hml. exact Hzi. }
  split; [rewrite <- Ege, <- Ez; reflexivity|]. split; [exact Hz|].
  exists (@update ROps me change move Ji). split.
  - assert (HJ' : nth_error J' i = Some ((fun p J => @update ROps me (fst p) (snd p) J) (change, move) Ji)).
    { rewrite <- EJ. apply (nth_error_map2 (fun p J => @update ROps me (fst p) (snd p) J)); [|exact HJ]. rewrite Ege, Ez.
      apply nth_error_combine.
      - unfold change. rewrite <- vsub_minus. apply nth_error_map2; auto.
      - rewrite <- HDz. rewrite <- (vsub_minus (plus_vec zi move) zi). apply nth_error_map2; auto. }
    exact HJ'.
  - assert (Eeps : @eps6 ROps = 1 / 1000000) by (unfold eps6; rops; unfold Q2R; cbn; lra).
    assert (is_matrix n m Ji) as HM by (split; auto).
    intros Hne. unfold update. rewrite Eeps.
    destruct Hme as [-> | ->].
    + destruct (C39_broyden_secant_pf n m (1 / 1000000) change move Ji HM Hcl Hml Hne) as (A1 & A2 & _). split; [exact A1|exact A2].
    + destruct (C39_broyden_fast_secant_pf n m (1 / 1000000) change move Ji HM Hcl Hml Hne) as (A1 & A2 & _). split; [exact A1|exact A2].
Qed.

(** C39: a step on the batch z0 = ((1)) for g(z) = 2 z with J = ((1)) has such data, with d = 8 *)
Lemma C39_step_ex_pf :
  let g := map (map (Rmult 2)) in
  exists z dz ge J', @broyden_step ROps BroydenFull g [[1]] [[[1]]] [[2]] 1 = (z, dz, ge, J') /\
    ge = [[-2]] /\ is_matrix 1 1 [[1]] /\ dot (times (- (1)) (apply [[1]] [2])) (apply [[1]] (minus_vec [-2] [2])) = 8.
Proof.
  cbv zeta. do 4 eexists. split; [reflexivity|]. split; [|split].
  - cbn. rops. do 2 f_equal. unfold nsub, nmul, n0. cbn. lra.
  - split; auto.
  - unfold dot, times, apply, minus_vec. cbn. unfold dot. cbn. ring.
Qed.

(** C39: a 2 x 2 case (J the identity, dg = (1, 1), dz = (1, 0)) satisfies the hypotheses. *)
Lemma C39_ex_pf :
  let J := [[1; 0]; [0; 1]] in is_matrix 2 2 J /\ dot [1; 0] (apply J [1; 1]) + 0 <> 0 /\
  @update_full ROps 0 [1; 1] [1; 0] J = [[1; 0]; [-1; 1]].
Proof.
  cbv zeta. split; [split; auto|]. split; [cbn; lra|].
  cbn. rops. rewrite !Q2R_0'. repeat f_equal; lra.
Qed.

(** ** C40 *)

(** C40, naive search.  For every objective function the search returns the first step mult^k alpha0
    whose objective is at most phi0 or which is at most min_alpha, with the objective there. *)
Lemma C40_naive_pf :
  forall (phi : R -> R) phi0 alpha0 min_alpha mult, 0 < min_alpha -> 0 <= mult < 1 ->
  exists enough, forall fuel, (enough <= fuel)%nat ->
  exists k, let a := mult ^ k * alpha0 in
    @naive_search ROps fuel phi phi0 alpha0 min_alpha mult = Ok (a, phi a) /\
    (phi a <= phi0 \/ a <= min_alpha) /\
    forall j, (j < k)%nat -> phi0 < phi (mult ^ j * alpha0) /\ min_alpha < mult ^ j * alpha0.
Proof.
  intros phi phi0 alpha0 m q Hm Hq.
  assert (exists k, q ^ k * alpha0 <= m) as (k & Hk).
  { destruct (Rle_lt_dec alpha0 0) as [H|H].
    - exists 0%nat. cbn. lra.
    - destruct (pow_small q (m / alpha0) Hq) as (N & HN); [apply Rdiv_lt_0_compat; lra|].
      exists N. specialize (HN N (le_n _)). apply Rmult_lt_compat_r with (r := alpha0) in HN; [|exact H].
      unfold Rdiv in HN. rewrite Rmult_assoc, Rinv_l in HN by lra. lra. }
  exists (S k). intros fuel Hf.
  destruct (naive_run phi phi0 m q fuel alpha0) as (j & _ & E & P & F); [exists k; split; [lia|auto]|].
  exists j. cbv zeta. split; [exact E|]. split; auto.
Qed.

(** C40, Armijo search.  For every objective function the search returns either a step a with
    phi(a) <= phi0 - c1 a phi(alpha0) and the objective there, or the fallback 1/100. *)
Lemma C40_armijo_pf :
  forall (phi : R -> R) phi0 alpha0 c1,
  exists enough, forall fuel, (enough <= fuel)%nat ->
  exists a p, @armijo_search ROps fuel phi phi0 alpha0 c1 = Ok (a, p) /\
    ((p = phi a /\ phi a <= phi0 - c1 * a * phi alpha0) \/ a = 1 / 100).
Proof.
  intros phi phi0 alpha0 c1. unfold armijo_search. rops. cbv zeta.
  destruct (Rltb_spec (phi alpha0) (phi0 + c1 * alpha0 * - phi alpha0)) as [H|H].
  { exists 0%nat. intros fuel _. exists alpha0, (phi alpha0). split; auto. left. split; auto. lra. }
  set (a1 := _ / Q2R 2 / _).
  assert (exists n, a1 <= 2 ^ n / 100) as (n & Hn).
  { destruct (Pow_x_infinity 2 ltac:(rewrite Rabs_right; lra) (100 * Rabs a1)) as (N & HN). specialize (HN N (le_n _)).
    rewrite Rabs_right in HN by (apply Rle_ge, pow_le; lra). exists N. pose proof (Rle_abs a1). lra. }
  exists (S n). intros fuel Hf.
  destruct (armijo_run phi phi0 c1 (- phi alpha0) n fuel alpha0 a1 (phi alpha0) (phi a1) Hn ltac:(lia)) as (a & p & E & P).
  exists a, p. split; [exact E|]. destruct P as [(-> & P)|P]; [left|right]; auto. split; auto. lra.
Qed.

(** C40 in binary64: with the default arguments the naive search stops after at most 8 evaluations,
    whatever the objective returns (NaN and infinities included). *)
Lemma C40_naive_binary64_pf :
  forall pw (phi : float -> float) phi0,
  exists r, @naive_search (FloatOps pw) 8 phi phi0 n1 (nQ (1 # 1000000)) (nQ (1 # 10)) = Ok r.
Proof.
  intros pw phi phi0. unfold naive_search. cbn [naive_loop]. cbn [num nQ nmul nltb FloatOps].
  repeat match goal with
  | |- context [andb ?b ?c] =>
      let v := eval vm_compute in c in change c with v;
      destruct b; cbn [andb]; [|eexists; reflexivity]
  end; try (eexists; reflexivity).
Qed.

(** C40: both searches on an example that needs backtracking, phi(a) = (1 - 4 a)^2 and phi0 = 1. *)
Lemma C40_ex_pf :
  let phi := fun a => (1 - 4 * a) * (1 - 4 * a) in
  @naive_search ROps 2 phi 1 1 (1 / 1000000) (1 / 10) = Ok (1 / 10 * 1, phi (1 / 10 * 1)).
Proof.
  cbv zeta. unfold naive_search. cbn [naive_loop]. rops.
  rewrite (proj2 (Rltb_true 1 _)) by lra. rewrite (proj2 (Rltb_true _ 1)) by lra. cbn [andb].
  rewrite (proj2 (Rltb_false 1 _)) by lra. reflexivity.
Qed.

(** ** C63 *)

(** C63.  The naive search returns the objective at the returned step (see also C40). *)
Lemma C63_naive_partial_pf :
  forall (phi : R -> R) phi0 alpha0 min_alpha mult fuel a p,
  @naive_search ROps fuel phi phi0 alpha0 min_alpha mult = Ok (a, p) -> p = phi a.
Proof.
  intros phi phi0 alpha0 m q fuel. unfold naive_search. revert alpha0.
  induction fuel as [|fuel IH]; intros alpha0 a p E; [discriminate|]. cbn [naive_loop] in E.
  match type of E with (if ?b then _ else _) = _ => destruct b end; [apply (IH _ _ _ E)|]. injection E as <- <-. reflexivity.
Qed.

(** C63 fails for the Armijo search: in binary64, phi(a) = 5 + a^2 with phi0 = 1 and the default
    arguments gives the fallback 1/100 with an objective value different from phi(1/100). *)
Lemma C63_armijo_refuted_pf :
  forall pw, exists a p,
  let phi := fun x => PrimFloat.add 5%float (PrimFloat.mul x x) in
  @armijo_search (FloatOps pw) 10 phi 1%float 1%float (nQ (1 # 10000)) = Ok (a, p) /\
  PrimFloat.eqb a 0.01%float = true /\ PrimFloat.eqb p (phi a) = false.
Proof.
  intros pw.
  pose (r := match @armijo_search (FloatOps pw) 10 (fun x => PrimFloat.add 5%float (PrimFloat.mul x x)) 1%float 1%float (nQ (1 # 10000)) with
             | Ok p => p | _ => (0%float, 0%float) end).
  exists (fst r), (snd r). cbv zeta. repeat split; vm_compute; reflexivity.
Qed.

(** ** C62 *)

(** One linear problem A x + b of dimension n with a right inverse J of A *)
Record linear := MkLin { lA : list rv; lb : rv; lJ : list rv }.
Definition solves (n : nat) (p : linear) : Prop :=
  is_matrix n n (lA p) /\ length (lb p) = n /\ is_matrix n n (lJ p) /\
  forall v, length v = n -> apply (lA p) (apply (lJ p) v) = v.
Definition value (p : linear) (x : rv) : rv := plus_vec (apply (lA p) x) (lb p).
(** the batch function: problem i acts on row i *)
Definition batch (P : list linear) (z : list rv) : list rv := map (fun q => value (fst q) (snd q)) (combine P z).

Lemma dot_minus_r : forall a v w, length v = length w -> dot a (minus_vec v w) = dot a v - dot a w.
Proof.
  induction a as [|x a IH]; intros [|y v] [|z w] E; try discriminate; try (cbn; lra).
  change (minus_vec (y :: v) (z :: w)) with ((y - z) :: minus_vec v w). rewrite !dot_cons, IH by (now injection E). ring.
Qed.
Lemma dot_times_r c a v : dot a (times c v) = c * dot a v.
Proof. rewrite dot_comm, dot_times_l, dot_comm. reflexivity. Qed.
Lemma apply_minus A v w : length v = length w -> apply A (minus_vec v w) = minus_vec (apply A v) (apply A w).
Proof. intros E. induction A as [|r A IH]; [reflexivity|]. cbn. f_equal; [now apply dot_minus_r|exact IH]. Qed.
Lemma apply_times A c v : apply A (times c v) = times c (apply A v).
Proof. induction A as [|r A IH]; [reflexivity|]. cbn. f_equal; [apply dot_times_r|exact IH]. Qed.
Lemma alg1 c : forall a b, length a = length b -> plus_vec (minus_vec a (times c (plus_vec a b))) b = times (1 - c) (plus_vec a b).
Proof. induction a as [|x a IH]; intros [|y b] E; try discriminate; [reflexivity|]. injection E as E. cbn. f_equal; [ring|]. now apply IH. Qed.
Lemma alg2 c : forall v, minus_vec (times (1 - c) v) v = times (- c) v.
Proof. induction v as [|x v IH]; [reflexivity|]. cbn. f_equal; [ring|exact IH]. Qed.
Lemma alg3 c : forall x d, length x = length d -> minus_vec (minus_vec x (times c d)) x = times (- c) d.
Proof. induction x as [|a x IH]; intros [|b d] E; try discriminate; [reflexivity|]. injection E as E. cbn. f_equal; [ring|]. now apply IH. Qed.
Lemma alg4 : forall v, minus_vec v v = repeat 0 (length v).
Proof. induction v as [|x v IH]; [reflexivity|]. cbn. f_equal; [ring|exact IH]. Qed.
Lemma alg5 : forall v p, length v = length p -> @vadd ROps v (@vscale ROps 0 p) = v.
Proof. induction v as [|x v IH]; intros [|y p] E; try discriminate; [reflexivity|]. injection E as E. cbn. f_equal; [rops; ring|]. now apply IH. Qed.
Lemma madd_zero c : forall (J : list rv) (k : nat) p, Forall (fun r => length r = c) J -> length p = c -> length J = k ->
  @madd ROps J (@outer ROps (repeat 0 k) p) = J.
Proof.
  induction J as [|r J IH]; intros [|k] p H Hp E; try discriminate; [reflexivity|]. apply Forall_cons_iff in H. destruct H as (Hr & HJ).
  change (@vadd ROps r (@vscale ROps 0 p) :: @madd ROps J (@outer ROps (repeat 0 k) p) = r :: J).
  f_equal; [apply alg5; exact (eq_trans Hr (eq_sym Hp))|]. apply IH; auto.
Qed.
Lemma div_zero d k : map (fun x => x / d) (repeat 0 k) = repeat 0 k.
Proof. induction k; cbn; auto. f_equal; auto. unfold Rdiv. ring. Qed.

Lemma update_same mm n (J : list rv) dg : good_method mm -> is_matrix n n J -> length dg = n -> @update ROps mm dg (apply J dg) J = J.
Proof.
  intros [-> | ->] (HJ & HR) Hg; unfold update; [unfold update_full|unfold update_bad]; cbv zeta; rewrite matvec_apply, vsub_minus, alg4, apply_len.
  - assert (Ez : forall d, map (fun a => @ndiv ROps a d) (repeat 0 (length J)) = repeat 0 (length J)) by (intros d; apply div_zero).
    etransitivity; [apply (f_equal (fun q => @madd ROps J (@outer ROps q _))), Ez|].
    apply (madd_zero n); auto. etransitivity; [apply vecmat_len; rewrite Forall_forall in *; intros r Hr; rewrite (HR r Hr); symmetry; exact Hg|exact Hg].
  - etransitivity; [apply (f_equal (@madd ROps J)), outer_div|]. rewrite div_zero. apply (madd_zero n); auto.
Qed.

Lemma one_row mm n p x a : good_method mm -> solves n p -> length x = n ->
  let v := value p x in let d := @matvec ROps (lJ p) v in
  let x' := @vsub ROps x (@vscale ROps a d) in
  value p x' = times (1 - a) v /\ length x' = n /\ @update ROps mm (@vsub ROps (value p x') v) (@vsub ROps x' x) (lJ p) = lJ p.
Proof.
  intros Hm ((HA & HAr) & Hb & (HJ & HJr) & Hinv) Hx v d x'.
  assert (Hv : length v = n) by (apply plus_len; auto; rewrite apply_len; auto).
  assert (Ed : d = apply (lJ p) v) by apply matvec_apply.
  assert (Hd : length d = n) by (rewrite Ed, apply_len; auto).
  assert (Ex : x' = minus_vec x (times a d)) by apply vsub_minus.
  assert (E1 : value p x' = times (1 - a) v).
  { unfold value. rewrite Ex, apply_minus by (rewrite times_len; exact (eq_trans Hx (eq_sym Hd))). rewrite apply_times, Ed, Hinv by exact Hv.
    unfold v, value. apply alg1. rewrite apply_len. exact (eq_trans HA (eq_sym Hb)). }
  split; [exact E1|]. split; [rewrite Ex; apply minus_len; auto; rewrite times_len; auto|].
  rewrite E1, !vsub_minus, alg2. rewrite Ex, alg3 by exact (eq_trans Hx (eq_sym Hd)). rewrite Ed, <- apply_times.
  apply (update_same mm n); auto; [split; auto|]. rewrite times_len. exact Hv.
Qed.

Lemma step_rows mm n a : good_method mm -> forall P z, Forall (solves n) P -> length z = length P -> Forall (fun r => length r = n) z ->
  let dz := map2 (@matvec ROps) (map lJ P) (batch P z) in
  let z' := map2 (fun x d => @vsub ROps x (@vscale ROps a d)) z dz in
  batch P z' = map (times (1 - a)) (batch P z) /\ length z' = length P /\ Forall (fun r => length r = n) z' /\
  map2 (fun p J => @update ROps mm (fst p) (snd p) J) (combine (map2 (@vsub ROps) (batch P z') (batch P z)) (map2 (@vsub ROps) z' z)) (map lJ P) = map lJ P.
Proof.
  intros Hm. induction P as [|p P IH]; intros [|x z] HP Hl Hz; try discriminate; [cbn; auto|].
  apply Forall_cons_iff in HP. destruct HP as (Hp & HP). apply Forall_cons_iff in Hz. destruct Hz as (Hx & Hz). injection Hl as Hl.
  destruct (IH z HP Hl Hz) as (I1 & I2 & I3 & I4). destruct (one_row mm n p x a Hm Hp Hx) as (O1 & O2 & O3). cbv zeta in *.
  cbn [map combine batch fst snd map2]. change (map (fun q => value (fst q) (snd q)) (combine P z)) with (batch P z).
  set (dz := map2 (@matvec ROps) (map lJ P) (batch P z)) in *. set (z' := map2 (fun x d : vec ROps => @vsub ROps x (@vscale ROps a d)) z dz) in *.
  cbn [map combine batch fst snd map2]. change (map (fun q => value (fst q) (snd q)) (combine P z')) with (batch P z').
  change (map (fun q => value (fst q) (snd q)) (combine P z)) with (batch P z).
  split; [f_equal; [exact O1|exact I1]|]. split; [cbn; f_equal; exact I2|]. split; [constructor; auto|].
  f_equal; [exact O3|exact I4].
Qed.

Lemma times_pow c k (v : rv) : times c (times (c ^ k) v) = times (c ^ S k) v.
Proof. unfold times. rewrite map_map. apply map_ext. intros x. cbn. ring. Qed.

Lemma linear_loop mm n tl a P : good_method mm -> Forall (solves n) P -> forall k sf (st : rstate (K := ROps)),
  length (r_z st) = length P -> Forall (fun r => length r = n) (r_z st) -> r_J st = map lJ P -> r_ge st = batch P (r_z st) -> r_alpha st = a ->
  exists st', @root_loop ROps k sf mm SNone tl (batch P) st = Ok st' /\
   (r_steps st <= r_steps st')%nat /\ r_ge st' = map (times ((1 - a) ^ (r_steps st' - r_steps st))) (r_ge st) /\ r_ge st' = batch P (r_z st').
Proof.
  intros Hm HP. induction k as [|k IH]; intros sf st Hl Hz HJ Hg Ha.
  - exists st. split; [reflexivity|]. split; [lia|]. split; [|exact Hg]. rewrite Nat.sub_diag. cbn.
    symmetry. erewrite map_ext; [apply map_id|]. intros v. unfold times. erewrite map_ext; [apply map_id|]. intros x. apply Rmult_1_l.
  - cbn [root_loop].
    assert (E : @solver_step ROps mm (batch P) (r_z st) (r_J st) (r_ge st) (r_alpha st) = Ok (@broyden_step ROps mm (batch P) (r_z st) (r_J st) (r_ge st) (r_alpha st)))
      by (destruct Hm as [-> | ->]; reflexivity).
    rewrite E. cbn [rbind]. unfold broyden_step. rewrite HJ, Hg, Ha.
    destruct (step_rows mm n a Hm P (r_z st) HP Hl Hz) as (S1 & S2 & S3 & S4). cbv zeta in *.
    set (dz := map2 (@matvec ROps) (map lJ P) (batch P (r_z st))) in *. set (z := map2 (fun x d : vec ROps => @vsub ROps x (@vscale ROps a d)) (r_z st) dz) in *.
    cbn [new_alpha rbind]. destruct (@tc_check ROps tl (r_f0 st) (batch P z) z dz) as (stop, f0).
    destruct stop.
    + eexists. split; [reflexivity|]. cbn [r_steps r_ge r_z]. split; [lia|]. split; [|reflexivity]. rewrite S1. replace (S (r_steps st) - r_steps st)%nat with 1%nat by lia.
      apply map_ext. intros v. f_equal. cbn. ring.
    + match goal with |- context [@root_loop ROps k sf mm SNone tl (batch P) ?s] => destruct (IH sf s) as (st' & E' & L & G & B) end; cbn; auto.
      exists st'. split; [exact E'|]. cbn [r_steps r_ge r_z] in L, G. split; [lia|]. split; [|exact B]. rewrite G, S1, map_map. apply map_ext. intros v.
      replace (r_steps st' - r_steps st)%nat with (S (r_steps st' - S (r_steps st))) by lia.
      unfold times. rewrite map_map. apply map_ext. intros x. cbn. ring.
Qed.

(** C62.  For every batch of affine problems A_i x + b_i of any dimension, with the exact inverse
    Jacobians, and without line search, the residual of row i after k steps is (1 - alpha)^k times
    the residual at the start, for both Broyden methods and all tolerances. *)
Lemma C62_affine_partial_pf :
  forall n P z sf alpha tl maxiters m, Forall (solves n) P -> length z = length P -> Forall (fun row => length row = n) z -> broyden_name m ->
  exists st, @root_find ROps sf (batch P) z (map lJ P) alpha tl maxiters m "none" = Ok st /\
    batch P (r_z st) = map (times ((1 - alpha) ^ r_steps st)) (batch P z).
Proof.
  intros n P z sf alpha tl maxiters m HP Hl Hz Hm. unfold root_find.
  assert (Em : exists mm, method_of m = Ok mm /\ good_method mm).
  { destruct Hm as [-> | ->]; eexists; (split; [reflexivity|]); [left|right]; reflexivity. }
  destruct Em as (mm & -> & Hg). cbn [rbind search_of String.eqb Ascii.eqb Bool.eqb].
  change (search_of "none") with (Ok SNone). cbn [rbind].
  destruct (linear_loop mm n tl alpha P Hg HP (Z.to_nat (maxiters + 1)) sf (MkR z [] (batch P z) (map lJ P) alpha None 0 false)) as (st & E & L & G & B); auto.
  exists st. split; [exact E|]. rewrite <- B, G. cbn. now rewrite Nat.sub_0_r.
Qed.

Lemma safe_norm1 x : @safe_norm ROps [x] = Rabs x.
Proof.
  unfold safe_norm. cbn. unfold finite. rops. rewrite Q2R_0'. rewrite (proj2 (Reqb_true _ _)) by lra. cbn.
  rewrite Rplus_0_l. apply sqrt_Rsqr_abs.
Qed.

Lemma naive_up sf (x d : R) a : (8 <= sf)%nat -> 0 < x -> 0 < d ->
  @new_alpha ROps sf SNaive (fun z => z) [[x]] [[d]] [[x]] a = Ok (1 / 1000000).
Proof.
  intros Hs Hx Hd. cbn [new_alpha].
  set (phi := @phi_of ROps (fun z => z) [[x]] [[d]]). set (p0 := @phi0_of ROps [[x]]).
  assert (E0 : p0 = x * x). { unfold p0, phi0_of, sq. cbn [concat app]. rewrite safe_norm1, Rabs_right by lra. reflexivity. }
  assert (Ep : forall b, 0 < b -> phi b = (x + b * d) * (x + b * d)).
  { intros b Hb. unfold phi, phi_of, sq. cbn [map2 concat app]. unfold vadd, vscale. cbn [map2 map app]. rewrite safe_norm1. rops.
    rewrite Rabs_right by nra. reflexivity. }
  assert (Up : forall b, 0 < b -> p0 < phi b).
  { intros b Hb. rewrite E0, Ep by exact Hb. assert (0 < b * d) by nra. nra. }
  destruct (naive_run phi p0 (Q2R (1 # 1000000)) (Q2R (1 # 10)) sf (Q2R 1)) as (k & Hk & E & P & F).
  { exists 6%nat. split; [lia|]. right. rewrite Q2R_1', !Q2R_lit. cbn. lra. }
  unfold naive_search, rmap. rops. rewrite E. cbn [rbind fst]. f_equal.
  assert (T : Q2R (1 # 10) = / 10) by (rewrite Q2R_lit; lra). assert (M : Q2R (1 # 1000000) = / 1000000) by (rewrite Q2R_lit; lra).
  rewrite T, M, Q2R_1' in *. rewrite Rmult_1_r in *.
  assert (Hp : 0 < (/ 10) ^ k) by (apply pow_lt; lra).
  destruct P as [P|P]; [specialize (Up _ Hp); lra|].
  assert (k6 : (k = 6)%nat).
  { destruct (Nat.lt_trichotomy k 6) as [H|[H|H]]; auto.
    - exfalso. assert ((/ 10) ^ 6 < (/ 10) ^ k).
      { replace 6%nat with (k + (6 - k))%nat by lia. rewrite pow_add. assert ((/ 10) ^ (6 - k) < 1); [|nra].
        destruct (6 - k)%nat as [|q] eqn:Eq; [lia|]. cbn. assert (0 < (/ 10) ^ q <= 1).
        { split; [apply pow_lt; lra|]. rewrite <- (pow1 q). apply pow_incr. lra. } lra. }
      replace ((/ 10) ^ 6) with (/ 1000000) in H0 by (cbn; lra). lra.
    - destruct (F 6%nat H) as (_ & F2). rewrite Rmult_1_r in F2. cbn in F2. lra. }
  rewrite k6. cbn. lra.
Qed.

Ltac use_naive H :=
  let E := fresh in pose proof H as E;
  match goal with |- context [@new_alpha ROps ?a ?b ?c ?d ?e ?f ?g] =>
    replace (@new_alpha ROps a b c d e f g) with (@Ok (num ROps) (1 / 1000000)) by (symmetry; exact E) end; clear E; cbn [rbind].
Ltac use_check T f0 :=
  match goal with |- context [@tc_check ROps ?a ?b ?c ?d ?e] =>
    pose proof (tc_check_true a b c d e) as T; destruct (@tc_check ROps a b c d e) as (stop, f0) end; cbn [fst snd] in T.

Lemma id_loop sf (tl : tols (K := ROps)) : (8 <= sf)%nat -> f_tol tl = 1 / 100 -> forall k (st : rstate (K := ROps)) x f,
  r_z st = [[x]] -> r_ge st = [[x]] -> r_J st = [[[1]]] -> r_alpha st = 1 / 1000000 -> r_f0 st = f -> r_conv st = false ->
  1 / 2 + INR k / 1000000 <= x <= 1 ->
  exists st', @root_loop ROps k sf BroydenFull SNaive tl (fun z => z) st = Ok st' /\ r_conv st' = false /\
    r_steps st' = (r_steps st + k)%nat /\ exists y, r_z st' = [[y]] /\ x - INR k / 1000000 <= y.
Proof.
  intros Hs Ht. induction k as [|k IH]; intros st x f Hz Hg HJ Ha Hf Hc Hx.
  - exists st. split; [reflexivity|]. split; auto. split; [lia|]. exists x. split; auto. cbn. lra.
  - rewrite S_INR in Hx. assert (0 <= INR k) by apply pos_INR.
    cbn [root_loop solver_step]. unfold broyden_step. rewrite Hz, Hg, HJ, Ha. cbv zeta. cbn [rbind map2].
    set (d := @matvec ROps [[1]] [x]). assert (Ed : d = [x]). { unfold d. cbn. rops. rewrite Q2R_0'. f_equal. ring. }
    rewrite Ed. set (x' := @vsub ROps [x] (@vscale ROps (1 / 1000000) [x])).
    assert (Ex : x' = [x - x / 1000000]). { unfold x'. cbn. f_equal. rops. lra. }
    rewrite Ex. cbn [combine map2]. use_naive (naive_up sf (x - x / 1000000) x (1 / 1000000) Hs ltac:(lra) ltac:(lra)).
    use_check T f0.
    destruct stop.
    + exfalso. destruct (proj1 T eq_refl) as ((T1 & _) & _). apply Forall_cons_iff in T1. destruct T1 as (T1 & _).
      unfold euclid in T1. cbn in T1. rewrite Rplus_0_r in T1. rewrite sqrt_square in T1 by lra. rewrite Ht in T1. lra.
    + match goal with |- context [@root_loop ROps k sf BroydenFull SNaive tl _ ?s] =>
        destruct (IH s (x - x / 1000000) (Some f0)) as (st' & E' & C' & S' & y & Y1 & Y2) end; cbn [r_z r_ge r_J r_alpha r_f0 r_conv fst snd]; auto.
      * change ([@update ROps BroydenFull (@vsub ROps [x - x / 1000000] [x]) (@vsub ROps [x - x / 1000000] [x]) [[1]]] = [[[1]]]). f_equal.
        set (w := @vsub ROps [x - x / 1000000] [x]).
        assert (Ew : w = apply [[1]] w). { unfold w. cbn. rops. f_equal. ring. }
        rewrite Ew at 2. apply (update_same BroydenFull 1); [left; reflexivity| |reflexivity]. split; auto.
      * lra.
      * exists st'. split; [exact E'|]. split; auto. split; [cbn in S'; lia|]. exists y. split; auto. rewrite S_INR. lra.
Qed.

(** C62 fails for the default arguments already for g(x) = x: started at 1 with the exact inverse
    Jacobian 1, root_find with alpha = 0.1, default tolerances, maxiters = 100, method 'broyden' and
    search 'naive' does not converge and returns a point above 0.89 (f_tol is 0.01).  The search
    minimises |g(z + a dz)| while the steps are z - a dz. *)
Lemma C62_default_search_refuted_pf :
  exists st y, @root_find ROps 8 (fun z => z) [[1]] [[[1]]] (1 / 10) default_tols 100 "broyden" "naive" = Ok st /\
    r_conv st = false /\ r_z st = [[y]] /\ 89 / 100 < y /\ f_tol (@default_tols ROps) = 1 / 100.
Proof.
  unfold root_find. cbn [method_of String.eqb Ascii.eqb Bool.eqb]. change (method_of "broyden") with (Ok BroydenFull). change (search_of "naive") with (Ok SNaive).
  cbn [rbind]. change (Z.to_nat (100 + 1)) with (S 100). assert (EN : exists N, N = 100%nat) by eauto. destruct EN as (N & EN). rewrite <- EN. cbn [root_loop solver_step]. unfold broyden_step. cbn [r_z r_J r_ge r_alpha]. cbv zeta. cbn [rbind map2].
  set (d := @matvec ROps [[1]] [1]). assert (Ed : d = [1]). { unfold d. cbn. rops. rewrite Q2R_0'. f_equal. ring. }
  rewrite Ed. set (x' := @vsub ROps [1] (@vscale ROps (1 / 10) [1])).
  assert (Ex : x' = [9 / 10]). { unfold x'. cbn. f_equal. rops. lra. }
  rewrite Ex. cbn [combine map2]. use_naive (naive_up 8 (9 / 10) 1 (1 / 10) (le_n _) ltac:(lra) ltac:(lra)).
  assert (Et : f_tol (@default_tols ROps) = 1 / 100) by (cbn; rewrite Q2R_lit; reflexivity).
  cbn [r_f0]. use_check T f0.
  destruct stop.
  { exfalso. destruct (proj1 T eq_refl) as ((T1 & _) & _). apply Forall_cons_iff in T1. destruct T1 as (T1 & _).
    unfold euclid in T1. cbn in T1. rewrite Rplus_0_r in T1. rewrite sqrt_square in T1 by lra. rewrite Q2R_lit in T1. lra. }
  match goal with |- context [@root_loop ROps N 8 BroydenFull SNaive default_tols _ ?s] =>
    destruct (id_loop 8 default_tols (le_n _) Et N s (9 / 10) (Some f0)) as (st' & E' & C' & S' & y & Y1 & Y2) end; auto.
  - cbn [r_J]. f_equal. set (w := @vsub ROps [9 / 10] [1]).
    assert (Ew : w = apply [[1]] w). { unfold w. cbn. rops. f_equal. ring. }
    cbn [fst snd]. rewrite Ew at 2. apply (update_same BroydenFull 1); [left; reflexivity| |reflexivity]. split; auto.
  - rewrite EN; replace (INR 100) with 100 by (cbn; lra). lra.
  - exists st', y. split; [exact E'|]. split; auto. split; auto. split; [|exact Et]. rewrite EN in Y2; replace (INR 100) with 100 in Y2 by (cbn; lra). lra.
Qed.

(** C62: the affine theorem is not vacuous: 2 x - 4 = 0 and -x + 1 = 0 as a batch of two rows; one
    undamped step gives residual zero. *)
Lemma C62_ex_pf :
  let P := [MkLin [[2]] [-4] [[1 / 2]]; MkLin [[-1]] [1] [[-1]]] in
  Forall (solves 1) P /\ map (times ((1 - 1) ^ 1)) (batch P [[7]; [3]]) = [[0]; [0]].
Proof.
  cbv zeta. split.
  - repeat constructor; cbn; auto; intros [|x [|? ?]] E; try discriminate; cbn; f_equal; lra.
  - cbn. repeat f_equal; lra.
Qed.

(** ** C64 *)

(** C64 fails: the documented rule |F| <= f_rtol |F_0| uses the residual at the starting point, the
    code the residual after the first step.  With g(x) = x, start 1, alpha = 99/100 and one
    iteration, the returned point 1/100 meets all documented tolerances (|F| = 1/100 <= f_tol,
    |F| <= f_rtol |F_0| = 1/10, |dx| = 1 <= x_tol, |dx| <= x_rtol |x| = 10), but no convergence is
    reported. *)
Lemma C64_reference_residual_refuted_pf :
  let tl := MkTols (K := ROps) (1 / 100) (1 / 10) 10 1000 in
  exists st, @root_find ROps 8 (fun z => z) [[1]] [[[1]]] (99 / 100) tl 0 "broyden" "none" = Ok st /\
    r_conv st = false /\ exists x d, r_z st = [[x]] /\ r_dz st = [[d]] /\
    euclid [x] <= 1 / 100 /\ euclid [x] <= 1 / 10 * euclid [1] /\ euclid [d] <= 10 /\ euclid [d] <= 1000 * euclid [x].
Proof.
  cbv zeta. unfold root_find. change (method_of "broyden") with (Ok BroydenFull). change (search_of "none") with (Ok SNone).
  cbn [rbind]. change (Z.to_nat (0 + 1)) with 1%nat. cbn [root_loop solver_step]. unfold broyden_step. cbn [r_z r_J r_ge r_alpha]. cbv zeta. cbn [rbind map2].
  set (d := @matvec ROps [[1]] [1]). assert (Ed : d = [1]). { unfold d. cbn. rops. rewrite Q2R_0'. f_equal. ring. }
  rewrite Ed. set (x' := @vsub ROps [1] (@vscale ROps (99 / 100) [1])).
  assert (Ex : x' = [1 / 100]). { unfold x'. cbn. f_equal. rops. lra. }
  rewrite Ex. cbn [combine map2 new_alpha rbind r_f0].
  assert (N1 : forall x, 0 <= x -> euclid [x] = x). { intros x Hx. unfold euclid. cbn. rewrite Rplus_0_r. now apply sqrt_square. }
  match goal with |- context [@tc_check ROps ?a ?b ?c ?d ?e] =>
    pose proof (tc_check_true a b c d e) as T; pose proof (tc_check_f0 a b c d e) as F; destruct (@tc_check ROps a b c d e) as (stop, f0) end.
  cbn [fst snd] in T, F. destruct stop.
  - exfalso. destruct (proj1 T eq_refl) as ((_ & T2) & _). rewrite F in T2. cbn [map combine] in T2. apply Forall_cons_iff in T2. destruct T2 as (T2 & _).
    cbn [fst snd f_rtol] in T2. change (list ROps) with rv in T2. rewrite N1 in T2 by lra. lra.
  - eexists. split; [reflexivity|]. split; [reflexivity|]. exists (1 / 100), 1. split; [reflexivity|]. split; [reflexivity|].
    rewrite !N1 by lra. lra.
Qed.

(** C64, what holds: the first check compares the residual after the first step with itself, so it can
    only succeed if f_rtol >= 1 or the residual is zero. *)
Lemma C64_first_check_partial_pf :
  forall (tl : tols (K := ROps)) ge z dz, 0 < f_rtol tl < 1 -> fst (@tc_check ROps tl None ge z dz) = true ->
  Forall (fun row => euclid row = 0) ge.
Proof.
  intros tl ge z dz Hr E. destruct (proj1 (tc_check_true tl None ge z dz) E) as ((_ & T2) & _). rewrite tc_check_f0 in T2.
  clear E. induction ge as [|r ge IH]; constructor; cbn [map combine] in T2; apply Forall_cons_iff in T2; destruct T2 as (T2 & T3); auto.
  cbn [fst snd] in T2. assert (0 <= euclid r) by apply sqrt_pos. change (list ROps) with rv in *.
  apply Rmult_le_compat_r with (r := f_rtol tl) in T2; [|lra]. unfold Rdiv in T2. rewrite Rmult_assoc, Rinv_l in T2 by lra. nra.
Qed.
