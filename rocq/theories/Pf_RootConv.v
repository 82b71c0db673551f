(** Convergence of root_find on nonlinear equations. *)
From Coq Require Import ZArith QArith Qreals Reals Lra Lia String List Bool Psatz.
From Verif Require Import Num Py Tensor M_Root L_Base.
Import ListNotations.
Local Notation length := List.length.
Local Open Scope R_scope.

(** a batch of n rows with one entry each, and of n matrices with one entry each *)
Definition col (n : nat) (a : nat -> R) : list (list R) := map (fun i => [a i]) (seq 0 n).
Definition mcol (n : nat) (j : nat -> R) : list (list (list R)) := map (fun i => [[j i]]) (seq 0 n).
(** all slopes of h lie between m and M *)
Definition slopes (m M : R) (h : R -> R) : Prop :=
  forall a b, m * (a - b) * (a - b) <= (h a - h b) * (a - b) <= M * (a - b) * (a - b).
(** contraction factor of a step of size alpha *)
Definition factor (m M alpha : R) : R := Rmax (1 - alpha * (m / M)) (alpha * (M / m) - 1).
(** the equations h i (z i) = 0, i < n, with simple roots, and the batch function made of them *)
Definition equations (n : nat) (m M : R) (h : nat -> R -> R) (root : nat -> R) (g : list (list R) -> list (list R)) : Prop :=
  0 < m /\ m <= M /\ (forall i, (i < n)%nat -> slopes m M (h i) /\ h i (root i) = 0) /\
  (forall z, g (col n z) = col n (fun i => h i (z i))).

(** ** One equation *)
Lemma slope_of m M h a b : 0 < m -> slopes m M h -> m <= M -> exists s, m <= s <= M /\ h a - h b = s * (a - b).
Proof.
  intros Hm Hs HM. destruct (Req_dec (a - b) 0) as [E|E].
  - exists m. split; [lra|]. replace a with b by lra. ring.
  - exists ((h a - h b) / (a - b)). destruct (Hs a b) as [H1 H2].
    assert (P : 0 < (a - b) * (a - b)) by nra.
    assert (Eq : h a - h b = (h a - h b) / (a - b) * (a - b)) by (field; exact E).
    split; [|exact Eq]. set (s := (h a - h b) / (a - b)) in *. rewrite Eq in H1, H2.
    split; apply Rmult_le_reg_r with ((a - b) * (a - b)); nra.
Qed.
Lemma quot_between (m M num den : R) : 0 < m -> m <= M -> 0 < den -> m * num <= den -> den <= M * num -> / M <= num / den <= / m.
Proof.
  intros Hm HM Hd H1 H2. split.
  - apply Rmult_le_reg_r with (M * den); [nra|]. replace (/ M * (M * den)) with den by (field; lra). replace (num / den * (M * den)) with (M * num) by (field; lra). lra.
  - apply Rmult_le_reg_r with (m * den); [nra|]. replace (/ m * (m * den)) with den by (field; lra). replace (num / den * (m * den)) with (m * num) by (field; lra). lra.
Qed.
(** both updates keep the inverse slope between the inverse bounds *)
Lemma full_between m M j s d eps : 0 < m -> m <= M -> 0 < eps -> / M <= j <= / m -> m <= s <= M ->
  / M <= j + (d - j * (s * d)) / (d * (j * (s * d)) + eps) * (d * j) <= / m.
Proof.
  intros Hm HM He [J1 J2] [S1 S2].
  assert (Hj : 0 < j) by (apply Rlt_le_trans with (/ M); [apply Rinv_0_lt_compat; lra|exact J1]).
  assert (Mj : 1 <= M * j) by (replace 1 with (M * / M) by (field; lra); apply Rmult_le_compat_l; lra).
  assert (mj : m * j <= 1) by (replace 1 with (m * / m) by (field; lra); apply Rmult_le_compat_l; lra).
  assert (D0 : 0 <= d * d) by nra.
  assert (Hd : 0 < d * (j * (s * d)) + eps).
  { replace (d * (j * (s * d))) with (j * s * (d * d)) by ring. assert (0 <= j * s * (d * d)) by (apply Rmult_le_pos; [nra|exact D0]). lra. }
  replace (j + (d - j * (s * d)) / (d * (j * (s * d)) + eps) * (d * j)) with ((j * (eps + d * d)) / (d * (j * (s * d)) + eps)) by (field; lra).
  apply quot_between; auto.
  - replace (d * (j * (s * d))) with (j * s * (d * d)) by ring.
    assert (m * j * eps <= 1 * eps) by (apply Rmult_le_compat_r; lra).
    assert (m * j * (d * d) <= j * s * (d * d)) by (apply Rmult_le_compat_r; [exact D0|nra]). nra.
  - replace (d * (j * (s * d))) with (j * s * (d * d)) by ring.
    assert (1 * eps <= M * j * eps) by (apply Rmult_le_compat_r; lra).
    assert (j * s * (d * d) <= M * j * (d * d)) by (apply Rmult_le_compat_r; [exact D0|nra]). nra.
Qed.
Lemma bad_between m M j s d tol : 0 < m -> m <= M -> 0 < tol -> / M <= j <= / m -> m <= s <= M ->
  / M <= j + (d - j * (s * d)) * (s * d) / (s * d * (s * d) + tol) <= / m.
Proof.
  intros Hm HM He [J1 J2] [S1 S2].
  assert (Hj : 0 < j) by (apply Rlt_le_trans with (/ M); [apply Rinv_0_lt_compat; lra|exact J1]).
  assert (Mj : 1 <= M * j) by (replace 1 with (M * / M) by (field; lra); apply Rmult_le_compat_l; lra).
  assert (mj : m * j <= 1) by (replace 1 with (m * / m) by (field; lra); apply Rmult_le_compat_l; lra).
  assert (D0 : 0 <= s * (d * d)) by (apply Rmult_le_pos; [lra|nra]).
  assert (Hd : 0 < s * d * (s * d) + tol) by (pose proof (Rle_0_sqr (s * d)) as G; unfold Rsqr in G; lra).
  replace (j + (d - j * (s * d)) * (s * d) / (s * d * (s * d) + tol)) with ((j * tol + s * (d * d)) / (s * d * (s * d) + tol)) by (field; lra).
  apply quot_between; auto.
  - assert (m * j * tol <= 1 * tol) by (apply Rmult_le_compat_r; lra).
    assert (m * (s * (d * d)) <= s * (s * (d * d))) by (apply Rmult_le_compat_r; lra). nra.
  - assert (1 * tol <= M * j * tol) by (apply Rmult_le_compat_r; lra).
    assert (s * (s * (d * d)) <= M * (s * (d * d))) by (apply Rmult_le_compat_r; lra). nra.
Qed.
Lemma js_between m M j s : 0 < m -> m <= M -> / M <= j <= / m -> m <= s <= M -> m / M <= j * s <= M / m.
Proof.
  intros Hm HM [J1 J2] [S1 S2]. assert (0 < / M) by (apply Rinv_0_lt_compat; lra). unfold Rdiv. split.
  - rewrite Rmult_comm. apply Rmult_le_compat; lra.
  - rewrite (Rmult_comm M). apply Rmult_le_compat; lra.
Qed.
Lemma contraction m M alpha j s e : 0 < m -> m <= M -> 0 < alpha -> / M <= j <= / m -> m <= s <= M ->
  Rabs (e - alpha * (j * (s * e))) <= factor m M alpha * Rabs e.
Proof.
  intros Hm HM Ha Hj Hs. destruct (js_between m M j s Hm HM Hj Hs) as [B1 B2].
  replace (e - alpha * (j * (s * e))) with ((1 - alpha * (j * s)) * e) by ring. rewrite Rabs_mult. apply Rmult_le_compat_r; [apply Rabs_pos|].
  assert (G1 : alpha * (m / M) <= alpha * (j * s)) by (apply Rmult_le_compat_l; lra).
  assert (G2 : alpha * (j * s) <= alpha * (M / m)) by (apply Rmult_le_compat_l; lra).
  pose proof (Rmax_l (1 - alpha * (m / M)) (alpha * (M / m) - 1)). pose proof (Rmax_r (1 - alpha * (m / M)) (alpha * (M / m) - 1)).
  unfold factor. apply Rabs_le. lra.
Qed.
Lemma factor_pos m M alpha : 0 < m -> m <= M -> 0 < alpha -> 0 <= factor m M alpha.
Proof.
  intros Hm HM Ha. unfold factor. pose proof (Rmax_l (1 - alpha * (m / M)) (alpha * (M / m) - 1)). pose proof (Rmax_r (1 - alpha * (m / M)) (alpha * (M / m) - 1)).
  assert (m / M <= 1). { apply Rmult_le_reg_r with M; [lra|]. replace (m / M * M) with m by (field; lra). lra. }
  assert (1 <= M / m). { apply Rmult_le_reg_r with m; [lra|]. replace (M / m * m) with M by (field; lra). lra. }
  nra.
Qed.
Lemma factor_lt m M alpha : 0 < m -> m <= M -> 0 < alpha -> alpha * (M / m) < 2 -> factor m M alpha < 1.
Proof.
  intros Hm HM Ha Hb. unfold factor. apply Rmax_lub_lt; [|lra]. assert (0 < m / M) by (apply Rdiv_lt_0_compat; lra). nra.
Qed.

(** ** The batch *)
Lemma matvec1 j a : @matvec ROps [[j]] [a] = [j * a].
Proof. cbn. f_equal. unfold Q2R; cbn. lra. Qed.
Lemma update_full1 eps dg dz j : @update_full ROps eps [dg] [dz] [[j]] = [[j + (dz - j * dg) / (dz * (j * dg) + eps) * (dz * j)]].
Proof.
  unfold update_full. rewrite matvec1. cbn. unfold Q2R; cbn.
  replace (0 * / 1 + dz * (j * dg)) with (dz * (j * dg)) by ring. do 2 f_equal. f_equal. ring.
Qed.
Lemma update_bad1 eps dg dz j : @update_bad ROps eps [dg] [dz] [[j]] = [[j + (dz - j * dg) * dg / (dg * dg + eps)]].
Proof.
  unfold update_bad. rewrite matvec1. cbn. unfold Q2R; cbn. replace (0 * / 1 + dg * dg) with (dg * dg) by ring. reflexivity.
Qed.
Definition eps : R := Q2R (1 # 1000000).
Lemma eps_pos : 0 < eps.
Proof. unfold eps, Q2R; cbn. lra. Qed.
Definition next_j (me : method) (dg dz j : R) : R :=
  match me with BroydenFull => j + (dz - j * dg) / (dz * (j * dg) + eps) * (dz * j) | _ => j + (dz - j * dg) * dg / (dg * dg + eps) end.
Lemma update1 me dg dz j : @update ROps me [dg] [dz] [[j]] = [[next_j me dg dz j]].
Proof. destruct me; unfold update, next_j; first [apply update_full1|apply update_bad1]. Qed.
Lemma map2_diag {A B C D} (o : B -> C -> D) (u : A -> B) (v : A -> C) l : map2 o (map u l) (map v l) = map (fun i => o (u i) (v i)) l.
Proof. induction l; cbn; congruence. Qed.
Lemma combine_diag {A B C} (u : A -> B) (v : A -> C) l : combine (map u l) (map v l) = map (fun i => (u i, v i)) l.
Proof. induction l; cbn; congruence. Qed.

Lemma step_col me n g (h : nat -> R -> R) z j alpha : (forall z, g (col n z) = col n (fun i => h i (z i))) ->
  let dz i := j i * h i (z i) in let z' i := z i - alpha * dz i in
  @broyden_step ROps me g (col n z) (mcol n j) (col n (fun i => h i (z i))) alpha =
  (col n z', col n dz, col n (fun i => h i (z' i)), mcol n (fun i => next_j me (h i (z' i) - h i (z i)) (z' i - z i) (j i))).
Proof.
  intros Hg dz z'. unfold broyden_step. cbv zeta.
  assert (E1 : map2 (@matvec ROps) (mcol n j) (col n (fun i => h i (z i))) = col n dz).
  { unfold mcol, col. rewrite map2_diag. apply map_ext. intros i. apply matvec1. }
  rewrite E1. assert (E2 : map2 (fun a d => @vsub ROps a (@vscale ROps alpha d)) (col n z) (col n dz) = col n z').
  { unfold col. rewrite map2_diag. reflexivity. }
  match goal with |- context [map2 ?o (col n z) (col n dz)] => replace (map2 o (col n z) (col n dz)) with (col n z') by (symmetry; exact E2) end.
  rewrite Hg. f_equal. unfold col, mcol. rewrite !map2_diag, combine_diag, map2_diag. apply map_ext. intros i. cbn [fst snd]. apply update1.
Qed.

(** the test for convergence *)
Lemma row_norm1 a : @row_norm ROps [a] = Rabs a.
Proof. unfold row_norm. cbn. unfold Q2R; cbn. replace (0 * / 1 + a * a) with (Rsqr a) by (unfold Rsqr; ring). apply sqrt_Rsqr_abs. Qed.
Lemma norms_col n a : map (@row_norm ROps) (col n a) = map (fun i => Rabs (a i)) (seq 0 n).
Proof. unfold col. rewrite map_map. apply map_ext. intros. apply row_norm1. Qed.
Lemma forallb_seq n (p : nat -> bool) : (forall i, (i < n)%nat -> p i = true) -> forallb (fun b => b) (map p (seq 0 n)) = true.
Proof. intros H. apply forallb_forall. intros b Hb. apply in_map_iff in Hb. destruct Hb as (i & <- & Hi). apply H. apply in_seq in Hi. lia. Qed.
Lemma check_f0 tl f0 n ge z dz : snd (@tc_check ROps tl f0 (col n ge) z dz) = match f0 with Some f => f | None => map (fun i => Rabs (ge i)) (seq 0 n) end.
Proof. unfold tc_check. cbn [snd]. destruct f0; [reflexivity|]. apply norms_col. Qed.
Lemma check_stop (tl : tols (K := ROps)) f0 n ge z dz :
  (forall i, (i < n)%nat -> Rabs (ge i) <= f_tol tl /\ Rabs (ge i) / f_rtol tl <= f0 i /\ Rabs (dz i) <= x_tol tl /\ Rabs (dz i) / x_rtol tl <= Rabs (z i)) ->
  fst (@tc_check ROps tl (Some (map f0 (seq 0 n))) (col n ge) (col n z) (col n dz)) = true.
Proof.
  intros H. unfold tc_check. cbn [fst]. 
  assert (N : forall a, map (@row_norm ROps) (col n a) = map (fun i => Rabs (a i)) (seq 0 n)) by (intros; apply norms_col).
  pose proof (N ge) as N1. pose proof (N z) as N2. pose proof (N dz) as N3. unfold num, ROps in N1, N2, N3 |- *. rewrite N1, N2, N3, !map2_diag, !map_map.
  rewrite !andb_true_iff. repeat split; apply forallb_seq; intros i Hi; apply Rleb_true; now apply H.
Qed.

(** ** The loop *)
Section Loop.
Variables (n : nat) (m M alpha : R) (h : nat -> R -> R) (root start : nat -> R) (g : list (list R) -> list (list R)) (me : method) (tl : tols (K := ROps)) (sf : nat).
Hypothesis Heq : equations n m M h root g.
Hypothesis Ha : 0 < alpha.
Hypothesis Hme : me = BroydenFull \/ me = BroydenBad.
Notation q := (factor m M alpha).
Notation E i := (Rabs (start i - root i)).
Definition inv (k : nat) (st : rstate (K := ROps)) : Prop :=
  r_alpha st = alpha /\ r_steps st = k /\
  exists z j, r_z st = col n z /\ r_ge st = col n (fun i => h i (z i)) /\ r_J st = mcol n j /\
  (forall i, (i < n)%nat -> / M <= j i <= / m /\ Rabs (z i - root i) <= q ^ k * E i) /\
  (k = 0%nat -> r_f0 st = None) /\
  ((0 < k)%nat -> exists f0, r_f0 st = Some (map f0 (seq 0 n)) /\ forall i, (i < n)%nat -> 0 <= f0 i /\ m * Rabs (z i - root i) <= q ^ (k - 1) * f0 i).
Definition good (k : nat) : Prop := forall i, (i < n)%nat ->
  M * (q ^ S k * E i) <= f_tol tl /\ M * q ^ k <= m * f_rtol tl /\ M / m * (q ^ k * E i) <= x_tol tl /\
  M / m * (q ^ k * E i) <= x_rtol tl * (Rabs (root i) - q ^ S k * E i).
Lemma residual i a : (i < n)%nat -> m * Rabs (a - root i) <= Rabs (h i a) <= M * Rabs (a - root i).
Proof.
  intros Hi. destruct Heq as (Hm & HM & Hh & _). destruct (Hh i Hi) as [Hs Hr]. destruct (slope_of m M (h i) a (root i) Hm Hs HM) as (s & Bs & Es).
  rewrite Hr, Rminus_0_r in Es. rewrite Es, Rabs_mult, (Rabs_right s) by lra. split; apply Rmult_le_compat_r; try lra; apply Rabs_pos.
Qed.
Lemma step_inv k l st : inv k st -> 0 < f_rtol tl -> 0 < x_rtol tl ->
  exists st', @root_loop ROps (S l) sf me SNone tl g st = (if r_conv st' then Ok st' else @root_loop ROps l sf me SNone tl g st') /\
    inv (S k) st' /\ ((0 < k)%nat -> good k -> r_conv st' = true).
Proof.
  intros (HA & HS & z & j & Hz & Hge & HJ & Hb & H0 & H1) Hft Hxt. pose proof Heq as (Hm & HM & Hh & Hg).
  pose proof (factor_pos m M alpha Hm HM Ha) as Hq.
  assert (Es : @solver_step ROps me g (r_z st) (r_J st) (r_ge st) (r_alpha st) = Ok (@broyden_step ROps me g (r_z st) (r_J st) (r_ge st) (r_alpha st))) by (destruct Hme as [-> | ->]; reflexivity).
  cbn [root_loop]. rewrite Es, Hz, Hge, HJ, HA. rewrite (step_col me n g h z j alpha Hg). cbv zeta. cbn [rbind new_alpha].
  set (dz := fun i => j i * h i (z i)). set (z' := fun i => z i - alpha * dz i). set (j' := fun i => next_j me (h i (z' i) - h i (z i)) (z' i - z i) (j i)).
  match goal with |- context [@tc_check ROps tl ?f ?a ?b ?c] => pose proof (eq_refl (@tc_check ROps tl f a b c)) as Et; pattern (@tc_check ROps tl f a b c) at 2 in Et; destruct (@tc_check ROps tl f a b c) as [stop f0] eqn:Ec in Et |- *; clear Et end.
  exists (@MkR ROps (col n z') (col n dz) (col n (fun i => h i (z' i))) (mcol n j') alpha (Some f0) (S (r_steps st)) stop).
  split; [reflexivity|].
  assert (Hc : forall i, (i < n)%nat -> / M <= j' i <= / m /\ Rabs (z' i - root i) <= q * Rabs (z i - root i)).
  { intros i Hi. destruct (Hb i Hi) as [Bj Be]. destruct (Hh i Hi) as [Hs Hr]. split.
    - destruct (slope_of m M (h i) (z' i) (z i) Hm Hs HM) as (s & Bs & Ess). unfold j', next_j. rewrite Ess.
      destruct Hme as [-> | ->]; [apply full_between|apply bad_between]; auto using eps_pos.
    - destruct (slope_of m M (h i) (z i) (root i) Hm Hs HM) as (s & Bs & Ess). rewrite Hr, Rminus_0_r in Ess.
      unfold z', dz. rewrite Ess. replace (z i - alpha * (j i * (s * (z i - root i))) - root i) with ((z i - root i) - alpha * (j i * (s * (z i - root i)))) by ring.
      now apply contraction. }
  assert (Ef := check_f0 tl (r_f0 st) n (fun i => h i (z' i)) (col n z') (col n dz)).
  change (snd (@tc_check ROps tl (r_f0 st) (col n (fun i => h i (z' i))) (col n z') (col n dz)) = match r_f0 st with Some f => f | None => map (fun i => Rabs (h i (z' i))) (seq 0 n) end) in Ef.
  pose proof (eq_trans (eq_sym (f_equal snd Ec)) Ef) as Ef'. cbn [snd] in Ef'.
  assert (He : forall i, (i < n)%nat -> Rabs (z' i - root i) <= q ^ S k * E i).
  { intros i Hi. destruct (Hc i Hi) as [_ C]. destruct (Hb i Hi) as [_ B]. cbn [pow]. rewrite Rmult_assoc. refine (Rle_trans _ _ _ C _). now apply Rmult_le_compat_l. }
  assert (HF : exists fz, f0 = map fz (seq 0 n) /\ (forall i, (i < n)%nat -> 0 <= fz i /\ m * Rabs (z' i - root i) <= q ^ k * fz i) /\ ((0 < k)%nat -> r_f0 st = Some (map fz (seq 0 n)))).
  { destruct (Nat.eq_dec k 0) as [K0|K0].
    - rewrite (H0 K0) in Ef'. exists (fun i => Rabs (h i (z' i))). split; [exact Ef'|]. split; [|lia]. intros i Hi. split; [apply Rabs_pos|].
      rewrite K0. cbn [pow]. rewrite Rmult_1_l. now apply residual.
    - destruct (H1 ltac:(lia)) as (fz & Hf & Hfz). rewrite Hf in Ef'. exists fz. split; [exact Ef'|]. split; [|intros _; exact Hf].
      intros i Hi. destruct (Hfz i Hi) as [F0 F1]. split; [exact F0|]. destruct (Hc i Hi) as [_ C].
      replace k with (S (k - 1)) by lia. cbn [pow]. rewrite Rmult_assoc.
      refine (Rle_trans _ (q * (m * Rabs (z i - root i))) _ _ _); [|now apply Rmult_le_compat_l].
      replace (q * (m * Rabs (z i - root i))) with (m * (q * Rabs (z i - root i))) by ring. apply Rmult_le_compat_l; lra. }
  destruct HF as (fz & Ef0 & Hfz & Hkf). split.
  - split; [reflexivity|]. cbn [r_steps]. split; [now rewrite HS|]. exists z', j'. cbn [r_z r_ge r_J r_f0].
    do 3 (split; [reflexivity|]). split; [intros i Hi; split; [now apply Hc|now apply He]|]. split; [discriminate|]. intros _. exists fz. split; [now rewrite Ef0|].
    intros i Hi. replace (S k - 1)%nat with k by lia. now apply Hfz.
  - intros Hk Hgood. cbn [r_conv]. rewrite (Hkf Hk) in Ec. pose proof (f_equal fst Ec) as Ec'. cbn [fst] in Ec'. rewrite <- Ec'. apply check_stop.
    intros i Hi. destruct (Hgood i Hi) as (G1 & G2 & G3 & G4). destruct (Hfz i Hi) as [F0 F1]. destruct (Hb i Hi) as [[J1 J2] B].
    pose proof (residual i (z' i) Hi) as [_ R1]. pose proof (residual i (z i) Hi) as [_ R0]. pose proof (He i Hi) as He'.
    assert (D : Rabs (dz i) <= M / m * (q ^ k * E i)).
    { unfold dz. assert (Hj0 : 0 < / M) by (apply Rinv_0_lt_compat; lra). rewrite Rabs_mult, (Rabs_right (j i)) by lra.
      replace (M / m * (q ^ k * E i)) with (/ m * (M * (q ^ k * E i))) by (unfold Rdiv; ring).
      apply Rmult_le_compat; [lra|apply Rabs_pos|lra|]. refine (Rle_trans _ _ _ R0 _). apply Rmult_le_compat_l; lra. }
    split; [refine (Rle_trans _ _ _ R1 (Rle_trans _ _ _ _ G1)); apply Rmult_le_compat_l; lra|]. split; [|split; [lra|]].
    + apply Rmult_le_reg_r with (f_rtol tl); [exact Hft|]. unfold Rdiv. rewrite Rmult_assoc, Rinv_l, Rmult_1_r by (apply Rgt_not_eq; assumption).
      apply Rmult_le_reg_l with m; [exact Hm|].
      assert (A1 : m * Rabs (h i (z' i)) <= M * (m * Rabs (z' i - root i))) by (replace (M * (m * Rabs (z' i - root i))) with (m * (M * Rabs (z' i - root i))) by ring; apply Rmult_le_compat_l; lra).
      assert (A2 : M * (m * Rabs (z' i - root i)) <= M * (q ^ k * fz i)) by (apply Rmult_le_compat_l; lra).
      assert (A3 : M * q ^ k * fz i <= m * f_rtol tl * fz i) by (apply Rmult_le_compat_r; [exact F0|exact G2]).
      refine (Rle_trans _ _ _ A1 (Rle_trans _ _ _ A2 _)). refine (Rle_trans _ (M * q ^ k * fz i) _ _ (Rle_trans _ _ _ A3 _)); apply Req_le; cbn; ring.
    + apply Rmult_le_reg_r with (x_rtol tl); [exact Hxt|]. unfold Rdiv. rewrite Rmult_assoc, Rinv_l, Rmult_1_r by (apply Rgt_not_eq; assumption).
      assert (A : Rabs (root i) - q ^ S k * E i <= Rabs (z' i)).
      { pose proof (Rabs_triang (z' i) (root i - z' i)) as T. replace (z' i + (root i - z' i)) with (root i) in T by ring. rewrite (Rabs_minus_sym (root i)) in T. lra. }
      assert (A5 : x_rtol tl * (Rabs (root i) - q ^ S k * E i) <= x_rtol tl * Rabs (z' i)) by (apply Rmult_le_compat_l; [left; exact Hxt|exact A]).
      refine (Rle_trans _ _ _ D (Rle_trans _ _ _ G4 (Rle_trans _ _ _ A5 _))). apply Req_le, Rmult_comm.
Qed.
Lemma loop_inv : 0 < f_rtol tl -> 0 < x_rtol tl -> forall l k st, inv k st ->
  exists st' k', @root_loop ROps l sf me SNone tl g st = Ok st' /\ inv k' st' /\ (k <= k' <= k + l)%nat /\ (r_conv st = false -> k' = (k + l)%nat \/ r_conv st' = true) /\
    (forall K, (0 < K)%nat -> good K -> (k <= K < k + l)%nat -> r_conv st' = true /\ (k' <= S K)%nat).
Proof.
  intros Hft Hxt. induction l as [|l IH]; intros k st Hi.
  - exists st, k. split; [reflexivity|]. split; [exact Hi|]. split; [lia|]. split; [left; lia|]. intros; lia.
  - destruct (step_inv k l st Hi Hft Hxt) as (st1 & E1 & I1 & G1). rewrite E1. destruct (r_conv st1) eqn:C1.
    + exists st1, (S k). split; [reflexivity|]. split; [exact I1|]. split; [lia|]. split; [now right|]. intros K _ _ HK. split; [exact C1|lia].
    + destruct (IH (S k) st1 I1) as (st2 & k2 & E2 & I2 & B2 & D2 & K2). exists st2, k2. split; [exact E2|]. split; [exact I2|]. split; [lia|]. split.
      * intros _. destruct (D2 C1) as [D|D]; [left; lia|now right].
      * intros K HK0 HK Hb. destruct (Nat.eq_dec K k) as [->|]; [pose proof (G1 HK0 HK) as X0; discriminate X0|]. apply K2; auto. lia.
Qed.
End Loop.

(** ** Theorems *)
Definition broyden_method (name : string) (me : method) : Prop := (name = "broyden"%string /\ me = BroydenFull) \/ (name = "broyden_fast"%string /\ me = BroydenBad).
Lemma run_start n m M alpha h root start g j0 : equations n m M h root g ->
  (forall i, (i < n)%nat -> / M <= j0 i <= / m) ->
  inv n m M alpha h root start 0 (@MkR ROps (col n start) [] (g (col n start)) (mcol n j0) alpha None 0 false).
Proof.
  intros (_ & _ & _ & Hg) Hj. split; [reflexivity|]. split; [reflexivity|]. exists start, j0. cbn [r_z r_ge r_J r_f0]. rewrite Hg.
  do 3 (split; [reflexivity|]). split; [|split; [reflexivity|lia]]. intros i Hi. split; [now apply Hj|]. cbn [pow]. lra.
Qed.
Lemma root_find_run n (g : list (list R) -> list (list R)) start j0 alpha tl maxiters name me sf : broyden_method name me ->
  @root_find ROps sf g (col n start) (mcol n j0) alpha tl maxiters name "none" =
  @root_loop ROps (Z.to_nat (maxiters + 1)) sf me SNone tl g (@MkR ROps (col n start) [] (g (col n start)) (mcol n j0) alpha None 0 false).
Proof. intros [[-> ->]|[-> ->]]; reflexivity. Qed.

(** C171.  Nonlinear equations in one unknown each, with slopes between m > 0 and M: both Broyden methods, without line search and with
    a step size below 2 m / M, started from inverse slopes in the same range, converge linearly from every starting point: the error of
    every row is multiplied by at most a factor below one in every step, and the run ends by its tolerances or by maxiters. *)
Lemma C171_linear_convergence_pf :
  forall n m M alpha h root g start j0 (tl : tols (K := ROps)) maxiters name me sf, equations n m M h root g -> broyden_method name me ->
  0 < alpha -> alpha * (M / m) < 2 -> 0 < f_rtol tl -> 0 < x_rtol tl -> (forall i, (i < n)%nat -> / M <= j0 i <= / m) ->
  0 <= factor m M alpha < 1 /\
  exists st z, @root_find ROps sf g (col n start) (mcol n j0) alpha tl maxiters name "none" = Ok st /\ r_z st = col n z /\
    (r_conv st = true \/ r_steps st = Z.to_nat (maxiters + 1)) /\
    forall i, (i < n)%nat -> Rabs (z i - root i) <= factor m M alpha ^ r_steps st * Rabs (start i - root i).
Proof.
  intros n m M alpha h root g start j0 tl maxiters name me sf He Hn Ha Hb Hf Hx Hj. pose proof He as (Hm & HM & _).
  split; [split; [now apply factor_pos|now apply factor_lt]|].
  assert (Hme : me = BroydenFull \/ me = BroydenBad) by (destruct Hn as [[_ ->]|[_ ->]]; auto).
  destruct (loop_inv n m M alpha h root start g me tl sf He Ha Hme Hf Hx (Z.to_nat (maxiters + 1)) 0 _ (run_start n m M alpha h root start g j0 He Hj))
    as (st & k & E & (_ & Hs & z & j & Hz & _ & _ & Hbb & _) & Hk & Hc & _).
  exists st, z. split; [rewrite (root_find_run n g start j0 alpha tl maxiters name me sf Hn); exact E|]. split; [exact Hz|]. split.
  - destruct (Hc eq_refl) as [D|D]; [right|now left]. rewrite Hs, D. reflexivity.
  - intros i Hi. rewrite Hs. now apply Hbb.
Qed.

Lemma slope_derivative m M h a d : 0 < m -> slopes m M h -> m <= M -> derivable_pt_lim h a d -> m <= d <= M.
Proof.
  intros Hm Hs HM Hd.
  assert (A : forall eps, 0 < eps -> m - eps <= d <= M + eps).
  { intros eps He. destruct (Hd eps He) as (delta & H). pose proof (cond_pos delta) as Hp. set (e := delta / 2).
    assert (P : 0 < e) by (unfold e; lra). assert (Q := H e ltac:(lra) ltac:(rewrite Rabs_right; [unfold e; lra|lra])).
    destruct (slope_of m M h (a + e) a Hm Hs HM) as (s & Hr & E). rewrite E in Q.
    replace (s * (a + e - a) / e) with s in Q by (field; lra). apply Rabs_def2 in Q. lra. }
  split; apply Rnot_lt_le; intros N.
  - specialize (A ((m - d) / 2) ltac:(lra)). lra.
  - specialize (A ((d - M) / 2) ltac:(lra)). lra.
Qed.

(** C171.  The inverse slopes root_find starts from when it is given the derivatives at the starting point (batch_jacobian and
    pinverse, root.py:255-272) lie in the range the convergence theorems ask for. *)
Lemma C171_true_jacobian_pf :
  forall n m M h root g start d, equations n m M h root g ->
  (forall i, (i < n)%nat -> derivable_pt_lim (h i) (start i) (d i)) ->
  forall i, (i < n)%nat -> d i <> 0 /\ / M <= / d i <= / m.
Proof.
  intros n m M h root g start d (Hm & HM & He & _) Hd i Hi. destruct (He i Hi) as (Hs & _).
  destruct (slope_derivative m M (h i) (start i) (d i) Hm Hs HM (Hd i Hi)) as (A & B).
  split; [lra|]. split; apply Rinv_le_contravar; lra.
Qed.

Lemma eventually (q A B : R) : 0 <= q < 1 -> 0 <= A -> 0 < B -> exists K, forall k, (K <= k)%nat -> q ^ k * A <= B.
Proof.
  intros Hq HA HB. assert (P : 0 < B / (A + 1)) by (apply Rdiv_lt_0_compat; lra).
  destruct (pow_lt_1_zero q ltac:(rewrite Rabs_right; lra) _ P) as [K HK]. exists K. intros k Hk. specialize (HK k Hk).
  assert (0 <= q ^ k) by (apply pow_le; lra). rewrite Rabs_right in HK by lra.
  apply Rle_trans with (B / (A + 1) * (A + 1)); [apply Rmult_le_compat; lra|]. apply Req_le. field. lra.
Qed.
Lemma all_eventually n (P : nat -> nat -> Prop) : (forall i, (i < n)%nat -> exists K, forall k, (K <= k)%nat -> P i k) -> exists K, forall k, (K <= k)%nat -> forall i, (i < n)%nat -> P i k.
Proof.
  induction n as [|n IH]; intros H; [exists 0%nat; intros; lia|]. destruct IH as [K1 H1]; [intros i Hi; apply H; lia|]. destruct (H n ltac:(lia)) as [K2 H2].
  exists (Nat.max K1 K2). intros k Hk i Hi. destruct (Nat.eq_dec i n) as [->|]; [apply H2; lia|apply H1; lia].
Qed.

(** C171.  If no root is zero, then the run ends by its tolerances as soon as maxiters is large enough, and increasing maxiters further
    does not change it. *)
Lemma C171_termination_pf :
  forall n m M alpha h root g start j0 (tl : tols (K := ROps)) name me sf, equations n m M h root g -> broyden_method name me ->
  0 < alpha -> alpha * (M / m) < 2 -> 0 < f_tol tl -> 0 < f_rtol tl -> 0 < x_tol tl -> 0 < x_rtol tl -> (forall i, (i < n)%nat -> / M <= j0 i <= / m) ->
  (forall i, (i < n)%nat -> root i <> 0) ->
  exists K : nat, forall maxiters, (Z.of_nat K <= maxiters)%Z ->
  exists st, @root_find ROps sf g (col n start) (mcol n j0) alpha tl maxiters name "none" = Ok st /\ r_conv st = true /\ (r_steps st <= S K)%nat.
Proof.
  intros n m M alpha h root g start j0 tl name me sf He Hn Ha Hb Hft Hf Hxt Hx Hj Hr. pose proof He as (Hm & HM & _).
  pose proof (factor_pos m M alpha Hm HM Ha) as Q0. pose proof (factor_lt m M alpha Hm HM Ha Hb) as Q1. set (q := factor m M alpha) in *.
  assert (Hme : me = BroydenFull \/ me = BroydenBad) by (destruct Hn as [[_ ->]|[_ ->]]; auto).
  assert (HMm : 0 < M / m) by (apply Rdiv_lt_0_compat; lra).
  assert (G : exists K, forall k, (K <= k)%nat -> good n m M alpha root start tl k).
  { unfold good. fold q. apply all_eventually. intros i Hi. set (e := Rabs (start i - root i)). assert (He0 : 0 <= e) by apply Rabs_pos.
    assert (Hri : 0 < Rabs (root i)) by (apply Rabs_pos_lt; auto).
    destruct (eventually q (M * e) (f_tol tl) ltac:(lra) ltac:(nra) Hft) as [K1 H1].
    destruct (eventually q M (m * f_rtol tl) ltac:(lra) ltac:(lra) ltac:(now apply Rmult_lt_0_compat)) as [K2 H2].
    destruct (eventually q (M / m * e) (x_tol tl) ltac:(lra) ltac:(nra) Hxt) as [K3 H3].
    destruct (eventually q ((M / m) * e) (x_rtol tl * (Rabs (root i) / 2)) ltac:(lra) ltac:(nra) ltac:(apply Rmult_lt_0_compat; [exact Hx|lra])) as [K4 H4].
    destruct (eventually q e (Rabs (root i) / 2) ltac:(lra) He0 ltac:(lra)) as [K5 H5].
    exists (K1 + K2 + K3 + K4 + K5)%nat. intros k Hk. specialize (H1 (S k) ltac:(lia)). specialize (H2 k ltac:(lia)). specialize (H3 k ltac:(lia)). specialize (H4 k ltac:(lia)). specialize (H5 (S k) ltac:(lia)).
    split; [replace (M * (q ^ S k * e)) with (q ^ S k * (M * e)) by ring; exact H1|]. split; [rewrite (Rmult_comm M); exact H2|].
    replace (M / m * (q ^ k * e)) with (q ^ k * (M / m * e)) by ring. split; [exact H3|].
    refine (Rle_trans _ _ _ H4 _). apply Rmult_le_compat_l; [left; exact Hx|]. lra. }
  destruct G as [K0 HK0]. exists (S K0). intros maxiters Hmi.
  destruct (loop_inv n m M alpha h root start g me tl sf He Ha Hme Hf Hx (Z.to_nat (maxiters + 1)) 0 _ (run_start n m M alpha h root start g j0 He Hj))
    as (st & k & E & (_ & Hs & _) & Hk & _ & HK).
  exists st. split; [rewrite (root_find_run n g start j0 alpha tl maxiters name me sf Hn); exact E|].
  destruct (HK (S K0) ltac:(lia) (HK0 (S K0) ltac:(lia)) ltac:(lia)) as [HK1 HK2]. split; [exact HK1|]. rewrite Hs. exact HK2.
Qed.

(** C171, refuted for roots at zero: z = 0 solved from any other point with the default step size and tolerances (x_rtol = 1) has errors
    9/10^k, but never reports convergence, for no maxiters: every |dz| is larger than |z|. *)
Lemma C171_zero_root_refuted_pf :
  equations 1 1 1 (fun _ a => a) (fun _ => 0) (fun z => z) /\
  forall name me sf start maxiters, broyden_method name me -> start <> 0 ->
  exists st, @root_find ROps sf (fun z => z) [[start]] [[[1]]] (1 / 10) (@default_tols ROps) maxiters name "none" = Ok st /\
    r_conv st = false /\ r_steps st = Z.to_nat (maxiters + 1) /\ r_z st = [[(9 / 10) ^ Z.to_nat (maxiters + 1) * start]].
Proof.
  split. { split; [lra|]. split; [lra|]. split; [|reflexivity]. intros i _. split; [|reflexivity]. intros a b. lra. }
  intros name me sf start maxiters Hn Hz0.
  assert (Hme : me = BroydenFull \/ me = BroydenBad) by (destruct Hn as [[_ ->]|[_ ->]]; auto).
  assert (G : forall l k (st : rstate (K := ROps)), r_z st = col 1 (fun _ => (9 / 10) ^ k * start) -> r_ge st = col 1 (fun _ => (9 / 10) ^ k * start) -> r_J st = mcol 1 (fun _ => 1) ->
    r_alpha st = 1 / 10 -> r_steps st = k -> r_conv st = false ->
    exists st', @root_loop ROps l sf me SNone (@default_tols ROps) (fun z => z) st = Ok st' /\ r_conv st' = false /\ r_steps st' = (k + l)%nat /\ r_z st' = col 1 (fun _ => (9 / 10) ^ (k + l) * start)).
  { induction l as [|l IH]; intros k st Ez Eg EJ Ea Es Ec.
    - exists st. rewrite Nat.add_0_r. auto.
    - assert (E1 : @solver_step ROps me (fun z => z) (r_z st) (r_J st) (r_ge st) (r_alpha st) = Ok (@broyden_step ROps me (fun z => z) (r_z st) (r_J st) (r_ge st) (r_alpha st))) by (destruct Hme as [-> | ->]; reflexivity).
      pose proof (step_col me 1 (fun z => z) (fun _ a => a) (fun _ => (9 / 10) ^ k * start) (fun _ => 1) (1 / 10) (fun z => eq_refl)) as S1. cbv beta zeta in S1.
      assert (X : (9 / 10) ^ k * start - 1 / 10 * (1 * ((9 / 10) ^ k * start)) = (9 / 10) ^ S k * start) by (cbn [pow]; field).
      assert (Y : next_j me ((9 / 10) ^ S k * start - (9 / 10) ^ k * start) ((9 / 10) ^ S k * start - (9 / 10) ^ k * start) 1 = 1).
      { unfold next_j. set (d := (9 / 10) ^ S k * start - (9 / 10) ^ k * start). destruct me; rewrite !Rmult_1_l, Rminus_diag_eq by reflexivity; unfold Rdiv; ring. }
      rewrite X in S1. rewrite Y in S1. rewrite Ez, Eg, EJ, Ea in E1. pose proof (eq_trans E1 (f_equal Ok S1)) as E2. clear E1 S1.
      cbn [root_loop]. rewrite Ez, Eg, EJ, Ea. 
      match type of E2 with _ = ?r => match goal with |- context [@solver_step ROps ?a ?b ?c ?d ?e ?f] => replace (@solver_step ROps a b c d e f) with r by (symmetry; exact E2) end end.
      cbn [rbind new_alpha].
      assert (P : 0 < Rabs ((9 / 10) ^ k * start)) by (apply Rabs_pos_lt, Rmult_integral_contrapositive_currified; [apply pow_nonzero; lra|exact Hz0]).
      assert (T : forall f0, fst (@tc_check ROps (@default_tols ROps) f0 (col 1 (fun _ => (9 / 10) ^ S k * start)) (col 1 (fun _ => (9 / 10) ^ S k * start)) (col 1 (fun _ => 1 * ((9 / 10) ^ k * start)))) = false).
      { intros f0. unfold tc_check. cbn [fst]. apply andb_false_iff. right. apply andb_false_iff. right.
        cbn [col seq map map2 forallb]. rewrite !row_norm1. apply andb_false_iff. left. apply Rleb_false. cbn [x_rtol default_tols].
        change (@nQ ROps 1) with (Q2R 1). replace (Q2R 1) with 1 by (unfold Q2R; cbn; lra). rewrite Rmult_1_l. change (@ndiv ROps) with Rdiv. 
        replace ((9 / 10) ^ S k * start) with (9 / 10 * ((9 / 10) ^ k * start)) by (cbn [pow]; ring). rewrite Rabs_mult, (Rabs_right (9 / 10)) by lra. lra. }
      specialize (T (r_f0 st)). destruct (@tc_check ROps (@default_tols ROps) (r_f0 st) _ _ _) as [stop f0]. cbn [fst] in T. rewrite T.
      match goal with |- exists st', root_loop l _ _ _ _ _ ?s = _ /\ _ => destruct (IH (S k) s) as (st' & H1 & H2 & H3 & H4); try reflexivity end.
      + cbn [r_steps]. now rewrite Es.
      + exists st'. split; [exact H1|]. split; [exact H2|]. rewrite <- plus_n_Sm. split; [exact H3|exact H4]. }
  destruct (G (Z.to_nat (maxiters + 1)) 0%nat (@MkR ROps (col 1 (fun _ => start)) [] (col 1 (fun _ => start)) (mcol 1 (fun _ => 1)) (1 / 10) None 0 false)) as (st & H1 & H2 & H3 & H4); try reflexivity.
  - cbn. now rewrite Rmult_1_l.
  - cbn. now rewrite Rmult_1_l.
  - exists st. split; [exact (eq_trans (root_find_run 1 (fun z => z) (fun _ => start) (fun _ => 1) (1 / 10) (@default_tols ROps) maxiters name me sf Hn) H1)|]. auto.
Qed.

(** two nonlinear equations, z + z/(1 + |z|) = 3/2 and z + z/(1+|z|) = -3/2, with slopes between 1 and 2 and roots 1 and -1 *)
Definition bend (c a : R) : R := a + a / (1 + Rabs a) - c.
Lemma bend_slopes c : slopes 1 2 (bend c).
Proof.
  intros a b. unfold bend.
  assert (Pa : 0 < 1 + Rabs a) by (pose proof (Rabs_pos a); lra). assert (Pb : 0 < 1 + Rabs b) by (pose proof (Rabs_pos b); lra).
  set (u := a / (1 + Rabs a)). set (v := b / (1 + Rabs b)).
  assert (D : u - v = (a - b + (a * Rabs b - b * Rabs a)) / ((1 + Rabs a) * (1 + Rabs b))) by (unfold u, v; field; lra).
  assert (PP : 0 < (1 + Rabs a) * (1 + Rabs b)) by (apply Rmult_lt_0_compat; lra).
  assert (N : 0 <= (a - b + (a * Rabs b - b * Rabs a)) * (a - b) <= (a - b) * (a - b) * ((1 + Rabs a) * (1 + Rabs b))).
  { assert (G : forall x y, 0 <= x -> 0 <= y -> 0 <= x + y + 2 * (x * y) <= (x + y) * ((1 + x) * (1 + y))).
    { intros x y Hx Hy. assert (P1 : 0 <= x * y) by now apply Rmult_le_pos. assert (P2 : 0 <= x * y * (x + y)) by (apply Rmult_le_pos; lra). split; [lra|].
      replace ((x + y) * ((1 + x) * (1 + y))) with (x + y + (x * x + y * y + 2 * (x * y)) + x * y * (x + y)) by ring. pose proof (Rle_0_sqr x). pose proof (Rle_0_sqr y). unfold Rsqr in *. lra. }
    assert (S0 : 0 <= (a - b) * (a - b)) by apply Rle_0_sqr.
    assert (P3 : 1 <= (1 + Rabs a) * (1 + Rabs b)) by (pose proof (Rabs_pos a); pose proof (Rabs_pos b); nra).
    assert (S1 : (a - b) * (a - b) * 1 <= (a - b) * (a - b) * ((1 + Rabs a) * (1 + Rabs b))) by (apply Rmult_le_compat_l; lra).
    destruct (Rle_lt_dec 0 a) as [A|A], (Rle_lt_dec 0 b) as [B|B].
    - rewrite (Rabs_right a), (Rabs_right b) in * by lra. replace (a - b + (a * b - b * a)) with (a - b) by ring. lra.
    - rewrite (Rabs_right a), (Rabs_left b) in * by lra. destruct (G a (- b) A ltac:(lra)) as [G1 G2].
      replace (a - b + (a * - b - b * a)) with (a + - b + 2 * (a * - b)) by ring. replace ((a - b) * (a - b) * ((1 + a) * (1 + - b))) with ((a + - b) * ((1 + a) * (1 + - b)) * (a - b)) by ring.
      split; [apply Rmult_le_pos; lra|]. apply Rmult_le_compat_r; lra.
    - rewrite (Rabs_left a), (Rabs_right b) in * by lra. destruct (G (- a) b ltac:(lra) B) as [G1 G2].
      replace ((a - b + (a * b - b * - a)) * (a - b)) with ((- a + b + 2 * (- a * b)) * (b - a)) by ring. replace ((a - b) * (a - b) * ((1 + - a) * (1 + b))) with ((- a + b) * ((1 + - a) * (1 + b)) * (b - a)) by ring.
      split; [apply Rmult_le_pos; lra|]. apply Rmult_le_compat_r; lra.
    - rewrite (Rabs_left a), (Rabs_left b) in * by lra. replace (a - b + (a * - b - b * - a)) with (a - b) by ring. lra. }
  assert (W : 0 <= (u - v) * (a - b) <= (a - b) * (a - b)).
  { rewrite D. replace ((a - b + (a * Rabs b - b * Rabs a)) / ((1 + Rabs a) * (1 + Rabs b)) * (a - b)) with ((a - b + (a * Rabs b - b * Rabs a)) * (a - b) / ((1 + Rabs a) * (1 + Rabs b))) by (field; lra).
    split; [apply Rmult_le_pos; [apply N|left; now apply Rinv_0_lt_compat]|].
    apply Rmult_le_reg_r with ((1 + Rabs a) * (1 + Rabs b)); [exact PP|]. unfold Rdiv. rewrite Rmult_assoc, Rinv_l, Rmult_1_r by lra. apply N. }
  nra.
Qed.
Lemma C171_ex_pf : equations 2 1 2 (fun i => match i with O => bend (3 / 2) | _ => bend (- 3 / 2) end) (fun i => match i with O => 1 | _ => -1 end)
    (fun z => match z with [[a]; [b]] => [[bend (3 / 2) a]; [bend (- 3 / 2) b]] | _ => z end) /\ 1 / 10 * (2 / 1) < 2 /\ / 2 <= 1 / 2 <= / 1.
Proof.
  split; [|lra]. split; [lra|]. split; [lra|]. split; [|reflexivity]. intros [|i] _; (split; [apply bend_slopes|]); unfold bend.
  - rewrite Rabs_R1. field; lra.
  - rewrite Rabs_left by lra. field; lra.
Qed.
