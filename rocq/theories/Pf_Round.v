(** Proofs: fixed-step solves in rounded arithmetic. *)
From Coq Require Import ZArith QArith Qreals Reals Lra Lia List Bool Arith.
From Verif Require Import Num Py Tensor M_Constants M_SolversOde M_Utils M_Interp M_Odeint.
From Verif Require Import Spec_Ode Spec_RK Spec_Norm Spec_Conv Spec_Round L_Base L_Fixed L_Conv L_Round.
From Flocq Require Import Core Relative.
Import ListNotations.
Local Open Scope R_scope.

Lemma ret3_step {K : NumOps} (s : solver K (vec K)) : s = Euler K \/ s = Midpoint K \/ s = RungeKutta4 K ->
  s_fixed s = true /\ forall f, exists one, forall t h x, exists a c, snd (s_step s f x t h None) = Ok (Ret3 a (one t h x) c).
Proof.
  intros [->|[->| ->]]; (split; [reflexivity|]); intros f; eexists; intros t h x; eexists; eexists; reflexivity.
Qed.

Lemma odeint_fixed_any {K : NumOps} fuel f x t0 t1 ts (s : solver K (vec K)) atol rtol interp all save_at semi :
  s_fixed s = true -> (t1 <? t0)%N = false ->
  snd (odeint fuel f x (TTensor (t0 :: t1 :: ts)) s atol rtol interp all save_at semi) = snd (fixed_odeint f x (t0 :: t1 :: ts) (s_step s) save_at).
Proof.
  intros Hs Ht. unfold odeint, prep_time. cbn [ts_list pyget nth_error rbind]. rewrite Ht. rewrite snd_bind. cbn [mlift snd rbind]. rewrite Hs. reflexivity.
Qed.

Lemma spaced_lt u eta t0 t1 ts : spaced u eta (t0 :: t1 :: ts) -> t0 < t1.
Proof.
  intros H. destruct (H 0%nat t0 t1 eq_refl eq_refl) as [G _]. pose proof (Rabs_pos t0). pose proof (Rmax_l (Rabs t0) (Rabs t1)). lra.
Qed.

(** C107.  In rounded arithmetic (relative error u <= 1e-6, so float32 and float64 but not float16) a fixed-step
    solve on a spaced grid returns the requested times and one state for each of them, and its clock does not
    drift: at the i-th requested time b it is off by at most 3 u (|a| + |b|) + 3 eta + 1e-11, a the time before. *)
Lemma C107_one_state_per_time_pf :
  forall rnd u eta s f x t0 t1 ts fuel atol rtol interp all semi,
  rounding u eta rnd -> 0 <= u <= 1 / 1000000 -> 0 <= eta <= 1 / 1000000000000 ->
  s = Euler (RndOps rnd) \/ s = Midpoint (RndOps rnd) \/ s = RungeKutta4 (RndOps rnd) ->
  spaced u eta (t0 :: t1 :: ts) ->
  exists one,
    (forall t h y, exists a c, snd (s_step s f y t h None) = Ok (Ret3 a (one t h y) c)) /\
    let steps := clock_traj rnd one t0 x (t1 :: ts) in
    snd (@odeint (RndOps rnd) fuel f x (@TTensor (RndOps rnd) (t0 :: t1 :: ts)) s atol rtol interp all [] semi)
      = Ok (t0 :: t1 :: ts, x :: map snd steps) /\
    List.length steps = List.length (t1 :: ts) /\
    forall i a b p, nth_error (t0 :: t1 :: ts) i = Some a -> nth_error (t1 :: ts) i = Some b -> nth_error steps i = Some p ->
      Rabs (fst p - b) <= 3 * u * (Rabs a + Rabs b) + 3 * eta + 1 / 100000000000.
Proof.
  intros rnd u eta s f x t0 t1 ts fuel atol rtol interp all semi Hr Hu He Hs Hsp.
  destruct (ret3_step s Hs) as [Hf Hone]. destruct (Hone f) as [one H1]. exists one. split; [exact H1|]. cbv zeta.
  split; [|split].
  - refine (eq_trans (odeint_fixed_any (K := RndOps rnd) fuel f x t0 t1 ts s atol rtol interp all [] semi Hf _) _).
    + apply Rltb_false. left. exact (spaced_lt u eta t0 t1 ts Hsp).
    + apply (rounded_fixed rnd u eta Hr Hu He f (s_step s) one x t0 t1 ts H1 Hsp).
  - apply clock_length.
  - intros i a b p Ha Hb Hp.
    destruct (clock_near rnd u eta Hr Hu He one (t1 :: ts) t0 t0 x) with (i := i) (b := b) (p := p) as (a' & Ha' & Hd & _); auto.
    { rewrite Rminus_diag_eq, Rabs_R0 by reflexivity. pose proof (Rabs_pos t0). lra. }
    assert (a' = a) by congruence. subst a'. exact Hd.
Qed.

(** every increasing grid of non-negative times with gaps 3e-8 + 3e-5 t is spaced, for u <= 1e-6 *)
Lemma C107_spaced_grids_pf :
  forall u eta l, 0 <= u <= 1 / 10000000 * 8 -> 0 <= eta <= 1 / 1000000000 -> 
  (forall i a b, nth_error l i = Some a -> nth_error l (S i) = Some b -> 0 <= a /\ 3 * (1 / 100000000 + 1 / 100000 * b) <= b - a) ->
  spaced u eta l.
Proof.
  intros u eta l Hu He H i a b Ha Hb. destruct (H i a b Ha Hb) as [Ha0 Hg].
  assert (a <= b /\ 0 <= b) as [Hab Hb0]. { assert (0 <= b \/ b < 0) as [|] by lra; [split; lra|exfalso; lra]. }
  rewrite !Rabs_right by lra. split.
  - replace (Rmax a b) with b by (symmetry; apply Rmax_right; lra). exact Hg.
  - assert (u * (a + b) <= 1 / 10000000 * 8 * (a + b)) by (apply Rmult_le_compat_r; lra). lra.
Qed.

(** ** Euler *)
Section Euler.
Variables (rnd : R -> R) (u eta : R).
Hypotheses (Hr : rounding u eta rnd) (Hu : 0 <= u <= 1 / 1000000) (Heta : 0 <= eta).

Lemma euler_rounded_is fr x t h : exists a c, snd (@euler_step (RndOps rnd) fr x t h None) = Ok (Ret3 a (euler_rounded rnd fr t h x) c).
Proof.
  exists None, None. unfold euler_step, first_stage. rewrite snd_bind. cbn [call snd rbind mret].
  do 3 f_equal. unfold euler_rounded, vadd, vscale. generalize (fr t x). clear. induction x as [|a x IH]; intros [|b l]; cbn; auto. f_equal. apply IH.
Qed.

Lemma euler_rounded_len fr x t h n : field_on n fr -> length x = n -> length (euler_rounded rnd fr t h x) = n.
Proof. intros Hf Hx. unfold euler_rounded. rewrite map_length, combine_length, Hf, Hx by auto. apply Nat.min_id. Qed.
Lemma euler_rounded_nth fr x t h n i : field_on n fr -> length x = n -> (i < n)%nat ->
  nth i (euler_rounded rnd fr t h x) 0 = rnd (nth i x 0 + rnd (h * nth i (fr t x) 0)).
Proof.
  intros Hf Hx Hi. unfold euler_rounded.
  rewrite (nth_indep _ 0 (rnd (fst (0, 0) + rnd (h * snd (0, 0))))) by (rewrite map_length, combine_length, Hf, Hx by auto; lia).
  rewrite (map_nth (fun p => rnd (fst p + rnd (h * snd p))) _ (0, 0) i), combine_nth by (rewrite Hf; auto). reflexivity.
Qed.

Variables (n : nat) (f fr : R -> list R -> list R) (L M F B eps A H : R) (y : R -> list R) (alpha beta : R).
Hypotheses (HL : 0 <= L) (HM : 0 <= M) (HF : 0 <= F) (HB : 0 <= B) (Heps : 0 <= eps) (HH : 0 <= H <= 2 * A).
Hypotheses (Hf : field_on n f) (Hfr : field_on n fr) (Hlip : lipschitz n L f)
  (Hnear : forall t x, length x = n -> near n eps (fr t x) (f t x))
  (Hbd : forall t x, length x = n -> bounded_by B x -> bounded_by F (fr t x))
  (Hy : solves n alpha beta f y)
  (HyM : forall s t, alpha <= s <= beta -> alpha <= t <= beta -> near n (M * Rabs (s - t)) (f s (y s)) (f t (y t)))
  (HyF : forall t, alpha <= t <= beta -> bounded_by F (f t (y t))).

Definition clock_error := 4 * u * A + 3 * eta.
Definition extra := 8 * u * A + 6 * eta.
Definition cost := u * (6 * A * F + B) + 3 * eta * (F + 1).
Notation tau := clock_error.
Notation omega := extra.

Lemma A_pos : 0 <= A. Proof. lra. Qed.
Lemma tau_pos : 0 <= tau.
Proof. unfold tau. assert (0 <= u * A) by (apply Rmult_le_pos; lra). lra. Qed.
Lemma omega_pos : 0 <= omega.
Proof. unfold omega. assert (0 <= u * A) by (apply Rmult_le_pos; lra). lra. Qed.
Lemma cost_pos : 0 <= cost.
Proof.
  unfold cost. assert (0 <= A * F) by (apply Rmult_le_pos; lra). assert (0 <= u * (6 * A * F + B)) by (apply Rmult_le_pos; lra).
  assert (0 <= eta * (F + 1)) by (apply Rmult_le_pos; lra). lra.
Qed.

Lemma mvt_point s t i : alpha <= s <= beta -> alpha <= t <= beta -> (i < n)%nat ->
  exists c, alpha <= c <= beta /\ Rabs (c - s) <= Rabs (t - s) /\ nth i (y t) 0 - nth i (y s) 0 = nth i (f c (y c)) 0 * (t - s).
Proof.
  intros Hs Ht Hi. destruct Hy as [_ Hd].
  destruct (Rtotal_order s t) as [Hlt|[->|Hlt]].
  - destruct (MVT_cor2 (fun s => nth i (y s) 0) (fun s => nth i (f s (y s)) 0) s t Hlt) as (c & E & Hc).
    { intros c Hc. apply Hd; auto. lra. }
    exists c. repeat split; try lra. rewrite !Rabs_right by lra. lra.
  - exists t. repeat split; try lra. 
  - destruct (MVT_cor2 (fun s => nth i (y s) 0) (fun s => nth i (f s (y s)) 0) t s Hlt) as (c & E & Hc).
    { intros c Hc. apply Hd; auto. lra. }
    exists c. repeat split; try lra. rewrite !Rabs_left by lra. lra.
Qed.
Lemma mvt_move s t i : alpha <= s <= beta -> alpha <= t <= beta -> (i < n)%nat ->
  Rabs (nth i (y t) 0 - nth i (y s) 0 - (t - s) * nth i (f s (y s)) 0) <= M * Rabs (t - s) * Rabs (t - s).
Proof.
  intros Hs Ht Hi. destruct (mvt_point s t i Hs Ht Hi) as (c & Hc & Hcs & E). rewrite E.
  replace (nth i (f c (y c)) 0 * (t - s) - (t - s) * nth i (f s (y s)) 0) with ((nth i (f c (y c)) 0 - nth i (f s (y s)) 0) * (t - s)) by ring.
  rewrite Rabs_mult. apply Rmult_le_compat_r; [apply Rabs_pos|].
  eapply Rle_trans; [apply (HyM c s Hc Hs i Hi)|]. apply Rmult_le_compat_l; auto.
Qed.

Lemma bounded_nth C l i : (i < length l)%nat -> bounded_by C l -> Rabs (nth i l 0) <= C.
Proof. intros Hi Hb. apply Hb, nth_In, Hi. Qed.
Lemma ylen t : length (y t) = n. Proof. apply Hy. Qed.

Lemma y_near s t : alpha <= s <= beta -> alpha <= t <= beta -> near n (F * Rabs (t - s)) (y t) (y s).
Proof.
  intros Hs Ht i Hi. destruct (mvt_point s t i Hs Ht Hi) as (c & Hc & Hcs & E). rewrite E, Rabs_mult.
  apply Rmult_le_compat_r; [apply Rabs_pos|]. apply bounded_nth; [rewrite Hf; auto using ylen|apply HyF, Hc].
Qed.

(** the clock *)
Lemma clock_parts a b t : Rabs a <= A -> Rabs b <= A -> 0 <= b - a <= H -> Rabs (t - a) <= tau ->
  let h := rnd (b - t) in let t' := rnd (t + h) in
  Rabs (t' - b) <= tau /\ Rabs h <= b - a + omega /\ Rabs (t' - t) <= b - a + omega /\
  Rabs h <= 2.01 * A + 5 * eta /\ Rabs (h - (t' - t)) <= 1.01 * (u * A) + 1.01 * eta.
Proof.
  intros Ha Hb Hab Ht h t'.
  pose proof A_pos as HA. pose proof tau_pos as Htau.
  assert (PuA : 0 <= u * A) by (apply Rmult_le_pos; lra).
  assert (Pu : u * (u * A) <= 1 / 1000000 * (u * A)) by (apply Rmult_le_compat_r; lra).
  assert (PA : u * A <= 1 / 1000000 * A) by (apply Rmult_le_compat_r; lra).
  assert (Pue : u * eta <= 1 / 1000000 * eta) by (apply Rmult_le_compat_r; lra).
  assert (Hbt : Rabs (b - t) <= b - a + tau).
  { replace (b - t) with ((b - a) + - (t - a)) by ring. eapply Rle_trans; [apply Rabs_triang|]. rewrite Rabs_Ropp, (Rabs_right (b - a)) by lra. lra. }
  assert (H1 : Rabs (h - (b - t)) <= 2.0001 * (u * A) + 1.0001 * eta).
  { unfold h. eapply Rle_trans; [apply Hr|]. 
    assert (u * Rabs (b - t) <= u * (2 * A + tau)) by (apply Rmult_le_compat_l; lra).
    replace (u * (2 * A + tau)) with (2 * (u * A) + 4 * (u * (u * A)) + 3 * (u * eta)) in H0 by (unfold clock_error; ring). lra. }
  assert (Hth : Rabs (t + h) <= A + (2.0001 * (u * A) + 1.0001 * eta)).
  { replace (t + h) with (b + (h - (b - t))) by ring. eapply Rle_trans; [apply Rabs_triang|]. lra. }
  assert (H2 : Rabs (t' - (t + h)) <= 1.01 * (u * A) + 1.01 * eta).
  { unfold t'. eapply Rle_trans; [apply Hr|].
    assert (u * Rabs (t + h) <= u * (A + (2.0001 * (u * A) + 1.0001 * eta))) by (apply Rmult_le_compat_l; lra). lra. }
  assert (H3 : Rabs (t' - b) <= tau).
  { replace (t' - b) with ((t' - (t + h)) + (h - (b - t))) by ring. eapply Rle_trans; [apply Rabs_triang|]. unfold clock_error. lra. }
  assert (H4 : Rabs h <= b - a + tau + (2.0001 * (u * A) + 1.0001 * eta)).
  { replace h with ((b - t) + (h - (b - t))) by ring. eapply Rle_trans; [apply Rabs_triang|]. lra. }
  split; [exact H3|]. split; [unfold clock_error, extra in *; lra|]. split; [|split].
  - replace (t' - t) with ((t' - b) + (b - t)) by ring. eapply Rle_trans; [apply Rabs_triang|]. unfold clock_error, extra in *. lra.
  - unfold clock_error in *. lra.
  - replace (h - (t' - t)) with (- (t' - (t + h))) by ring. rewrite Rabs_Ropp. exact H2.
Qed.

(** one step *)
Lemma euler_step_error a b t x e : Rabs a <= A -> Rabs b <= A -> 0 <= b - a <= H -> Rabs (t - a) <= tau -> length x = n ->
  bounded_by B x -> near n e x (y t) -> 0 <= e ->
  let h := rnd (b - t) in let t' := rnd (t + h) in
  alpha <= t <= beta -> alpha <= t' <= beta ->
  let g := b - a + omega in
  near n (exp (L * g) * (e + g * (eps + M * (H + omega)) + cost)) (euler_rounded rnd fr t h x) (y t').
Proof.
  intros Ha Hb Hab Ht Hx Hxb Hn He h t' Hta Htb g.
  destruct (clock_parts a b t Ha Hb Hab Ht) as (_ & Hh & Hs & Hh' & Hd). fold h in Hh, Hh', Hd. fold t' in Hs, Hd. fold g in Hh, Hs.
  pose proof A_pos as HA. pose proof omega_pos as Hw.
  intros i Hi. rewrite (euler_rounded_nth fr x t h n i Hfr Hx Hi).
  set (k := nth i (fr t x) 0). set (gi := nth i (f t (y t)) 0).
  assert (Hk : Rabs k <= F) by (apply bounded_nth; [rewrite Hfr; auto|apply Hbd; auto]).
  assert (Hgi : Rabs gi <= F) by (apply bounded_nth; [rewrite Hf; auto using ylen|apply HyF; auto]).
  assert (Hkg : Rabs (k - gi) <= eps + L * e).
  { replace (k - gi) with ((k - nth i (f t x) 0) + (nth i (f t x) 0 - gi)) by ring. eapply Rle_trans; [apply Rabs_triang|].
    apply Rplus_le_compat; [apply Hnear; auto|]. apply (Hlip t x (y t) e Hx (ylen t) Hn i Hi). }
  pose proof (mvt_move t t' i Hta Htb Hi) as Herr. fold gi in Herr.
  set (err := nth i (y t') 0 - nth i (y t) 0 - (t' - t) * gi) in *.
  assert (Hxi : Rabs (nth i x 0) <= B) by (apply bounded_nth; auto; lia).
  specialize (Hn i Hi). set (xi := nth i x 0) in *. set (yi := nth i (y t) 0) in *.
  assert (Phk : Rabs (h * k) <= (2.01 * A + 5 * eta) * F) by (rewrite Rabs_mult; apply Rmult_le_compat; auto using Rabs_pos).
  pose proof (Hr (h * k)) as R1. set (r1 := rnd (h * k) - h * k) in *.
  pose proof (Hr (xi + rnd (h * k))) as R2. set (r2 := rnd (xi + rnd (h * k)) - (xi + rnd (h * k))) in *.
  assert (PAF : 0 <= A * F) by (apply Rmult_le_pos; lra). assert (PeF : 0 <= eta * F) by (apply Rmult_le_pos; lra).
  assert (PuAF : 0 <= u * (A * F)) by (apply Rmult_le_pos; lra).
  assert (Q1 : u * (eta * F) <= 1 / 1000000 * (eta * F)) by (apply Rmult_le_compat_r; lra).
  assert (Q2 : u * (u * (A * F)) <= 1 / 1000000 * (u * (A * F))) by (apply Rmult_le_compat_r; lra).
  assert (Q3 : u * eta <= 1 / 1000000 * eta) by (apply Rmult_le_compat_r; lra).
  assert (Q4 : u * (u * (eta * F)) <= 1 / 1000000 * (1 / 1000000 * (eta * F))).
  { apply Rmult_le_compat; try lra. apply Rmult_le_pos; lra. }
  assert (R1' : Rabs r1 <= 2.01 * (u * (A * F)) + 0.00001 * (eta * F) + eta).
  { assert (u * Rabs (h * k) <= u * ((2.01 * A + 5 * eta) * F)) by (apply Rmult_le_compat_l; lra).
    replace (u * ((2.01 * A + 5 * eta) * F)) with (2.01 * (u * (A * F)) + 5 * (u * (eta * F))) in H0 by ring. lra. }
  assert (R2' : Rabs r2 <= 2.02 * (u * (A * F)) + u * B + 0.00002 * (eta * F) + 1.001 * eta).
  { assert (Rabs (xi + rnd (h * k)) <= B + ((2.01 * A + 5 * eta) * F + (2.01 * (u * (A * F)) + 0.00001 * (eta * F) + eta))).
    { replace (rnd (h * k)) with (h * k + r1) by (unfold r1; ring). eapply Rle_trans; [apply Rabs_triang|].
      apply Rplus_le_compat; auto. eapply Rle_trans; [apply Rabs_triang|]. lra. }
    assert (u * Rabs (xi + rnd (h * k)) <= u * (B + ((2.01 * A + 5 * eta) * F + (2.01 * (u * (A * F)) + 0.00001 * (eta * F) + eta)))) by (apply Rmult_le_compat_l; lra).
    replace (u * (B + ((2.01 * A + 5 * eta) * F + (2.01 * (u * (A * F)) + 0.00001 * (eta * F) + eta))))
      with (u * B + 2.01 * (u * (A * F)) + 5 * (u * (eta * F)) + 2.01 * (u * (u * (A * F))) + 0.00001 * (u * (eta * F)) + u * eta) in H1 by ring. lra. }
  replace (rnd (xi + rnd (h * k)) - nth i (y t') 0)
    with ((xi - yi) + h * (k - gi) + (h - (t' - t)) * gi + r1 + r2 + - err) by (unfold err, r1, r2; ring).
  assert (T1 : Rabs (h * (k - gi)) <= g * (eps + L * e)) by (rewrite Rabs_mult; apply Rmult_le_compat; auto using Rabs_pos).
  assert (T2 : Rabs ((h - (t' - t)) * gi) <= (1.01 * (u * A) + 1.01 * eta) * F) by (rewrite Rabs_mult; apply Rmult_le_compat; auto using Rabs_pos).
  assert (Hg : 0 <= g <= H + omega) by (unfold g; lra).
  assert (T3 : Rabs err <= g * (M * (H + omega))).
  { eapply Rle_trans; [exact Herr|]. replace (g * (M * (H + omega))) with (M * ((H + omega) * g)) by ring. rewrite Rmult_assoc.
    apply Rmult_le_compat_l; auto. apply Rmult_le_compat; auto using Rabs_pos. eapply Rle_trans; [exact Hs|apply Hg]. }
  assert (Hsum : Rabs ((xi - yi) + h * (k - gi) + (h - (t' - t)) * gi + r1 + r2 + - err)
    <= Rabs (xi - yi) + Rabs (h * (k - gi)) + Rabs ((h - (t' - t)) * gi) + Rabs r1 + Rabs r2 + Rabs err).
  { do 5 (eapply Rle_trans; [apply Rabs_triang|]; rewrite ?Rabs_Ropp; apply Rplus_le_compat_r). lra. }
  eapply Rle_trans; [exact Hsum|].
  assert (Pc : Rabs ((h - (t' - t)) * gi) + Rabs r1 + Rabs r2 <= cost).
  { unfold cost. replace (u * (6 * A * F + B) + 3 * eta * (F + 1)) with (6 * (u * (A * F)) + u * B + 3 * (eta * F) + 3 * eta) by ring.
    replace ((1.01 * (u * A) + 1.01 * eta) * F) with (1.01 * (u * (A * F)) + 1.01 * (eta * F)) in T2 by ring. lra. }
  pose proof cost_pos as Pcost.
  assert (PgM : 0 <= g * (eps + M * (H + omega))).
  { apply Rmult_le_pos; [lra|]. assert (0 <= M * (H + omega)) by (apply Rmult_le_pos; lra). lra. }
  assert (PLg : 0 <= L * g) by (apply Rmult_le_pos; lra).
  pose proof (exp_ineq1_le (L * g)) as Hexp.
  replace (exp (L * g) * (e + g * (eps + M * (H + omega)) + cost)) with (exp (L * g) * e + exp (L * g) * (g * (eps + M * (H + omega)) + cost)) by ring.
  assert ((1 + L * g) * e <= exp (L * g) * e) by (apply Rmult_le_compat_r; lra).
  assert (1 * (g * (eps + M * (H + omega)) + cost) <= exp (L * g) * (g * (eps + M * (H + omega)) + cost)) by (apply Rmult_le_compat_r; lra).
  replace (g * (eps + L * e)) with (g * eps + L * g * e) in T1 by ring.
  replace (g * (eps + M * (H + omega))) with (g * eps + g * (M * (H + omega))) in * by ring. lra.
Qed.

(** the whole trajectory *)
Definition ebound (S : R) (k : nat) (e : R) : R := exp (L * S) * (e + S * (eps + M * (H + omega)) + INR k * cost).
Lemma euler_traj_error : forall targets a t x e,
  (forall b, In b (a :: targets) -> Rabs b <= A) -> increasing (a :: targets) -> steps_at_most H (a :: targets) ->
  Rabs (t - a) <= tau -> length x = n -> bounded_by B x ->
  (forall p, In p (clock_traj rnd (euler_rounded rnd fr) t x targets) -> bounded_by B (snd p)) ->
  (forall b, In b (a :: targets) -> alpha + tau <= b <= beta - tau) ->
  near n e x (y t) -> 0 <= e ->
  forall i b p, nth_error targets i = Some b -> nth_error (clock_traj rnd (euler_rounded rnd fr) t x targets) i = Some p ->
  near n (ebound (b - a + INR (S i) * omega) (S i) e) (snd p) (y (fst p)) /\ Rabs (fst p - b) <= tau.
Proof.
  induction targets as [|c targets IH]; intros a t x e HAll Hinc Hst Ht Hx Hxb Hall Hin Hn He i b p Hb Hp; [destruct i; discriminate|].
  assert (Hlt : a < c) by (apply (Hinc 0%nat 1%nat a c); [lia|reflexivity|reflexivity]).
  assert (Hca : 0 <= c - a <= H) by (split; [lra|apply (Hst 0%nat a c); reflexivity]).
  assert (HaA : Rabs a <= A) by (apply HAll; left; reflexivity). assert (HcA : Rabs c <= A) by (apply HAll; right; left; reflexivity).
  destruct (clock_parts a c t HaA HcA Hca Ht) as (Ht' & _).
  cbn [clock_traj] in Hp, Hall. cbv zeta in Hp, Hall.
  set (h := rnd (c - t)) in *. set (t' := rnd (t + h)) in *. set (x' := euler_rounded rnd fr t h x) in *.
  assert (Hta : alpha <= t <= beta).
  { specialize (Hin a (or_introl eq_refl)). apply Rabs_le_inv in Ht. lra. }
  assert (Htb : alpha <= t' <= beta).
  { specialize (Hin c (or_intror (or_introl eq_refl))). apply Rabs_le_inv in Ht'. lra. }
  pose proof (euler_step_error a c t x e HaA HcA Hca Ht Hx Hxb Hn He Hta Htb) as Hstep. fold h in Hstep. fold t' in Hstep. fold x' in Hstep.
  set (g := c - a + omega) in *.
  pose proof omega_pos as Hw. pose proof cost_pos as Hc0.
  assert (Pg : 0 <= g) by (unfold g; lra).
  set (q := eps + M * (H + omega)) in *.
  assert (Pq : 0 <= q) by (unfold q; assert (0 <= M * (H + omega)) by (apply Rmult_le_pos; lra); lra).
  destruct i as [|i]; cbn [nth_error] in Hb, Hp.
  - injection Hb as <-. injection Hp as <-. cbn [fst snd]. split; [|exact Ht'].
    unfold ebound. cbn [INR]. rewrite !Rmult_1_l. exact Hstep.
  - set (e' := exp (L * g) * (e + g * q + cost)) in *.
    assert (Pgq : 0 <= g * q) by (apply Rmult_le_pos; auto).
    assert (He' : 0 <= e') by (unfold e'; apply Rmult_le_pos; [left; apply exp_pos|lra]).
    destruct (IH c t' x' e') with (i := i) (b := b) (p := p) as [IH1 IH2]; auto.
    { intros z Hz. apply HAll. right. exact Hz. }
    { intros j1 j2 z1 z2 Hj E1 E2. apply (Hinc (S j1) (S j2)); auto. lia. }
    { intros j z1 z2 E1 E2. apply (Hst (S j)); auto. }
    { apply euler_rounded_len with (n := n); auto. }
    { specialize (Hall (t', x') (or_introl eq_refl)). exact Hall. }
    { intros z Hz. apply Hall. right. exact Hz. }
    { intros z Hz. apply Hin. right. exact Hz. }
    split; [|exact IH2]. intros j Hj. eapply Rle_trans; [apply IH1; auto|].
    unfold ebound. rewrite (S_INR (S i)). set (m := INR (S i)). assert (Pm : 0 <= m) by (apply pos_INR).
    assert (Hcb : c <= b).
    { left. apply (Hinc 1%nat (S (S i)) c b); [lia|reflexivity|exact Hb]. }
    assert (Pmw : 0 <= m * omega) by (apply Rmult_le_pos; auto).
    assert (Pmc : 0 <= m * cost) by (apply Rmult_le_pos; auto).
    replace (L * (b - a + (m + 1) * omega)) with (L * (b - c + m * omega) + L * g) by (unfold g; ring). rewrite exp_plus.
    rewrite Rmult_assoc. apply Rmult_le_compat_l; [left; apply exp_pos|].
    replace (b - a + (m + 1) * omega) with ((b - c + m * omega) + g) by (unfold g; ring).
    assert (PS : 0 <= (b - c + m * omega) * q) by (apply Rmult_le_pos; lra).
    assert (PLg : 0 <= L * g) by (apply Rmult_le_pos; auto).
    assert (E1 : 1 <= exp (L * g)) by (pose proof (exp_ineq1_le (L * g)); lra).
    unfold e'. fold q.
    assert (1 * ((b - c + m * omega) * q + m * cost) <= exp (L * g) * ((b - c + m * omega) * q + m * cost)) by (apply Rmult_le_compat_r; lra).
    replace (exp (L * g) * (e + (b - c + m * omega + g) * q + (m + 1) * cost)) with (exp (L * g) * (e + g * q + cost) + exp (L * g) * ((b - c + m * omega) * q + m * cost)) by ring. lra.
Qed.
End Euler.

Lemma spaced_increasing u eta l : spaced u eta l -> increasing l.
Proof.
  intros Hs i j a b Hij Ha Hb. destruct (spaced_gap u eta l Hs i j a b Hij Ha Hb) as [G _]. pose proof (Rabs_pos a). lra.
Qed.

(** C108.  Euler in rounded arithmetic: grid with times of size at most A and gaps at most H, field computed up to
    eps, states of size at most B.  The error against the exact solution is that of exact arithmetic, of order
    H, plus a contribution of size u (6 A F + B) + 3 eta (F + 1) per step. *)
Lemma C108_euler_rounded_pf :
  forall rnd u eta n f fr L M F B eps A H e0 y x t0 t1 ts fuel atol rtol interp all semi times sol,
  rounding u eta rnd -> 0 <= u <= 1 / 1000000 -> 0 <= eta <= 1 / 1000000000000 ->
  0 <= L -> 0 <= M -> 0 <= F -> 0 <= B -> 0 <= eps -> 0 <= e0 -> 0 <= H <= 2 * A ->
  let grid := t0 :: t1 :: ts in
  let tau := 4 * u * A + 3 * eta in
  let omega := 8 * u * A + 6 * eta in
  spaced u eta grid -> steps_at_most H grid -> (forall b, In b grid -> Rabs b <= A) ->
  field_on n f -> field_on n fr -> lipschitz n L f ->
  (forall t z, List.length z = n -> near n eps (fr t z) (f t z)) ->
  (forall t z, List.length z = n -> bounded_by B z -> bounded_by F (fr t z)) ->
  let a := t0 - tau in let b := last (t1 :: ts) t0 + tau in
  solves n a b f y ->
  (forall s t, a <= s <= b -> a <= t <= b -> near n (M * Rabs (s - t)) (f s (y s)) (f t (y t))) ->
  (forall t, a <= t <= b -> bounded_by F (f t (y t))) ->
  List.length x = n -> near n e0 x (y t0) ->
  snd (@odeint (RndOps rnd) fuel fr x (@TTensor (RndOps rnd) grid) (Euler (RndOps rnd)) atol rtol interp all [] semi) = Ok (times, sol) ->
  (forall z, In z sol -> bounded_by B z) ->
  forall i s z, nth_error grid i = Some s -> nth_error sol i = Some z ->
    let S := s - t0 + INR i * omega in
    near n (exp (L * S) * (e0 + S * (eps + M * (H + omega)) + INR i * (u * (6 * A * F + B) + 3 * eta * (F + 1))) + F * tau) z (y s).
Proof.
  intros rnd u eta n f fr L M F B eps A H e0 y x t0 t1 ts fuel atol rtol interp all semi times sol
    Hr Hu He HL HM HF HB Heps He0 HH grid tau omega Hsp Hst HA Hf Hfr Hlip Hnear Hbd a b Hy HyM HyF Hx Hx0 Hode Hsol i s z Hs Hz S.
  assert (E : snd (@odeint (RndOps rnd) fuel fr x (@TTensor (RndOps rnd) grid) (Euler (RndOps rnd)) atol rtol interp all [] semi)
     = Ok (grid, x :: map snd (clock_traj rnd (euler_rounded rnd fr) t0 x (t1 :: ts)))).
  { refine (eq_trans (odeint_fixed_any (K := RndOps rnd) fuel fr x t0 t1 ts (Euler (RndOps rnd)) atol rtol interp all [] semi eq_refl _) _).
    - apply Rltb_false. left. exact (spaced_lt u eta t0 t1 ts Hsp).
    - apply (rounded_fixed rnd u eta Hr Hu He fr (s_step (Euler (RndOps rnd))) (euler_rounded rnd fr) x t0 t1 ts); [|exact Hsp].
      intros t h v. apply euler_rounded_is. }
  pose proof (eq_trans (eq_sym Hode) E) as E2. injection E2 as -> ->. clear E Hode.
  assert (Hinc : increasing grid) by exact (spaced_increasing u eta grid Hsp).
  assert (Htau : 0 <= tau) by (unfold tau; assert (0 <= u * A) by (apply Rmult_le_pos; lra); lra).
  assert (Hin : forall c, In c grid -> a + tau <= c <= b - tau).
  { intros c Hc. unfold a, b. pose proof (inc_last t0 t1 ts Hinc c Hc). split; [|lra].
    destruct Hc as [->|Hc]; [lra|]. apply In_nth_error in Hc. destruct Hc as [j Hj].
    assert (t0 < c) by (apply (Hinc 0%nat (Datatypes.S j) t0 c); [lia|reflexivity|exact Hj]). lra. }
  destruct i as [|i].
  - injection Hs as <-. injection Hz as <-. unfold S. cbn [INR]. intros j Hj. specialize (Hx0 j Hj). eapply Rle_trans; [exact Hx0|].
    replace (L * (t0 - t0 + 0 * omega)) with 0 by ring. rewrite exp_0. assert (0 <= F * tau) by (apply Rmult_le_pos; auto). lra.
  - change (nth_error (t1 :: ts) i = Some s) in Hs. pose proof (eq_trans (eq_sym (nth_error_map snd i (clock_traj rnd (euler_rounded rnd fr) t0 x (t1 :: ts)))) Hz) as Hz'.
    destruct (nth_error (clock_traj rnd (euler_rounded rnd fr) t0 x (t1 :: ts)) i) as [p|] eqn:Hp; [|discriminate]. injection Hz' as <-.
    assert (Ht0 : Rabs (t0 - t0) <= tau) by (rewrite Rminus_diag_eq, Rabs_R0 by reflexivity; exact Htau).
    assert (Hxb : bounded_by B x) by (apply Hsol; left; reflexivity).
    destruct (euler_traj_error rnd u eta Hr Hu (proj1 He) n f fr L M F B eps A H y a b HL HM HF HB Heps HH Hf Hfr Hlip Hnear Hbd Hy HyM HyF
      (t1 :: ts) t0 t0 x e0 HA Hinc Hst Ht0 Hx Hxb) with (i := i) (b := s) (p := p) as [N1 N2]; auto.
    { intros q Hq. apply Hsol. right. exact (in_map snd _ _ Hq). }
    assert (Hs' : In s grid) by (right; exact (nth_error_In (t1 :: ts) i Hs)).
    intros j Hj. replace (nth j (snd p) 0 - nth j (y s) 0) with ((nth j (snd p) 0 - nth j (y (fst p)) 0) + (nth j (y (fst p)) 0 - nth j (y s) 0)) by ring.
    eapply Rle_trans; [apply Rabs_triang|]. apply Rplus_le_compat; [exact (N1 j Hj)|].
    specialize (Hin s Hs'). pose proof (Rabs_le_inv _ _ N2) as N3. change (clock_error u eta A) with tau in N3.
    assert (Hp' : a <= fst p <= b) by lra.
    assert (Hs2 : a <= s <= b) by lra.
    eapply Rle_trans; [apply (y_near n f F y a b Hf Hy HyF s (fst p) Hs2 Hp' j Hj)|]. apply Rmult_le_compat_l; [exact HF|exact N2].
Qed.

(** ** IEEE binary formats *)
(** Rounding to nearest even in a binary format with p digits and least exponent emin (unbounded above) is a
    rounding with u = 2^-p, eta = 2^(emin - 1): float32 is p = 24, emin = -149, float64 is p = 53, emin = -1074. *)
Lemma C107_ieee_pf : forall p emin, (0 < p)%Z ->
  rounding (/ 2 * bpow radix2 (- p + 1)) (/ 2 * bpow radix2 emin) (round radix2 (FLT_exp emin p) ZnearestE).
Proof.
  intros p emin Hp x. destruct (error_N_FLT radix2 emin p Hp (fun x => negb (Z.even x)) x) as (eps & eta & He & Hn & _ & E).
  rewrite E. replace (x * (1 + eps) + eta - x) with (x * eps + eta) by ring.
  eapply Rle_trans; [apply Rabs_triang|]. apply Rplus_le_compat; [|exact Hn]. rewrite Rabs_mult, Rmult_comm. apply Rmult_le_compat_r; [apply Rabs_pos|exact He].
Qed.
Definition float32 : R -> R := round radix2 (FLT_exp (-149) 24) ZnearestE.

Lemma float32_u : / 2 * bpow radix2 (-24 + 1) = / 16777216.
Proof. replace (-24 + 1)%Z with (-23)%Z by reflexivity. unfold bpow. cbn. lra. Qed.
Lemma float32_eta : 0 <= / 2 * bpow radix2 (-149) <= 1 / 1000000000000.
Proof.
  split; [pose proof (bpow_gt_0 radix2 (-149)); lra|].
  assert (bpow radix2 (-149) <= bpow radix2 (-40)) by (apply bpow_le; lia).
  replace (bpow radix2 (-40)) with (/ 1099511627776) in H by (unfold bpow; cbn; lra). lra.
Qed.
Lemma float32_rounding : rounding (/ 16777216) (/ 2 * bpow radix2 (-149)) float32.
Proof. rewrite <- float32_u. apply C107_ieee_pf. lia. Qed.

(** float32 on the grid 0, 1/2, 1 *)
Lemma C107_ex_pf :
  exists u eta, rounding u eta (round radix2 (FLT_exp (-149) 24) ZnearestE) /\ 0 <= u <= 1 / 1000000 /\
    0 <= eta <= 1 / 1000000000000 /\ spaced u eta [0; 1 / 2; 1].
Proof.
  exists (/ 16777216), (/ 2 * bpow radix2 (-149)). pose proof float32_eta as He. split; [exact float32_rounding|]. split; [lra|]. split; [exact He|].
  apply C107_spaced_grids_pf; try lra. intros [|[|[|i]]] a b Ha Hb; cbn in Ha, Hb; try discriminate; try (injection Ha as <-; injection Hb as <-; lra).
Qed.

(** y' = -y from 1 in float32 on that grid: the computed states exist and stay below 5, the constants of C108
    are L = 1, M = F = B = 5, eps = 0, A = 1, H = 1/2 *)
Lemma C108_ex_pf :
  let rnd := round radix2 (FLT_exp (-149) 24) ZnearestE in
  let f := fun (_ : R) (x : list R) => map Ropp x in
  let y := fun t => [exp (- t)] in
  let grid := [0; 1 / 2; 1] in
  exists u eta, rounding u eta rnd /\ 0 <= u <= 1 / 1000000 /\ 0 <= eta <= 1 / 1000000000000 /\
    spaced u eta grid /\ steps_at_most (1 / 2) grid /\ (forall b, In b grid -> Rabs b <= 1) /\
    field_on 1 f /\ lipschitz 1 1 f /\ (forall t z, List.length z = 1%nat -> bounded_by 5 z -> bounded_by 5 (f t z)) /\
    let a := 0 - (4 * u * 1 + 3 * eta) in let b := 1 + (4 * u * 1 + 3 * eta) in
    solves 1 a b f y /\
    (forall s t, a <= s <= b -> a <= t <= b -> near 1 (5 * Rabs (s - t)) (f s (y s)) (f t (y t))) /\
    (forall t, a <= t <= b -> bounded_by 5 (f t (y t))) /\
    exists sol, snd (@odeint (RndOps rnd) 0 f [1] (@TTensor (RndOps rnd) grid) (Euler (RndOps rnd)) 0 0 false false [] None) = Ok (grid, sol) /\
      List.length sol = 3%nat /\ (forall z, In z sol -> bounded_by 5 z).
Proof.
  cbv zeta. set (rnd := round radix2 (FLT_exp (-149) 24) ZnearestE).
  pose proof float32_eta as He. set (eta := / 2 * bpow radix2 (-149)) in *. set (u := / 16777216).
  assert (Hr : rounding u eta rnd) by exact float32_rounding.
  assert (Hsp : spaced u eta [0; 1 / 2; 1]).
  { apply C107_spaced_grids_pf; unfold u; try lra. intros [|[|[|i]]] a b Ha Hb; cbn in Ha, Hb; try discriminate; try (injection Ha as <-; injection Hb as <-; lra). }
  assert (Hu : 0 <= u <= 1 / 1000000) by (unfold u; lra).
  exists u, eta. split; [exact Hr|]. split; [exact Hu|]. split; [exact He|]. split; [exact Hsp|].
  split. { intros [|[|[|i]]] a b Ha Hb; cbn in Ha, Hb; try discriminate; try (injection Ha as <-; injection Hb as <-; lra). }
  split. { intros b [<-|[<-|[<-|[]]]]; rewrite Rabs_right; lra. }
  split. { intros t x Hx. rewrite map_length. exact Hx. }
  split. { intros t x y D Hx Hy Hn i Hi. rewrite Rmult_1_l. destruct x as [|x [|]], y as [|y [|]]; try discriminate. assert (i = 0)%nat by lia; subst i.
    specialize (Hn 0%nat Hi). cbn in Hn |- *. replace (- x - - y) with (- (x - y)) by ring. rewrite Rabs_Ropp. exact Hn. }
  split. { intros t z Hz Hb a Ha. apply in_map_iff in Ha. destruct Ha as (c & <- & Hc). rewrite Rabs_Ropp. apply Hb, Hc. }
  set (tau := 4 * u * 1 + 3 * eta). assert (Htau : 0 <= tau <= 0.1) by (unfold tau, u; lra).
  assert (Hexp : forall t, 0 - tau <= t <= 1 + tau -> 0 < exp (- t) <= 5).
  { intros t Ht. split; [apply exp_pos|]. left. apply Rle_lt_trans with (exp 1); [|pose proof exp_le_3; lra].
    destruct (Rle_lt_or_eq_dec (- t) 1) as [Hlt| ->]; [lra| |lra]. left. apply exp_increasing. exact Hlt. }
  assert (Hder : forall t, derivable_pt_lim (fun s => exp (- s)) t (- exp (- t))).
  { intros t. replace (- exp (- t)) with (exp (- t) * (- 1)) by ring. apply (derivable_pt_lim_comp Ropp exp).
    - pose proof (derivable_pt_lim_opp id t 1 (derivable_pt_lim_id t)) as D. exact D.
    - apply derivable_pt_lim_exp. }
  split. { split; [reflexivity|]. intros i t Hi Ht. assert (i = 0)%nat by lia; subst i. cbn. apply Hder. }
  split.
  { intros s t Hs Ht i Hi. assert (i = 0)%nat by lia; subst i. cbn. replace (- exp (- s) - - exp (- t)) with (- (exp (- s) - exp (- t))) by ring. rewrite Rabs_Ropp.
    destruct (Rtotal_order s t) as [Hlt|[->|Hlt]].
    - destruct (MVT_cor2 (fun s => exp (- s)) (fun s => - exp (- s)) s t Hlt) as (c & E & Hc); [intros; apply Hder|].
      rewrite <- Rabs_Ropp, Ropp_minus_distr, E, Rabs_mult, Rabs_Ropp. rewrite (Rabs_minus_sym s t). apply Rmult_le_compat_r; [apply Rabs_pos|].
      pose proof (Hexp c ltac:(lra)). rewrite Rabs_right; lra.
    - rewrite Rminus_diag_eq, Rabs_R0 by reflexivity. rewrite Rminus_diag_eq, Rabs_R0 by reflexivity. lra.
    - destruct (MVT_cor2 (fun s => exp (- s)) (fun s => - exp (- s)) t s Hlt) as (c & E & Hc); [intros; apply Hder|].
      rewrite E, Rabs_mult, Rabs_Ropp. apply Rmult_le_compat_r; [apply Rabs_pos|].
      pose proof (Hexp c ltac:(lra)). rewrite Rabs_right; lra. }
  split. { intros t Ht a [<-|[]]. rewrite Rabs_Ropp. pose proof (Hexp t Ht). rewrite Rabs_right; lra. }
  eexists. split.
  { refine (eq_trans (odeint_fixed_any (K := RndOps rnd) 0 _ [1] 0 (1 / 2) [1] (Euler (RndOps rnd)) 0 0 false false [] None eq_refl _) _).
    - apply Rltb_false. lra.
    - apply (rounded_fixed rnd u eta Hr Hu He _ (s_step (Euler (RndOps rnd))) (euler_rounded rnd (fun _ x => map Ropp x)) [1] 0 (1 / 2) [1]); [|exact Hsp].
      intros t h v. apply euler_rounded_is. }
  split; [reflexivity|].
  assert (G : forall x B, Rabs x <= B -> Rabs (rnd x) <= 1.001 * B + 0.001).
  { intros x C Hx. pose proof (rnd_le rnd u eta Hr Hu x C Hx) as G. pose proof (Rabs_pos x).
    assert (u * C <= 1 / 1000000 * C) by (apply Rmult_le_compat_r; lra). lra. }
  assert (Hone : forall t h x C, Rabs h <= 0.7 -> Rabs x <= C -> bounded_by (2 * C + 0.1) (euler_rounded rnd (fun _ x => map Ropp x) t h [x])).
  { intros t h x C Hh Hx a [<-|[]]. cbn [fst snd]. pose proof (Rabs_pos x).
    assert (H1 : Rabs (h * - x) <= 0.7 * C) by (rewrite Rabs_mult, Rabs_Ropp; apply Rmult_le_compat; auto using Rabs_pos).
    pose proof (G _ _ H1) as H2. assert (H3 : Rabs (x + rnd (h * - x)) <= C + (1.001 * (0.7 * C) + 0.001)) by (eapply Rle_trans; [apply Rabs_triang|]; lra).
    pose proof (G _ _ H3). lra. }
  assert (Hcl : forall t b, Rabs (b - t) <= 0.6 -> Rabs (rnd (b - t)) <= 0.7).
  { intros t b H. pose proof (G _ _ H). lra. }
  set (h1 := rnd (1 / 2 - 0)). set (t1 := rnd (0 + h1)). set (h2 := rnd (1 - t1)).
  assert (Hh1 : Rabs h1 <= 0.7) by (apply Hcl; rewrite Rabs_right; lra).
  assert (Hd1 : Rabs (h1 - 1 / 2) <= 0.01).
  { pose proof (Hr (1 / 2 - 0)) as D. fold h1 in D. replace (1 / 2 - 0) with (1 / 2) in D by ring. rewrite (Rabs_right (1 / 2)) in D by lra. lra. }
  assert (Hd2 : Rabs (t1 - h1) <= 0.01).
  { pose proof (Hr (0 + h1)) as D. fold t1 in D. rewrite Rplus_0_l in D. pose proof (Rabs_pos h1).
    assert (u * Rabs h1 <= 1 / 1000000 * 0.7) by (apply Rmult_le_compat; lra). lra. }
  assert (Hh2 : Rabs h2 <= 0.7).
  { apply Hcl. apply Rabs_le_inv in Hd1, Hd2. apply Rabs_le. lra. }
  intros z Hz. cbn [map snd] in Hz. destruct Hz as [<-|[Hz|[Hz|[]]]].
  - intros a [<-|[]]. rewrite Rabs_right; lra.
  - change (euler_rounded rnd (fun _ x => map Ropp x) 0 h1 [1] = z) in Hz. subst z.
    intros a Ha. pose proof (Hone 0 h1 1 1 Hh1 ltac:(rewrite Rabs_right; lra) a Ha). lra.
  - change (euler_rounded rnd (fun _ x => map Ropp x) t1 h2 (euler_rounded rnd (fun _ x => map Ropp x) 0 h1 [1]) = z) in Hz. subst z.
    destruct (euler_rounded rnd (fun _ x => map Ropp x) 0 h1 [1]) as [|x1 [|]] eqn:E; try discriminate.
    assert (Hx1 : Rabs x1 <= 2.1).
    { pose proof (Hone 0 h1 1 1 Hh1 ltac:(rewrite Rabs_right; lra) x1) as D. rewrite E in D. specialize (D (or_introl eq_refl)). lra. }
    intros a Ha. pose proof (Hone t1 h2 x1 2.1 Hh2 Hx1 a Ha). lra.
Qed.
