(** Proofs: fixed-step solves with small steps keep different states different. *)
From Coq Require Import ZArith QArith Qreals Reals Lra Lia List Bool Sorted.
From Verif Require Import Num Py Tensor M_Constants M_SolversOde M_Utils M_Interp M_Odeint.
From Verif Require Import Spec_Ode Spec_Trees Spec_RK Spec_Norm Spec_Adaptive Spec_Conv Spec_Inv Spec_Order.
From Verif Require Import L_Base L_Fixed L_Vec L_Steps L_Tables L_Steps2 L_Interp L_Utils L_Fixed2 L_Adaptive L_Run.
From Verif Require Import L_Conv Pf_Fixed L_Reach L_Inv L_Order Pf_Conv Pf_Order.
Import ListNotations.
Local Open Scope R_scope.

(** some component differs by at least D *)
Definition apart (n : nat) (D : R) (x z : list R) : Prop := exists i, (i < n)%nat /\ D <= Rabs (nth i x 0 - nth i z 0).

Lemma farthest n x z : (0 < n)%nat -> exists i, (i < n)%nat /\ near n (Rabs (nth i x 0 - nth i z 0)) x z.
Proof.
  induction n as [|n IH]; [lia|]. intros _. destruct n as [|n].
  - exists 0%nat. split; [lia|]. intros j Hj. replace j with 0%nat by lia. apply Rle_refl.
  - destruct (IH ltac:(lia)) as (i & Hi & Hn).
    destruct (Rle_dec (Rabs (nth (S n) x 0 - nth (S n) z 0)) (Rabs (nth i x 0 - nth i z 0))) as [Hc|Hc].
    + exists i. split; [lia|]. intros j Hj. destruct (Nat.eq_dec j (S n)) as [->|]; auto. apply Hn. lia.
    + exists (S n). split; [lia|]. intros j Hj. destruct (Nat.eq_dec j (S n)) as [->|]; [apply Rle_refl|]. pose proof (Hn j ltac:(lia)). lra.
Qed.

Section Cross.
Variables (n : nat) (f : R -> list R -> list R) (L : R) (rows : list (R * list R)) (b : list R) (H : R).
Hypothesis Hf : field_on n f.
Hypothesis HL : 0 <= L.
Hypothesis HH : 0 <= H.
Hypothesis Hlip : lipschitz n L f.

(** the increments of the steps from two states *)
Lemma increments t h x z D i : 0 <= h <= H -> 0 <= D -> length x = n -> length z = n -> near n D x z -> (i < n)%nat ->
  Rabs ((nth i (erk_step rows b f t h x) 0 - nth i x 0) - (nth i (erk_step rows b f t h z) 0 - nth i z 0)) <= h * growth L H rows b * D.
Proof.
  intros Hh HD Hx Hz Hn Hi.
  assert (Z : field_near n 0 f f) by (intros s w _ j _; rewrite Rminus_diag_eq, Rabs_R0 by reflexivity; lra).
  pose proof (stages_near n f f L 0 Hf Hf HL ltac:(lra) Hlip Z H rows t h x z D Hh HD Hx Hz Hn) as S.
  unfold erk_step. rewrite !(nth_comb n) by (auto; now apply erk_stages_len).
  pose proof (wsum_near n _ _ _ i S Hi b) as B.
  unfold gaps in B. rewrite abs_sum_lin in B by (unfold stage_growth, stage_leak; now rewrite !stagewise_len).
  match goal with |- Rabs ?e <= _ => replace e with (h * (wsum i b (erk_stages rows f t h x) - wsum i b (erk_stages rows f t h z))) by ring end.
  rewrite Rabs_mult, (Rabs_right h) by lra. unfold growth.
  replace (h * abs_sum b (stage_growth L H rows) * D) with (h * (D * abs_sum b (stage_growth L H rows) + 0 * abs_sum b (stage_leak L H rows))) by ring.
  apply Rmult_le_compat_l; [lra|exact B].
Qed.

Let q := 1 - H * growth L H rows b.
Hypothesis Hq : 0 < q.

Lemma factor_le h D : 0 <= h <= H -> 0 <= D -> q * D <= D - h * growth L H rows b * D.
Proof.
  intros Hh HD. pose proof (growth_pos L HL H rows b HH) as G. unfold q.
  assert (h * growth L H rows b <= H * growth L H rows b) by (apply Rmult_le_compat_r; lra).
  replace (D - h * growth L H rows b * D) with ((1 - h * growth L H rows b) * D) by ring. apply Rmult_le_compat_r; lra.
Qed.

Lemma step_apart t h x z D : 0 <= h <= H -> 0 <= D -> length x = n -> length z = n -> apart n D x z ->
  apart n (q * D) (erk_step rows b f t h x) (erk_step rows b f t h z).
Proof.
  intros Hh HD Hx Hz (i0 & Hi0 & Ha). destruct (farthest n x z ltac:(lia)) as (i & Hi & Hn). exists i. split; auto.
  set (M := Rabs (nth i x 0 - nth i z 0)) in *. assert (HM : D <= M) by (eapply Rle_trans; [exact Ha|now apply Hn]).
  pose proof (increments t h x z M i Hh ltac:(unfold M; apply Rabs_pos) Hx Hz Hn Hi) as B.
  set (u := nth i (erk_step rows b f t h x) 0) in *. set (v := nth i (erk_step rows b f t h z) 0) in *.
  pose proof (factor_le h M Hh ltac:(lra)) as F.
  assert (T : M <= Rabs (u - v) + Rabs ((u - nth i x 0) - (v - nth i z 0))).
  { unfold M. replace (nth i x 0 - nth i z 0) with ((u - v) + - ((u - nth i x 0) - (v - nth i z 0))) at 1 by ring.
    eapply Rle_trans; [apply Rabs_triang|]. rewrite Rabs_Ropp. lra. }
  assert (q * D <= q * M) by (apply Rmult_le_compat_l; lra). lra.
Qed.

Lemma traj_apart : forall ts t x z D, 0 <= D -> length x = n -> length z = n -> apart n D x z ->
  increasing (t :: ts) -> steps_at_most H (t :: ts) ->
  forall k xk zk, nth_error (one_step_traj (erk_step rows b f) x (t :: ts)) k = Some xk ->
    nth_error (one_step_traj (erk_step rows b f) z (t :: ts)) k = Some zk -> apart n (q ^ k * D) xk zk.
Proof.
  induction ts as [|t1 ts IH]; intros t x z D HD Hx Hz Hn Hinc Hst k xk zk Hk Hl.
  - destruct k as [|[|]]; try discriminate. injection Hk as <-. injection Hl as <-. simpl. now rewrite Rmult_1_l.
  - rewrite L_Jagged.traj_cons in Hk, Hl. destruct k as [|k].
    + injection Hk as <-. injection Hl as <-. simpl. now rewrite Rmult_1_l.
    + cbn [nth_error] in Hk, Hl.
      assert (Hlt : t < t1) by (apply (Hinc 0%nat 1%nat t t1); auto).
      assert (HhH : t1 - t <= H) by (apply (Hst 0%nat); reflexivity).
      replace (q ^ S k * D) with (q ^ k * (q * D)) by (simpl; ring).
      eapply (IH t1 (erk_step rows b f t (t1 - t) x) (erk_step rows b f t (t1 - t) z)); [| | | | | |exact Hk|exact Hl].
      * apply Rmult_le_pos; lra.
      * now apply erk_step_len.
      * now apply erk_step_len.
      * apply step_apart; auto; lra.
      * intros i j a' b' Hij H1 H2. apply (Hinc (S i) (S j)); auto. lia.
      * intros i a' b' H1 H2. apply (Hst (S i)); auto.
Qed.
End Cross.

Section Scalar.
Variables (f : R -> list R -> list R) (L : R) (rows : list (R * list R)) (b : list R) (H : R).
Hypothesis Hf : field_on 1 f.
Hypothesis HL : 0 <= L.
Hypothesis HH : 0 <= H.
Hypothesis Hlip : lipschitz 1 L f.
Let q := 1 - H * growth L H rows b.
Hypothesis Hq : 0 < q.

Lemma step_order t h x z D : 0 <= h <= H -> 0 <= D -> length x = 1%nat -> length z = 1%nat -> D <= nth 0 z 0 - nth 0 x 0 ->
  q * D <= nth 0 (erk_step rows b f t h z) 0 - nth 0 (erk_step rows b f t h x) 0.
Proof.
  intros Hh HD Hx Hz Ho. set (M := nth 0 z 0 - nth 0 x 0) in *.
  assert (Hn : near 1 M x z).
  { intros j Hj. replace j with 0%nat by lia. rewrite Rabs_left1 by (unfold M in *; lra). unfold M. lra. }
  pose proof (increments 1 f L rows b H Hf HL Hlip t h x z M 0 Hh ltac:(lra) Hx Hz Hn ltac:(lia)) as B.
  pose proof (factor_le L rows b H HL HH h M Hh ltac:(lra)) as F. fold q in F.
  set (u := nth 0 (erk_step rows b f t h x) 0) in *. set (v := nth 0 (erk_step rows b f t h z) 0) in *.
  assert (q * D <= q * M) by (apply Rmult_le_compat_l; lra).
  pose proof (Rle_abs ((u - nth 0 x 0) - (v - nth 0 z 0))) as A. unfold M in *. lra.
Qed.

Lemma traj_order : forall ts t x z D, 0 <= D -> length x = 1%nat -> length z = 1%nat -> D <= nth 0 z 0 - nth 0 x 0 ->
  increasing (t :: ts) -> steps_at_most H (t :: ts) ->
  forall k xk zk, nth_error (one_step_traj (erk_step rows b f) x (t :: ts)) k = Some xk ->
    nth_error (one_step_traj (erk_step rows b f) z (t :: ts)) k = Some zk -> q ^ k * D <= nth 0 zk 0 - nth 0 xk 0.
Proof.
  induction ts as [|t1 ts IH]; intros t x z D HD Hx Hz Hn Hinc Hst k xk zk Hk Hl.
  - destruct k as [|[|]]; try discriminate. injection Hk as <-. injection Hl as <-. simpl. now rewrite Rmult_1_l.
  - rewrite L_Jagged.traj_cons in Hk, Hl. destruct k as [|k].
    + injection Hk as <-. injection Hl as <-. simpl. now rewrite Rmult_1_l.
    + cbn [nth_error] in Hk, Hl.
      assert (Hlt : t < t1) by (apply (Hinc 0%nat 1%nat t t1); auto).
      assert (HhH : t1 - t <= H) by (apply (Hst 0%nat); reflexivity).
      replace (q ^ S k * D) with (q ^ k * (q * D)) by (simpl; ring).
      eapply (IH t1 (erk_step rows b f t (t1 - t) x) (erk_step rows b f t (t1 - t) z)); [| | | | | |exact Hk|exact Hl].
      * apply Rmult_le_pos; lra.
      * now apply erk_step_len.
      * now apply erk_step_len.
      * apply step_order; auto; lra.
      * intros i j a' b' Hij H1 H2. apply (Hinc (S i) (S j)); auto. lia.
      * intros i a' b' H1 H2. apply (Hst (S i)); auto.
Qed.
End Scalar.

Lemma differ n (x z : list R) : length x = n -> length z = n -> x <> z -> exists D, 0 < D /\ apart n D x z.
Proof.
  revert x z. induction n as [|n IH]; intros [|a x] [|c z] Hx Hz Hd; try discriminate; [now destruct Hd|].
  destruct (Req_dec a c) as [->|Hac].
  - destruct (IH x z) as (D & HD & i & Hi & Ha); [now injection Hx|now injection Hz|intros ->; now apply Hd|]. exists D. split; auto. exists (S i). split; [lia|exact Ha].
  - exists (Rabs (a - c)). split; [apply Rabs_pos_lt; lra|]. exists 0%nat. split; [lia|]. simpl. apply Rle_refl.
Qed.

(** C175.  Fixed-step solves of a field with Lipschitz constant L, steps of size at most H with H growth(L, H) < 1: different initial states
    stay different at all times.  Differences shrink at most by the factor 1 - H growth(L, H) per step (maximum norm). *)
Lemma C175_distinct_pf :
  forall s rows b n f L x z H t0 t1 ts fuel atol rtol interp all semi,
  builtin_fixed s rows b -> field_on n f -> 0 <= L -> lipschitz n L f -> length x = n -> length z = n -> x <> z ->
  increasing (t0 :: t1 :: ts) -> separated (t0 :: t1 :: ts) -> steps_at_most H (t0 :: t1 :: ts) -> H * growth L H rows b < 1 ->
  exists sol sol',
    snd (@odeint ROps fuel f x (@TTensor ROps (t0 :: t1 :: ts)) s atol rtol interp all [] semi) = Ok (t0 :: t1 :: ts, sol) /\
    snd (@odeint ROps fuel f z (@TTensor ROps (t0 :: t1 :: ts)) s atol rtol interp all [] semi) = Ok (t0 :: t1 :: ts, sol') /\
    (forall k xk zk, nth_error sol k = Some xk -> nth_error sol' k = Some zk -> xk <> zk) /\
    (forall D k xk zk, 0 <= D -> (exists i, (i < n)%nat /\ D <= Rabs (nth i x 0 - nth i z 0)) ->
       nth_error sol k = Some xk -> nth_error sol' k = Some zk ->
       exists i, (i < n)%nat /\ (1 - H * growth L H rows b) ^ k * D <= Rabs (nth i xk 0 - nth i zk 0)).
Proof.
  intros s rows b n f L x z H t0 t1 ts fuel atol rtol interp all semi HM Hf HL Hlip Hx Hz Hd Hinc Hsep Hst HG.
  pose proof (builtin_fixed_erk _ _ _ HM) as HE.
  assert (Hlt : t0 < t1) by (apply (Hinc 0%nat 1%nat); auto).
  assert (HH : 0 <= H) by (assert (t1 - t0 <= H) by (apply (Hst 0%nat); auto); lra).
  do 2 eexists. split; [apply (fixed_grid fuel s rows b n); auto; lra|]. split; [apply (fixed_grid fuel s rows b n); auto; lra|].
  assert (A : forall D k xk zk, 0 <= D -> apart n D x z ->
     nth_error (one_step_traj (erk_step rows b f) x (t0 :: t1 :: ts)) k = Some xk ->
     nth_error (one_step_traj (erk_step rows b f) z (t0 :: t1 :: ts)) k = Some zk -> apart n ((1 - H * growth L H rows b) ^ k * D) xk zk).
  { intros D k xk zk HD Ha Hk Hl. apply (traj_apart n f L rows b H Hf HL HH Hlip ltac:(lra) (t1 :: ts) t0 x z D HD Hx Hz Ha Hinc Hst k xk zk Hk Hl). }
  split; [|exact A].
  intros k xk zk Hk Hl E. subst zk. destruct (differ n x z Hx Hz Hd) as (D & HD & Ha).
  destruct (A D k xk xk ltac:(lra) Ha Hk Hl) as (i & _ & B). assert (Z : forall r, Rabs (r - r) = 0) by (intros; rewrite Rminus_diag_eq, Rabs_R0; auto).
  pose proof (Rle_trans _ _ _ B (Req_le _ _ (Z _))) as B'.
  assert (0 < (1 - H * growth L H rows b) ^ k * D) by (apply Rmult_lt_0_compat; [apply pow_lt; lra|exact HD]). lra.
Qed.

(** C175, one dimension: the order of the initial states is the order at all times. *)
Lemma C175_order_pf :
  forall s rows b f L a c H t0 t1 ts fuel atol rtol interp all semi,
  builtin_fixed s rows b -> field_on 1 f -> 0 <= L -> lipschitz 1 L f -> a < c ->
  increasing (t0 :: t1 :: ts) -> separated (t0 :: t1 :: ts) -> steps_at_most H (t0 :: t1 :: ts) -> H * growth L H rows b < 1 ->
  exists sol sol',
    snd (@odeint ROps fuel f [a] (@TTensor ROps (t0 :: t1 :: ts)) s atol rtol interp all [] semi) = Ok (t0 :: t1 :: ts, sol) /\
    snd (@odeint ROps fuel f [c] (@TTensor ROps (t0 :: t1 :: ts)) s atol rtol interp all [] semi) = Ok (t0 :: t1 :: ts, sol') /\
    forall k xk zk, nth_error sol k = Some xk -> nth_error sol' k = Some zk ->
      exists ak ck, xk = [ak] /\ zk = [ck] /\ ak < ck /\ (1 - H * growth L H rows b) ^ k * (c - a) <= ck - ak.
Proof.
  intros s rows b f L a c H t0 t1 ts fuel atol rtol interp all semi HM Hf HL Hlip Hac Hinc Hsep Hst HG.
  pose proof (builtin_fixed_erk _ _ _ HM) as HE.
  assert (Hlt : t0 < t1) by (apply (Hinc 0%nat 1%nat); auto).
  assert (HH : 0 <= H) by (assert (t1 - t0 <= H) by (apply (Hst 0%nat); auto); lra).
  do 2 eexists. split; [apply (fixed_grid fuel s rows b 1); auto; lra|]. split; [apply (fixed_grid fuel s rows b 1); auto; lra|].
  intros k xk zk Hk Hl.
  pose proof (traj_order f L rows b H Hf HL HH Hlip ltac:(lra) (t1 :: ts) t0 [a] [c] (c - a) ltac:(lra) eq_refl eq_refl ltac:(simpl; lra) Hinc Hst k xk zk Hk Hl) as B.
  assert (Len : forall y yk, length y = 1%nat -> nth_error (one_step_traj (erk_step rows b f) y (t0 :: t1 :: ts)) k = Some yk -> exists u, yk = [u]).
  { intros y yk Hy Hyk. assert (G : forall l v, length v = 1%nat -> Forall (fun w : list R => length w = 1%nat) (one_step_traj (erk_step rows b f) v l)).
    { clear - Hf. induction l as [|u l IH]; intros v Hv; [constructor|]. destruct l as [|u' l]; [repeat constructor; auto|].
      rewrite L_Jagged.traj_cons. constructor; auto. apply IH. now apply erk_step_len. }
    pose proof (proj1 (Forall_forall _ _) (G (t0 :: t1 :: ts) y Hy) yk (nth_error_In _ _ Hyk)) as E. cbv beta in E.
    destruct yk as [|u [|]]; try discriminate. now exists u. }
  destruct (Len [a] xk eq_refl Hk) as (ak & ->). destruct (Len [c] zk eq_refl Hl) as (ck & ->). exists ak, ck. simpl in B.
  assert (0 < (1 - H * growth L H rows b) ^ k * (c - a)) by (apply Rmult_lt_0_compat; [apply pow_lt; lra|lra]).
  split; [reflexivity|]. split; [reflexivity|]. split; lra.
Qed.

(** C175, why states are augmented: no field with Lipschitz constant L takes 1 to -1 and -1 to 1 in one dimension, if the
    steps are small enough. *)
Lemma C175_reflection_pf :
  forall s rows b f L H t0 t1 ts fuel atol rtol interp all semi sol sol',
  builtin_fixed s rows b -> field_on 1 f -> 0 <= L -> lipschitz 1 L f ->
  increasing (t0 :: t1 :: ts) -> separated (t0 :: t1 :: ts) -> steps_at_most H (t0 :: t1 :: ts) -> H * growth L H rows b < 1 ->
  snd (@odeint ROps fuel f [-1] (@TTensor ROps (t0 :: t1 :: ts)) s atol rtol interp all [] semi) = Ok (t0 :: t1 :: ts, sol) ->
  snd (@odeint ROps fuel f [1] (@TTensor ROps (t0 :: t1 :: ts)) s atol rtol interp all [] semi) = Ok (t0 :: t1 :: ts, sol') ->
  ~ (last sol [] = [1] /\ last sol' [] = [-1]).
Proof.
  intros s rows b f L H t0 t1 ts fuel atol rtol interp all semi sol sol' HM Hf HL Hlip Hinc Hsep Hst HG E1 E2 [A1 A2].
  destruct (C175_order_pf s rows b f L (-1) 1 H t0 t1 ts fuel atol rtol interp all semi HM Hf HL Hlip ltac:(lra) Hinc Hsep Hst HG) as (u & v & F1 & F2 & Hord).
  assert (Eu : sol = u) by congruence. assert (Ev : sol' = v) by congruence. subst u v.
  pose proof (builtin_fixed_erk _ _ _ HM) as HE.
  assert (Hlt : t0 < t1) by (apply (Hinc 0%nat 1%nat); auto).
  assert (G : forall y so, snd (@odeint ROps fuel f [y] (@TTensor ROps (t0 :: t1 :: ts)) s atol rtol interp all [] semi) = Ok (t0 :: t1 :: ts, so) ->
            length so = length (t0 :: t1 :: ts)).
  { intros y so Ey. assert (Eso : so = one_step_traj (erk_step rows b f) [y] (t0 :: t1 :: ts)).
    { pose proof (fixed_grid fuel s rows b 1 f [y] t0 t1 ts atol rtol interp all semi HE Hf eq_refl ltac:(lra) Hsep) as Fg. congruence. }
    rewrite Eso. apply traj_length. }
  pose proof (G _ _ E1) as L1. pose proof (G _ _ E2) as L2.
  assert (La : forall so : list (list R), length so = length (t0 :: t1 :: ts) -> nth_error so (length ts + 1) = Some (last so [])).
  { clear. intros so Hl. destruct (@exists_last _ so) as (so' & y & ->); [intros ->; discriminate|].
    rewrite last_last. rewrite app_length in Hl. simpl in Hl. rewrite nth_error_app2 by lia. replace (length ts + 1 - length so')%nat with 0%nat by lia. reflexivity. }
  destruct (Hord _ _ _ (La _ L1) (La _ L2)) as (ak & ck & Ea & Ec & Hlt' & _).
  pose proof (eq_trans (eq_sym A1) Ea) as Ea'. pose proof (eq_trans (eq_sym A2) Ec) as Ec'. injection Ea' as E3. injection Ec' as E4. lra.
Qed.

Definition decay : R -> list R -> list R := fun _ => map Ropp.
Lemma decay_field n : field_on n decay.
Proof. intros t x Hx. unfold decay. now rewrite map_length. Qed.
Lemma decay_lip n : lipschitz n 1 decay.
Proof.
  intros t x y D Hx Hy Hn i Hi. unfold decay. rewrite !(nth_indep (map Ropp _) 0 (- 0)) by (rewrite map_length; lia). rewrite !map_nth.
  replace (- nth i x 0 - - nth i y 0) with (- (nth i x 0 - nth i y 0)) by ring. rewrite Rabs_Ropp, Rmult_1_l. now apply Hn.
Qed.
Lemma two_separated h : 1/2 <= h -> separated [0; h].
Proof.
  intros Hh i j a d Hij Ha Hd. destruct i as [|[|i]], j as [|[|j]]; try lia; simpl in Ha, Hd;
    try (destruct i; discriminate); try (destruct j; discriminate); injection Ha as <-; injection Hd as <-; unfold close_to.
  - rewrite (Rabs_left (0 - h)), (Rabs_right h) by lra. lra.
  - rewrite (Rabs_right (h - 0)), Rabs_R0 by lra. lra.
Qed.
Lemma two_increasing h : 0 < h -> increasing [0; h].
Proof.
  intros Hh i j a d Hij Ha Hd. destruct i as [|[|i]], j as [|[|j]]; try lia; simpl in Ha, Hd;
    try (destruct i; discriminate); try (destruct j; discriminate); injection Ha as <-; injection Hd as <-; lra.
Qed.
Lemma two_steps h : steps_at_most h [0; h].
Proof. intros i a d Ha Hd. destruct i as [|[|i]]; simpl in Ha, Hd; try discriminate; try (destruct i; discriminate). injection Ha as <-. injection Hd as <-. lra. Qed.

Lemma decay_step fuel h a atol rtol interp all semi : 1/2 <= h ->
  snd (@odeint ROps fuel decay [a] (@TTensor ROps [0; h]) (Euler ROps) atol rtol interp all [] semi) = Ok ([0; h], [[a]; [(1 - h) * a]]).
Proof.
  intros Hh. refine (eq_trans (fixed_grid fuel (Euler ROps) _ _ 1 decay [a] 0 h [] atol rtol interp all semi C05_euler_pf (decay_field 1) eq_refl ltac:(lra) (two_separated h Hh)) _).
  assert (EX : forall u w : list R, u = w -> @Ok (list R * list (list R)) ([0; h], [[a]; u]) = Ok ([0; h], [[a]; w])) by (intros; subst; reflexivity).
  cbn [one_step_traj]. apply EX. unfold erk_step. cbn. f_equal. unfold Q2R. cbn. field.
Qed.

(** C175, the bound on the steps is needed and sharp for Euler's method, where it is H L < 1: for y' = -y (L = 1) all states become 0 with
    the step 1, and the step 2 takes 1 to -1 and -1 to 1. *)
Lemma C175_limit_pf : forall fuel atol rtol interp all semi,
  let solve h x := snd (@odeint ROps fuel (fun _ => map Ropp) [x] (@TTensor ROps [0; h]) (Euler ROps) atol rtol interp all [] semi) in
  lipschitz 1 1 (fun _ => map Ropp) /\
  (forall x, solve 1 x = Ok ([0; 1], [[x]; [0]])) /\ (forall x, solve 2 x = Ok ([0; 2], [[x]; [- x]])).
Proof.
  intros fuel atol rtol interp all semi solve. split; [exact (decay_lip 1)|].
  assert (EX : forall h a u w : R, u = w -> @Ok (list R * list (list R)) ([0; h], [[a]; [u]]) = Ok ([0; h], [[a]; [w]])) by (intros; subst; reflexivity).
  split; intros x; (refine (eq_trans (decay_step fuel _ x atol rtol interp all semi _) (EX _ _ _ _ _)); [lra|ring]).
Qed.

(** The hypotheses of C175 are met: y' = -y with the step 1/2, by each of the solvers (the constant of rk4 is below 3/2 for L = 1). *)
Lemma C175_ex_pf :
  field_on 2 decay /\ lipschitz 2 1 decay /\ [1; 2] <> [1; 3] /\ increasing [0; 1/2] /\ separated [0; 1/2] /\ steps_at_most (1/2) [0; 1/2] /\
  1/2 * growth 1 (1/2) (to_R_rows q_euler) (to_R qb_euler) < 1 /\
  1/2 * growth 1 (1/2) (to_R_rows q_midpoint) (to_R qb_midpoint) < 1 /\
  1/2 * growth 1 (1/2) (to_R_rows q_rk4_code) (to_R qb_rk4) < 1.
Proof.
  destruct (C102_constants_pf 1 (1/2)) as (E1 & _ & E2 & _ & E3 & _).
  split; [apply decay_field|]. split; [apply decay_lip|]. split; [intros E; injection E; lra|].
  split; [apply two_increasing; lra|]. split; [apply two_separated; lra|]. split; [apply two_steps|].
  rewrite E1, E2, E3. split; [lra|]. split; lra.
Qed.
