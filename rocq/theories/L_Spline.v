(** Natural cubic splines: the tridiagonal system, smoothness. *)
From Coq Require Import ZArith QArith Qreals Reals Lra Lia List Bool Sorted.
From Verif Require Import Num Py Tensor M_SolversOde M_Odeint M_Sens M_Spline.
From Verif Require Import Spec_Ode Spec_RK Spec_Spline L_Base L_Conv L_Gronwall.
Import ListNotations.
Local Open Scope R_scope.

(** ** Piecewise functions *)
Fixpoint pw (fs : list (R * (R -> R))) (t : R) : R :=
  match fs with
  | [] => 0
  | (t0, f) :: fs' => match fs' with (t1, _) :: _ => if Rlt_dec t1 t then pw fs' t else f t | [] => f t end
  end.

Lemma glue_derive (f g h : R -> R) c t l :
  (forall u, u <= c -> f u = g u) -> (forall u, c < u -> f u = h u) -> g c = h c ->
  (t <= c -> derivable_pt_lim g t l) -> (c <= t -> derivable_pt_lim h t l) -> derivable_pt_lim f t l.
Proof.
  intros Hg Hh E Dg Dh. destruct (Rtotal_order t c) as [H|[H|H]].
  - intros eps He. destruct (Dg ltac:(lra) eps He) as [[d Hd] Hl]. cbn in Hl.
    assert (Hm : 0 < Rmin d (c - t)) by (apply Rmin_glb_lt; lra).
    exists (mkposreal _ Hm). cbn. intros e He0 Hed. pose proof (Rmin_l d (c - t)). pose proof (Rmin_r d (c - t)).
    pose proof (RRle_abs e). rewrite !Hg by lra. apply Hl; auto; lra.
  - subst t. intros eps He. destruct (Dg ltac:(lra) eps He) as [[d Hd] Hl]. destruct (Dh ltac:(lra) eps He) as [[d' Hd'] Hl']. cbn in Hl, Hl'.
    assert (Hm : 0 < Rmin d d') by (apply Rmin_glb_lt; lra).
    exists (mkposreal _ Hm). cbn. intros e He0 Hed. pose proof (Rmin_l d d'). pose proof (Rmin_r d d').
    rewrite (Hg c) by lra. destruct (Rle_lt_dec (c + e) c) as [Hc|Hc].
    + rewrite Hg by lra. apply Hl; auto; lra.
    + rewrite Hh by lra. rewrite E. apply Hl'; auto; lra.
  - intros eps He. destruct (Dh ltac:(lra) eps He) as [[d Hd] Hl]. cbn in Hl.
    assert (Hm : 0 < Rmin d (t - c)) by (apply Rmin_glb_lt; lra).
    exists (mkposreal _ Hm). cbn. intros e He0 Hed. pose proof (Rmin_l d (t - c)). pose proof (Rmin_r d (t - c)).
    pose proof (RRle_abs (- e)). rewrite Rabs_Ropp in *. rewrite !Hh by lra. apply Hl; auto; lra.
Qed.
Lemma glue_cont (f g h : R -> R) c t :
  (forall u, u <= c -> f u = g u) -> (forall u, c < u -> f u = h u) -> g c = h c ->
  (t <= c -> continuity_pt g t) -> (c <= t -> continuity_pt h t) -> continuity_pt f t.
Proof.
  intros Hg Hh E Dg Dh.
  assert (A : forall p : R -> R, continuity_pt p t <-> forall eps, 0 < eps -> exists d, 0 < d /\ forall u, Rabs (u - t) < d -> Rabs (p u - p t) < eps).
  { intros p. split.
    - intros H eps He. destruct (H eps He) as (d & Hd & Hx). exists d. split; auto. intros u Hu.
      destruct (Req_dec t u) as [->|N]; [rewrite Rminus_diag_eq by auto; now rewrite Rabs_R0|].
      apply (Hx u). split; [split; [exact I|exact N]|exact Hu].
    - intros H eps He. destruct (H eps He) as (d & Hd & Hx). exists d. split; auto. intros u [_ Hu]. apply Hx, Hu. }
  apply A. intros eps He. destruct (Rtotal_order t c) as [H|[H|H]].
  - destruct (proj1 (A g) (Dg ltac:(lra)) eps He) as (d & Hd & Hl).
    exists (Rmin d (c - t)). split; [apply Rmin_glb_lt; lra|]. intros u Hu. pose proof (Rmin_l d (c - t)). pose proof (Rmin_r d (c - t)).
    pose proof (RRle_abs (u - t)). rewrite !Hg by lra. apply Hl. lra.
  - subst t. destruct (proj1 (A g) (Dg ltac:(lra)) eps He) as (d & Hd & Hl). destruct (proj1 (A h) (Dh ltac:(lra)) eps He) as (d' & Hd' & Hl').
    exists (Rmin d d'). split; [apply Rmin_glb_lt; lra|]. intros u Hu. pose proof (Rmin_l d d'). pose proof (Rmin_r d d').
    rewrite (Hg c) by lra. destruct (Rle_lt_dec u c).
    + rewrite Hg by lra. apply Hl. lra.
    + rewrite Hh by lra. rewrite E. apply Hl'. lra.
  - destruct (proj1 (A h) (Dh ltac:(lra)) eps He) as (d & Hd & Hl).
    exists (Rmin d (t - c)). split; [apply Rmin_glb_lt; lra|]. intros u Hu. pose proof (Rmin_l d (t - c)). pose proof (Rmin_r d (t - c)).
    pose proof (RRle_abs (t - u)). rewrite (Rabs_minus_sym u t) in *. rewrite !Hh by lra. apply Hl. rewrite Rabs_minus_sym. lra.
Qed.

(** neighbouring pieces agree at the knot between them; the knots increase *)
Fixpoint joined (fs : list (R * (R -> R))) : Prop :=
  match fs with
  | (t0, f) :: fs' => match fs' with (t1, g) :: _ => t0 < t1 /\ f t1 = g t1 | [] => True end /\ joined fs'
  | [] => True
  end.
Lemma pw_first t0 f fs t : joined ((t0, f) :: fs) -> t <= t0 -> pw ((t0, f) :: fs) t = f t.
Proof. intros [H _] Ht. cbn [pw]. destruct fs as [|[t1 g] fs]; auto. destruct (Rlt_dec t1 t); auto; lra. Qed.
(** f' = g piece by piece *)
Definition pieces (P : (R -> R) -> (R -> R) -> Prop) : list (R * (R -> R)) -> list (R * (R -> R)) -> Prop :=
  Forall2 (fun p q => fst p = fst q /\ P (snd p) (snd q)).
Lemma pw_derive fs : forall gs, pieces (fun f g => forall t, derivable_pt_lim f t (g t)) fs gs -> joined fs -> joined gs -> fs <> [] ->
  forall t, derivable_pt_lim (pw fs) t (pw gs t).
Proof.
  induction fs as [|[t0 f] fs IH]; intros gs HP Jf Jg Hne t; [congruence|].
  inversion HP as [|? [t0' g] ? gs' [E D] HP']; subst. cbn [fst snd] in E, D. subst t0'.
  destruct fs as [|[t1 f1] fs].
  - inversion HP'; subst. cbn [pw]. apply D.
  - inversion HP' as [|? [t1' g1] ? gs'' [E1 D1] HP'']; subst. cbn [fst snd] in E1, D1. subst t1'.
    destruct Jf as [[Hlt Ef] Jf]. destruct Jg as [[_ Eg] Jg].
    pose proof (IH _ HP' Jf Jg ltac:(discriminate) t) as IHt.
    apply (glue_derive _ f (pw ((t1, f1) :: fs)) t1).
    + intros u Hu. cbn [pw]. destruct (Rlt_dec t1 u); auto; lra.
    + intros u Hu. change (pw ((t0, f) :: (t1, f1) :: fs) u) with (if Rlt_dec t1 u then pw ((t1, f1) :: fs) u else f u). destruct (Rlt_dec t1 u); auto; lra.
    + rewrite (pw_first t1 f1) by (auto; lra). exact Ef.
    + intros Ht. change (pw ((t0, g) :: (t1, g1) :: gs'') t) with (if Rlt_dec t1 t then pw ((t1, g1) :: gs'') t else g t).
      destruct (Rlt_dec t1 t); [lra|]. apply D.
    + intros Ht. change (pw ((t0, g) :: (t1, g1) :: gs'') t) with (if Rlt_dec t1 t then pw ((t1, g1) :: gs'') t else g t).
      destruct (Rlt_dec t1 t); [exact IHt|]. replace t with t1 in * by lra. rewrite Eg. rewrite <- (pw_first t1 g1 gs'') by (auto; lra). exact IHt.
Qed.
Lemma pw_cont fs : Forall (fun p => forall t, continuity_pt (snd p) t) fs -> joined fs -> fs <> [] -> forall t, continuity_pt (pw fs) t.
Proof.
  induction fs as [|[t0 f] fs IH]; intros HP Jf Hne t; [congruence|].
  inversion HP as [|? ? D HP']; subst. cbn [snd] in D. destruct fs as [|[t1 f1] fs]; [exact (D t)|].
  destruct Jf as [[Hlt Ef] Jf].
  apply (glue_cont _ f (pw ((t1, f1) :: fs)) t1).
  - intros u Hu. cbn [pw]. destruct (Rlt_dec t1 u); auto; lra.
  - intros u Hu. change (pw ((t0, f) :: (t1, f1) :: fs) u) with (if Rlt_dec t1 u then pw ((t1, f1) :: fs) u else f u). destruct (Rlt_dec t1 u); auto; lra.
  - rewrite (pw_first t1 f1) by (auto; lra). exact Ef.
  - intros _. apply D.
  - intros _. apply IH; auto. discriminate.
Qed.

(** ** The tridiagonal system *)
Fixpoint solves (r diag rhs : list R) (d b : R) (k : list R) : Prop :=
  match r, diag, rhs with
  | r0 :: r', d1 :: diag', b1 :: rhs' =>
      exists k0 k1 k', k = k0 :: k1 :: k' /\ d * k0 + r0 * k1 = b /\ solves r' diag' rhs' d1 (b1 - r0 * k0) (k1 :: k')
  | _, _, _ => exists k0, k = [k0] /\ d * k0 = b
  end.
Lemma solves_first r diag rhs d b d' b' o outs : solves r diag rhs d b (o :: outs) -> d' * o - b' = d * o - b -> solves r diag rhs d' b' (o :: outs).
Proof.
  intros H E. destruct r as [|r0 r], diag as [|d1 diag], rhs as [|b1 rhs]; cbn [solves] in *;
  try (destruct H as (k0 & Ek & H); exists k0; split; auto; injection Ek as ->; lra).
  destruct H as (k0 & k1 & k' & Ek & H1 & H2). exists k0, k1, k'. split; auto. split; auto. injection Ek as -> _. lra.
Qed.
Definition later_diag (r0 : R) (r : list R) : list R := map (fun v => 2 * v) (map2 Rplus (r ++ [0]) (r0 :: r)).
Lemma tri_solves : forall r r0 rhs d b, 0 < r0 -> Forall (fun v => 0 < v) r -> 2 * r0 <= d -> length rhs = S (length r) ->
  solves (r0 :: r) (later_diag r0 r) rhs d b (@tridiagonal ROps (r0 :: r) (later_diag r0 r) rhs d b) /\
  length (@tridiagonal ROps (r0 :: r) (later_diag r0 r) rhs d b) = S (S (length r)).
Proof.
  induction r as [|r1 r IH]; intros r0 rhs d b H0 Hr Hd Hl.
  - destruct rhs as [|b1 [|]]; try discriminate. unfold later_diag. cbn [app map2 map].
    cbn [tridiagonal]. split; [|reflexivity]. cbn [solves].
    set (w := r0 / d). assert (Hw : 0 < w <= /2).
    { unfold w. split; [apply Rdiv_lt_0_compat; lra|]. apply (Rmult_le_reg_r d); [lra|]. unfold Rdiv. rewrite Rmult_assoc, Rinv_l by lra. lra. }
    assert (Hp : 0 < 2 * (0 + r0) - w * r0) by nra.
    do 3 eexists. split; [reflexivity|]. cbn. split.
    + change (r0 / d) with w. field. split; lra.
    + eexists. split; [reflexivity|]. cbn. change (r0 / d) with w. unfold w in Hp |- *. field. split; [lra|].
      intros Hz. assert (2 * (0 + r0) - r0 / d * r0 = (2 * r0 * d - r0 * r0) / d) by (field; lra). 
      replace (r0 * 2 * d - r0 * r0) with (2 * r0 * d - r0 * r0) in Hz by ring. nra.
  - destruct rhs as [|b1 rhs]; [discriminate|]. inversion Hr as [|? ? H1 Hr']; subst.
    unfold later_diag. cbn [app map2 map]. fold (later_diag r1 r).
    set (w := r0 / d). assert (Hw : 0 < w <= /2).
    { unfold w. split; [apply Rdiv_lt_0_compat; lra|]. apply (Rmult_le_reg_r d); [lra|]. unfold Rdiv. rewrite Rmult_assoc, Rinv_l by lra. lra. }
    assert (Hp : 2 * r1 <= 2 * (r1 + r0) - w * r0) by nra.
    destruct (IH r1 rhs (2 * (r1 + r0) - w * r0) (b1 - w * b) H1 Hr' Hp ltac:(cbn in Hl; lia)) as [I1 I2].
    assert (ET : @tridiagonal ROps (r0 :: r1 :: r) (2 * (r1 + r0) :: later_diag r1 r) (b1 :: rhs) d b =
      match @tridiagonal ROps (r1 :: r) (later_diag r1 r) rhs (2 * (r1 + r0) - w * r0) (b1 - w * b) with
      | [] => [] | o :: outs => (b - r0 * o) / d :: o :: outs end) by reflexivity.
    rewrite ET. clear ET. set (T := @tridiagonal ROps (r1 :: r) _ _ _ _) in *. clearbody T.
    destruct T as [|o outs]; [discriminate|]. split; [|cbn in I2 |- *; now f_equal].
    exists ((b - r0 * o) / d), o, outs. split; [reflexivity|]. split; [field; lra|].
    change (solves (r1 :: r) (later_diag r1 r) rhs (2 * (r1 + r0)) (b1 - r0 * ((b - r0 * o) / d)) (o :: outs)).
    eapply solves_first; [exact I1|]. unfold w. field. lra.
Qed.

(** ** Cubics *)
Lemma dlim_horner c G t0 t l : derivable_pt_lim G t l -> derivable_pt_lim (fun u => c + G u * (u - t0)) t (l * (t - t0) + G t).
Proof.
  intros H. apply (dlim_ext (fct_cte c + G * (id - fct_cte t0))%F _ t (0 + (l * (t - t0) + G t * (1 - 0)))); [reflexivity|ring|].
  apply derivable_pt_lim_plus; [apply derivable_pt_lim_const|]. apply (derivable_pt_lim_mult G (id - fct_cte t0)%F t l (1 - 0)); auto.
  apply derivable_pt_lim_minus; [apply derivable_pt_lim_id|apply derivable_pt_lim_const].
Qed.
Definition cub : Type := (R * R * R * R)%type.
Definition q0 (p : R * cub) : R * (R -> R) := let '(t0, (a, b, c2, d3)) := p in (t0, fun t => a + (b + (c2 / 2 + d3 / 3 * (t - t0)) * (t - t0)) * (t - t0)).
Definition q1 (p : R * cub) : R * (R -> R) := let '(t0, (a, b, c2, d3)) := p in (t0, fun t => b + (c2 + d3 * (t - t0)) * (t - t0)).
Definition q2 (p : R * cub) : R * (R -> R) := let '(t0, (a, b, c2, d3)) := p in (t0, fun t => c2 + 2 * d3 * (t - t0)).
Lemma q01 cs : pieces (fun f g => forall t, derivable_pt_lim f t (g t)) (map q0 cs) (map q1 cs).
Proof.
  induction cs as [|[t0 [[[a b] c2] d3]] cs IH]; constructor; auto. cbn [fst snd q0 q1]. split; auto. intros t.
  eapply dlim_ext; [reflexivity| |apply dlim_horner, dlim_horner, dlim_horner, derivable_pt_lim_const]. cbv beta. field.
Qed.
Lemma q12 cs : pieces (fun f g => forall t, derivable_pt_lim f t (g t)) (map q1 cs) (map q2 cs).
Proof.
  induction cs as [|[t0 [[[a b] c2] d3]] cs IH]; constructor; auto. cbn [fst snd q1 q2]. split; auto. intros t.
  eapply dlim_ext; [reflexivity| |apply dlim_horner, dlim_horner, derivable_pt_lim_const]. cbv beta. ring.
Qed.
Lemma q2c cs : Forall (fun p => forall t, continuity_pt (snd p) t) (map q2 cs).
Proof.
  induction cs as [|[t0 [[[a b] c2] d3]] cs IH]; constructor; auto. cbn [fst snd q2]. intros t.
  eapply dlim_cont. apply (dlim_horner c2 (fun _ => 2 * d3)), derivable_pt_lim_const.
Qed.
Lemma evaluate_pw (cs : list (R * cub)) t : @spline_evaluate ROps cs t = pw (map q0 cs) t.
Proof.
  induction cs as [|[t0 [[[a b] c2] d3]] cs IH]; [cbn; apply Q2R_0'|].
  assert (E : @eval_cubic ROps (a, b, c2, d3) (t - t0) = snd (q0 (t0, (a, b, c2, d3))) t).
  { cbn. unfold Q2R. cbn. field. }
  destruct cs as [|[t1 [[[a1 b1] c1] d1]] cs]; [exact E|].
  change (@spline_evaluate ROps ((t0, (a, b, c2, d3)) :: (t1, (a1, b1, c1, d1)) :: cs) t) with
    (if Rltb t1 t then @spline_evaluate ROps ((t1, (a1, b1, c1, d1)) :: cs) t else @eval_cubic ROps (a, b, c2, d3) (t - t0)).
  change (pw (map q0 ((t0, (a, b, c2, d3)) :: (t1, (a1, b1, c1, d1)) :: cs)) t) with
    (if Rlt_dec t1 t then pw (map q0 ((t1, (a1, b1, c1, d1)) :: cs)) t else snd (q0 (t0, (a, b, c2, d3))) t).
  unfold Rltb. destruct (Rlt_dec t1 t); [exact IH|exact E].
Qed.

(** the pieces given by values and slopes *)
Definition herm (h x0 x1 k0 k1 : R) : cub :=
  (x0, k0, (6 * (x1 - x0) / h - 4 * k0 - 2 * k1) / h, (- (6 * (x1 - x0)) / h + 3 * (k0 + k1)) / (h * h)).
Fixpoint herms (t x k : list R) : list (R * cub) :=
  match t, x, k with
  | t0 :: ((t1 :: _) as t'), x0 :: ((x1 :: _) as x'), k0 :: ((k1 :: _) as k') => (t0, herm (t1 - t0) x0 x1 k0 k1) :: herms t' x' k'
  | _, _, _ => []
  end.
Lemma herm_model h x0 x1 k0 k1 : h <> 0 -> @hermite_cubic ROps h x0 x1 k0 k1 = herm h x0 x1 k0 k1.
Proof. intros Hh. unfold hermite_cubic, herm. cbn. unfold Q2R. cbn. apply f_equal2; [apply f_equal2; [reflexivity|]|]; field; auto. Qed.
Lemma herms_model : forall t x k, StronglySorted Rlt t -> @hermite_cubics ROps t x k = herms t x k.
Proof.
  induction t as [|t0 t IH]; intros x k Hs; [reflexivity|]. destruct t as [|t1 t]; [reflexivity|].
  destruct x as [|x0 [|x1 x]]; [reflexivity|reflexivity|]. destruct k as [|k0 [|k1 k]]; [reflexivity|reflexivity|].
  inversion Hs as [|? ? Hs' Hf]; subst. inversion Hf; subst.
  change ((t0, @hermite_cubic ROps (t1 - t0) x0 x1 k0 k1) :: @hermite_cubics ROps (t1 :: t) (x1 :: x) (k1 :: k) = (t0, herm (t1 - t0) x0 x1 k0 k1) :: herms (t1 :: t) (x1 :: x) (k1 :: k)).
  rewrite herm_model by lra. f_equal. now apply IH.
Qed.

(** the second derivatives match: [c0] is the one at the first knot *)
Definition curv0 (h x0 x1 k0 k1 : R) : R := (6 * (x1 - x0) / h - 4 * k0 - 2 * k1) / h.
Definition curv1 (h x0 x1 k0 k1 : R) : R := (- 6 * (x1 - x0) / h + 2 * k0 + 4 * k1) / h.
Fixpoint smooth (t x k : list R) (c0 : R) : Prop :=
  match t, x, k with
  | t0 :: ((t1 :: _) as t'), x0 :: ((x1 :: _) as x'), k0 :: ((k1 :: _) as k') =>
      curv0 (t1 - t0) x0 x1 k0 k1 = c0 /\ smooth t' x' k' (curv1 (t1 - t0) x0 x1 k0 k1)
  | _, _, _ => c0 = 0
  end.
Lemma herm_at0 t0 h x0 x1 k0 k1 : h <> 0 -> let p := (t0, herm h x0 x1 k0 k1) in
  snd (q0 p) t0 = x0 /\ snd (q1 p) t0 = k0 /\ snd (q2 p) t0 = curv0 h x0 x1 k0 k1.
Proof. intros Hh. cbn. unfold curv0. repeat split; field; auto. Qed.
Lemma herm_at1 t0 h x0 x1 k0 k1 : h <> 0 -> let p := (t0, herm h x0 x1 k0 k1) in
  snd (q0 p) (t0 + h) = x1 /\ snd (q1 p) (t0 + h) = k1 /\ snd (q2 p) (t0 + h) = curv1 h x0 x1 k0 k1.
Proof. intros Hh. cbn. unfold curv1. repeat split; field; auto. Qed.
Lemma joined_cons p p' fs : joined (p :: p' :: fs) <-> (fst p < fst p' /\ snd p (fst p') = snd p' (fst p')) /\ joined (p' :: fs).
Proof. destruct p, p'. cbn. tauto. Qed.
Lemma herms_joined : forall t x k c0, StronglySorted Rlt t -> smooth t x k c0 ->
  joined (map q0 (herms t x k)) /\ joined (map q1 (herms t x k)) /\ joined (map q2 (herms t x k)).
Proof.
  induction t as [|t0 t IH]; intros x k c0 Hs Hk; [now repeat split|]. destruct t as [|t1 t]; [now repeat split|].
  destruct x as [|x0 [|x1 x]]; [now repeat split|now repeat split|]. destruct k as [|k0 [|k1 k]]; [now repeat split|now repeat split|].
  inversion Hs as [|? ? Hs' Hf]; subst. inversion Hf; subst. destruct Hk as [Hk0 Hk].
  destruct (IH (x1 :: x) (k1 :: k) _ Hs' Hk) as (I0 & I1 & I2).
  change (herms (t0 :: t1 :: t) (x0 :: x1 :: x) (k0 :: k1 :: k)) with ((t0, herm (t1 - t0) x0 x1 k0 k1) :: herms (t1 :: t) (x1 :: x) (k1 :: k)).
  destruct t as [|t2 t]; [now repeat split|]. destruct x as [|x2 x]; [now repeat split|]. destruct k as [|k2 k]; [now repeat split|].
  inversion Hf as [|? ? Ha Hb]; subst. inversion Hs' as [|? ? Hs'' Hf']; subst. inversion Hf'; subst.
  change (herms (t1 :: t2 :: t) (x1 :: x2 :: x) (k1 :: k2 :: k)) with ((t1, herm (t2 - t1) x1 x2 k1 k2) :: herms (t2 :: t) (x2 :: x) (k2 :: k)) in *.
  cbn [map] in *. destruct (herm_at1 t0 (t1 - t0) x0 x1 k0 k1 ltac:(lra)) as (A0 & A1 & A2). destruct (herm_at0 t1 (t2 - t1) x1 x2 k1 k2 ltac:(lra)) as (B0 & B1 & B2).
  replace (t0 + (t1 - t0)) with t1 in * by ring. destruct Hk as [Hk1 _].
  assert (F : forall q, In q [q0; q1; q2] -> forall u c, fst (q (u, c)) = u).
  { intros q [<-|[<-|[<-|[]]]] u [[[? ?] ?] ?]; reflexivity. }
  split; [|split]; apply joined_cons; (split; [split|assumption]); rewrite !F by (cbn; tauto); try assumption; congruence.
Qed.

(** from the system *)
Lemma solves_smooth : forall t t0 t1 x0 x1 x k d b c0, StronglySorted Rlt (t0 :: t1 :: t) -> length x = length t ->
  let r := fun a b : R => 1 / (b - a) in
  let rs := map (fun h => 1 / h) (@diffs ROps (t1 :: t)) in
  let sc := map2 (fun dx r => 3 * dx * (r * r)) (@diffs ROps (x1 :: x)) rs in
  let s0 := 3 * (x1 - x0) * (r t0 t1 * r t0 t1) in
  solves (r t0 t1 :: rs) (later_diag (r t0 t1) rs) (map2 Rplus (sc ++ [0]) (s0 :: sc)) d b k ->
  (forall k0, hd 0 k = k0 -> (d - 2 * r t0 t1) * k0 - (b - s0) = c0 / 2) ->
  smooth (t0 :: t1 :: t) (x0 :: x1 :: x) k c0.
Proof.
  induction t as [|t2 t IH]; intros t0 t1 x0 x1 x k d b c0 Hs Hx; cbv zeta; intros HS HI;
  inversion Hs as [|? ? Hs' Hf]; subst; inversion Hf as [|? ? H01 Hf']; subst.
  - destruct x; [|discriminate]. cbn [diffs tl map2 map app later_diag] in HS.
    cbn in HS. destruct HS as (k0 & k1 & k' & -> & E1 & (k1' & Ek & E2)). injection Ek as <- ->.
    specialize (HI k0 eq_refl). cbn [smooth]. unfold curv0, curv1. 
    assert (Hh : t1 - t0 <> 0) by lra.
    replace (1 / (t1 - t0)) with (/ (t1 - t0)) in * by (field; lra). set (r := / (t1 - t0)) in *.
    unfold Rdiv. fold r. split; nra.
  - destruct x as [|x2 x]; [discriminate|]. inversion Hf' as [|? ? H02 _]; subst.
    inversion Hs' as [|? ? Hs'' Hf'']; subst. inversion Hf'' as [|? ? H12 _]; subst.
    set (r0 := 1 / (t1 - t0)) in *. set (r1 := 1 / (t2 - t1)).
    set (rs := map (fun h => 1 / h) (@diffs ROps (t2 :: t))).
    set (sc := map2 (fun dx r => 3 * dx * (r * r)) (@diffs ROps (x2 :: x)) rs).
    assert (E1 : map (fun h => 1 / h) (@diffs ROps (t1 :: t2 :: t)) = r1 :: rs) by reflexivity.
    assert (E2 : map2 (fun dx r => 3 * dx * (r * r)) (@diffs ROps (x1 :: x2 :: x)) (map (fun h => 1 / h) (@diffs ROps (t1 :: t2 :: t))) =
      3 * (x2 - x1) * (r1 * r1) :: sc) by reflexivity.
    rewrite E2, E1 in HS. clear E1 E2. set (s1 := 3 * (x2 - x1) * (r1 * r1)) in *. set (s0 := 3 * (x1 - x0) * (r0 * r0)) in *.
    change (later_diag r0 (r1 :: rs)) with (2 * (r1 + r0) :: later_diag r1 rs) in HS.
    change (map2 Rplus ((s1 :: sc) ++ [0]) (s0 :: s1 :: sc)) with (s1 + s0 :: map2 Rplus (sc ++ [0]) (s1 :: sc)) in HS.
    destruct HS as (k0 & k1 & k' & -> & E1 & E2). specialize (HI k0 eq_refl).
    change (curv0 (t1 - t0) x0 x1 k0 k1 = c0 /\ smooth (t1 :: t2 :: t) (x1 :: x2 :: x) (k1 :: k') (curv1 (t1 - t0) x0 x1 k0 k1)).
    assert (Er : / (t1 - t0) = r0) by (unfold r0; field; lra).
    split.
    + unfold curv0, Rdiv. rewrite Er. unfold s0 in *. nra.
    + apply (IH t1 t2 x1 x2 x (k1 :: k') (2 * (r1 + r0)) (s1 + s0 - r0 * k0)); auto.
      intros k1' <-. cbn [hd]. fold r1. fold s1. unfold curv1, Rdiv. rewrite Er. unfold s0. field.
Qed.
