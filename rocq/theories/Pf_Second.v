(** Derivatives of gradients. *)
From Coq Require Import ZArith QArith Qreals Reals Lra Lia List Bool.
From Verif Require Import Num Py Tensor M_Constants M_SolversOde M_Utils M_Interp M_Odeint M_Autograd M_Sens M_Double.
From Verif Require Import Spec_Autograd Spec_Second L_Base L_Nan L_Vec Pf_Autograd Pf_TimeGrad L_Second Spec_Ode L_Fixed L_Fixed2.
Import ListNotations.
Local Notation length := List.length.
Local Notation D2 := (DualOps (DualOps ROps)).
Local Open Scope R_scope.

Lemma q0 : Q2R 0 = 0. Proof. unfold Q2R; cbn; lra. Qed.

Lemma second_ext a c d : (forall p, c p = d p) -> second a c -> second a d.
Proof.
  intros E (c1 & H1 & H2 & H3 & H4 & H5). exists c1. split; [|split; [now rewrite <- E|split; [exact H3|split; [|exact H5]]]].
  - intros b. intros eps He. destruct (H1 b eps He) as (del & Hd). exists del. intros h Hh Hl. rewrite <- !E. now apply Hd.
  - intros eps He. destruct (H4 eps He) as (del & Hd). exists del. intros h Hh Hl. rewrite <- !E. now apply Hd.
Qed.
Lemma second_add a b c d : second a c -> second b d -> second (@nadd D2 a b) (fun p => c p + d p).
Proof.
  destruct a as [[a0 a1] [a2 a3]], b as [[b0 b1] [b2 b3]].
  intros (c1 & A1 & A2 & A3 & A4 & A5) (d1 & B1 & B2 & B3 & B4 & B5). cbn [fst snd] in *. subst a0 a1 b0 b1. exists (fun t => c1 t + d1 t). cbn. split; [|split; [|split; [|split]]].
  - intros t. now apply (derivable_pt_lim_plus (fun s => c (s, t)) (fun s => d (s, t))).
  - reflexivity.
  - reflexivity.
  - now apply (derivable_pt_lim_plus (fun s => c (0, s)) (fun s => d (0, s))).
  - now apply (derivable_pt_lim_plus c1 d1).
Qed.
Lemma second_opp a c : second a c -> second (@nopp D2 a) (fun p => - c p).
Proof.
  destruct a as [[a0 a1] [a2 a3]]. intros (c1 & A1 & A2 & A3 & A4 & A5). cbn [fst snd] in *. subst a0 a1. exists (fun t => - c1 t). cbn. split; [|split; [|split; [|split]]].
  - intros t. now apply (derivable_pt_lim_opp (fun s => c (s, t))).
  - reflexivity.
  - reflexivity.
  - now apply (derivable_pt_lim_opp (fun s => c (0, s))).
  - now apply (derivable_pt_lim_opp c1).
Qed.
Lemma second_mul a b c d : second a c -> second b d -> second (@nmul D2 a b) (fun p => c p * d p).
Proof.
  destruct a as [[a0 a1] [a2 a3]], b as [[b0 b1] [b2 b3]].
  intros (c1 & A1 & A2 & A3 & A4 & A5) (d1 & B1 & B2 & B3 & B4 & B5). cbn [fst snd] in *. subst a0 a1 b0 b1. exists (fun t => c1 t * d (0, t) + c (0, t) * d1 t). cbn. split; [|split; [|split; [|split]]].
  - intros t. now apply (derivable_pt_lim_mult (fun s => c (s, t)) (fun s => d (s, t))).
  - reflexivity.
  - reflexivity.
  - now apply (derivable_pt_lim_mult (fun s => c (0, s)) (fun s => d (0, s))).
  - replace (a3 * d (0, 0) + a2 * d1 0 + (c1 0 * b2 + c (0, 0) * b3)) with ((a3 * d (0, 0) + c1 0 * b2) + (a2 * d1 0 + c (0, 0) * b3)) by ring.
    apply (derivable_pt_lim_plus (fun t => c1 t * d (0, t)) (fun t => c (0, t) * d1 t)).
    + now apply (derivable_pt_lim_mult c1 (fun t => d (0, t))).
    + now apply (derivable_pt_lim_mult (fun t => c (0, t)) d1).
Qed.
Lemma second_plain k : second (plain k) (fun _ => k).
Proof. exists (fun _ => 0). cbn. repeat split; intros; apply derivable_pt_lim_const. Qed.

Lemma p_lit q : @nQ D2 q = plain (Q2R q).
Proof. cbn. now rewrite q0. Qed.
Lemma p_add a b : @nadd D2 (plain a) (plain b) = plain (a + b).
Proof. unfold plain. cbn. now rewrite Rplus_0_l. Qed.
Lemma p_sub a b : @nsub D2 (plain a) (plain b) = plain (a - b).
Proof. unfold plain. cbn. now rewrite Rminus_0_r. Qed.
Lemma p_mul a b : @nmul D2 (plain a) (plain b) = plain (a * b).
Proof. unfold plain. cbn. do 2 f_equal; ring. Qed.
Lemma p_opp a : @nopp D2 (plain a) = plain (- a).
Proof. unfold plain. cbn. now rewrite Ropp_0. Qed.
Lemma p_count t l : @isclose_count D2 (plain t) (map plain l) = @isclose_count ROps t l.
Proof. unfold isclose_count. rewrite map_map. f_equal. Qed.

(** The fixed-step solvers; a hypersolver may depend on the parameters through its network *)
Inductive second_family (n : nat) : solver D2 (vec D2) -> (R * R -> solver ROps (vec ROps)) -> Prop :=
| sf_euler : second_family n (Euler D2) (fun _ => Euler ROps)
| sf_midpoint : second_family n (Midpoint D2) (fun _ => Midpoint ROps)
| sf_rk4 : second_family n (RungeKutta4 D2) (fun _ => RungeKutta4 ROps)
| sf_hyper_euler G g : second_field n G g -> second_family n (@HyperEuler D2 G) (fun p => @HyperEuler ROps (g p))
| sf_hyper_midpoint G g : second_field n G g -> second_family n (@HyperMidpoint D2 G) (fun p => @HyperMidpoint ROps (g p))
| sf_hyper_rk4 G g : second_field n G g -> second_family n (@HyperRungeKutta4 D2 G) (fun p => @HyperRungeKutta4 ROps (g p)).

(** C165.  sensitivity='autograd' and the fixed-step solvers, any grid, any save_at: if autograd differentiates the vector field twice
    correctly, then differentiating the gradient of a solve gives the second derivatives of the returned states. *)
Lemma C165_autograd_partial_pf :
  forall fuel fuel' n sd sr F f X x ts save_at atol rtol atol' rtol' interp all semi,
  second_family n sd sr -> second_field n F f -> second_vec n X x ->
  second_solve n
    (snd (@odeint_autograd (DualOps ROps) fuel F X (@TTensor D2 (map plain ts)) sd atol' rtol' interp all (map plain save_at) semi))
    (fun p => snd (@odeint ROps fuel' (f p) (x p) (@TTensor ROps ts) (sr p) atol rtol interp all save_at semi)).
Proof.
  intros fuel fuel' n sd sr F f X x ts sv atol rtol atol' rtol' interp all semi Hfam HF HX.
  assert (HFam : Tfamily (R * R) D2 ROps second plain (fun t => t) n sd sr).
  { destruct Hfam; constructor; assumption. }
  pose proof (odeint_T (R * R) D2 ROps second plain (fun t => t) second_ext second_add second_opp
    (fun k a c H => second_mul (plain k) a (fun _ => k) c (second_plain k) H) p_lit (fun q => eq_refl) p_add (fun a b => eq_refl) p_sub (fun a b => eq_refl)
    p_mul (fun a b => eq_refl) p_opp (fun a => eq_refl) (fun a b => eq_refl) (fun a b => eq_refl) p_count
    (fun t l => f_equal (@isclose_count ROps t) (map_id l)) (@det (DualOps ROps)) (fun a => a) fuel fuel' n sd sr F f X x ts sv atol rtol atol' rtol' interp all semi HFam HF HX) as H.
  rewrite odeint_ad_id in H. unfold Tsolve in H. change (num ROps) with R in H.
  rewrite (map_id ts) in H. rewrite (map_id sv) in H.
  destruct H as [(times & A & a & G1 & G2 & G3)|(er & G1 & G2)].
  - left. exists times, A, a. split; [exact G1|]. split; [|exact G3]. intros p. refine (eq_trans (G2 p) _). now rewrite map_id.
  - right. exists er. split; [exact G1|exact G2].
Qed.

(** x' = (1 + a) x from 2 + b meets the hypotheses *)
Lemma C165_ex_pf :
  let one : (R * R) * (R * R) := ((1, 1), (0, 0)) in
  second one (fun p => 1 + fst p) /\ second_field 1 (fun _ Y => map (@nmul D2 one) Y) (fun p _ y => map (Rmult (1 + fst p)) y) /\
  second_vec 1 [((2, 0), (1, 0))] (fun p => [2 + snd p]).
Proof.
  cbv zeta.
  assert (L : forall k, derivable_pt_lim (fun a => k + a) 0 1).
  { intros k. replace 1 with (0 + 1) by lra. apply (derivable_pt_lim_plus (fun _ => k) (fun a => a)); [apply derivable_pt_lim_const|apply derivable_pt_lim_id]. }
  assert (H1 : second ((1, 1), (0, 0)) (fun p => 1 + fst p)).
  { exists (fun _ => 1). cbn. split; [|split; [lra|split; [reflexivity|split; apply derivable_pt_lim_const]]].
    intros b. apply L. }
  split; [exact H1|]. split.
  - intros t Y y (L1 & L2 & H). destruct Y as [|Y0 [|]]; try discriminate. split; [reflexivity|]. split; [intros p; rewrite map_length; apply L2|].
    intros [|i] Hi; [|lia]. apply (second_ext _ (fun p => (1 + fst p) * nth 0 (y p) 0)).
    + intros p. specialize (L2 p). destruct (y p) as [|y0 [|]]; try discriminate. reflexivity.
    + apply second_mul; [exact H1|]. exact (H 0%nat ltac:(lia)).
  - split; [reflexivity|]. split; [reflexivity|]. intros [|i] Hi; [|lia]. exists (fun _ => 0). cbn. split; [intros b; apply derivable_pt_lim_const|].
    split; [lra|]. split; [reflexivity|]. split; [|apply derivable_pt_lim_const].
    apply L.
Qed.

(** ** The interpolated adjoint *)
Lemma fixed_loop_inv {X} (P : X -> Prop) f (step : @step_fun DR X) ts sv :
  (forall x t h a x' b, P x -> snd (step f x (t, 0) (h, 0) None) = Ok (Ret3 a x' b) -> P x') ->
  forall m k x (t dt : R) sol out, P x -> Forall P sol -> snd (fixed_loop f step (map c0 ts) sv m k x (t, 0) (dt, 0) sol) = Ok out -> Forall P out.
Proof.
  intros Hst. induction m as [|m IH]; intros k x t dt sol out Hx Hs; cbn [fixed_loop]; [intros [= <-]; exact Hs|].
  rewrite snd_mbind. destruct (snd (step f x (t, 0) (dt, 0) None)) as [[a x' b|]| |] eqn:E; cbn [rbind]; try discriminate.
  specialize (Hst x t dt a x' b Hx E). rewrite t_add, snd_mbind.
  match goal with |- rbind _ (fun dt => snd (fixed_loop _ _ _ _ _ _ _ _ _ ?s)) = _ -> _ => assert (HS' : Forall P s) end.
  { destruct (_ =? 0)%nat; [exact Hs|]. apply Forall_app. split; [exact Hs|]. now constructor. }
  destruct (k <? length (map c0 ts) - 1)%nat.
  - rewrite snd_mbind, snd_mlift, pyget_map. destruct (pyget ts (k + 1)) as [tn| |]; cbn [rmap rbind]; try discriminate.
    cbn [mret snd rbind]. rewrite t_sub. now apply IH.
  - cbn [mret snd rbind]. now apply IH.
Qed.

Lemma fixed_odeint_inv {X} (P : X -> Prop) f (x : X) ts (step : @step_fun DR X) sv times out :
  (forall x t h a x' b, P x -> snd (step f x (t, 0) (h, 0) None) = Ok (Ret3 a x' b) -> P x') -> P x ->
  snd (fixed_odeint f x (map c0 ts) step sv) = Ok (times, out) -> Forall P out.
Proof.
  intros Hst Hx. rewrite fixed_odeint_snd. cbv zeta. destruct (negb _); [discriminate|]. rewrite !pyget_map, pylast_map.
  destruct (pyget ts 0) as [t0| |]; cbn [rmap rbind]; try discriminate.
  destruct (pylast ts) as [tl| |]; cbn [rmap rbind]; try discriminate.
  destruct (pyget ts 1) as [t1| |]; cbn [rmap rbind]; try discriminate. rewrite t_sub.
  match goal with |- rbind ?r _ = _ -> _ => destruct r as [l| |] eqn:E end; cbn [rbind]; try discriminate.
  intros H. assert (out = l) as ->. { unfold final_sol in H. destruct l; [discriminate|]. now injection H. }
  apply (fixed_loop_inv P f step ts _ Hst _ _ _ _ _ _ _ Hx) in E; [exact E|]. destruct (_ =? 0)%nat; [constructor|now constructor].
Qed.

(** Vectors with given derivatives *)
Definition tangent (v : list R) (A : list (R * R)) : Prop := map snd A = v.
Definition flat (n : nat) (A : list (R * R)) : Prop := tangent (repeat 0 n) A.
Lemma map2_repeat0 v n : length v = n -> map2 Rplus v (repeat 0 n) = v.
Proof. revert n. induction v as [|a v IH]; intros [|n] H; try discriminate; cbn; [reflexivity|]. rewrite IH by (cbn in H; lia). now rewrite Rplus_0_r. Qed.
Lemma tan_add v w A B : tangent v A -> tangent w B -> tangent (map2 Rplus v w) (@vadd DR A B).
Proof.
  unfold tangent, vadd. intros <- <-. revert B. induction A as [|a A IH]; intros [|b B]; cbn; try reflexivity. f_equal. apply IH.
Qed.
Lemma tan_flat n v A B : length v = n -> tangent v A -> flat n B -> tangent v (@vadd DR A B).
Proof. intros H HA HB. rewrite <- (map2_repeat0 v n H). now apply tan_add. Qed.
Lemma flat_add n A B : flat n A -> flat n B -> flat n (@vadd DR A B).
Proof. apply tan_flat. apply repeat_length. Qed.
Lemma flat_iff n A : flat n A <-> length A = n /\ Forall (fun a => snd a = 0) A.
Proof.
  unfold flat, tangent. revert n. induction A as [|a A IH]; intros [|n]; cbn; try (split; [discriminate|intros [H _]; discriminate]).
  - split; [split; [reflexivity|constructor]|reflexivity].
  - split.
    + intros H. injection H as H1 H2. apply IH in H2. destruct H2. split; [congruence|now constructor].
    + intros [H1 H2]. inversion H2; subst. f_equal; [assumption|]. apply IH. split; [congruence|assumption].
Qed.
Lemma flat_opp n A : flat n A -> flat n (@vopp DR A).
Proof.
  rewrite !flat_iff. unfold vopp. intros [H1 H2]. split; [now rewrite map_length|]. apply Forall_map. refine (Forall_impl _ _ H2).
  intros a Ha. cbn. rewrite Ha. apply Ropp_0.
Qed.
Lemma flat_scale n k A : flat n A -> flat n (@vscale DR (k, 0) A).
Proof.
  rewrite !flat_iff. unfold vscale. intros [H1 H2]. split; [now rewrite map_length|]. apply Forall_map. refine (Forall_impl _ _ H2).
  intros a Ha. cbn. rewrite Ha. ring.
Qed.
Lemma flat_det n A : length A = n -> flat n (@detv ROps A).
Proof.
  rewrite flat_iff. unfold detv. intros H1. split; [now rewrite map_length|]. apply Forall_map. apply Forall_forall. intros a _. cbn. apply q0.
Qed.

Section Steps.
Variables (n : nat) (v : list R) (G : R * R -> list (R * R) -> list (R * R)).
Hypothesis Hv : length v = n.
Hypothesis HG : forall t Y, length Y = n -> flat n (G (t, 0) Y).
Lemma tan_len A : tangent v A -> length A = n.
Proof. intros H. rewrite <- Hv. rewrite <- H. now rewrite map_length. Qed.
Lemma flat_call T Y : snd T = 0 -> tangent v Y -> flat n (G T Y).
Proof. destruct T as [t u]. cbn. intros -> H. apply HG. now apply tan_len. Qed.
Lemma flat_scale' k A : snd k = 0 -> flat n A -> flat n (@vscale DR k A).
Proof. destruct k as [k u]. cbn. intros ->. apply flat_scale. Qed.
Ltac z := cbn; rewrite ?q0; ring.
Ltac fl := repeat first [assumption | (apply (tan_flat n); [exact Hv| |]) | apply flat_add | (apply flat_scale'; [z|]) | (apply flat_call; [z|])].
Lemma tan_step s x t h a x' b : s = Euler DR \/ s = Midpoint DR \/ s = RungeKutta4 DR -> tangent v x ->
  snd (s_step s G x (t, 0) (h, 0) None) = Ok (Ret3 a x' b) -> tangent v x'.
Proof.
  intros [->|[->| ->]] Hx; cbn [s_step Euler Midpoint RungeKutta4 mk_solver];
    cbv [euler_step midpoint_step rk4_step first_stage mbind call mret fst snd app construct_rk4 tc ta tb tget aget nth]; intros [= _ <- _]; fl.
Qed.
End Steps.

(** The sum of the derivatives of the incoming gradients *)
Definition total (n : nat) (gx : list (list (R * R))) : list R := fold_right (fun g acc => map2 Rplus acc (map snd g)) (repeat 0 n) gx.
Lemma total_len n gx : Forall (fun g => length g = n) gx -> length (total n gx) = n.
Proof.
  intros H. induction H as [|g gx Hg _ IH]; cbn; [apply repeat_length|]. rewrite map2_length, map_length, Hg.
  unfold total in IH. rewrite IH. apply Nat.min_id.
Qed.
Lemma total_last n g : length g = n -> total n [g] = map snd g.
Proof.
  intros <-. cbn. induction g as [|a g IH]; cbn; [reflexivity|]. rewrite IH. now rewrite Rplus_0_l.
Qed.

Section Interp.
Variables (n nmu : nat) (F : @adj_field DR) (path : R * R -> list (R * R)) (s : solver DR (vec DR)).
Hypothesis Hmu : (0 < nmu)%nat.
Hypothesis Hs : s = Euler DR \/ s = Midpoint DR \/ s = RungeKutta4 DR.
Hypothesis Hx : forall t x w, length w = n -> length (af_vjp_x F t x w) = n.
Hypothesis Hp : forall t x w, length w = n -> length (cat_params (af_vjp_p F t x w)) = nmu.
Hypothesis Hg : forall dg t x, af_dg F = Some dg -> length (dg t x) = n.

Lemma cat_det l : @cat_params DR (map (option_map (@detv ROps)) l) = @detv ROps (@cat_params DR l).
Proof.
  unfold cat_params, detv. induction l as [|[v|] l IH]; cbn [map concat option_map]; [reflexivity|..].
  - rewrite map_app, IH. reflexivity.
  - rewrite map_app, IH. reflexivity.
Qed.
Lemma flat_app a b A B : flat a A -> flat b B -> flat (a + b) (A ++ B).
Proof. rewrite !flat_iff. intros [H1 H2] [H3 H4]. split; [rewrite app_length; lia|]. now apply Forall_app. Qed.
Lemma opp_len (w : list (R * R)) : length (@vopp DR w) = length w.
Proof. apply map_length. Qed.
Lemma dyn_flat t Y : length Y = (n + nmu)%nat -> flat (n + nmu) (@interp_dynamics DR (no_graph F) (fun t => @detv ROps (path t)) n t Y).
Proof.
  intros HY. unfold interp_dynamics. set (x := detv _). set (lam := firstn n Y).
  assert (Hl : length lam = n) by (unfold lam; refine (eq_trans (firstn_length n Y) (eq_trans (f_equal (Nat.min n) HY) _)); lia).
  apply flat_app.
  - unfold dlam. cbn [af_vjp_x af_dg no_graph]. assert (H1 : flat n (@detv ROps (af_vjp_x F t x (@vopp DR lam)))).
    { apply flat_det, Hx. now rewrite opp_len. }
    destruct (af_dg F) as [dg|] eqn:E; cbn [option_map]; [|exact H1].
    assert (H2 : flat n (@detv ROps (dg t x))) by (apply flat_det; now apply Hg).
    revert H1 H2. generalize (@detv ROps (af_vjp_x F t x (@vopp DR lam))) (@detv ROps (dg t x)). intros A B.
    unfold flat, tangent, vsub. clear. revert A B. induction n as [|m IH]; intros [|a A] [|b B]; cbn; try discriminate; [reflexivity|].
    intros H1 H2. injection H1 as H1 H1'. injection H2 as H2 H2'. f_equal; [rewrite H1, H2; ring|]. now apply IH.
  - cbn [af_vjp_p no_graph]. rewrite cat_det. apply flat_det, Hp. now rewrite opp_len.
Qed.

Lemma slice_mu (B : list (R * R)) : length B = (n + nmu)%nat -> pyslice (Some (- Z.of_nat nmu)%Z) None B = skipn n B.
Proof.
  intros LB. unfold pyslice, slice_bound. rewrite LB.
  replace (- Z.of_nat nmu <? 0)%Z with true by (symmetry; apply Z.ltb_lt; lia).
  replace (Nat.min (Z.to_nat (- Z.of_nat nmu + Z.of_nat (n + nmu))) (n + nmu)) with n by lia.
  apply firstn_all2. rewrite skipn_length. lia.
Qed.

Lemma interval_tan fuel atol rtol (t_prev t_i : R) g A v A' : length v = n -> length g = n -> tangent (v ++ repeat 0 nmu) A ->
  @interp_interval DR fuel (no_graph F) (fun t => @detv ROps (path t)) n nmu s atol rtol (t_prev, 0) (t_i, 0) g A = Ok A' ->
  tangent (map2 Rplus v (map snd g) ++ repeat 0 nmu) A'.
Proof.
  intros Hv Hlg HA. unfold interp_interval. cbv zeta. destruct (negb _); [intros H0; discriminate H0|].
  set (dyn := @interp_dynamics DR (no_graph F) (fun t => @detv ROps (path t)) n).
  assert (Hfix : s_fixed s = true) by (destruct Hs as [->|[->| ->]]; reflexivity).
  match goal with |- rbind ?q _ = _ -> _ => set (r := q) end.
  assert (Hr : forall times out, r = Ok (times, out) -> Forall (tangent (v ++ repeat 0 nmu)) out).
  { intros times out. unfold r, odeint. rewrite snd_mbind, snd_mlift. unfold prep_time. cbn [ts_list pyget nth_error rbind].
    assert (Hlen : length (v ++ repeat 0 nmu) = (n + nmu)%nat) by (rewrite app_length, repeat_length; lia).
    assert (HD : forall t Y, length Y = (n + nmu)%nat -> flat (n + nmu) (dyn (t, 0) Y)) by (intros t Y HY; now apply dyn_flat).
    destruct (@nltb DR (t_prev, 0) (t_i, 0)); cbn [rbind]; rewrite Hfix.
    - change (map (@nopp DR) [(t_i, 0); (t_prev, 0)]) with [@nopp DR (t_i, 0); @nopp DR (t_prev, 0)]. rewrite !t_opp.
      apply (fixed_odeint_inv (tangent (v ++ repeat 0 nmu)) _ A [- t_i; - t_prev]); [|exact HA].
      intros x t h a x' b Hx' E. refine (tan_step (n + nmu) _ (@neg_field DR dyn) Hlen _ s x t h a x' b Hs Hx' E).
      intros u Y HY. unfold neg_field. apply flat_opp. rewrite t_opp. now apply HD.
    - apply (fixed_odeint_inv (tangent (v ++ repeat 0 nmu)) _ A [t_i; t_prev]); [|exact HA].
      intros x t h a x' b Hx' E. exact (tan_step (n + nmu) _ dyn Hlen HD s x t h a x' b Hs Hx' E). }
  destruct r as [[times out]| |]; cbn [rbind]; try (intros H0; discriminate H0). specialize (Hr times out eq_refl). cbn [snd].
  assert (HB' : forall B, @pylast (list (R * R)) out = Ok B -> tangent (v ++ repeat 0 nmu) B).
  { intros B. unfold pylast. destruct (@rev (list (R * R)) out) as [|B' l] eqn:E; intros H0; [discriminate H0|]. injection H0 as <-.
    rewrite Forall_forall in Hr. apply Hr. apply in_rev. refine (eq_ind_r (fun l0 => In B' l0) _ E). now left. }
  match goal with |- rbind ?q _ = _ -> _ => change q with (@pylast (list (R * R)) out) end.
  destruct (@pylast (list (R * R)) out) as [B| |]; cbn [rbind]; try (intros H0; discriminate H0). specialize (HB' B eq_refl). rename HB' into HB.
  intros H. apply (f_equal (fun r => match r with Ok a => a | _ => A' end)) in H. cbn in H. subst A'.
  assert (LB : length B = (n + nmu)%nat).
  { rewrite <- (map_length snd B). rewrite HB. rewrite app_length, repeat_length. lia. }
  unfold tangent. rewrite map_app. f_equal.
  - refine (tan_add v (map snd g) (firstn n B) g _ eq_refl). unfold tangent. rewrite <- firstn_map. rewrite HB.
    rewrite <- Hv. rewrite firstn_app, firstn_all, Nat.sub_diag. cbn. apply app_nil_r.
  - refine (eq_trans (f_equal (map snd) (slice_mu B LB)) _). rewrite <- skipn_map. rewrite HB. rewrite <- Hv.
    rewrite skipn_app, skipn_all, Nat.sub_diag. reflexivity.
Qed.

Lemma loop_tan fuel atol rtol (ts : list R) gx : Forall (fun g => length g = n) gx ->
  forall k A A', tangent (total n (skipn k gx) ++ repeat 0 nmu) A ->
  @interp_loop_adj DR fuel (no_graph F) (fun t => @detv ROps (path t)) n nmu s atol rtol (map c0 ts) gx k A = Ok A' ->
  tangent (total n gx ++ repeat 0 nmu) A'.
Proof.
  intros Hgx. induction k as [|j IH]; intros A A' HA; cbn [interp_loop_adj].
  { intros H0. injection H0 as <-. exact HA. }
  rewrite !pyget_map. destruct (pyget ts (S j)) as [t_i| |]; cbn [rmap rbind]; try (intros H0; discriminate H0).
  destruct (pyget ts j) as [t_prev| |]; cbn [rmap rbind]; try (intros H0; discriminate H0).
  match goal with |- rbind ?q _ = _ -> _ => change q with (@pyget (list (R * R)) gx j) end.
  destruct (@pyget (list (R * R)) gx j) as [g| |] eqn:Eg; cbn [rbind]; try (intros H0; discriminate H0).
  assert (Eg' : nth_error gx j = Some g) by (unfold pyget in Eg; destruct (nth_error gx j); [now injection Eg as ->|discriminate Eg]).
  assert (Lg : length g = n) by (rewrite Forall_forall in Hgx; apply Hgx; now apply nth_error_In in Eg').
  assert (Sk : skipn j gx = g :: skipn (S j) gx).
  { clear - Eg'. revert j Eg'. induction gx as [|a gx IH]; intros [|j] E; try discriminate; cbn in *; [now injection E as ->|]. now apply IH. }
  assert (Lt : length (total n (skipn (S j) gx)) = n).
  { apply total_len. rewrite Forall_forall in *. intros a Ha. apply Hgx. rewrite <- (firstn_skipn (S j) gx). apply in_or_app. now right. }
  match goal with |- rbind ?q _ = _ -> _ => destruct q as [A1| |] eqn:E end; cbn [rbind]; try (intros H0; discriminate H0).
  apply IH. pose proof (interval_tan fuel atol rtol t_prev t_i g A _ A1 Lt Lg HA E) as H. rewrite Sk. exact H.
Qed.
End Interp.

(** C165.  Interpolated adjoint with create_graph=True: whatever the field, the derivative of the gradient of the initial state is the sum of
    the derivatives of the incoming gradients, and the gradient of the parameters has derivative zero. *)
Lemma C165_interpolated_pf :
  forall fuel n nmu (F : @adj_field DR) path s atol rtol ts gx mu lam,
  (0 < nmu)%nat -> s = Euler DR \/ s = Midpoint DR \/ s = RungeKutta4 DR ->
  (forall t x w, length w = n -> length (af_vjp_x F t x w) = n) ->
  (forall t x w, length w = n -> length (cat_params (af_vjp_p F t x w)) = nmu) ->
  (forall dg t x, af_dg F = Some dg -> length (dg t x) = n) ->
  length gx = length ts -> Forall (fun g => length g = n) gx ->
  @interp_backward_graph ROps fuel F path nmu s atol rtol (map (fun t => (t, 0)) ts) gx = Ok (mu, lam) ->
  map snd lam = total n gx /\ map snd mu = repeat 0 nmu.
Proof.
  intros fuel n nmu F path s atol rtol ts gx mu lam Hmu Hs Hx Hp Hg Hl Hgx. unfold interp_backward_graph, interp_adjoint_backward.
  match goal with |- rbind ?q _ = _ -> _ => change q with (@pylast (list (R * R)) gx) end.
  destruct gx as [|g0 gx0] using rev_ind; [intros H0; discriminate H0|]. clear IHgx0.
  unfold pylast. rewrite rev_app_distr. cbn [rev app rbind].
  assert (Lg : length g0 = n). { rewrite Forall_forall in Hgx. apply Hgx. apply in_or_app. right. now left. }
  cut (forall k, k = n -> rbind (@interp_loop_adj DR fuel (no_graph F) (fun t => @detv ROps (path t)) k nmu s atol rtol (map c0 ts) (gx0 ++ [g0])
    (length (map c0 ts) - 1) (g0 ++ @vzeros DR nmu)) (fun A : list (R * R) => Ok (pyslice (Some (- Z.of_nat nmu)%Z) None A, firstn k A)) = Ok (mu, lam) ->
    map snd lam = total n (gx0 ++ [g0]) /\ map snd mu = repeat 0 nmu).
  { intros G. exact (G _ Lg). }
  intros k ->. match goal with |- rbind ?q _ = _ -> _ => destruct q as [A| |] eqn:E end; cbn [rbind]; try (intros H0; discriminate H0).
  rewrite map_length in E. rewrite app_length in Hl. cbn in Hl.
  assert (HA : tangent (total n (skipn (length ts - 1) (gx0 ++ [g0])) ++ repeat 0 nmu) (g0 ++ @vzeros DR nmu)).
  { cut (forall k, k = length gx0 -> tangent (total n (skipn k (gx0 ++ [g0])) ++ repeat 0 nmu) (g0 ++ @vzeros DR nmu)).
    { intros G. refine (G _ _). refine (eq_trans (f_equal (fun k => (k - 1)%nat) (eq_sym Hl)) _). apply Nat.add_sub. }
    intros k ->. rewrite skipn_app, skipn_all, Nat.sub_diag. cbn [app skipn].
    rewrite total_last by exact Lg. unfold tangent. rewrite map_app. f_equal. clear. induction nmu as [|m IH]; cbn; [reflexivity|]. f_equal; [apply q0|exact IH]. }
  pose proof (loop_tan n nmu F path s Hmu Hs Hx Hp Hg fuel atol rtol ts (gx0 ++ [g0]) Hgx (length ts - 1) _ A HA E) as G.
  pose proof (total_len n _ Hgx) as Lt.
  cut (forall B : list (R * R), tangent (total n (gx0 ++ [g0]) ++ repeat 0 nmu) B ->
    @Ok (list (R * R) * list (R * R)) (pyslice (Some (- Z.of_nat nmu)%Z) None B, firstn n B) = Ok (mu, lam) ->
    map snd lam = total n (gx0 ++ [g0]) /\ map snd mu = repeat 0 nmu).
  { intros C. exact (C A G). }
  clear - Lt Hmu. intros B G H0.
  assert (LA : length B = (n + nmu)%nat). { rewrite <- (map_length snd B). rewrite G. rewrite app_length, repeat_length, Lt. reflexivity. }
  injection H0 as <- <-. split.
  - rewrite <- firstn_map. rewrite G. rewrite <- Lt at 1. rewrite firstn_app, firstn_all, Nat.sub_diag. cbn. apply app_nil_r.
  - rewrite (slice_mu n nmu Hmu B LA). rewrite <- skipn_map. rewrite G. rewrite <- Lt at 1. rewrite skipn_app, skipn_all, Nat.sub_diag. reflexivity.
Qed.

(** x' = p x with p = 1, one Euler step from x0, loss x(1)^2 / 2: the gradient 4 x0 is returned for every x0, and its derivative in x0 is 4,
    but differentiating the returned gradient gives 2. *)
Lemma C165_interpolated_refuted_pf :
  let F : @adj_field DR := MkAF (fun _ x => x) (fun _ _ w => w) (fun _ _ _ => None) (fun _ x w => [Some (map2 (@nmul DR) w x)]) None in
  forall x0,
  snd (@odeint ROps 0 (fun _ x => x) [x0] (@TTensor ROps [0; 1]) (Euler ROps) 0 0 false false [] None) = Ok ([0; 1], [[x0]; [2 * x0]]) /\
  derivable_pt_lim (fun x => Rsqr (2 * x) / 2) x0 (4 * x0) /\ derivable_pt_lim (fun x => 4 * x) x0 4 /\
  exists mu, @interp_backward_graph ROps 0 F (fun _ => [(x0, 1)]) 1 (Euler DR) (0, 0) (0, 0) [(0, 0); (1, 0)] [[(0, 0)]; [(2 * x0, 2)]]
    = Ok (mu, [(4 * x0, 2)]).
Proof.
  cbv zeta. intros x0.
  assert (Sep : forallb (fun t => (@isclose_count ROps t [0%R; 1%R] =? 1)%nat) [0; 1] = true).
  { apply assertion_separated. intros i j a b Hij Ha Hb. unfold close_to. destruct i as [|[|[|]]], j as [|[|[|]]]; cbn in Ha, Hb; try discriminate; try congruence;
      injection Ha as <-; injection Hb as <-; unfold Rabs; repeat destruct Rcase_abs; lra. }
  assert (Sep' : forallb (fun t => (@isclose_count ROps t [(- (1))%R; (- 0)%R] =? 1)%nat) [- (1); - 0] = true).
  { apply assertion_separated. intros i j a b Hij Ha Hb. unfold close_to. destruct i as [|[|[|]]], j as [|[|[|]]]; cbn in Ha, Hb; try discriminate; try congruence;
      injection Ha as <-; injection Hb as <-; unfold Rabs; repeat destruct Rcase_abs; lra. }
  split; [|split; [|split]].
  - unfold odeint, prep_time. cbn [ts_list pyget nth_error rbind mlift mbind snd fst].
    change (@nltb ROps 1 0) with (Rltb 1 0). replace (Rltb 1 0) with false by (symmetry; apply Rltb_false; lra). cbn [rbind mlift mbind snd fst s_fixed s_step Euler mk_solver].
    refine (eq_trans (@gen_fixed ROps law_R (fun _ x => x) (@euler_step ROps) (fun t h x => @vadd ROps x (@vscale ROps h x)) (fun _ _ _ => eq_refl) [x0] 0 1 [] Sep) _).
    cbn. do 4 f_equal. f_equal. ring.
  - replace (4 * x0) with ((2 * 1 * (2 * x0) + 2 * x0 * (2 * 1)) * / 2 + (Rsqr (2 * x0)) * 0) by (unfold Rsqr; field).
    assert (D : derivable_pt_lim (fun x => 2 * x) x0 (2 * 1)) by (apply (derivable_pt_lim_scal (fun x => x) 2), derivable_pt_lim_id).
    apply (derivable_pt_lim_mult (fun x => Rsqr (2 * x)) (fun _ => / 2)); [|apply derivable_pt_lim_const].
    unfold Rsqr. now apply (derivable_pt_lim_mult (fun x => 2 * x) (fun x => 2 * x)).
  - pose proof (derivable_pt_lim_scal (fun x => x) 4 x0 1 (derivable_pt_lim_id x0)) as D. rewrite Rmult_1_r in D. exact D.
  - eexists. unfold interp_backward_graph, interp_adjoint_backward. cbn [pylast rev app rbind length map Nat.sub interp_loop_adj pyget nth_error].
    unfold interp_interval. cbv zeta.
    match goal with |- context [if negb ?b then _ else _] => change b with true end. cbn [negb].
    assert (E : forall dyn A, snd (@odeint DR 0 dyn A (@TTensor DR [(1, 0); (0, 0)]) (Euler DR) (0, 0) (0, 0) false false [] None) =
      Ok ([@nopp DR (1, 0); @nopp DR (0, 0)], [A; @vadd DR A (@vscale DR (@nsub DR (@nopp DR (0, 0)) (@nopp DR (1, 0))) (@neg_field DR dyn (@nopp DR (1, 0)) A))])).
    { intros dyn A. unfold odeint, prep_time. cbn [ts_list pyget nth_error rbind mlift mbind snd fst].
      change (@nltb DR (0, 0) (1, 0)) with (Rltb 0 1). replace (Rltb 0 1) with true by (symmetry; apply Rltb_true; lra).
      cbn [rbind mlift mbind snd fst s_fixed s_step Euler mk_solver map].
      refine (eq_trans (@gen_fixed DR law_D (@neg_field DR dyn) (@euler_step DR) (fun t h x => @vadd DR x (@vscale DR h (@neg_field DR dyn t x))) (fun _ _ _ => eq_refl)
        A (@nopp DR (1, 0)) (@nopp DR (0, 0)) [] _) _); [|reflexivity].
      rewrite unique_fst. exact Sep'. }
    refine (eq_trans (f_equal (fun r => rbind (rbind (rbind r _) _) _) (E _ _)) _). cbn [rbind pylast rev app snd].
    apply (f_equal (@Ok (list (R * R) * list (R * R)))). apply (f_equal2 pair); [reflexivity|]. cbn. rewrite ?q0. f_equal. f_equal; ring.
Qed.
