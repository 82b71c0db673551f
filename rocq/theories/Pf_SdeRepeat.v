(** Proofs of the property about repeated times in the grid of an SDE solve. *)
From Coq Require Import ZArith QArith Reals Lra Lia String List Bool Floats.
From Verif Require Import Num Py Tensor M_SolversOde M_Odeint M_Sde L_Nan.
From Verif Require Spec_Ode Spec_Sde Pf_Sde Pf_Sens.
From Verif Require Import Pf_SdeBack.
Import ListNotations.
Local Notation length := List.length.
Local Open Scope R_scope.

Lemma fin_cases y : PrimFloat.is_finite y = true -> (exists s, Prim2SF y = S754_zero s) \/ exists s m e, Prim2SF y = S754_finite s m e.
Proof.
  intros H. destruct (Prim2SF y) as [s|s| |s m e] eqn:E.
  - left; eauto.
  - exfalso. destruct s.
    + assert (y = neg_infinity) by (apply Prim2SF_inj; rewrite E; reflexivity). subst y. now cbv in H.
    + assert (y = infinity) by (apply Prim2SF_inj; rewrite E; reflexivity). subst y. now cbv in H.
  - exfalso. apply nan_char in E. subst y. now cbv in H.
  - right; eauto.
Qed.
Lemma sub_self_f y : PrimFloat.is_finite y = true -> PrimFloat.sub y y = 0%float.
Proof.
  intros H. apply Prim2SF_inj. rewrite sub_spec. change (Prim2SF 0) with (S754_zero false).
  destruct (fin_cases y H) as [(s & E) | (s & m & e & E)]; rewrite E.
  - destruct s; reflexivity.
  - unfold SF64sub, SFsub. cbv zeta. rewrite Z.sub_diag. reflexivity.
Qed.
Lemma add_0_eqb y : PrimFloat.is_finite y = true -> PrimFloat.eqb (PrimFloat.add y 0) y = true.
Proof.
  intros H. rewrite eqb_spec, add_spec. change (Prim2SF 0) with (S754_zero false).
  destruct (fin_cases y H) as [(s & E) | (s & m & e & E)]; rewrite E.
  - destruct s; reflexivity.
  - unfold SF64add, SFadd, SFeqb, SFcompare. destruct s; rewrite Z.compare_refl; cbv iota; now rewrite Pos.compare_refl.
Qed.

Section F.
Variable pw : float -> float -> float.
Notation F := (FloatOps pw).

Lemma mil_zero n sde bm (v : list float -> float -> list float) x t c : sized_f pw n sde bm -> (forall u k, length u = n -> length (v u k) = n) ->
  length x = n -> (forall y, length y = n -> sde_g sde t y = c) -> forallb PrimFloat.is_finite c = true ->
  @milstein_step F v sde bm x t 0%float = repeat nan n.
Proof.
  intros (Hf & Hg & Hb) Hv Hx Hc Hfin. unfold milstein_step. cbv zeta. change (@nsqrt F 0%float) with 0%float.
  assert (Lc : length c = n) by (rewrite <- (Hc x Hx); auto).
  rewrite !Hc; auto.
  2:{ unfold vadd, vscale. apply m2_len; [apply m2_len|]; rewrite ?map_length; auto. }
  assert (E0 : forall (k : list float) m, length k = m -> forallb PrimFloat.is_finite k = true -> @vsub F k k = repeat 0%float m).
  { clear. intros k. induction k as [|a k IH]; intros m <- H; [reflexivity|]. cbn [forallb] in H. apply andb_prop in H. destruct H as (H1 & H2).
    unfold vsub in *. cbn [map2 List.length repeat]. f_equal; [now apply sub_self_f|auto]. }
  rewrite (E0 c n Lc Hfin).
  assert (E1 : forall k, map (fun a : F => (a * @nQ F 1 / (@nQ F 2 * 0%float))%N) (repeat 0%float k) = repeat nan k).
  { induction k as [|k IH]; [reflexivity|]. cbn [repeat map]. f_equal; auto. }
  rewrite E1.
  unfold vmul at 2. rewrite (m2_nan_l PrimFloat.mul n nan_mul_l) by (apply Hv, Hb). unfold vadd at 1. apply (m2_nan_r PrimFloat.add n nan_add_r).
  unfold vadd, vmul, vscale. repeat apply m2_len; rewrite ?map_length; auto.
Qed.
End F.

(** In binary64, with the first time requested twice, both Milstein solvers return the initial state followed by states all of whose entries are
    NaN, at least one, for every SDE with additive noise and finite diffusion, every Brownian path and state: they divide the zero difference of
    the diffusion by the zero square root of the step. *)
Lemma C194_milstein_refuted_pf :
  forall pw n name (sde : sde_func (FloatOps pw)) (bm : brownian (FloatOps pw)) x t0 ts c, sized_f pw n sde bm -> length x = n ->
  name = "milstein_ito"%string \/ name = "milstein_stratonovich"%string -> PrimFloat.is_finite t0 = true ->
  (forall y, length y = n -> sde_g sde t0 y = c) -> forallb PrimFloat.is_finite c = true ->
  exists m, @sdeint (FloatOps pw) sde x (t0 :: t0 :: ts) name bm [] = Ok (t0 :: t0 :: ts, x :: repeat (repeat nan n) (S m)).
Proof.
  intros pw n name sde bm x t0 ts c HZ Hx Hn Ht Hc Hfin.
  assert (Hes : exists s, @sde_str_to_solver (FloatOps pw) name sde bm = Ok s) by (destruct Hn as [-> | ->]; eexists; reflexivity).
  destruct Hes as (s & Es). destruct (mil_v pw name sde bm s n HZ Hn Es) as (Hf & _ & H2).
  assert (H1 : ss_step s x t0 0%float = repeat nan n).
  { destruct Hn as [-> | ->]; cbn in Es; injection Es as <-; cbn [ss_step]; apply (mil_zero pw n sde bm _ x t0 c); auto; intros; unfold v_ito, v_strat; now rewrite map_length. }
  unfold sdeint. rewrite Es. cbn [rbind]. rewrite Hf. unfold fixed_sdeint. cbn [pyget nth_error rbind].
  change (@nsub (FloatOps pw) t0 t0) with (PrimFloat.sub t0 t0). rewrite (sub_self_f t0 Ht).
  set (g := t0 :: t0 :: ts).
  match goal with |- context [rbind ?q _] => assert (Hl : exists z, q = Ok z) by (apply Pf_Sens.pylast_some; discriminate) end.
  destruct Hl as (z & Hl). rewrite Hl. cbn [rbind].
  assert (Hnan : t0 <> nan) by (intros ->; now cbv in Ht).
  assert (E0 : forall u, PrimFloat.eqb u t0 = true -> (@isclose_count (FloatOps pw) u g =? 0)%nat = false).
  { intros u Hu. apply Nat.eqb_neq. unfold isclose_count, g. cbn [map]. unfold isclose at 1. change (@neqb (FloatOps pw) u t0) with (PrimFloat.eqb u t0). rewrite Hu. cbn [orb].
    unfold count_true. cbn. discriminate. }
  rewrite (E0 t0 (eqb_self t0 Hnan)). unfold g at 3. cbn [List.length Nat.sub]. cbn [sde_loop]. rewrite H1.
  change (@nadd (FloatOps pw) t0 0%float) with (PrimFloat.add t0 0). rewrite (E0 _ (add_0_eqb t0 Ht)).
  match goal with |- context [rbind (rbind ?q _) _] => assert (Hq : exists d', q = Ok d') end.
  { match goal with |- context [if ?b then _ else _] => destruct b eqn:Hs end; [|eexists; reflexivity]. apply Nat.ltb_lt in Hs. unfold pyget.
    match goal with |- context [match ?q with Some _ => _ | None => _ end] => destruct q eqn:En end; [eexists; reflexivity|].
    exfalso. apply nth_error_None in En. change (num (FloatOps pw)) with float in *. lia. }
  destruct Hq as (d' & Hq). rewrite Hq. cbn [rbind].
  match goal with |- context [sde_loop _ _ _ ?k ?st _ ?t _ ?so] => destruct (loop_nan_ok pw n (ss_step s) g g H2 k st t d' so) as (m & Hm) end.
  exists m. rewrite Hm. reflexivity.
Qed.

(** A run: dX = dW from 0 over [0; 0; 1] in binary64. *)
Lemma C194_run_refuted_pf :
  forall pw, @sdeint (FloatOps pw) (@MkSde (FloatOps pw) (fun _ x => map (fun _ => 0%float) x) (fun _ x => map (fun _ => 1%float) x) (Some "additive"%string) (Some "ito"%string)) [0%float]
    [0%float; 0%float; 1%float] "milstein_ito" (fun s t => [PrimFloat.sub t s]) [] = Ok ([0%float; 0%float; 1%float], [[0%float]; [nan]; [nan]]).
Proof. intros pw. vm_compute. reflexivity. Qed.

(** Euler-Maruyama and Euler-Heun return a repeated time, at any place of the grid, as often as requested and with the same state, if the Brownian
    path has no increment over an empty interval (real arithmetic). *)
Lemma C194_euler_partial_pf :
  forall n name (sde : sde_func ROps) (bm : brownian ROps) s x t0 t1 ts, Pf_Sde.sized n sde bm -> length x = n ->
  name = "euler"%string \/ name = "eulerHeun"%string -> @sde_str_to_solver ROps name sde bm = Ok s -> (forall t, bm t t = repeat 0 n) ->
  exists xs, @sdeint ROps sde x (t0 :: t1 :: ts) name bm [] = Ok (t0 :: t1 :: ts, xs) /\ length xs = length (t0 :: t1 :: ts) /\
  forall i t, nth_error (t0 :: t1 :: ts) i = Some t -> nth_error (t0 :: t1 :: ts) (S i) = Some t -> nth_error xs (S i) = nth_error xs i.
Proof.
  intros n name sde bm s x t0 t1 ts HZ Hx Hn Es Hb. set (g := t0 :: t1 :: ts).
  assert (HS : exists S, Spec_Sde.scheme_of name (sde_f sde) (sde_g sde) bm = Some S /\ forall t a b, S t t a b -> b = a).
  { assert (Hc : forall t i, Spec_Sde.comp (bm t t) i = 0). { intros t i. rewrite Hb. unfold Spec_Sde.comp. apply nth_repeat. }
    assert (Hext : forall a b : list R, length b = length a -> (forall i, (i < length a)%nat -> Spec_Sde.comp b i = Spec_Sde.comp a i) -> b = a).
    { intros a b Hl Hi. apply (nth_ext b a 0 0); auto. intros i Hlt. apply Hi. now rewrite <- Hl. }
    destruct Hn as [-> | ->]; eexists; (split; [reflexivity|]).
    - intros t a b (Hl & H). apply Hext; auto. intros i Hi. rewrite H, Hc by auto. ring.
    - intros t a b (Hl & p & _ & _ & H). apply Hext; auto. intros i Hi. rewrite H, Hc by auto. unfold Rdiv. ring. }
  destruct HS as (S & ES & HS). destruct (Pf_Sde.C41_sde_trajectory_pf n name sde bm s S x t0 t1 ts HZ Hx Es ES) as (xs & E & Hl & _ & Hfo).
  exists xs. split; [exact E|]. split; [exact Hl|]. intros i t Hi Hsi.
  assert (Hlt : (Datatypes.S i < length xs)%nat). { eapply Nat.lt_le_trans; [apply (nth_error_Some g (Datatypes.S i)); rewrite Hsi; discriminate|]. now apply Nat.eq_le_incl. }
  change (num ROps) with R in *.
  destruct (nth_error xs i) as [a|] eqn:Ea; [|apply nth_error_None in Ea; lia].
  destruct (nth_error xs (Datatypes.S i)) as [b|] eqn:Eb; [|apply nth_error_None in Eb; lia].
  f_equal. apply (HS t). now apply (Hfo i).
Qed.

(** The hypotheses are met: geometric Brownian motion along a path with W(s, t) = t - s, and the SDE of the run. *)
Lemma C194_ex_pf :
  Pf_Sde.sized 1 (Pf_Sde.ex_sde "ito") (fun s t : R => [t - s]) /\ (exists s, @sde_str_to_solver ROps "euler" (Pf_Sde.ex_sde "ito") (fun s t : R => [t - s]) = Ok s) /\
  (forall t : R, [t - t] = repeat 0 1) /\ forallb PrimFloat.is_finite [1%float] = true.
Proof.
  split; [|split; [eexists; reflexivity|split; [|reflexivity]]].
  - repeat split; intros; cbn; auto. now rewrite map_length.
  - intros t. cbn. f_equal. ring.
Qed.
