(** Proofs of the property about SDE solves backwards in time. *)
From Coq Require Import ZArith QArith Reals Lra Lia String List Bool Floats.
From Verif Require Import Num Py Tensor M_SolversOde M_Odeint M_Sde L_Nan.
From Verif Require Spec_Ode Spec_Sde Pf_Sde Pf_Sens.
Import ListNotations.
Local Notation length := List.length.
Local Open Scope R_scope.

Lemma sqrt_neg d : PrimFloat.ltb d 0 = true -> PrimFloat.sqrt d = nan.
Proof.
  intros H. apply nan_char. rewrite sqrt_spec. rewrite ltb_spec in H. change (Prim2SF 0) with (S754_zero false) in H.
  destruct (Prim2SF d) as [s|s| |s m e]; cbn in H; try discriminate; destruct s; try discriminate; reflexivity.
Qed.
Lemma ltb_nan y : PrimFloat.ltb nan y = false.
Proof. rewrite ltb_spec, nan_sf. destruct (Prim2SF y); reflexivity. Qed.
Lemma eqb_self d : d <> nan -> PrimFloat.eqb d d = true.
Proof.
  intros H. rewrite eqb_spec. destruct (Prim2SF d) as [s|s| |s m e] eqn:E; try (destruct s; reflexivity).
  - exfalso. apply H. now apply nan_char.
  - unfold SFeqb, SFcompare. destruct s; rewrite Z.compare_refl; cbv iota; now rewrite Pos.compare_refl.
Qed.

Section F.
Variable pw : float -> float -> float.
Notation F := (FloatOps pw).
(** drift, diffusion and Brownian increments have the size of the state *)
Definition sized_f (n : nat) (sde : sde_func F) (bm : brownian F) : Prop :=
  (forall t x, length x = n -> length (sde_f sde t x) = n) /\
  (forall t x, length x = n -> length (sde_g sde t x) = n) /\ (forall s t, length (bm s t) = n).

Lemma m2_len (g : float -> float -> float) n : forall u v, length u = n -> length v = n -> length (map2 g u v) = n.
Proof. induction n as [|n IH]; intros [|p u] [|q v] Hu Hv; try discriminate; cbn; auto. Qed.
Lemma m2_nan_r (g : float -> float -> float) n : (forall y, g y nan = nan) -> forall u, length u = n -> map2 g u (repeat nan n) = repeat nan n.
Proof. intros H. induction n as [|n IH]; intros [|p u] Hu; try discriminate; cbn; auto. f_equal; auto. Qed.
Lemma m2_nan_l (g : float -> float -> float) n : (forall y, g nan y = nan) -> forall u, length u = n -> map2 g (repeat nan n) u = repeat nan n.
Proof. intros H. induction n as [|n IH]; intros [|p u] Hu; try discriminate; cbn; auto. f_equal; auto. Qed.
Lemma map_nan (g : float -> float) n : (forall y, g y = nan) -> forall u, length u = n -> map g u = repeat nan n.
Proof. intros H. induction n as [|n IH]; intros [|p u] Hu; try discriminate; cbn; auto. f_equal; auto. Qed.

Section M.
Variables (n : nat) (sde : sde_func F) (bm : brownian F) (v : list float -> float -> list float).
Hypothesis HZ : sized_f n sde bm.
Hypothesis Hv : forall u k, length u = n -> length (v u k) = n.
Lemma mil_neg x t d : length x = n -> PrimFloat.ltb d 0 = true -> @milstein_step F v sde bm x t d = repeat nan n.
Proof.
  intros Hx Hd. destruct HZ as (Hf & Hg & Hb). unfold milstein_step. cbv zeta. change (@nsqrt F d) with (PrimFloat.sqrt d). rewrite (sqrt_neg d Hd).
  rewrite (map_nan (fun a : float => PrimFloat.div (PrimFloat.mul a (float_of_Q 1)) (PrimFloat.mul (float_of_Q 2) nan)) n).
  - unfold vmul at 2. rewrite (m2_nan_l PrimFloat.mul n nan_mul_l) by (apply Hv, Hb). unfold vadd at 1. apply (m2_nan_r PrimFloat.add n nan_add_r).
    unfold vadd, vmul, vscale. repeat apply m2_len; rewrite ?map_length; auto.
  - intros y. now rewrite nan_mul_r, nan_div_r.
  - unfold vsub, vadd, vscale. apply m2_len; [|auto]. apply Hg. apply m2_len; [apply m2_len|]; rewrite ?map_length; auto.
Qed.
Lemma mil_nan t d : @milstein_step F v sde bm (repeat nan n) t d = repeat nan n.
Proof.
  assert (Hx : length (repeat nan n) = n) by apply repeat_length. destruct HZ as (Hf & Hg & Hb). unfold milstein_step. cbv zeta. unfold vadd, vmul, vscale, vsub.
  assert (E : forall w, length w = n -> map2 PrimFloat.add (repeat nan n) w = repeat nan n) by (intros; now apply (m2_nan_l PrimFloat.add n nan_add_l)).
  change (@nadd F) with PrimFloat.add. change (@nmul F) with PrimFloat.mul. change (@nsub F) with PrimFloat.sub. change (num F) with float in *.
  rewrite !(E (map _ _)) by (rewrite map_length; auto). rewrite (E (map2 _ _ _)) by (apply m2_len; auto).
  apply E. apply m2_len; [|apply Hv, Hb]. rewrite map_length. apply m2_len; auto.
Qed.
End M.

Lemma loop_nan_ok n (step : list float -> float -> float -> list float) (ts sv : list float) : (forall t d, step (repeat nan n) t d = repeat nan n) ->
  forall k steps t d sol, exists m, @sde_loop F step ts sv k steps (repeat nan n) t d sol = Ok (sol ++ repeat (repeat nan n) m).
Proof.
  intros H. induction k as [|k IH]; intros steps t d sol; cbn [sde_loop].
  - exists 0%nat. now rewrite app_nil_r.
  - rewrite H. match goal with |- context [rbind ?q _] => assert (Hq : exists d', q = Ok d') end.
    { match goal with |- context [if ?b then _ else _] => destruct b eqn:Hs end; [|eexists; reflexivity]. apply Nat.ltb_lt in Hs. unfold pyget.
      match goal with |- context [match ?q with Some _ => _ | None => _ end] => destruct q eqn:En end; [eexists; reflexivity|].
      exfalso. apply nth_error_None in En. change (num F) with float in *. lia. }
    destruct Hq as (d' & Hq). rewrite Hq. cbn [rbind].
    match goal with |- context [if (?a =? ?b)%nat then _ else _] => destruct (a =? b)%nat end.
    + apply IH.
    + destruct (IH (steps + 1)%nat (@nadd F t d) d' (sol ++ [repeat nan n])) as (m & Hm). exists (S m). etransitivity; [exact Hm|]. now rewrite <- app_assoc.
Qed.

Lemma mil_v name sde bm s n : sized_f n sde bm -> name = "milstein_ito"%string \/ name = "milstein_stratonovich"%string -> @sde_str_to_solver F name sde bm = Ok s ->
  ss_fixed s = true /\ (forall x t d, length x = n -> PrimFloat.ltb d 0 = true -> ss_step s x t d = repeat nan n) /\ forall t d, ss_step s (repeat nan n) t d = repeat nan n.
Proof.
  intros HZ [-> | ->] H; cbn in H; injection H as <-; cbn [ss_fixed ss_step]; (split; [reflexivity|]); split; intros.
  - apply mil_neg; auto. intros u k Hu. unfold v_ito. now rewrite map_length.
  - apply mil_nan; auto. intros u k Hu. unfold v_ito. now rewrite map_length.
  - apply mil_neg; auto. intros u k Hu. unfold v_strat. now rewrite map_length.
  - apply mil_nan; auto. intros u k Hu. unfold v_strat. now rewrite map_length.
Qed.
End F.

(** In binary64, with a first step backwards in time, both Milstein solvers return the initial state followed by states all of whose entries
    are NaN, for every SDE, Brownian path, state and grid: they take the square root of the negative step. There is at least one such state if the
    addition of the first step to the first time gives the second time without rounding. *)
Lemma C193_milstein_refuted_pf :
  forall pw n name (sde : sde_func (FloatOps pw)) (bm : brownian (FloatOps pw)) x t0 t1 ts, sized_f pw n sde bm -> length x = n ->
  name = "milstein_ito"%string \/ name = "milstein_stratonovich"%string -> PrimFloat.ltb (PrimFloat.sub t1 t0) 0 = true ->
  exists m, @sdeint (FloatOps pw) sde x (t0 :: t1 :: ts) name bm [] = Ok (t0 :: t1 :: ts, x :: repeat (repeat nan n) m) /\
    (PrimFloat.eqb (PrimFloat.add t0 (PrimFloat.sub t1 t0)) t1 = true -> (1 <= m)%nat).
Proof.
  intros pw n name sde bm x t0 t1 ts HZ Hx Hn Hd.
  assert (Ht : t0 <> nan). { intros ->. rewrite nan_sub_r, ltb_nan in Hd. discriminate. }
  assert (Hes : exists s, @sde_str_to_solver (FloatOps pw) name sde bm = Ok s) by (destruct Hn as [-> | ->]; eexists; reflexivity).
  destruct Hes as (s & Es). destruct (mil_v pw name sde bm s n HZ Hn Es) as (Hf & H1 & H2).
  unfold sdeint. rewrite Es. cbn [rbind]. rewrite Hf. unfold fixed_sdeint. cbn [pyget nth_error rbind].
  change (@nsub (FloatOps pw) t1 t0) with (PrimFloat.sub t1 t0). set (g := t0 :: t1 :: ts).
  match goal with |- context [rbind ?q _] => assert (Hl : exists z, q = Ok z) by (apply Pf_Sens.pylast_some; discriminate) end.
  destruct Hl as (z & Hl). rewrite Hl. cbn [rbind].
  assert (E0 : forall u v, In v g -> PrimFloat.eqb u v = true -> (@isclose_count (FloatOps pw) u g =? 0)%nat = false).
  { intros u v Hin Hu. apply Nat.eqb_neq. unfold isclose_count. clear -Hin Hu. induction g as [|a g IH]; [contradiction|]. cbn [map]. unfold count_true in *. cbn [filter].
    destruct Hin as [-> | Hin].
    - unfold isclose at 1. change (@neqb (FloatOps pw) u v) with (PrimFloat.eqb u v). rewrite Hu. cbn [orb]. cbn. discriminate.
    - match goal with |- context [if ?q then _ else _] => destruct q end; [cbn; discriminate|auto]. }
  rewrite (E0 t0 t0 (or_introl eq_refl) (eqb_self t0 Ht)). unfold g at 3. cbn [List.length Nat.sub]. cbn [sde_loop]. rewrite (H1 x t0 (PrimFloat.sub t1 t0) Hx Hd).
  change (@nadd (FloatOps pw) t0 (PrimFloat.sub t1 t0)) with (PrimFloat.add t0 (PrimFloat.sub t1 t0)).
  match goal with |- context [rbind (rbind ?q _) _] => assert (Hq : exists d', q = Ok d') end.
  { match goal with |- context [if ?b then _ else _] => destruct b eqn:Hs end; [|eexists; reflexivity]. apply Nat.ltb_lt in Hs. unfold pyget.
    match goal with |- context [match ?q with Some _ => _ | None => _ end] => destruct q eqn:En end; [eexists; reflexivity|].
    exfalso. apply nth_error_None in En. change (num (FloatOps pw)) with float in *. lia. }
  destruct Hq as (d' & Hq). rewrite Hq. cbn [rbind].
  match goal with |- context [sde_loop _ _ _ ?k ?st _ ?t _ ?so] => destruct (loop_nan_ok pw n (ss_step s) g g H2 k st t d' so) as (m & Hm) end.
  destruct (@isclose_count (FloatOps pw) (PrimFloat.add t0 (PrimFloat.sub t1 t0)) g =? 0)%nat eqn:Ec.
  - exists m. rewrite Hm. split; [reflexivity|]. intros Hex. exfalso. rewrite (E0 _ t1) in Ec; [discriminate|right; left; reflexivity|exact Hex].
  - exists (S m). rewrite Hm. split; [reflexivity|]. intros _. lia.
Qed.

(** A run: dX = X dW from 1 over [1; 0] in binary64. *)
Lemma C193_run_refuted_pf :
  forall pw, @sdeint (FloatOps pw) (@MkSde (FloatOps pw) (fun _ x => map (fun _ => 0%float) x) (fun _ x => x) (Some "diagonal"%string) (Some "ito"%string)) [1%float] [1%float; 0%float]
    "milstein_ito" (fun _ _ => [0.5%float]) [] = Ok ([1%float; 0%float], [[1%float]; [nan]]).
Proof. intros pw. vm_compute. reflexivity. Qed.

(** Euler-Maruyama and Euler-Heun do follow their schemes backwards in time (real arithmetic). *)
Lemma C193_euler_partial_pf :
  forall n name (sde : sde_func ROps) (bm : brownian ROps) s S x t0 t1 ts, Pf_Sde.sized n sde bm -> length x = n ->
  name = "euler"%string \/ name = "eulerHeun"%string -> @sde_str_to_solver ROps name sde bm = Ok s -> Spec_Sde.scheme_of name (sde_f sde) (sde_g sde) bm = Some S -> t1 < t0 ->
  exists xs, @sdeint ROps sde x (t0 :: t1 :: ts) name bm [] = Ok (t0 :: t1 :: ts, xs) /\ Spec_Sde.follows S x (t0 :: t1 :: ts) xs.
Proof. intros n name sde bm s S x t0 t1 ts HZ Hx _ Es ES _. now apply (Pf_Sde.C41_sde_trajectory_pf n name sde bm s). Qed.

(** The hypotheses are met by the SDE of the run. *)
Lemma C193_ex_pf : forall pw, sized_f pw 1 (@MkSde (FloatOps pw) (fun _ x => map (fun _ => 0%float) x) (fun _ x => x) (Some "diagonal"%string) (Some "ito"%string)) (fun _ _ => [0.5%float]) /\
  PrimFloat.ltb (PrimFloat.sub 0 1) 0 = true.
Proof. intros pw. split; [|reflexivity]. split; [|split]; intros; cbn [sde_f sde_g]; rewrite ?map_length; auto. Qed.
