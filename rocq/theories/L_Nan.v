(** NaN propagation in binary64 and an adaptive solve on a NaN field. *)
From Coq Require Import ZArith QArith Lia List Bool Floats.
From Verif Require Import Num Py Tensor M_Constants M_SolversOde M_Utils M_Interp M_Odeint.
Import ListNotations.

Lemma nan_char x : Prim2SF x = S754_nan -> x = nan.
Proof. intros H. apply Prim2SF_inj. rewrite H. reflexivity. Qed.
Lemma nan_sf : Prim2SF nan = S754_nan. Proof. reflexivity. Qed.

Lemma nan_add_l y : (nan + y = nan)%float.
Proof. apply nan_char. rewrite add_spec, nan_sf. destruct (Prim2SF y); reflexivity. Qed.
Lemma nan_add_r y : (y + nan = nan)%float.
Proof. apply nan_char. rewrite add_spec, nan_sf. destruct (Prim2SF y); reflexivity. Qed.
Lemma nan_sub_l y : (nan - y = nan)%float.
Proof. apply nan_char. rewrite sub_spec, nan_sf. destruct (Prim2SF y); reflexivity. Qed.
Lemma nan_sub_r y : (y - nan = nan)%float.
Proof. apply nan_char. rewrite sub_spec, nan_sf. destruct (Prim2SF y); reflexivity. Qed.
Lemma nan_mul_l y : (nan * y = nan)%float.
Proof. apply nan_char. rewrite mul_spec, nan_sf. destruct (Prim2SF y); reflexivity. Qed.
Lemma nan_mul_r y : (y * nan = nan)%float.
Proof. apply nan_char. rewrite mul_spec, nan_sf. destruct (Prim2SF y); reflexivity. Qed.
Lemma nan_div_l y : (nan / y = nan)%float.
Proof. apply nan_char. rewrite div_spec, nan_sf. destruct (Prim2SF y); reflexivity. Qed.
Lemma nan_div_r y : (y / nan = nan)%float.
Proof. apply nan_char. rewrite div_spec, nan_sf. destruct (Prim2SF y); reflexivity. Qed.
Lemma nan_abs : PrimFloat.abs nan = nan. Proof. reflexivity. Qed.
Lemma nan_sqrt : PrimFloat.sqrt nan = nan. Proof. reflexivity. Qed.
Lemma nan_leb y : PrimFloat.leb nan y = false.
Proof. rewrite leb_spec, nan_sf. destruct (Prim2SF y); reflexivity. Qed.

#[global] Hint Rewrite nan_add_l nan_add_r nan_sub_l nan_sub_r nan_mul_l nan_mul_r nan_div_l nan_div_r nan_abs nan_sqrt : nan.

Lemma snd_bind_ok {L A B} (m : M L A) (k : A -> M L B) a : snd m = Ok a -> snd (mbind m k) = snd (k a).
Proof. intros H. unfold mbind. rewrite H. reflexivity. Qed.

Section N.
Variable pw : float -> float -> float.
Notation F := (FloatOps pw).
Definition nan_field : float -> list float -> list float := fun _ _ => [nan].
Let p := @MkP F nan_field (DormandPrince45 F) 1%float [1%float] 0.001%float 0.001%float None false None.

Lemma nan_step dt : exists st, snd (@s_step F _ (DormandPrince45 F) nan_field [0%float] 0%float dt (Some [nan])) =
  Ok (Ret4 [nan] [nan] [nan] st).
Proof.
  eexists. cbn. autorewrite with nan. cbn. reflexivity.
Qed.

Lemma nan_ratio : @error_ratio F 0.001%float 0.001%float None [0%float] [nan] [nan] = nan.
Proof.
  unfold error_ratio, hairer_norm. cbn. autorewrite with nan. reflexivity.
Qed.

Lemma nan_iter (st : astate F) : a_t st = 0%float -> a_x st = [0%float] -> a_k1 st = [nan] ->
  exists st', snd (@adaptive_iter F p st) = Ok st' /\ a_t st' = 0%float /\ a_x st' = [0%float] /\ a_k1 st' = [nan].
Proof.
  intros Et Ex Ek. unfold adaptive_iter. destruct (attempt_dt p st) as [h old].
  change (p_f p) with nan_field. change (p_solver p) with (DormandPrince45 F).
  rewrite Et, Ex, Ek. destruct (nan_step h) as (stg & E).
  match goal with |- exists st', snd (mbind ?m ?k) = Ok st' /\ ?P => 
    enough (X : exists st' : astate F, snd (k (Ret4 [nan] [nan] [nan] stg)) = Ok st' /\ a_t st' = 0%float /\ a_x st' = [0%float] /\ a_k1 st' = [nan]) end.
  { destruct X as (st' & X & Y). exists st'. split; [|exact Y]. exact (eq_trans (snd_bind_ok _ _ _ E) X). }
  cbv beta iota zeta. change (p_atol p) with 0.001%float. change (p_rtol p) with 0.001%float. change (p_semi p) with (@None nat).
  match goal with |- context [@nleb F ?r ?o] =>
    assert (Hl : @nleb F r o = false) by (change r with (@error_ratio F 0.001%float 0.001%float None [0%float] [nan] [nan]);
       rewrite nan_ratio; apply nan_leb); rewrite Hl end.
  eexists. split; [reflexivity|]. auto.
Qed.

Lemma nan_loop fuel : forall st : astate F, a_t st = 0%float -> a_x st = [0%float] -> a_k1 st = [nan] ->
  snd (@adaptive_loop F fuel p st) = OutOfFuel.
Proof.
  induction fuel as [|fuel IH]; intros st Et Ex Ek; cbn [adaptive_loop].
  - rewrite Et. reflexivity.
  - rewrite Et. change (@nltb F 0%float (p_T p)) with true. cbv iota.
    destruct (nan_iter st Et Ex Ek) as (st' & E & E1 & E2 & E3).
    refine (eq_trans (snd_bind_ok _ _ _ E) _). now apply IH.
Qed.

Lemma nan_init f0 : exists dt lg, @init_step F nan_field f0 [0%float] 0%float 5 0.001%float 0.001%float = (lg, Ok dt).
Proof. do 2 eexists. reflexivity. Qed.

Lemma nan_odeint fuel :
  snd (@odeint F fuel nan_field [0%float] (@TTensor F [0%float; 1%float]) (DormandPrince45 F)
    0.001%float 0.001%float false false [] None) = OutOfFuel.
Proof.
  destruct (nan_init [nan]) as (dt & lg & E).
  unfold odeint. unfold mbind at 1. change (snd (mlift (@prep_time F nan_field (@TTensor F [0%float; 1%float])))) with
    (@Ok ((float -> list float -> list float) * list float) (nan_field, [0%float; 1%float])).
  cbv iota beta. cbn [snd]. 
  unfold mbind at 1. cbn [mlift pyget nth_error snd].
  unfold mbind at 1. cbn [call snd].
  unfold mbind at 1.
  match goal with |- context [match snd ?m with _ => _ end] => 
    assert (E' : m = (lg, Ok dt)) by exact E; rewrite E' end.
  cbn [snd]. unfold adaptive_odeint. unfold mbind at 1. cbn [mlift pyget nth_error snd].
  unfold mbind at 1.  cbn [mlift pylast snd].
  apply nan_loop; reflexivity.
Qed.
End N.
