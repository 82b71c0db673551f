(** Facts about Coq's primitive binary64 numbers, obtained from Flocq's description of them: exact
    landing (Sterbenz), monotonicity of rounding and signs of results. *)
From Coq Require Import ZArith QArith Reals Lra Lia List Bool Floats.
From Flocq Require Import Core Sterbenz BinarySingleNaN.
From Flocq Require Import IEEE754.PrimFloat.
From Verif Require Import Num Py Tensor.
Import ListNotations.
Local Open Scope R_scope.

#[local] Existing Instance Hprec.
#[local] Existing Instance Hmax.
Local Notation float := PrimFloat.float.
Notation fexp64 := (SpecFloat.fexp prec emax).
Notation rnd64 := (round radix2 fexp64 ZnearestE).
Notation top64 := (bpow radix2 emax).

Definition FR (x : float) : R := B2R (Prim2B x).
Definition fin (x : float) : Prop := is_finite (Prim2B x) = true.
Definition isnan (x : float) : Prop := is_nan (Prim2B x) = true.

(** Not negative: NaN, either zero, or a positive number (possibly infinite). *)
Definition nnB (b : binary_float prec emax) : Prop :=
  match b with
  | B754_infinity s => s = false
  | B754_finite s _ _ _ => s = false
  | _ => True
  end.
Definition nn (x : float) : Prop := nnB (Prim2B x).
(** Neither negative nor zero. *)
Definition pos (x : float) : Prop :=
  match Prim2B x with
  | B754_infinity s => s = false
  | B754_finite s _ _ _ => s = false
  | B754_zero _ => False
  | B754_nan => True
  end.

#[export] Instance valid64 : Valid_exp fexp64.
Proof. exact (fexp_correct prec emax Hprec). Qed.

#[export] Instance mono64 : Monotone_exp fexp64.
Proof. exact (fexp_monotone prec emax). Qed.

Lemma FR_fmt : forall x, generic_format radix2 fexp64 (FR x).
Proof. intros x. apply generic_format_B2R. Qed.

Lemma FR_top : forall x, Rabs (FR x) < top64.
Proof. intros x. apply abs_B2R_lt_emax. Qed.

Lemma rnd64_le : forall x y, x <= y -> rnd64 x <= rnd64 y.
Proof. intros. apply round_le; auto with typeclass_instances. Qed.

Lemma rnd64_id : forall x, generic_format radix2 fexp64 x -> rnd64 x = x.
Proof. intros. apply round_generic; auto with typeclass_instances. Qed.

Lemma fin_ltb : forall x y, fin x -> fin y -> PrimFloat.ltb x y = Rlt_bool (FR x) (FR y).
Proof. intros x y Fx Fy. rewrite ltb_equiv. now apply Bltb_correct. Qed.
Lemma fin_leb : forall x y, fin x -> fin y -> PrimFloat.leb x y = Rle_bool (FR x) (FR y).
Proof. intros x y Fx Fy. rewrite leb_equiv. now apply Bleb_correct. Qed.
Lemma fin_eqb : forall x y, fin x -> fin y -> PrimFloat.eqb x y = Req_bool (FR x) (FR y).
Proof. intros x y Fx Fy. rewrite eqb_equiv. now apply Beqb_correct. Qed.

Lemma fin_inj : forall x y, fin x -> fin y -> FR x = FR y -> FR x <> 0 -> x = y.
Proof.
  intros x y Fx Fy E N. apply Prim2B_inj. unfold fin, FR in *.
  assert (S : forall b : binary_float prec emax, is_finite b = true -> B2R b <> 0 -> is_finite_strict b = true).
  { intros [s|s| |s m e H] F Z; simpl in *; try discriminate; try reflexivity; now elim Z. }
  apply B2R_inj; [now apply S| apply S; [assumption | now rewrite <- E] | assumption].
Qed.

(** Additions and subtractions whose result does not overflow. *)
Lemma add_ok : forall x y, fin x -> fin y -> Rabs (rnd64 (FR x + FR y)) < top64 ->
  fin (PrimFloat.add x y) /\ FR (PrimFloat.add x y) = rnd64 (FR x + FR y).
Proof.
  intros x y Fx Fy B. unfold fin, FR. rewrite add_equiv.
  pose proof (Bplus_correct prec emax Hprec Hmax mode_NE _ _ Fx Fy) as C.
  rewrite Rlt_bool_true in C by exact B. destruct C as (C1 & C2 & _). split; assumption.
Qed.
Lemma sub_ok : forall x y, fin x -> fin y -> Rabs (rnd64 (FR x - FR y)) < top64 ->
  fin (PrimFloat.sub x y) /\ FR (PrimFloat.sub x y) = rnd64 (FR x - FR y).
Proof.
  intros x y Fx Fy B. unfold fin, FR. rewrite sub_equiv.
  pose proof (Bminus_correct prec emax Hprec Hmax mode_NE _ _ Fx Fy) as C.
  rewrite Rlt_bool_true in C by exact B. destruct C as (C1 & C2 & _). split; assumption.
Qed.

Lemma rnd64_between : forall a b x, generic_format radix2 fexp64 a -> generic_format radix2 fexp64 b ->
  a <= x <= b -> a <= rnd64 x <= b.
Proof.
  intros a b x Ha Hb [H1 H2]. split.
  - rewrite <- (rnd64_id a Ha). now apply rnd64_le.
  - rewrite <- (rnd64_id b Hb). now apply rnd64_le.
Qed.

Lemma rnd64_small : forall a b x, generic_format radix2 fexp64 a -> generic_format radix2 fexp64 b ->
  Rabs a < top64 -> Rabs b < top64 -> a <= x <= b -> Rabs (rnd64 x) < top64.
Proof.
  intros a b x Ha Hb Ba Bb H. pose proof (rnd64_between a b x Ha Hb H) as [H1 H2].
  apply Rabs_def2 in Ba. apply Rabs_def2 in Bb. apply Rabs_def1; lra.
Qed.

(** ** Landing *)
(** the distance between numbers of one sign within a factor two is exact *)
Definition near (t b : float) : Prop :=
  FR t <= FR b /\ ((0 < FR t /\ FR b <= 2 * FR t) \/ (FR b < 0 /\ 2 * FR b <= FR t)).

Lemma near_sub : forall t b, fin t -> fin b -> near t b ->
  fin (PrimFloat.sub b t) /\ FR (PrimFloat.sub b t) = FR b - FR t.
Proof.
  intros t b Ft Fb [L N].
  assert (G : generic_format radix2 fexp64 (FR b - FR t)).
  { destruct N as [[P H]|[P H]].
    - apply sterbenz; try apply FR_fmt; auto with typeclass_instances. lra.
    - replace (FR b - FR t) with (- FR t - - FR b) by ring.
      apply sterbenz; try (apply generic_format_opp; apply FR_fmt); auto with typeclass_instances. lra. }
  pose proof (rnd64_id _ G) as E.
  destruct (sub_ok b t Fb Ft) as [F1 F2].
  - rewrite E. pose proof (FR_top b) as B1. pose proof (FR_top t) as B2.
    apply Rabs_def2 in B1. apply Rabs_def2 in B2. destruct N as [N|N]; apply Rabs_def1; lra.
  - split; [assumption|]. rewrite F2. exact E.
Qed.

Lemma landing : forall t b, fin t -> fin b -> near t b ->
  PrimFloat.add t (PrimFloat.sub b t) = b.
Proof.
  intros t b Ft Fb N. destruct (near_sub t b Ft Fb N) as [F1 E1].
  assert (E : rnd64 (FR t + FR (PrimFloat.sub b t)) = FR b).
  { rewrite E1. replace (FR t + (FR b - FR t)) with (FR b) by ring. apply rnd64_id, FR_fmt. }
  destruct (add_ok t _ Ft F1) as [F2 E2].
  - rewrite E. apply FR_top.
  - apply fin_inj; [assumption|assumption| rewrite E2; exact E|]. rewrite E2, E. destruct N as [L [N|N]]; lra.
Qed.

(** ** Signs *)
Lemma nn_ltb : forall x, nn x <-> PrimFloat.ltb x 0%float = false.
Proof.
  intros x. rewrite ltb_equiv. replace (Prim2B 0%float) with (B754_zero false : binary_float prec emax).
  2:{ change 0%float with PrimFloat.zero. rewrite zero_equiv, Prim2B_B2Prim. reflexivity. }
  unfold nn. destruct (Prim2B x) as [s|s| |s m e H]; unfold Bltb; simpl; try destruct s; simpl;
    split; auto; congruence.
Qed.

Lemma nn_FR : forall x, nn x -> 0 <= FR x.
Proof.
  intros x. unfold nn, FR. destruct (Prim2B x) as [s|s| |s m e H]; simpl; intros; try lra.
  subst. apply F2R_ge_0. simpl. lia.
Qed.

Lemma FR_nn : forall x, fin x -> 0 <= FR x -> nn x.
Proof.
  intros x. unfold nn, FR, fin. destruct (Prim2B x) as [s|s| |s m e H]; simpl; intros F G; auto; try discriminate.
  destruct s; [|reflexivity]. exfalso.
  assert (F2R (Float radix2 (Z.neg m) e) < 0) by (apply F2R_lt_0; simpl; lia). simpl in *. lra.
Qed.

Lemma isnan_nn : forall x, isnan x -> nn x.
Proof. intros x. unfold isnan, nn. destruct (Prim2B x); simpl; auto; discriminate. Qed.

Lemma pos_nn : forall x, pos x -> nn x.
Proof. intros x. unfold pos, nn. destruct (Prim2B x); simpl; auto. Qed.

(** what is known of a number that is not negative *)
Lemma nn_cases : forall x, nn x -> isnan x \/ fin x \/ Prim2B x = B754_infinity false.
Proof.
  intros x. unfold nn, isnan, fin. destruct (Prim2B x) as [s|s| |s m e H]; simpl; auto. intros ->. auto.
Qed.

Lemma nnB_sign : forall b, is_nan b = true \/ Bsign b = false \/ b = B754_zero true -> nnB b.
Proof.
  intros [s|s| |s m e H] [H1|[H1|H1]]; simpl in *; auto; try discriminate.
Qed.

Lemma finite_not_nan : forall b : binary_float prec emax, is_finite b = true -> is_nan b = false.
Proof. intros [s|s| |s m e H] E; try reflexivity; discriminate. Qed.

Lemma overflow_false : forall b : binary_float prec emax,
  B2SF b = binary_overflow prec emax mode_NE false -> b = B754_infinity false.
Proof. intros [s|s| |s m e H] E; try discriminate. now injection E as ->. Qed.

Lemma nnB_mult : forall a b, nnB a -> nnB b -> nnB (Bmult mode_NE a b : binary_float prec emax).
Proof.
  intros a b Ha Hb.
  destruct a as [s|s| |s m e H]; destruct b as [s'|s'| |s' m' e' H']; try exact I; try (simpl in *; subst; reflexivity).
  set (A := B754_finite s m e H) in *. set (B := B754_finite s' m' e' H') in *.
  simpl in Ha, Hb. subst s s'.
  pose proof (Bmult_correct prec emax Hprec Hmax mode_NE A B) as C.
  destruct (Rlt_bool _ _).
  - destruct C as (_ & F & S). apply nnB_sign. right. left. apply S. apply finite_not_nan. exact F.
  - apply overflow_false in C. change (nnB (Bmult mode_NE A B)). rewrite C. reflexivity.
Qed.

Lemma nn_mul : forall x y, nn x -> nn y -> nn (PrimFloat.mul x y).
Proof. intros x y. unfold nn. rewrite mul_equiv. apply nnB_mult. Qed.

Lemma nn_div : forall x y, nn x -> pos y -> nn (PrimFloat.div x y).
Proof.
  intros x y. unfold nn, pos. rewrite div_equiv. intros Ha Hb.
  destruct (Prim2B x) as [s|s| |s m e H]; destruct (Prim2B y) as [s'|s'| |s' m' e' H']; try exact I;
    try (now elim Hb); try (simpl in *; subst; reflexivity).
  set (A := B754_finite s m e H) in *. set (B := B754_finite s' m' e' H') in *.
  simpl in Ha, Hb. subst s s'.
  assert (NZ : B2R B <> 0).
  { unfold B. simpl. apply Rgt_not_eq. apply F2R_gt_0. simpl. lia. }
  pose proof (Bdiv_correct prec emax Hprec Hmax mode_NE A B NZ) as C.
  destruct (Rlt_bool _ _).
  - destruct C as (_ & F & S). apply nnB_sign. right. left. apply S. apply finite_not_nan. exact F.
  - apply overflow_false in C. change (nnB (Bdiv mode_NE A B)). rewrite C. reflexivity.
Qed.

Lemma nn_sqrt : forall x, nn (PrimFloat.sqrt x).
Proof.
  intros x. unfold nn. rewrite sqrt_equiv.
  pose proof (Bsqrt_correct prec emax Hprec Hmax mode_NE (Prim2B x)) as (_ & F & S).
  destruct (Prim2B x) as [s|s| |s m e H]; try exact I.
  - destruct s; simpl; auto.
  - destruct s; [exact I|].
    apply nnB_sign. right. left. apply S. apply finite_not_nan. exact F.
Qed.

Lemma nn_sub : forall x y, fin x -> fin y -> FR y <= FR x -> nn (PrimFloat.sub x y).
Proof.
  intros x y Fx Fy L. unfold nn. rewrite sub_equiv.
  pose proof (Bminus_correct prec emax Hprec Hmax mode_NE _ _ Fx Fy) as C.
  fold (FR x) in C. fold (FR y) in C.
  destruct (Rlt_bool_spec (Rabs (round radix2 fexp64 (round_mode mode_NE) (FR x - FR y))) top64) as [B|B].
  - destruct C as (E & F & _). destruct (sub_ok x y Fx Fy B) as [F' E'].
    rewrite <- sub_equiv. apply FR_nn; [exact F'|]. rewrite E'.
    rewrite <- (rnd64_id 0) by apply generic_format_0. apply rnd64_le. lra.
  - destruct C as (O & S). destruct (Bsign (Prim2B x)) eqn:Sx.
    + exfalso. (* x <= 0 <= y *)
      assert (FR x <= 0 /\ 0 <= FR y) as [X Y].
      { unfold FR, fin in *. destruct (Prim2B x) as [s|s| |s m e H]; try discriminate;
        destruct (Prim2B y) as [s'|s'| |s' m' e' H']; try discriminate; simpl in *; subst; destruct s'; try discriminate;
        split; try lra; try (apply F2R_le_0; simpl; lia); try (apply F2R_ge_0; simpl; lia). }
      replace (FR x - FR y) with 0 in B by lra. simpl in B.
      rewrite (rnd64_id 0) in B by apply generic_format_0. rewrite Rabs_R0 in B.
      pose proof (bpow_gt_0 radix2 emax). lra.
    + apply overflow_false in O. rewrite O. reflexivity.
Qed.

(** A step that is not clipped by [T] moves forwards and not beyond [T]. *)
Lemma noclip : forall t T dt, fin t -> fin T -> nn dt -> ~ isnan dt ->
  PrimFloat.ltb T (PrimFloat.add t dt) = false ->
  fin dt /\ fin (PrimFloat.add t dt) /\ FR t <= FR (PrimFloat.add t dt) <= FR T /\ 0 <= FR dt /\
  FR (PrimFloat.add t dt) = rnd64 (FR t + FR dt).
Proof.
  intros t T dt Ft FT Nd Nn L.
  assert (INF : forall b, b = B754_infinity false -> Bltb (Prim2B T) b = true).
  { intros b ->. unfold fin in FT. destruct (Prim2B T) as [s|s| |s m e H]; try discriminate; reflexivity. }
  destruct (nn_cases dt Nd) as [N|[F|I]]; [now elim Nn| |].
  2:{ exfalso. rewrite ltb_equiv, add_equiv, I in L. unfold fin in Ft.
      rewrite INF in L; [discriminate|]. destruct (Prim2B t); try discriminate; reflexivity. }
  pose proof (nn_FR dt Nd) as P.
  assert (M : FR t <= rnd64 (FR t + FR dt)).
  { rewrite <- (rnd64_id (FR t)) at 1 by apply FR_fmt. apply rnd64_le. lra. }
  destruct (Rlt_bool_spec (Rabs (rnd64 (FR t + FR dt))) top64) as [B|B].
  - destruct (add_ok t dt Ft F B) as [F' E'].
    rewrite fin_ltb in L by assumption.
    destruct (Rlt_bool_spec (FR T) (FR (PrimFloat.add t dt))) as [H|H]; [discriminate|].
    repeat split; try assumption. rewrite E'. exact M.
  - exfalso.
    pose proof (Bplus_correct prec emax Hprec Hmax mode_NE _ _ Ft F) as C.
    fold (FR t) in C. fold (FR dt) in C.
    rewrite Rlt_bool_false in C by exact B. destruct C as (O & S).
    destruct (Bsign (Prim2B t)) eqn:St.
    + assert (Z : FR dt = 0).
      { unfold FR, nn, fin in *. destruct (Prim2B dt) as [s|s| |s m e H]; try discriminate; [reflexivity|].
        simpl in *. subst. discriminate. }
      rewrite Z, Rplus_0_r, rnd64_id in B by apply FR_fmt. pose proof (FR_top t). lra.
    + apply overflow_false in O. rewrite ltb_equiv, add_equiv, INF in L; [discriminate|exact O].
Qed.

(** ** NaN *)
Lemma nan_mul_l : forall x y, isnan x -> isnan (PrimFloat.mul x y).
Proof. intros x y. unfold isnan. rewrite mul_equiv. destruct (Prim2B x); try discriminate. now destruct (Prim2B y). Qed.
Lemma nan_mul_r : forall x y, isnan y -> isnan (PrimFloat.mul x y).
Proof. intros x y. unfold isnan. rewrite mul_equiv. destruct (Prim2B y); try discriminate. now destruct (Prim2B x). Qed.
Lemma nan_div_l : forall x y, isnan x -> isnan (PrimFloat.div x y).
Proof. intros x y. unfold isnan. rewrite div_equiv. destruct (Prim2B x); try discriminate. now destruct (Prim2B y). Qed.
Lemma nan_add_l : forall x y, isnan x -> isnan (PrimFloat.add x y).
Proof. intros x y. unfold isnan. rewrite add_equiv. destruct (Prim2B x); try discriminate. now destruct (Prim2B y). Qed.
Lemma nan_add_r : forall x y, isnan y -> isnan (PrimFloat.add x y).
Proof. intros x y. unfold isnan. rewrite add_equiv. destruct (Prim2B y); try discriminate. now destruct (Prim2B x). Qed.
Lemma nan_sub_r : forall x y, isnan y -> isnan (PrimFloat.sub x y).
Proof. intros x y. unfold isnan. rewrite sub_equiv. destruct (Prim2B y); try discriminate. now destruct (Prim2B x). Qed.
Lemma nan_sub_l : forall x y, isnan x -> isnan (PrimFloat.sub x y).
Proof. intros x y. unfold isnan. rewrite sub_equiv. destruct (Prim2B x); try discriminate. now destruct (Prim2B y). Qed.
Lemma nan_abs : forall x, isnan x -> isnan (PrimFloat.abs x).
Proof. intros x. unfold isnan. rewrite abs_equiv. destruct (Prim2B x); try discriminate. reflexivity. Qed.
Lemma nan_sqrt : forall x, isnan x -> isnan (PrimFloat.sqrt x).
Proof. intros x. unfold isnan. rewrite sqrt_equiv. destruct (Prim2B x); try discriminate. reflexivity. Qed.
Lemma nan_leb : forall x y, isnan x -> PrimFloat.leb x y = false.
Proof. intros x y. unfold isnan. rewrite leb_equiv. destruct (Prim2B x); try discriminate. reflexivity. Qed.
Lemma nan_dec : forall x, isnan x \/ ~ isnan x.
Proof. intros x. unfold isnan. destruct (is_nan (Prim2B x)); auto. Qed.
Lemma nan_test : forall x, isnan x <-> is_nan_f x = true.
Proof.
  intros x. unfold is_nan_f, isnan. rewrite eqb_equiv, Beqb_refl, negb_involutive. tauto.
Qed.
