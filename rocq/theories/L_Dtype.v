(** Rounding of rationals is Flocq's rounding to nearest even; tableaux of a dtype. *)
From Coq Require Import ZArith QArith Qreals Reals Lra Lia List Bool.
From Verif Require Import Num Py Tensor M_Constants M_SolversOde M_Dtype.
From Flocq Require Import Core.
Local Open Scope R_scope.

Lemma nearest_even_spec a b : (0 < b)%Z -> ZnearestE (IZR a / IZR b) = nearest_even a b.
Proof.
  intros Hb. assert (Hb' : 0 < IZR b) by now apply IZR_lt.
  assert (Hf : Zfloor (IZR a / IZR b) = (a / b)%Z) by (apply Zfloor_div; lia).
  unfold nearest_even, Znearest. rewrite Hf.
  assert (Ha : IZR a = IZR b * IZR (a / b) + IZR (a mod b)).
  { rewrite <- mult_IZR, <- plus_IZR. f_equal. apply Z.div_mod. lia. }
  assert (Hr : IZR a / IZR b - IZR (a / b) = IZR (a mod b) / IZR b).
  { rewrite Ha. field. lra. }
  rewrite Hr.
  assert (Hc : (0 < a mod b)%Z -> Zceil (IZR a / IZR b) = (a / b + 1)%Z).
  { intros Hm. apply Zceil_imp. rewrite plus_IZR, minus_IZR, plus_IZR.
    apply IZR_lt in Hm. pose proof (IZR_lt _ _ (proj2 (Z.mod_pos_bound a b Hb))) as Hm2.
    assert (E : IZR a / IZR b = IZR (a / b) + IZR (a mod b) / IZR b) by lra.
    rewrite E.
    assert (0 < IZR (a mod b) / IZR b) by (apply Rdiv_lt_0_compat; lra).
    assert (IZR (a mod b) / IZR b < 1) by (apply (Rmult_lt_reg_r (IZR b)); [lra|]; unfold Rdiv; rewrite Rmult_assoc, Rinv_l, Rmult_1_r by lra; lra).
    lra. }
  destruct (Z.compare_spec (2 * (a mod b)) b) as [E|E|E].
  - rewrite Rcompare_Eq.
    + destruct (Z.even (a / b)); cbn [negb]; [reflexivity|]. apply Hc. lia.
    + apply (Rmult_eq_reg_r (2 * IZR b)); [|lra]. apply (f_equal IZR) in E. rewrite mult_IZR in E.
      replace (IZR (a mod b) / IZR b * (2 * IZR b)) with (2 * IZR (a mod b)) by (field; lra). lra.
  - rewrite Rcompare_Lt; [reflexivity|]. apply IZR_lt in E. rewrite mult_IZR in E.
    apply (Rmult_lt_reg_r (2 * IZR b)); [lra|]. replace (IZR (a mod b) / IZR b * (2 * IZR b)) with (2 * IZR (a mod b)) by (field; lra). lra.
  - rewrite Rcompare_Gt; [apply Hc; lia|]. apply IZR_lt in E. rewrite mult_IZR in E.
    apply (Rmult_lt_reg_r (2 * IZR b)); [lra|]. replace (IZR (a mod b) / IZR b * (2 * IZR b)) with (2 * IZR (a mod b)) by (field; lra). lra.
Qed.

Lemma bpow_max e : bpow radix2 e = IZR (2 ^ Z.max 0 e) / IZR (2 ^ Z.max 0 (- e)).
Proof.
  destruct (Z.le_gt_cases 0 e).
  - rewrite Z.max_r, (Z.max_l 0 (- e)) by lia. rewrite <- (IZR_Zpower radix2) by lia. cbn. unfold Rdiv. rewrite Rinv_1, Rmult_1_r. reflexivity.
  - rewrite Z.max_l, (Z.max_r 0 (- e)) by lia. assert (E : IZR (2 ^ - e) = bpow radix2 (- e)) by (apply (IZR_Zpower radix2); lia).
    rewrite E, bpow_opp. cbn [Z.pow]. pose proof (bpow_gt_0 radix2 e). field. lra.
Qed.

Lemma pow2_pos z : (0 < 2 ^ Z.max 0 z)%Z.
Proof. apply Z.pow_pos_nonneg; lia. Qed.
Lemma pow2_posR z : 0 < IZR (2 ^ Z.max 0 z).
Proof. apply IZR_lt, pow2_pos. Qed.

Lemma scaled_spec n d e : (0 < d)%Z -> let '(a, b) := scaled n d e in
  (0 < b)%Z /\ IZR a / IZR b = IZR n / IZR d * bpow radix2 (- e).
Proof.
  intros Hd. unfold scaled. split; [apply Z.mul_pos_pos; [lia|apply pow2_pos]|].
  rewrite bpow_max, Z.opp_involutive, !mult_IZR. pose proof (pow2_posR e). pose proof (pow2_posR (- e)).
  apply IZR_lt in Hd. field. lra.
Qed.

Lemma exponent_spec p n d : (1 < p)%Z -> n <> 0%Z -> (0 < d)%Z ->
  bpow radix2 (p - 1 + exponent p n d) <= Rabs (IZR n / IZR d) < bpow radix2 (p + exponent p n d).
Proof.
  intros Hp Hn Hd. unfold exponent. set (e := (Z.log2 (Z.abs n) - Z.log2 d - p)%Z).
  pose proof (scaled_spec (Z.abs n) d e Hd) as Hs. destruct (scaled (Z.abs n) d e) as [a b]. destruct Hs as [Hb Hs].
  assert (Hd' : 0 < IZR d) by now apply IZR_lt. assert (Hb' : 0 < IZR b) by now apply IZR_lt.
  assert (Hx : Rabs (IZR n / IZR d) = IZR (Z.abs n) / IZR d).
  { unfold Rdiv. rewrite Rabs_mult, abs_IZR, Rabs_inv, (Rabs_pos_eq (IZR d)) by lra. reflexivity. }
  rewrite Hx. clear Hx.
  assert (L : bpow radix2 (Z.log2 (Z.abs n)) <= IZR (Z.abs n) < bpow radix2 (Z.log2 (Z.abs n) + 1)).
  { pose proof (Z.log2_spec (Z.abs n) ltac:(lia)) as [L1 L2]. pose proof (Z.log2_nonneg (Z.abs n)).
    rewrite <- !(IZR_Zpower radix2) by lia. split; [apply IZR_le; exact L1|apply IZR_lt; exact L2]. }
  assert (M : bpow radix2 (Z.log2 d) <= IZR d < bpow radix2 (Z.log2 d + 1)).
  { pose proof (Z.log2_spec d Hd) as [L1 L2]. pose proof (Z.log2_nonneg d).
    rewrite <- !(IZR_Zpower radix2) by lia. split; [apply IZR_le; exact L1|apply IZR_lt; exact L2]. }
  set (l := Z.log2 (Z.abs n)) in *. set (k := Z.log2 d) in *. set (N := IZR (Z.abs n)) in *. set (D := IZR d) in *.
  assert (B1 : bpow radix2 (l - k - 1) <= N / D).
  { apply (Rmult_le_reg_r D); auto. unfold Rdiv. rewrite Rmult_assoc, Rinv_l, Rmult_1_r by lra.
    apply Rle_trans with (bpow radix2 (l - k - 1) * bpow radix2 (k + 1)).
    - apply Rmult_le_compat_l; [apply bpow_ge_0|lra].
    - rewrite <- bpow_plus. replace (l - k - 1 + (k + 1))%Z with l by lia. lra. }
  assert (B2 : N / D < bpow radix2 (l - k + 1)).
  { apply (Rmult_lt_reg_r D); auto. unfold Rdiv. rewrite Rmult_assoc, Rinv_l, Rmult_1_r by lra.
    apply Rlt_le_trans with (bpow radix2 (l - k + 1) * bpow radix2 k).
    - rewrite <- bpow_plus. replace (l - k + 1 + k)%Z with (l + 1)%Z by lia. lra.
    - apply Rmult_le_compat_l; [apply bpow_ge_0|lra]. }
  assert (C : bpow radix2 p * IZR b = IZR (2 ^ p * b)) by (rewrite mult_IZR, <- (IZR_Zpower radix2) by lia; reflexivity).
  assert (Hs' : N / D = IZR a / IZR b * bpow radix2 e).
  { rewrite Hs, Rmult_assoc, <- bpow_plus. replace (- e + e)%Z with 0%Z by lia. cbn. ring. }
  pose proof (bpow_gt_0 radix2 e) as He.
  destruct (Z.leb_spec (2 ^ p * b) a) as [G|G].
  - replace (p - 1 + (e + 1))%Z with (p + e)%Z by lia. replace (p + (e + 1))%Z with (l - k + 1)%Z by (unfold e; lia).
    split; [|exact B2]. rewrite Hs', bpow_plus. apply Rmult_le_compat_r; [lra|].
    apply (Rmult_le_reg_r (IZR b)); auto. unfold Rdiv. rewrite Rmult_assoc, Rinv_l, Rmult_1_r by lra. rewrite C. now apply IZR_le.
  - split.
    + replace (p - 1 + e)%Z with (l - k - 1)%Z by (unfold e; lia). exact B1.
    + rewrite Hs', bpow_plus. apply Rmult_lt_compat_r; [lra|].
      apply (Rmult_lt_reg_r (IZR b)); auto. unfold Rdiv. rewrite Rmult_assoc, Rinv_l, Rmult_1_r by lra. rewrite C. now apply IZR_lt.
Qed.

(** [round_to p] is rounding to nearest, ties to even, with [p] significant bits and unbounded exponents *)
Lemma round_to_spec p q : (1 < p)%Z -> Q2R (round_to p q) = round radix2 (FLX_exp p) ZnearestE (Q2R q).
Proof.
  intros Hp. unfold round_to. destruct q as [n d]. cbn [Qnum Qden].
  destruct (Z.eqb_spec n 0) as [->|Hn].
  { assert (E : Q2R (0 # d) = 0) by (unfold Q2R; cbn; ring). rewrite E, round_0 by apply valid_rnd_N. unfold Q2R; cbn; ring. }
  set (e := exponent p n (Z.pos d)).
  pose proof (exponent_spec p n (Z.pos d) Hp Hn ltac:(lia)) as He. fold e in He.
  pose proof (scaled_spec n (Z.pos d) e ltac:(lia)) as Hs. destruct (scaled n (Z.pos d) e) as [a b]. destruct Hs as [Hb Hs].
  rewrite (Qeq_eqR _ _ (Qred_correct _)).
  assert (Hq : Q2R (n # d) = IZR n / IZR (Z.pos d)) by reflexivity. rewrite Hq.
  assert (Hm : mag_val radix2 _ (mag radix2 (IZR n / IZR (Z.pos d))) = (p + e)%Z).
  { apply mag_unique. replace (p + e - 1)%Z with (p - 1 + e)%Z by lia. exact He. }
  unfold round, scaled_mantissa, cexp, FLX_exp. rewrite Hm. replace (p + e - p)%Z with e by lia.
  rewrite <- Hs, (nearest_even_spec a b Hb). unfold F2R. cbn [Fnum Fexp].
  unfold Q2R. cbn [Qnum Qden]. rewrite mult_IZR, bpow_max.
  rewrite Z2Pos.id by apply pow2_pos. unfold Rdiv. ring.
Qed.
