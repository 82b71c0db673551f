(** Proofs of the properties of the bases of the Galerkin layers. *)
From Coq Require Import ZArith QArith Qreals Reals Lra Lia String List Bool.
From Verif Require Import Num Py Tensor M_Nn Spec_Nn Spec_Root L_Base L_Root Pf_Gal.
Import ListNotations.
Local Open Scope R_scope.
Local Notation length := List.length.
Notation rvl := (list R).

(** ** The range of a layer *)
Lemma linspace_len (a b : R) k : length (@linspace ROps a b k) = k.
Proof. destruct k as [|[|k]]; [reflexivity|reflexivity|]. unfold linspace. now rewrite map_length, seq_length. Qed.
Lemma linspace_nth deg k : (2 <= deg)%nat -> (k < deg)%nat -> nth k (@linspace ROps 0 (INR deg) deg) 0 = INR k * (INR deg / INR (deg - 1)).
Proof.
  intros Hd Hk. destruct deg as [|[|deg]]; try lia. unfold linspace. set (n := S (S deg)) in *.
  set (F := fun i : nat => if (i <? n / 2)%nat then _ else _).
  change (num ROps) with R. rewrite nth_indep with (d' := F 0%nat) by (rewrite map_length, seq_length; auto). rewrite map_nth, seq_nth by auto. cbn [plus]. unfold F.
  rewrite !nnat_INR. rops. assert (Hp : 0 < INR (n - 1)) by (apply lt_0_INR; unfold n; lia).
  destruct (k <? n / 2)%nat; [field; lra|]. replace (n - k - 1)%nat with ((n - 1) - k)%nat by lia. rewrite (minus_INR (n - 1) k) by lia.
  field. lra.
Qed.

(** ** Chebychev *)
Lemma cheb_loop_nth s : forall k a b i, (i < k)%nat ->
  nth i (@cheb_loop ROps k s a b) 0 = 2 * s * nth i (b :: @cheb_loop ROps k s a b) 0 - nth i (a :: b :: @cheb_loop ROps k s a b) 0.
Proof.
  induction k as [|k IH]; intros a b i Hi; [lia|]. cbn [cheb_loop]. rops. rewrite Q2R_two. set (c := b * (2 * s) - a).
  destruct i as [|i]; [cbn [nth]; unfold c; ring|]. cbn [nth]. rewrite IH by lia. destruct i as [|i]; reflexivity.
Qed.
Lemma cheb_loop_len s : forall k a b, length (@cheb_loop ROps k s a b) = k.
Proof. induction k as [|k IH]; intros a b; cbn; auto. Qed.

(** The basis of a layer with Chebychev(deg) has deg entries: T_0 = 1, T_1 = s and
    T_{k+2} = 2 s T_{k+1} - T_k *)
Lemma C53_chebychev_recurrence_pf : forall deg s, (1 <= deg)%nat ->
  exists T, @chebychev ROps deg (@linspace ROps 0 (INR deg) deg) s = Ok [T] /\ length T = deg /\ nth 0 T 0 = 1 /\
    ((2 <= deg)%nat -> nth 1 T 0 = s) /\
    forall k, (k + 2 < deg)%nat -> nth (k + 2) T 0 = 2 * s * nth (k + 1) T 0 - nth k T 0.
Proof.
  intros deg s Hd. unfold chebychev. pose proof (linspace_len 0 (INR deg) deg) as HL.
  destruct (@linspace ROps 0 (INR deg) deg) as [|a l]; [cbn in HL; lia|]. clear a l HL.
  exists (@cheb_basis ROps (if (deg =? 1)%nat then 0 else deg) s). split; [reflexivity|].
  destruct (Nat.eqb_spec deg 1) as [->|Hn].
  - unfold cheb_basis. cbn [Nat.ltb Nat.leb]. rops. rewrite Q2R_1'. repeat split; intros; lia.
  - unfold cheb_basis. replace (0 <? deg)%nat with true by (symmetry; apply Nat.ltb_lt; lia). rops. rewrite Q2R_1'.
    split; [cbn; rewrite cheb_loop_len; lia|]. split; [reflexivity|]. split; [reflexivity|]. intros k Hk.
    replace (k + 2)%nat with (S (S k)) by lia. replace (k + 1)%nat with (S k) by lia. cbn [nth].
    rewrite cheb_loop_nth by lia. reflexivity.
Qed.

(** … that is, entry k at s = cos a is cos (k a) *)
Lemma C53_chebychev_pf : forall deg a, (1 <= deg)%nat ->
  exists T, @chebychev ROps deg (@linspace ROps 0 (INR deg) deg) (cos a) = Ok [T] /\ length T = deg /\
    forall k, (k < deg)%nat -> nth k T 0 = cos (INR k * a).
Proof.
  intros deg a Hd. destruct (C53_chebychev_recurrence_pf deg (cos a) Hd) as (T & E & L & T0 & T1 & TR).
  exists T. split; auto. split; auto.
  assert (H : forall k, ((k < deg)%nat -> nth k T 0 = cos (INR k * a)) /\ ((S k < deg)%nat -> nth (S k) T 0 = cos (INR (S k) * a))).
  { induction k as [|k (I1 & I2)].
    - split; intros Hk.
      + rewrite T0. cbn. now rewrite Rmult_0_l, cos_0.
      + rewrite T1 by lia. cbn. now rewrite Rmult_1_l.
    - split; auto. intros Hk. replace (S (S k)) with (k + 2)%nat at 1 by lia. rewrite TR by lia. replace (k + 1)%nat with (S k) by lia. rewrite I1, I2 by lia.
      rewrite !S_INR. set (x := INR k). replace ((x + 1 + 1) * a) with ((x + 1) * a + a) by ring. replace (x * a) with ((x + 1) * a - a) by ring.
      rewrite cos_plus, cos_minus. match goal with |- ?l = ?r => change (@eq R l r) end. ring. }
  intros k Hk. now apply H.
Qed.

Lemma C53_chebychev_ex_pf : @chebychev ROps 4 (@linspace ROps 0 (INR 4) 4) (cos 0) = Ok [[1; 1; 1; 1]].
Proof.
  destruct (C53_chebychev_pf 4 0 ltac:(lia)) as (T & E & L & H). rewrite E. do 2 f_equal.
  destruct T as [|a [|b [|c [|d [|? ?]]]]]; try discriminate.
  pose proof (H 0 ltac:(lia))%nat as H0. pose proof (H 1 ltac:(lia))%nat as H1. pose proof (H 2 ltac:(lia))%nat as H2. pose proof (H 3 ltac:(lia))%nat as H3.
  rewrite Rmult_0_r, cos_0 in *. cbn in *. now subst.
Qed.

(** ** Polynomial: the exponents are linspace(0, deg, deg), not 0, 1, ..., deg-1.  From deg = 3 on
    entry 1 at s = 2 is not an integer power of 2 *)
Lemma C53_polynomial_refuted_pf : forall deg, (3 <= deg)%nat ->
  exists P, @polynomial ROps (@linspace ROps 0 (INR deg) deg) 2 = Ok [P] /\ length P = deg /\
    forall k : nat, nth 1 P 0 <> 2 ^ k.
Proof.
  intros deg Hd. eexists. split; [reflexivity|]. split; [rewrite map_length; apply linspace_len|]. intros k.
  pose proof (linspace_len 0 (INR deg) deg) as HL. change (num ROps) with R in *.
  set (F := fun k0 : R => @npowr ROps 2 k0). refine (eq_ind_r (fun z => z <> 2 ^ k) _ (nth_indep _ 0 (F 0) _)); [|rewrite map_length; lia]. rewrite (map_nth F).
  rewrite linspace_nth by lia. unfold F. rops. unfold Rpw. destruct (Req_EM_T 2 0) as [E|_]; [lra|].
  change (INR 1) with 1. rewrite Rmult_1_l. set (q := INR deg / INR (deg - 1)).
  assert (Hq : 1 < q < 2).
  { unfold q. assert (Hp : INR (deg - 1) = INR deg - 1) by (rewrite minus_INR by lia; reflexivity). rewrite Hp.
    assert (H3 : 3 <= INR deg) by (replace 3 with (INR 3) by (cbn; lra); now apply le_INR).
    split; [apply (Rmult_lt_reg_r (INR deg - 1)); [lra|]|apply (Rmult_lt_reg_r (INR deg - 1)); [lra|]]; unfold Rdiv; rewrite Rmult_assoc, Rinv_l by lra; lra. }
  assert (B1 : Rpower 2 1 < Rpower 2 q) by (apply Rpower_lt; lra). assert (B2 : Rpower 2 q < Rpower 2 2) by (apply Rpower_lt; lra).
  rewrite Rpower_1 in B1 by lra. assert (B3 : Rpower 2 2 = 2 ^ 2) by (rewrite <- (Rpower_pow 2 2) by lra; f_equal; cbn; lra). rewrite B3 in B2.
  destruct k as [|[|k]]; [cbn; lra|cbn; lra|]. intros E. rewrite E in B2. cbn in B2.
  assert (1 <= 2 ^ k) by (apply pow_R1_Rle; lra). lra.
Qed.

(** Up to degree 2 the exponents are integers: 0, then 0 and 2 *)
Lemma C53_polynomial_partial_pf : forall s, 0 < s ->
  @polynomial ROps (@linspace ROps 0 (INR 1) 1) s = Ok [[1]] /\ @polynomial ROps (@linspace ROps 0 (INR 2) 2) s = Ok [[1; s ^ 2]].
Proof.
  intros s Hs. assert (P0 : Rpw s 0 = 1) by (unfold Rpw; destruct (Req_EM_T s 0); [lra|]; apply Rpower_O; auto).
  split.
  - unfold polynomial. cbn [linspace map]. rops. now rewrite P0.
  - assert (E : @linspace ROps 0 (INR 2) 2 = [0; 2]).
    { unfold linspace. change (2 / 2)%nat with 1%nat. cbn [seq map]. change (0 <? 1)%nat with true. change (1 <? 1)%nat with false. cbn [Nat.sub]. rewrite !nnat_INR. rops. cbn [INR]. f_equal; [field|]. f_equal. field. }
    rewrite E. unfold polynomial. cbn [map]. rops. rewrite P0. do 4 f_equal. unfold Rpw. destruct (Req_EM_T s 0); [lra|].
    rewrite <- (Rpower_pow 2 s) by lra. f_equal.
Qed.

(** ** Fourier: the frequencies are multiples of deg/(deg-1), so from deg = 3 on the basis of a layer is not
    2 pi-periodic *)
Lemma C74_fourier_period_refuted_pf : forall deg, (3 <= deg)%nat ->
  exists c0 s0 c1 s1, @fourier ROps cos sin (@linspace ROps 0 (INR deg) deg) 0 = Ok [c0; s0] /\
    @fourier ROps cos sin (@linspace ROps 0 (INR deg) deg) (2 * PI) = Ok [c1; s1] /\ nth 1 c0 0 = 1 /\ nth 1 c1 0 < 1.
Proof.
  intros deg Hd. unfold fourier. do 4 eexists. split; [reflexivity|]. split; [reflexivity|].
  pose proof (linspace_len 0 (INR deg) deg) as HL. change (num ROps) with R in *. rops.
  assert (E : forall s, nth 1 (map (fun k : R => cos (s * k)) (@linspace ROps 0 (INR deg) deg)) 0 = cos (s * (INR deg / INR (deg - 1)))).
  { intros s. set (F := fun k0 : R => cos (s * k0)). change (num ROps) with R. rewrite nth_indep with (d' := F 0) by (rewrite map_length; lia). rewrite map_nth.
    rewrite linspace_nth by lia. unfold F. change (INR 1) with 1. now rewrite Rmult_1_l. }
  split; rewrite E; [now rewrite Rmult_0_l, cos_0|].
  assert (Hp : INR (deg - 1) = INR deg - 1) by (rewrite minus_INR by lia; reflexivity). rewrite Hp.
  assert (H3 : 3 <= INR deg) by (replace 3 with (INR 3) by (cbn; lra); now apply le_INR).
  pose proof PI_RGT_0 as HPI.
  assert (Eq : 2 * PI * (INR deg / (INR deg - 1)) = 2 * PI / (INR deg - 1) + 2 * PI) by (field; lra).
  rewrite Eq. rewrite cos_plus, cos_2PI, sin_2PI. rewrite Rmult_1_r, Rmult_0_r, Rminus_0_r.
  set (u := 2 * PI / (INR deg - 1)).
  assert (Hu : 0 < u <= PI).
  { unfold u. split; [apply Rdiv_lt_0_compat; lra|]. apply (Rmult_le_reg_r (INR deg - 1)); [lra|]. unfold Rdiv. rewrite Rmult_assoc, Rinv_l by lra. nra. }
  rewrite <- cos_0. apply cos_decreasing_1; lra.
Qed.

(** … what holds: entry k is cos/sin of k * deg/(deg-1) * s, and the basis has period 2 pi (deg - 1) *)
Lemma C74_fourier_partial_pf : forall deg s, (2 <= deg)%nat ->
  exists C S, @fourier ROps cos sin (@linspace ROps 0 (INR deg) deg) s = Ok [C; S] /\ length C = deg /\ length S = deg /\
    (forall k, (k < deg)%nat -> nth k C 0 = cos (s * (INR k * (INR deg / INR (deg - 1))))) /\
    (forall k, (k < deg)%nat -> nth k S 0 = sin (s * (INR k * (INR deg / INR (deg - 1))))) /\
    @fourier ROps cos sin (@linspace ROps 0 (INR deg) deg) (s + 2 * PI * INR (deg - 1)) = Ok [C; S].
Proof.
  intros deg s Hd. unfold fourier. do 2 eexists. split; [reflexivity|]. pose proof (linspace_len 0 (INR deg) deg) as HL.
  rewrite !map_length. split; [exact HL|]. split; [exact HL|].
  assert (Hp : 0 < INR (deg - 1)) by (apply lt_0_INR; lia).
  assert (E : forall (g : R -> R) k, (k < deg)%nat -> nth k (map (fun k0 : R => g (s * k0)) (@linspace ROps 0 (INR deg) deg)) 0 = g (s * (INR k * (INR deg / INR (deg - 1))))).
  { intros g k Hk. set (F := fun k0 : R => g (s * k0)). change (num ROps) with R in *. rewrite nth_indep with (d' := F 0) by (rewrite map_length; lia). rewrite map_nth.
    now rewrite linspace_nth by lia. }
  split; [intros k Hk; exact (E cos k Hk)|]. split; [intros k Hk; exact (E sin k Hk)|].
  assert (X : forall x, In x (@linspace ROps 0 (INR deg) deg) -> cos ((s + 2 * PI * INR (deg - 1)) * x) = cos (s * x) /\ sin ((s + 2 * PI * INR (deg - 1)) * x) = sin (s * x)).
  { intros x Hx. destruct (In_nth _ _ 0 Hx) as (k & Hk & Ek). assert (Hk' : (k < deg)%nat) by exact (eq_ind _ (fun z => (k < z)%nat) Hk _ HL). assert (Ex : x = INR k * (INR deg / INR (deg - 1))) by exact (eq_trans (eq_sym Ek) (linspace_nth deg k Hd Hk')). rewrite Ex.
    replace ((s + 2 * PI * INR (deg - 1)) * (INR k * (INR deg / INR (deg - 1)))) with (s * (INR k * (INR deg / INR (deg - 1))) + 2 * INR (k * deg) * PI) by (rewrite mult_INR; field; lra).
    split; [apply cos_period|apply sin_period]. }
  rops. f_equal. f_equal; [|f_equal]; apply map_ext_in; intros x Hx; apply (X x Hx).
Qed.

(** ** Layers without bias *)
(** GalLinear(bias=False): every forward raises TypeError (the tensor assigned to the name of a registered
    parameter), where y = x W^T is expected *)
Lemma C71_no_bias_refuted_pf : forall (nin nout deg neig : nat) expfunc (dil sh : R) coeffs basis (input : list rvl),
  coeff_array ((nin + 1) * nout) deg neig coeffs ->
  input <> [] -> Forall (fun row => length row = nin + 1)%nat input ->
  expfunc (@linspace ROps 0 (INR deg) deg) (last (last input []) 0 * dil + sh) = Ok basis ->
  (neig <= length basis)%nat -> (forall i, (i < neig)%nat -> length (nth i basis []) = deg) ->
  @gal_linear ROps nin nout false deg neig expfunc dil sh coeffs input = Err TypeError.
Proof.
  intros nin nout deg neig expfunc dil sh coeffs basis input HC Hne HF He Hb Hl.
  assert (Hlast : length (last input []) = (nin + 1)%nat).
  { destruct (exists_last Hne) as (l' & a & ->). rewrite last_last. apply Forall_app in HF. destruct HF as (_ & HF). now inversion HF. }
  unfold gal_linear. refine (eq_trans (f_equal (fun z => rbind z _) (pylast_last input [] Hne)) _). cbn [rbind].
  assert (Hne2 : last input [] <> []) by (intros E; rewrite E in Hlast; cbn in Hlast; lia).
  refine (eq_trans (f_equal (fun z => rbind z _) (pylast_last (last input []) 0 Hne2)) _). cbn [rbind].
  refine (eq_trans (f_equal (fun z => rbind z _) (weights_value deg neig ((nin + 1) * nout) expfunc dil sh (last (last input []) 0) coeffs basis HC He Hb Hl)) _).
  reflexivity.
Qed.

Lemma C71_no_bias_ex_pf :
  @gal_linear ROps 1 1 false 2 2 (@fourier ROps cos sin) 1 0 [[[1; 2]; [3; 4]]; [[5; 6]; [7; 8]]] [[1; 0]; [2; 0]] = Err TypeError.
Proof.
  eapply C71_no_bias_refuted_pf; [|discriminate|repeat constructor|reflexivity| |].
  - split; [reflexivity|]. repeat constructor.
  - cbn. lia.
  - intros [|[|i]] Hi; [reflexivity|reflexivity|lia].
Qed.

(** ** Radial bases *)
Lemma bcast2_bad f (a b : rvl) : length a <> length b -> (2 <= length a)%nat -> (2 <= length b)%nat -> @bcast2 ROps f a b = Err RuntimeError.
Proof.
  intros H1 H2 H3. unfold bcast2. change (num ROps) with R. rewrite (proj2 (Nat.eqb_neq _ _) H1).
  destruct a as [|a0 [|a1 a]]; [cbn in H2; lia|cbn in H2; lia|]. destruct b as [|b0 [|b1 b]]; [cbn in H3; lia|cbn in H3; lia|]. reflexivity.
Qed.

(** adaptive=True: centers and scales have deg+1 entries, the range has deg: every layer raises RuntimeError *)
Lemma C72_adaptive_refuted_pf : forall deg (eps cen dil sh t : R) coeffs, (1 <= deg)%nat ->
  let p := @rbf_init ROps deg true eps cen in
  @calculate_weights ROps deg 1 (@gaussian_rbf ROps exp p) dil sh coeffs t = Err RuntimeError /\
  @calculate_weights ROps deg 1 (@vanilla_rbf ROps p) dil sh coeffs t = Err RuntimeError /\
  @calculate_weights ROps deg 1 (@multiquad_rbf ROps p) dil sh coeffs t = Err RuntimeError.
Proof.
  intros deg eps cen dil sh t coeffs Hd p. pose proof (linspace_len 0 (INR deg) deg) as HL.
  assert (HP1 : length (rbf_centers p) = (deg + 1)%nat) by (cbn; apply repeat_length).
  assert (HP2 : length (rbf_eps p) = (deg + 1)%nat) by (cbn; apply repeat_length).
  destruct (Nat.eq_dec deg 1) as [->|Hn].
  - unfold calculate_weights. rewrite nnat_INR. rops. rewrite Q2R_0'. repeat split.
  - assert (E : forall f l, length l = (deg + 1)%nat -> @bcast2 ROps f (@linspace ROps 0 (INR deg) deg) l = Err RuntimeError).
    { intros f l Hl. apply bcast2_bad; change (num ROps) with R in *; lia. }
    unfold calculate_weights, gaussian_rbf, vanilla_rbf, multiquad_rbf. rewrite nnat_INR. rops. rewrite Q2R_0'.
    rewrite !E by auto. repeat split.
Qed.

Lemma bcast2_one f (a : rvl) c : @bcast2 ROps f a [c] = Ok (map (fun x => f x c) a).
Proof.
  unfold bcast2. destruct a as [|x [|y a]]; [reflexivity|reflexivity|]. reflexivity.
Qed.
Lemma norm_one (s : R) : @norm2 ROps (map (@nsub ROps s) [Q2R 0]) = Rabs s.
Proof.
  unfold norm2. cbn [map]. rewrite vsum_fold. rops. rewrite Q2R_0'. cbn [fold_right]. rewrite Rminus_0_r, Rplus_0_r. apply sqrt_Rsqr_abs.
Qed.

(** adaptive=False: whatever eps_scales and centers are, the values are those for scale 2 and center 0 *)
Lemma C73_values_partial_pf : forall deg (eps cen s : R),
  let p := @rbf_init ROps deg false eps cen in
  let n := @linspace ROps 0 (INR deg) deg in
  @gaussian_rbf ROps exp p n s = Ok [map (fun k => exp (- (Rabs s * (k / 2)) ^ 2)) n] /\
  @vanilla_rbf ROps p n s = Ok [map (fun k => Rabs s * (k / 2)) n] /\
  @multiquad_rbf ROps p n s = Ok [map (fun k => 1 + sqrt (1 + (Rabs s * (k / 2)) ^ 2)) n].
Proof.
  intros deg eps cen s p n. unfold gaussian_rbf, vanilla_rbf, multiquad_rbf, p, rbf_init. cbn [rbf_centers rbf_eps].
  change (@nQ ROps 0) with (Q2R 0). change (@nQ ROps 2) with (Q2R 2).
  rewrite !bcast2_one, norm_one. cbn [rbind]. rewrite !bcast2_one. cbn [rbind]. rewrite !map_map. rops. rewrite Q2R_0', Q2R_1', Q2R_two.
  repeat split; do 2 f_equal; apply map_ext; intros k.
  - f_equal. rewrite Rminus_0_r. ring.
  - do 3 f_equal. ring.
Qed.

Lemma sq_pos x : x <> 0 -> 0 < x ^ 2. Proof. intros H. assert (H2 := Rsqr_pos_lt x H). unfold Rsqr in H2. cbn. lra. Qed.

(** … the arguments eps_scales and centers are ignored.  At s = centers the radius is zero, so the Gaussian
    basis should be 1 and the vanilla basis 0 at every degree; with any center but 0 they are not *)
Lemma C73_ignored_refuted_pf : forall deg (eps cen : R), (2 <= deg)%nat -> cen <> 0 ->
  let p := @rbf_init ROps deg false eps cen in
  exists G V, @gaussian_rbf ROps exp p (@linspace ROps 0 (INR deg) deg) cen = Ok [G] /\ nth 1 G 0 < 1 /\
    @vanilla_rbf ROps p (@linspace ROps 0 (INR deg) deg) cen = Ok [V] /\ 0 < nth 1 V 0.
Proof.
  intros deg eps cen Hd Hc p. destruct (C73_values_partial_pf deg eps cen cen) as (E1 & E2 & _). do 2 eexists. split; [exact E1|].
  pose proof (linspace_len 0 (INR deg) deg) as HL. change (num ROps) with R in *.
  assert (Hp : 0 < INR (deg - 1)) by (apply lt_0_INR; lia). assert (Hq : 0 < INR deg) by (apply lt_0_INR; lia).
  assert (N : forall g : R -> R, nth 1 (map g (@linspace ROps 0 (INR deg) deg)) 0 = g (INR deg / INR (deg - 1))).
  { intros g. change (num ROps) with R. rewrite nth_indep with (d' := g 0) by (rewrite map_length; lia). rewrite map_nth. rewrite linspace_nth by lia. f_equal. change (INR 1) with 1. apply Rmult_1_l. }
  assert (Hd2 : 0 < INR deg / INR (deg - 1)) by (apply Rdiv_lt_0_compat; auto). pose proof (Rabs_pos_lt cen Hc) as Ha.
  assert (Hm : 0 < Rabs cen * (INR deg / INR (deg - 1) / 2)) by (apply Rmult_lt_0_compat; lra).
  split; [|split; [exact E2|]].
  - rewrite (N (fun k => exp (- (Rabs cen * (k / 2)) ^ 2))). rewrite <- exp_0. apply exp_increasing.
    pose proof (sq_pos (Rabs cen * (INR deg / INR (deg - 1) / 2)) ltac:(lra)). lra.
  - rewrite (N (fun k => Rabs cen * (k / 2))). exact Hm.
Qed.

(** ** A layer *)
Lemma C52_layer_ex_pf : exists out,
  @gal_linear ROps 1 1 true 2 2 (@fourier ROps cos sin) 1 0 [[[1; 2]; [3; 4]]; [[5; 6]; [7; 8]]] [[1; 0]; [2; 0]] = Ok out /\
  nth 0 (nth 0 out []) 0 = 16 /\ nth 0 (nth 1 out []) 0 = 20.
Proof.
  destruct (C52_layer_pf 1 1 2 2 (@fourier ROps cos sin) 1 0 [[[1; 2]; [3; 4]]; [[5; 6]; [7; 8]]]
    [map (fun k => cos ((0 * 1 + 0) * k)) (@linspace ROps 0 (INR 2) 2); map (fun k => sin ((0 * 1 + 0) * k)) (@linspace ROps 0 (INR 2) 2)] [[1; 0]; [2; 0]]) as (out & E & _ & _ & V).
  - split; [reflexivity|]. repeat constructor.
  - discriminate.
  - repeat constructor.
  - reflexivity.
  - cbn. lia.
  - intros [|[|i]] Hi; [reflexivity|reflexivity|lia].
  - exists out. split; [exact E|].
    assert (C : forall k, cos ((0 * 1 + 0) * k) = 1) by (intros k; replace ((0 * 1 + 0) * k) with 0 by ring; apply cos_0).
    assert (S : forall k, sin ((0 * 1 + 0) * k) = 0) by (intros k; replace ((0 * 1 + 0) * k) with 0 by ring; apply sin_0).
    rewrite (map_ext _ _ C), (map_ext _ _ S) in V.
    split; rewrite V by (cbn; lia); unfold expansion, coeff; cbn; lra.
Qed.
