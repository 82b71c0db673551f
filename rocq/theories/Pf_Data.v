(** Proofs of the properties of the data sets. *)
From Coq Require Import ZArith QArith Qreals Reals Lra Lia String List Bool.
From Verif Require Import Num Py Tensor M_Nn M_Data Spec_Root Spec_Models Spec_Data L_Base L_Root L_Models Pf_Gal Pf_Basis.
Import ListNotations.
Local Open Scope R_scope.
Local Notation length := List.length.
Notation rvl := (list R).

Lemma dot_self (l : rvl) : dot l l = total (map (fun a => a * a) l).
Proof. unfold dot. induction l as [|a l IH]; cbn; auto. now rewrite IH. Qed.
Lemma total_sq_pos (l : rvl) : 0 <= total (map (fun a => a * a) l).
Proof. induction l as [|a l IH]; cbn; [lra|]. nra. Qed.
Lemma total_sq_nonzero (l : rvl) a : In a l -> a <> 0 -> 0 < total (map (fun a => a * a) l).
Proof.
  intros H Ha. induction l as [|b l IH]; [easy|]. cbn. pose proof (total_sq_pos l). destruct H as [-> | H].
  - nra.
  - specialize (IH H). nra.
Qed.

Definition sphere_pt (dim : nat) (radius : R) (v : nat -> R) : rvl :=
  times (radius / euclid (draw dim v)) (draw dim v).
Lemma randnsphere_eq dim radius (v : nat -> R) : @randnsphere ROps dim radius v = sphere_pt dim radius v.
Proof.
  unfold randnsphere, sphere_pt, times, draw, euclid. rewrite dot_self, vsum_total.
  rewrite (map_ext (fun a : R => @npow ROps a 2) (fun a => a * a)) by (intros a; rewrite npow_pow; cbn; ring).
  apply map_ext. intros a. cbn. ring.
Qed.
Lemma sphere_len dim radius v : length (sphere_pt dim radius v) = dim.
Proof. unfold sphere_pt, times, draw. now rewrite !map_length, seq_length. Qed.
Lemma sphere_on dim radius v : 0 <= radius -> nonzero_draw dim v -> on_sphere radius (sphere_pt dim radius v).
Proof.
  intros Hr (j & Hj & Hv). unfold on_sphere, sphere_pt. set (e := euclid (draw dim v)).
  assert (He : 0 < e).
  { unfold e, euclid. apply sqrt_lt_R0. rewrite dot_self. apply total_sq_nonzero with (a := v j); auto.
    unfold draw. apply in_map, in_seq. lia. }
  assert (E : forall c l, 0 <= c -> euclid (times c l) = c * euclid l).
  { intros c l Hc. unfold euclid. rewrite !dot_self. unfold times. rewrite map_map.
    rewrite (map_ext _ (fun a => (c * c) * (a * a))) by (intros; ring). rewrite total_scal.
    rewrite sqrt_mult; [|nra|apply total_sq_pos]. now rewrite sqrt_square. }
  rewrite E.
  - fold e. field. lra.
  - apply Rmult_le_pos; [lra|]. apply Rlt_le, Rinv_0_lt_compat. lra.
Qed.

(** C56.  randnsphere returns a point of the sphere, whatever nonzero vector is drawn. *)
Lemma C56_randnsphere_pf :
  forall dim radius v, 0 <= radius -> nonzero_draw dim v ->
  length (@randnsphere ROps dim radius v) = dim /\ on_sphere radius (@randnsphere ROps dim radius v).
Proof. intros dim radius v Hr Hv. rewrite randnsphere_eq. split; [apply sphere_len|now apply sphere_on]. Qed.

Definition noise_rows (n dim : nat) (noise : R) (e : nat -> nat -> R) : list rvl :=
  map (fun i => times noise (draw dim (e i))) (seq 0 n).
Lemma normal_rows_ok n dim (noise : R) e : 0 <= noise -> @normal_rows ROps n dim noise e = Ok (noise_rows n dim noise e).
Proof.
  intros H. unfold normal_rows, noise_rows. cbn. rewrite Q2R_0'. rewrite (proj2 (Rltb_false _ _)) by lra. f_equal.
  apply map_ext. intros i. unfold times, draw. rewrite map_map. apply map_ext. intros j. ring.
Qed.
Lemma vadd_plus (a b : rvl) : @vadd ROps a b = plus_vec a b.
Proof. unfold vadd, plus_vec. now rewrite map2_combine. Qed.
Lemma sphere_half_ok n dim (radius noise : R) v e : (1 <= n)%nat -> 0 <= noise ->
  @sphere_half ROps n n dim radius noise v e =
  Ok (map (fun i => plus_vec (sphere_pt dim radius (v i)) (times noise (draw dim (e i)))) (seq 0 n)).
Proof.
  intros Hn Hs. unfold sphere_half.
  assert (E : cat_rows (map (fun i => @randnsphere ROps dim radius (v i)) (seq 0 n)) = Ok (map (fun i => sphere_pt dim radius (v i)) (seq 0 n))).
  { destruct n; [lia|]. cbn [seq map cat_rows]. rewrite randnsphere_eq. do 2 f_equal. apply map_ext. intros; apply randnsphere_eq. }
  rewrite E. cbn [rbind]. unfold expand_rows at 1. rewrite map_length, seq_length, Nat.eqb_refl. cbn [rbind].
  rewrite normal_rows_ok by exact Hs. cbn [rbind]. unfold expand_rows, noise_rows. rewrite map_length, seq_length, Nat.eqb_refl. cbn [rbind].
  f_equal. rewrite map2_map_l, map2_map_r, map2_same. apply map_ext. intros i. apply vadd_plus.
Qed.
Lemma plus_len a b n : length a = n -> length b = n -> length (plus_vec a b) = n.
Proof. intros H1 H2. unfold plus_vec. rewrite map_length, combine_length, H1, H2. apply Nat.min_id. Qed.
Lemma noise_len c dim v : length (times c (draw dim v)) = dim.
Proof. unfold times, draw. now rewrite !map_length, seq_length. Qed.

Lemma nth_repeat_lt {A} (a d : A) n i : (i < n)%nat -> nth i (repeat a n) d = a.
Proof. revert i; induction n as [|n IH]; intros [|i] H; cbn; try lia; auto. apply IH. lia. Qed.

(** C56 for the spheres, even n_samples >= 2: n points of R^dim; the first half has label 1 and lies on the inner
    sphere up to the noise, the second half has label 0 and lies on the outer sphere up to the noise.
    The full statement (all n_samples) is refuted below. *)
Lemma C56_spheres_partial_pf :
  forall h dim noise inner outer v1 e1 v2 e2, (1 <= h)%nat -> 0 <= noise -> 0 <= inner -> 0 <= outer ->
  (forall i, nonzero_draw dim (v1 i)) -> (forall i, nonzero_draw dim (v2 i)) ->
  exists D, @generate_concentric_spheres ROps (2 * h) noise dim inner outer v1 e1 v2 e2 = Ok D /\
    dataset (2 * h) dim D /\
    (forall i, (i < h)%nat -> label D i = 1%nat /\
       exists s, length s = dim /\ on_sphere inner s /\ point D i = plus_vec s (times noise (draw dim (e1 i)))) /\
    (forall i, (i < h)%nat -> label D (h + i) = 0%nat /\
       exists s, length s = dim /\ on_sphere outer s /\ point D (h + i) = plus_vec s (times noise (draw dim (e2 i)))).
Proof.
  intros h dim noise inner outer v1 e1 v2 e2 Hh Hn Hi Ho H1 H2. unfold generate_concentric_spheres.
  assert (E : (2 * h / 2 = h)%nat) by (rewrite Nat.mul_comm; apply Nat.div_mul; lia). rewrite E.
  replace (2 * h - h)%nat with h by lia. rewrite !sphere_half_ok by auto. cbn [rbind].
  eexists. split; [reflexivity|]. split; [|split].
  - repeat split; cbn [fst snd].
    + rewrite app_length, !map_length, seq_length. lia.
    + apply Forall_app. split; apply Forall_map, Forall_forall; intros i _; apply plus_len; auto using sphere_len, noise_len.
    + rewrite app_length, !repeat_length. lia.
  - intros i Hi'. unfold label, point. cbn [fst snd]. split.
    + rewrite app_nth1 by (rewrite repeat_length; lia). now apply nth_repeat_lt.
    + exists (sphere_pt dim inner (v1 i)). split; [apply sphere_len|]. split; [now apply sphere_on|].
      rewrite app_nth1 by (rewrite map_length, seq_length; lia). now rewrite nth_map_seq.
  - intros i Hi'. unfold label, point. cbn [fst snd]. split.
    + rewrite app_nth2 by (rewrite repeat_length; lia). rewrite repeat_length. replace (h + i - h)%nat with i by lia.
      now apply nth_repeat_lt.
    + exists (sphere_pt dim outer (v2 i)). split; [apply sphere_len|]. split; [now apply sphere_on|].
      rewrite app_nth2 by (rewrite map_length, seq_length; lia). rewrite map_length, seq_length.
      replace (h + i - h)%nat with i by lia. now rewrite nth_map_seq.
Qed.

Lemma sphere_half_err rows n dim (radius noise : R) v e : n = 0%nat \/ (2 <= n /\ rows <> n)%nat ->
  @sphere_half ROps rows n dim radius noise v e = Err RuntimeError.
Proof.
  intros [-> | (H2 & Hr)]; [reflexivity|]. unfold sphere_half, cat_rows.
  destruct n as [|[|n]]; try lia. cbn [seq map rbind]. unfold expand_rows at 1. cbn [length].
  rewrite map_length, seq_length. destruct (Nat.eqb_spec (S (S n)) rows); [lia|]. reflexivity.
Qed.
Lemma half_odd h : ((2 * h + 1) / 2 = h)%nat.
Proof. replace (2 * h + 1)%nat with (1 + h * 2)%nat by lia. rewrite Nat.div_add by lia. reflexivity. Qed.

(** C56, refuted for the spheres: every odd n_samples >= 5 and n_samples < 2 raise RuntimeError. *)
Lemma C56_spheres_odd_refuted_pf :
  (forall h noise dim inner outer v1 e1 v2 e2, (2 <= h)%nat -> 0 <= noise ->
     @generate_concentric_spheres ROps (2 * h + 1) noise dim inner outer v1 e1 v2 e2 = Err RuntimeError) /\
  (forall n noise dim inner outer v1 e1 v2 e2, (n < 2)%nat ->
     @generate_concentric_spheres ROps n noise dim inner outer v1 e1 v2 e2 = Err RuntimeError).
Proof.
  split.
  - intros h noise dim inner outer v1 e1 v2 e2 Hh Hn. unfold generate_concentric_spheres. rewrite half_odd.
    rewrite sphere_half_ok by (auto; lia). cbn [rbind]. rewrite sphere_half_err by lia. reflexivity.
  - intros n noise dim inner outer v1 e1 v2 e2 Hn. unfold generate_concentric_spheres.
    destruct n as [|[|n]]; try lia; reflexivity.
Qed.

(** ** Moons *)
Lemma np_linspace_in (a b : R) k t : a <= b -> In t (@np_linspace ROps a b k) -> a <= t <= b.
Proof.
  intros Hab. destruct k as [|[|k]]; cbn [np_linspace].
  - easy.
  - intros [<- | []]. lra.
  - intros H. apply in_app_or in H as [H | [<- | []]]; [|lra]. apply in_map_iff in H as (i & <- & Hi). apply in_seq in Hi.
    rewrite !nnat_INR. cbn [nadd nmul nsub ndiv ROps].
    assert (H1 : 0 < INR (S (S k) - 1)) by (apply lt_0_INR; lia).
    assert (H2 : INR i <= INR (S (S k) - 1)) by (apply le_INR; lia). pose proof (pos_INR i).
    assert (E : INR i * ((b - a) / INR (S (S k) - 1)) = (b - a) * (INR i / INR (S (S k) - 1))) by (field; lra). rewrite E.
    assert (H3 : 0 <= INR i / INR (S (S k) - 1)) by (apply Rmult_le_pos; [lra|apply Rlt_le, Rinv_0_lt_compat; lra]).
    assert (H4 : INR i / INR (S (S k) - 1) <= 1) by (apply Rmult_le_reg_r with (INR (S (S k) - 1)); [lra|]; unfold Rdiv; rewrite Rmult_assoc, Rinv_l; lra).
    nra.
Qed.
Lemma np_linspace_len (a b : R) k : length (@np_linspace ROps a b k) = k.
Proof. destruct k as [|[|k]]; auto. cbn [np_linspace]. rewrite app_length, map_length, seq_length. cbn. lia. Qed.

Definition moon_rows (n : nat) : list rvl :=
  map (fun a => [cos a; sin a]) (@np_linspace ROps 0 PI (n / 2)) ++
  map (fun a => [1 - cos a; / 2 - sin a]) (@np_linspace ROps 0 PI (n - n / 2)).
Lemma moon_rows_len n : length (moon_rows n) = n.
Proof.
  unfold moon_rows. rewrite app_length, !map_length, !np_linspace_len. pose proof (Nat.div_le_upper_bound n 2 n). lia.
Qed.
Definition moon_label (n i : nat) : nat := if (i <? n / 2)%nat then 0%nat else 1%nat.
Lemma half_le n : (n / 2 <= n)%nat.
Proof. apply Nat.div_le_upper_bound; lia. Qed.
Lemma moon_rows_nth n i : (i < n)%nat -> exists theta, 0 <= theta <= PI /\ nth i (moon_rows n) [] = moon (moon_label n i) theta.
Proof.
  intros Hi. pose proof PI_RGT_0. pose proof (half_le n). unfold moon_label, moon_rows, moon. destruct (Nat.ltb_spec i (n / 2)) as [H1 | H1].
  - exists (nth i (@np_linspace ROps 0 PI (n / 2)) 0). split.
    + apply np_linspace_in with (k := (n / 2)%nat); [lra|]. apply nth_In. rewrite np_linspace_len. exact H1.
    + rewrite app_nth1 by (rewrite map_length, np_linspace_len; exact H1). cbn.
      rewrite nth_indep with (d' := (fun a => [cos a; sin a]) 0) by (rewrite map_length, np_linspace_len; exact H1).
      exact (map_nth (fun a => [cos a; sin a]) _ 0 i).
  - exists (nth (i - n / 2) (@np_linspace ROps 0 PI (n - n / 2)) 0). split.
    + apply np_linspace_in with (k := (n - n / 2)%nat); [lra|]. apply nth_In. rewrite np_linspace_len. lia.
    + rewrite app_nth2 by (rewrite map_length, np_linspace_len; lia). rewrite map_length, np_linspace_len. cbn [Nat.eqb].
      refine (eq_trans (nth_indep (map (fun a => [1 - cos a; / 2 - sin a]) _) [] ((fun a => [1 - cos a; / 2 - sin a]) 0) _) _); [rewrite map_length, np_linspace_len; lia|].
      exact (map_nth (fun a => [1 - cos a; / 2 - sin a]) _ 0 (i - n / 2)%nat).
Qed.
Lemma noisy_nth (X : list rvl) n (f : nat -> rvl -> rvl) i : length X = n -> (i < n)%nat ->
  nth i (map2 (fun row i => f i row) X (seq 0 n)) [] = f i (nth i X []).
Proof.
  intros H Hi. rewrite map2_nth with (da := []) (db := 0%nat) by (rewrite ?seq_length; lia). now rewrite seq_nth.
Qed.
Lemma moon_width lab t : length (moon lab t) = 2%nat.
Proof. unfold moon. now destruct (lab =? 0)%nat. Qed.

(** C56 for the moons, all n_samples: n labelled points, half of them on each moon up to a shift between 0 and
    the noise (along the diagonal). *)
Lemma C56_moons_pf :
  forall n noise u, (forall s, noise = Some s -> 0 <= s) -> (forall i, 0 <= u i <= 1) ->
  exists D, @generate_moons ROps cos sin PI n noise u = Ok D /\ dataset n 2 D /\
    forall i, (i < n)%nat -> label D i = (if (i <? n / 2)%nat then 0 else 1)%nat /\
      exists theta delta, 0 <= theta <= PI /\ (match noise with None => delta = 0 | Some s => 0 <= delta <= s end) /\
        point D i = map (Rplus delta) (moon (label D i) theta).
Proof.
  intros n noise u Hs Hu. unfold generate_moons.
  replace (_ ++ _) with (moon_rows n).
  2:{ unfold moon_rows. cbn. rewrite Q2R_0', Q2R_1'. f_equal. apply map_ext. intros a. rewrite Q2R_lit. f_equal. f_equal. lra. }
  pose proof (half_le n) as Hh.
  assert (HL : forall i, (i < n)%nat -> nth i (repeat 0 (n / 2) ++ repeat 1 (n - n / 2))%nat 0%nat = moon_label n i).
  { intros i Hi. unfold moon_label. destruct (Nat.ltb_spec i (n / 2)).
    - rewrite app_nth1 by (rewrite repeat_length; lia). apply nth_repeat_lt. lia.
    - rewrite app_nth2 by (rewrite repeat_length; lia). rewrite repeat_length. apply nth_repeat_lt. lia. }
  assert (HLL : length (repeat 0 (n / 2) ++ repeat 1 (n - n / 2))%nat = n) by (rewrite app_length, !repeat_length; lia).
  assert (HW : forall i, (i < n)%nat -> length (nth i (moon_rows n) []) = 2%nat).
  { intros i Hi. destruct (moon_rows_nth n i Hi) as (t & _ & E). etransitivity; [exact (f_equal (@length R) E)|]. apply moon_width. }
  eexists. split; [reflexivity|]. destruct noise as [s|].
  - specialize (Hs s eq_refl). split; [split; [|split]|].
    + cbn [fst]. rewrite map2_length, moon_rows_len, seq_length. apply Nat.min_id.
    + cbn [fst]. apply Forall_forall. intros r Hr. apply In_nth with (d := []) in Hr as (i & Hi & <-).
      rewrite map2_length, moon_rows_len, seq_length, Nat.min_id in Hi.
      refine (eq_trans (f_equal (@length R) (noisy_nth _ _ (fun i row => @vadds ROps (u i * s) row) i (moon_rows_len n) Hi)) _).
      unfold vadds. rewrite map_length. now apply HW.
    + exact HLL.
    + intros i Hi. unfold label, point. cbn [fst snd]. rewrite HL by exact Hi. split; [reflexivity|].
      destruct (moon_rows_nth n i Hi) as (t & Ht & E). exists t, (u i * s). split; [exact Ht|]. split.
      * specialize (Hu i). nra.
      * refine (eq_trans (noisy_nth _ _ (fun i row => @vadds ROps (u i * s) row) i (moon_rows_len n) Hi) _). unfold vadds. exact (f_equal (map (Rplus (u i * s))) E).
  - split; [split; [|split]|].
    + apply moon_rows_len.
    + cbn [fst]. apply Forall_forall. intros r Hr. apply In_nth with (d := []) in Hr as (i & Hi & <-).
      rewrite moon_rows_len in Hi. now apply HW.
    + exact HLL.
    + intros i Hi. unfold label, point. cbn [fst snd]. rewrite HL by exact Hi. split; [reflexivity|].
      destruct (moon_rows_nth n i Hi) as (t & Ht & E). exists t, 0. split; [exact Ht|]. split; [reflexivity|].
      refine (eq_trans E _). symmetry. transitivity (map (fun x => x) (moon (moon_label n i) t)); [|apply map_id].
      apply map_ext. intros; ring.
Qed.

(** ** Spirals *)

(** C56 for the spirals: 2 n_samples points; the second half has label 1 and is the reflection of the first. *)
Lemma C56_spirals_partial_pf :
  forall n noise u e1 e2, exists D, @generate_spirals ROps cos sin PI n noise u e1 e2 = Ok D /\ dataset (2 * n) 2 D /\
    forall i, (i < n)%nat -> label D i = 0%nat /\ label D (n + i) = 1%nat /\ point D (n + i) = times (-1) (point D i) /\
      exists theta, 0 <= theta /\ point D i = [- cos theta * theta + e1 i * noise; sin theta * theta + e2 i * noise].
Proof.
  intros n noise u e1 e2. eexists. split; [reflexivity|]. split; [split; [|split]|].
  - cbn [fst]. rewrite app_length, !map_length, !seq_length. lia.
  - cbn [fst]. apply Forall_app. split; apply Forall_map, Forall_forall; reflexivity.
  - cbn [snd]. rewrite app_length, !repeat_length. lia.
  - intros i Hi. unfold label, point. cbn [fst snd]. repeat split.
    + rewrite app_nth1 by (rewrite repeat_length; lia). now apply nth_repeat_lt.
    + rewrite app_nth2 by (rewrite repeat_length; lia). rewrite repeat_length. apply nth_repeat_lt. lia.
    + rewrite app_nth2 by (rewrite map_length, seq_length; lia). rewrite map_length, seq_length.
      rewrite app_nth1 by (rewrite map_length, seq_length; lia).
      replace (n + i - n)%nat with i by lia. rewrite !nth_map_seq by exact Hi. unfold times. cbn [map nopp ROps].
      f_equal; [|f_equal]; ring.
    + rewrite app_nth1 by (rewrite map_length, seq_length; lia). rewrite nth_map_seq by exact Hi.
      eexists. split; [|reflexivity]. cbn. rewrite !Q2R_lit. pose proof (sqrt_pos (u i)). pose proof PI_RGT_0.
      unfold Rdiv. rewrite !Rinv_1. apply Rmult_le_pos; [|lra]. apply Rmult_le_pos; [|lra]. apply Rmult_le_pos; lra.
Qed.

(** ** Gaussians *)
Lemma concat_nth {A} (d : A) (b : nat -> list A) n : forall k s i r, (forall j, length (b j) = n) -> (i < k)%nat -> (r < n)%nat ->
  nth (i * n + r) (concat (map b (seq s k))) d = nth r (b (s + i)%nat) d.
Proof.
  induction k as [|k IH]; intros s i r Hb Hi Hr; [lia|]. cbn [seq map concat]. destruct i as [|i].
  - rewrite app_nth1 by (rewrite Hb; lia). rewrite Nat.add_0_r. reflexivity.
  - rewrite app_nth2 by (rewrite Hb; lia). rewrite Hb. replace (S i * n + r - n)%nat with (i * n + r)%nat by lia.
    rewrite IH by (auto; lia). do 2 f_equal. lia.
Qed.
Lemma concat_len {A} (b : nat -> list A) n : forall k s, (forall j, length (b j) = n) -> length (concat (map b (seq s k))) = (n * k)%nat.
Proof. induction k as [|k IH]; intros s Hb; cbn [seq map concat]; [cbn; lia|]. rewrite app_length, Hb, IH by auto. lia. Qed.
Lemma gauss_angle_eq (step : R) i : @gauss_angle ROps step i = INR (S i) * step.
Proof.
  unfold gauss_angle. induction i as [|i IH].
  - cbn. rewrite Q2R_0'. ring.
  - change (Nat.iter (S (S i)) (fun a : R => a + step) (Q2R 0) = INR (S (S i)) * step). change (Nat.iter (S i) (fun a : R => a + step) (Q2R 0) = INR (S i) * step) in IH.
    rewrite S_INR. rewrite Rmult_plus_distr_r, <- IH. cbn. ring.
Qed.
Definition blob (c : rvl) (n : nat) (std noise : R) (z : nat -> nat -> R) (w : nat -> R) : list rvl :=
  map (fun r => plus_vec (plus_vec c (times std (draw 2 (z r)))) (times noise (draw 2 w))) (seq 0 n).
Lemma gauss_block_ok n (a b std noise : R) z w : 0 <= std ->
  @gauss_block ROps n 2 [a; b] std noise z w = Ok (blob [a; b] n std noise z w).
Proof.
  intros Hs. unfold gauss_block. cbn [nltb ROps nQ]. rewrite Q2R_0', (proj2 (Rltb_false _ _)) by lra. cbn [length Nat.eqb].
  f_equal. apply map_ext. intros r. cbn. f_equal; [|f_equal]; ring.
Qed.
Lemma ring_loc (radius step : R) k i : step = 2 * PI / INR k -> @gauss_loc ROps cos sin 2 radius (INR (S i) * step) = Ok (ring radius k i).
Proof.
  intros ->. unfold gauss_loc. cbn [Nat.ltb Nat.leb nmul ROps]. unfold ring.
  replace (INR (S i) * (2 * PI / INR k)) with (2 * PI * INR (S i) / INR k) by (unfold Rdiv; ring). reflexivity.
Qed.
Lemma blob_data n k (c : nat -> rvl) std noise z w :
  let D := (concat (map (fun i => blob (c i) n (std i) noise (z i) (w i)) (seq 0 k)), concat (map (fun i => repeat i n) (seq 0 k))) in
  (forall i, length (c i) = 2%nat) ->
  dataset (n * k) 2 D /\
  forall i r, (i < k)%nat -> (r < n)%nat -> label D (i * n + r) = i /\
    point D (i * n + r) = plus_vec (plus_vec (c i) (times (std i) (draw 2 (z i r)))) (times noise (draw 2 (w i))).
Proof.
  intros D Hc. assert (HB : forall i, length (blob (c i) n (std i) noise (z i) (w i)) = n) by (intros; unfold blob; now rewrite map_length, seq_length).
  split; [split; [|split]|].
  - unfold D. cbn [fst]. now apply concat_len.
  - unfold D. cbn [fst]. apply Forall_concat, Forall_map, Forall_forall. intros i _. unfold blob. apply Forall_map, Forall_forall. intros r _.
    apply plus_len; [apply plus_len|]; auto using noise_len.
  - unfold D. cbn [snd]. apply concat_len. intros; apply repeat_length.
  - intros i r Hi Hr. unfold label, point, D. cbn [fst snd]. split.
    + rewrite (concat_nth _ (fun i => repeat i n) n) by (auto; intros; apply repeat_length). now apply nth_repeat_lt.
    + rewrite (concat_nth _ (fun i => blob (c i) n (std i) noise (z i) (w i)) n) by auto. unfold blob. now rewrite nth_map_seq.
Qed.

(** C56 for the Gaussians in the plane: n_samples points per Gaussian with its number as label, scattered around
    n_gaussians centers on the circle of the given radius. *)
Lemma C56_gaussians_partial_pf :
  forall n k radius std noise z w, 0 < std ->
  exists D, @generate_gaussians ROps cos sin PI n k 2 radius std noise z w = Ok D /\ dataset (n * k) 2 D /\
    forall i r, (i < k)%nat -> (r < n)%nat -> label D (i * n + r) = i /\
      point D (i * n + r) = plus_vec (plus_vec (ring radius k i) (times std (draw 2 (z i r)))) (times noise (draw 2 (w i))).
Proof.
  intros n k radius std noise z w Hs. unfold generate_gaussians. cbn [nltb ROps nQ]. rewrite Q2R_0'.
  rewrite (proj2 (Rltb_true _ _)) by exact Hs. cbn [negb].
  rewrite (mapr_ok _ (fun i => blob (ring radius k i) n std noise (z i) (w i))).
  - eexists. split; [reflexivity|]. apply (blob_data n k (fun i => ring radius k i) (fun _ => std) noise z w). reflexivity.
  - intros i _. rewrite gauss_angle_eq. rewrite ring_loc with (k := k).
    + cbn [rbind]. apply gauss_block_ok. lra.
    + rewrite nnat_INR. cbn. rewrite Q2R_lit. unfold Rdiv. rewrite Rinv_1. ring.
Qed.

Lemma linspace_between (a b : R) k i : (i < k)%nat -> nth_error (@linspace ROps a b k) i = Some (between a b k i).
Proof.
  intros Hi. unfold between. destruct k as [|[|k]]; [lia| |].
  - destruct i; [|lia]. reflexivity.
  - set (n := S (S k)) in *. cbn [Nat.eqb]. unfold linspace. fold n.
    assert (E : map (fun i => if (i <? n / 2)%nat then @nadd ROps a (@nmul ROps (@ndiv ROps (@nsub ROps b a) (nnat (n - 1))) (nnat i))
        else @nsub ROps b (@nmul ROps (@ndiv ROps (@nsub ROps b a) (nnat (n - 1))) (nnat (n - i - 1)))) (seq 0 n) =
      map (fun i => if (i <? n / 2)%nat then a + (b - a) / INR (n - 1) * INR i else b - (b - a) / INR (n - 1) * INR (n - i - 1)) (seq 0 n)).
    { apply map_ext. intros j. now rewrite !nnat_INR. }
    refine (eq_trans (f_equal (fun l => nth_error l i) E) _).
    rewrite nth_error_map. rewrite (nth_error_nth' _ 0%nat) by (rewrite seq_length; exact Hi). rewrite seq_nth by exact Hi.
    cbn [option_map]. f_equal. rewrite Nat.add_0_l.
    assert (H : INR (n - 1) <> 0) by (apply not_0_INR; lia).
    match goal with |- ?l = ?r => change (@eq R l r) end. replace (n =? 1)%nat with false by reflexivity. destruct (i <? n / 2)%nat; [field; exact H|].
    replace (n - i - 1)%nat with ((n - 1) - i)%nat by lia. rewrite (minus_INR (n - 1) i) by lia. field. exact H.
Qed.
Lemma between_pos a b k i : 0 < a -> 0 <= b -> (i < k)%nat -> 0 <= between a b k i.
Proof.
  intros Ha Hb Hi. unfold between. destruct (Nat.eqb_spec k 1); [lra|].
  assert (H1 : 0 < INR (k - 1)) by (apply lt_0_INR; lia).
  assert (H2 : INR i <= INR (k - 1)) by (apply le_INR; lia). pose proof (pos_INR i).
  assert (H3 : 0 <= INR i / INR (k - 1)) by (apply Rmult_le_pos; [lra|apply Rlt_le, Rinv_0_lt_compat; lra]).
  assert (H4 : INR i / INR (k - 1) <= 1) by (apply Rmult_le_reg_r with (INR (k - 1)); [lra|]; unfold Rdiv; rewrite Rmult_assoc, Rinv_l; lra).
  nra.
Qed.
Lemma between_0 a b k : between a b k 0 = a.
Proof. unfold between. destruct (k =? 1)%nat; auto. cbn [INR]. unfold Rdiv. ring. Qed.

(** C56 for the spiral of Gaussians in the plane: as above, radius and spread change linearly from the first to
    the last Gaussian. *)
Lemma C56_gaussians_spiral_partial_pf :
  forall n k per_loop r0 r1 s0 s1 noise z w, (1 <= k)%nat -> (1 <= per_loop)%nat -> 0 < s0 -> 0 <= s1 ->
  exists D, @generate_gaussians_spiral ROps cos sin PI n k per_loop 2 r0 r1 s0 s1 noise z w = Ok D /\ dataset (n * k) 2 D /\
    forall i r, (i < k)%nat -> (r < n)%nat -> label D (i * n + r) = i /\
      point D (i * n + r) = plus_vec (plus_vec (ring (between r0 r1 k i) per_loop i) (times (between s0 s1 k i) (draw 2 (z i r)))) (times noise (draw 2 (w i))).
Proof.
  intros n k per_loop r0 r1 s0 s1 noise z w Hk Hp H0 H1. unfold generate_gaussians_spiral, pyget.
  rewrite !linspace_between by lia. cbn [rbind]. rewrite between_0. cbn [nltb ROps nQ]. rewrite Q2R_0'.
  rewrite (proj2 (Rltb_true _ _)) by exact H0. cbn [negb].
  rewrite (mapr_ok _ (fun i => blob (ring (between r0 r1 k i) per_loop i) n (between s0 s1 k i) noise (z i) (w i))).
  - eexists. split; [reflexivity|]. apply (blob_data n k (fun i => ring (between r0 r1 k i) per_loop i) (between s0 s1 k) noise z w). reflexivity.
  - intros i Hi. apply in_seq in Hi. destruct (Nat.eqb_spec per_loop 0); [lia|]. rewrite !linspace_between by lia. cbn [rbind].
    rewrite gauss_angle_eq. rewrite ring_loc with (k := per_loop).
    + cbn [rbind]. apply gauss_block_ok. apply between_pos; auto; lia.
    + rewrite nnat_INR. cbn. rewrite Q2R_lit. unfold Rdiv. rewrite Rinv_1. ring.
Qed.

(** C56 needs Gaussians per loop: without, the generator raises. *)
Lemma C56_no_loop_pf :
  forall n k dim r0 r1 s0 s1 noise z w, (1 <= k)%nat -> 0 < s0 ->
  @generate_gaussians_spiral ROps cos sin PI n k 0 dim r0 r1 s0 s1 noise z w = Err ZeroDivisionError.
Proof.
  intros n k dim r0 r1 s0 s1 noise z w Hk H0. unfold generate_gaussians_spiral, pyget.
  rewrite !linspace_between by lia. cbn [rbind]. rewrite between_0. cbn [nltb ROps nQ]. rewrite Q2R_0'.
  rewrite (proj2 (Rltb_true _ _)) by exact H0. cbn [negb]. destruct k as [|k]; [lia|]. reflexivity.
Qed.

(** C56, refuted for the number of points: spirals return twice, Gaussians n_gaussians times the promised number. *)
Lemma C56_sizes_refuted_pf :
  (forall n noise u e1 e2, (1 <= n)%nat -> exists D, @generate_spirals ROps cos sin PI n noise u e1 e2 = Ok D /\ length (fst D) <> n) /\
  (forall n k radius std noise z w, (1 <= n)%nat -> (2 <= k)%nat -> 0 < std ->
     exists D, @generate_gaussians ROps cos sin PI n k 2 radius std noise z w = Ok D /\ length (fst D) <> n).
Proof.
  split.
  - intros n noise u e1 e2 Hn. destruct (C56_spirals_partial_pf n noise u e1 e2) as (D & E & (HL & _) & _).
    exists D. split; [exact E|]. intros H. assert (2 * n = n)%nat by exact (eq_trans (eq_sym HL) H). lia.
  - intros n k radius std noise z w Hn Hk Hs. destruct (C56_gaussians_partial_pf n k radius std noise z w Hs) as (D & E & (HL & _) & _).
    exists D. split; [exact E|]. intros H. assert (n * k = n)%nat by exact (eq_trans (eq_sym HL) H). nia.
Qed.

(** C81, refuted: in dimension 3 the second coordinate of the centers is not multiplied by the radius (here: the
    center of the first of 4 noise-free Gaussians of radius 1/2 is at distance 1); in higher dimensions every call
    raises ValueError. *)
Lemma C81_dimension_refuted_pf :
  (exists D, @generate_gaussians ROps cos sin PI 1 4 3 (/ 2) 1 0 (fun _ _ _ => 0) (fun _ _ => 0) = Ok D /\ euclid (point D 0) = 1) /\
  (forall n k dim radius std noise z w, (1 <= k)%nat -> (4 <= dim)%nat -> 0 < std ->
     @generate_gaussians ROps cos sin PI n k dim radius std noise z w = Err ValueError) /\
  (forall n k dim radius std noise z w, (1 <= k)%nat -> (dim < 2)%nat -> 0 < std ->
     @generate_gaussians ROps cos sin PI n k dim radius std noise z w = Err RuntimeError).
Proof.
  split; [|split].
  - unfold generate_gaussians. cbn [nltb ROps nQ]. rewrite Q2R_0'. rewrite (proj2 (Rltb_true _ _)) by lra. cbn [negb seq mapr].
    rewrite !gauss_angle_eq. unfold gauss_loc. cbn [Nat.ltb Nat.leb Nat.sub Nat.eqb rbind].
    unfold gauss_block. cbn [nltb ROps nQ length Nat.eqb]. rewrite Q2R_0'. rewrite (proj2 (Rltb_false _ _)) by lra. cbn [rbind].
    eexists. split; [reflexivity|]. unfold point, euclid. cbn [fst concat map seq app map2 nth].
    rewrite dot_self. cbn [map total nadd nmul ndiv ROps]. rewrite nnat_INR. rewrite Q2R_lit.
    replace (INR 1 * (2 / 1 * PI / INR 4)) with (PI / 2) by (cbn; field). rewrite cos_PI2, sin_PI2.
    match goal with |- sqrt ?e = 1 => replace e with 1 by ring end. apply sqrt_1.
  - intros n k dim radius std noise z w Hk Hd Hs. unfold generate_gaussians. cbn [nltb ROps nQ]. rewrite Q2R_0'.
    rewrite (proj2 (Rltb_true _ _)) by exact Hs. cbn [negb]. destruct k as [|k]; [lia|]. cbn [seq mapr].
    unfold gauss_loc at 1. destruct (Nat.ltb_spec 2 dim); [|lia]. destruct (Nat.eqb_spec (dim - 2) 1); [lia|]. reflexivity.
  - intros n k dim radius std noise z w Hk Hd Hs. unfold generate_gaussians. cbn [nltb ROps nQ]. rewrite Q2R_0'.
    rewrite (proj2 (Rltb_true _ _)) by exact Hs. cbn [negb]. destruct k as [|k]; [lia|]. cbn [seq mapr].
    unfold gauss_loc at 1. destruct (Nat.ltb_spec 2 dim); [lia|]. cbn [rbind]. unfold gauss_block at 1. cbn [nltb ROps nQ length].
    rewrite Q2R_0'. rewrite (proj2 (Rltb_false _ _)) by lra. destruct (Nat.eqb_spec 2 dim); [lia|]. reflexivity.
Qed.

(** C82, refuted: for an unknown name the result is None and no error is raised. *)
Lemma C82_unknown_dataset_refuted_pf :
  forall (X : Type) (m s p g q d : res X) name,
  ~ In name ["moons"; "spirals"; "spheres"; "gaussians"; "gaussians_spiral"; "diffeqml"]%string ->
  toy_generate m s p g q d name = Ok None.
Proof.
  intros X m s p g q d name H. unfold toy_generate.
  repeat match goal with |- context [(name =? ?c)%string] => destruct (String.eqb_spec name c) as [->|]; [exfalso; apply H; cbn; tauto|] end.
  reflexivity.
Qed.
(** C82 for the documented names. *)
Lemma C82_names_partial_pf :
  forall (X : Type) (m s p g q d : res X),
  toy_generate m s p g q d "moons" = rmap Some m /\ toy_generate m s p g q d "spirals" = rmap Some s /\
  toy_generate m s p g q d "spheres" = rmap Some p /\ toy_generate m s p g q d "gaussians" = rmap Some g /\
  toy_generate m s p g q d "gaussians_spiral" = rmap Some q /\ toy_generate m s p g q d "diffeqml" = rmap Some d.
Proof. intros. repeat split. Qed.

Lemma C56_ex_pf : nonzero_draw 3 (fun j => INR j) /\ (forall i : nat, 0 <= (fun _ => / 2) i <= 1) /\
  ring 1 4 1 = [cos PI; sin PI] /\ between 0 1 3 1 = / 2.
Proof.
  split; [exists 1%nat; split; [lia|cbn; lra]|]. split; [intros; lra|]. split.
  - unfold ring. replace (2 * PI * INR 2 / INR 4) with PI by (cbn; field). f_equal; [|f_equal]; ring.
  - unfold between. cbn. field.
Qed.
