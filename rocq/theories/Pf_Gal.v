(** Proofs of the properties of the Galerkin layers. *)
From Coq Require Import ZArith QArith Qreals Reals Lra Lia String List Bool.
From Verif Require Import Num Py Tensor M_Nn Spec_Nn Spec_Root L_Base L_Root.
Import ListNotations.
Local Open Scope R_scope.
Local Notation length := List.length.
Notation rvl := (list R).

(** ** Sums *)
Lemma sum_up_seq n f : sum_up n f = fold_right Rplus 0 (map f (seq 0 n)).
Proof.
  induction n as [|n IH]; [reflexivity|]. cbn [sum_up]. rewrite seq_S, map_app, fold_right_app, IH. cbn.
  generalize (map f (seq 0 n)). intros l. induction l as [|a l IHl]; cbn; [lra|]. lra.
Qed.
Lemma sum_up_ext n f g : (forall i, (i < n)%nat -> f i = g i) -> sum_up n f = sum_up n g.
Proof. induction n as [|n IH]; intros H; cbn; [reflexivity|]. rewrite IH, H by auto. reflexivity. Qed.
Lemma sum_up_lin n a b f g : sum_up n (fun i => a * f i + b * g i) = a * sum_up n f + b * sum_up n g.
Proof. induction n as [|n IH]; cbn; [lra|]. rewrite IH. lra. Qed.
Lemma sum_up_zero n : sum_up n (fun _ => 0) = 0.
Proof. induction n as [|n IH]; cbn; lra. Qed.

Lemma dot_app a b c d : length a = length c -> dot (a ++ b) (c ++ d) = dot a c + dot b d.
Proof.
  revert c. induction a as [|x a IH]; intros [|y c] H; try discriminate; cbn [app].
  - rewrite dot_nil_l. lra.
  - rewrite !dot_cons, IH by (now injection H). lra.
Qed.
Lemma dot_concat {A} (f g : A -> rvl) l : (forall i, length (f i) = length (g i)) ->
  dot (concat (map f l)) (concat (map g l)) = fold_right Rplus 0 (map (fun i => dot (f i) (g i)) l).
Proof. intros H. induction l as [|i l IH]; cbn [map concat fold_right]; [reflexivity|]. rewrite dot_app by auto. now rewrite IH. Qed.
Lemma dot_delta a : forall deg s d (v : rvl), (d < deg)%nat -> length v = deg ->
  dot (map (fun k => if (k =? s + d)%nat then a else 0) (seq s deg)) v = a * nth d v 0.
Proof.
  induction deg as [|deg IH]; intros s d v Hd Hv; [lia|]. destruct v as [|x v]; [discriminate|]. cbn [seq map]. rewrite dot_cons.
  destruct d as [|d].
  - rewrite Nat.add_0_r, Nat.eqb_refl. cbn [nth].
    replace (dot _ v) with 0; [lra|]. symmetry. clear. 
    assert (H : forall n s' v, (s < s')%nat -> dot (map (fun k => if (k =? s)%nat then a else 0) (seq s' n)) v = 0).
    { induction n as [|n IHn]; intros s' w Hs; [reflexivity|]. destruct w as [|y w]; [apply dot_nil_r|]. cbn [seq map]. rewrite dot_cons.
      replace (s' =? s)%nat with false by (symmetry; apply Nat.eqb_neq; lia). rewrite IHn by lia. lra. }
    apply H. lia.
  - replace (s =? s + S d)%nat with false by (symmetry; apply Nat.eqb_neq; lia). cbn [nth].
    replace (s + S d)%nat with (S s + d)%nat by lia. rewrite IH by (cbn in Hv; lia). lra.
Qed.

(** ** The matrices of calculate_weights *)
Lemma hcat_map {A} deg (g : A -> nat -> rvl) l :
  @hcat ROps deg (map (fun i => map (g i) (seq 0 deg)) l) = map (fun d => concat (map (fun i => g i d) l)) (seq 0 deg).
Proof.
  induction l as [|i l IH]; cbn [map hcat concat].
  - generalize 0%nat. induction deg as [|deg IH]; intros s; cbn; [reflexivity|]. f_equal. apply IH.
  - refine (eq_trans (f_equal (fun z => map2 (@app R) _ z) IH) _). rewrite map2_map_l, map2_map_r, map2_same. reflexivity.
Qed.

Definition drow (deg : nat) (v : rvl) (d : nat) : rvl := map (fun k => if (k =? d)%nat then nth d v 0 else 0) (seq 0 deg).

Lemma diag_rows_ok deg (v : rvl) : length v = deg -> @diag_rows ROps deg v = Ok (map (drow deg v) (seq 0 deg)).
Proof.
  intros H. unfold diag_rows. rops. rewrite (proj2 (Nat.eqb_eq _ _) H). rewrite Q2R_0'. reflexivity.
Qed.

Lemma mapr_ok {A B} (f : A -> res B) (g : A -> B) l : (forall a, In a l -> f a = Ok (g a)) -> mapr f l = Ok (map g l).
Proof.
  induction l as [|a l IH]; intros H; cbn; [reflexivity|]. rewrite H by (now left). cbn. rewrite IH by (intros; apply H; now right). reflexivity.
Qed.

Lemma coeff_col neig (c : list rvl) i d : Forall (fun r => length r = neig) c ->
  nth d (map (fun row => nth i row 0) c) 0 = nth i (nth d c []) 0.
Proof.
  intros H. destruct (Nat.lt_ge_cases d (length c)) as [Hd|Hd].
  - rewrite nth_indep with (d' := nth i [] 0) by (now rewrite map_length). apply (map_nth (fun row => nth i row 0)).
  - rewrite (nth_overflow c []) by auto. rewrite nth_overflow by (now rewrite map_length). now destruct i.
Qed.

(** the array may have more columns than the basis has eigenfunctions *)
Lemma weights_cols (deg neig ncol W : nat) expfunc (dil sh t : R) coeffs basis :
  coeff_array W deg ncol coeffs ->
  expfunc (@linspace ROps 0 (INR deg) deg) (t * dil + sh) = Ok basis ->
  (neig <= length basis)%nat -> (forall i, (i < neig)%nat -> length (nth i basis []) = deg) ->
  @calculate_weights ROps deg neig expfunc dil sh coeffs t = Ok (map (expansion deg neig basis coeffs) (seq 0 W)).
Proof.
  intros (HW & HC) He Hb Hl. unfold calculate_weights. rewrite nnat_INR. rops. rewrite Q2R_0'.
  refine (eq_trans (f_equal (fun z => rbind z _) He) _). cbn [rbind].
  rewrite (mapr_ok _ (fun i => map (drow deg (nth i basis [])) (seq 0 deg))).
  2:{ intros i Hi. apply in_seq in Hi. unfold pyget. rewrite (nth_error_nth' basis []) by lia. cbn [rbind]. apply diag_rows_ok. apply Hl. lia. }
  cbn [rbind]. f_equal. change (num ROps) with R. rewrite HW. apply map_ext_in. intros j Hj. apply in_seq in Hj.
  set (B := hcat deg _). set (Cm := map _ coeffs). refine (eq_trans (vsum_fold _) _). rewrite map_map.
  assert (EB : B = map (fun d => concat (map (fun i => drow deg (nth i basis []) d) (seq 0 neig))) (seq 0 deg)) by apply (hcat_map deg (fun i => drow deg (nth i basis []))).
  rewrite EB. rewrite map_map. unfold expansion. rewrite sum_up_seq. f_equal. apply map_ext_in. intros d Hd. apply in_seq in Hd.
  set (brow := concat _).
  assert (E1 : nth j (map (fun crow => @vdot ROps brow crow) Cm) 0 = @vdot ROps brow (nth j Cm [])).
  { rewrite nth_indep with (d' := @vdot ROps brow []) by (unfold Cm; rewrite !map_length; lia). apply (map_nth (fun crow => @vdot ROps brow crow)). }
  refine (eq_trans E1 _). rewrite vdot_dot.
  set (c := nth j coeffs []).
  assert (Hc : length c = deg /\ Forall (fun r => length r = ncol) c).
  { rewrite Forall_forall in HC. apply HC. apply nth_In. lia. }
  assert (E2 : nth j Cm [] = concat (map (fun i => map (fun row => nth i row 0) c) (seq 0 neig))).
  { unfold Cm. rewrite nth_indep with (d' := (fun c => concat (map (fun i => map (fun row => nth i row 0) c) (seq 0 neig))) []) by (rewrite map_length; lia).
    exact (map_nth (fun c => concat (map (fun i => map (fun row => nth i row 0) c) (seq 0 neig))) coeffs [] j). }
  rewrite E2. unfold brow. rewrite dot_concat by (intros i; unfold drow; rewrite !map_length, seq_length; symmetry; apply Hc).
  rewrite sum_up_seq. f_equal. apply map_ext. intros i. unfold drow.
  rewrite (dot_delta (nth d (nth i basis []) 0) deg 0 d) by (rewrite ?map_length; intuition lia).
  f_equal. rewrite (coeff_col ncol) by apply Hc. reflexivity.
Qed.
Lemma weights_value (deg neig W : nat) expfunc (dil sh t : R) coeffs basis :
  coeff_array W deg neig coeffs ->
  expfunc (@linspace ROps 0 (INR deg) deg) (t * dil + sh) = Ok basis ->
  (neig <= length basis)%nat -> (forall i, (i < neig)%nat -> length (nth i basis []) = deg) ->
  @calculate_weights ROps deg neig expfunc dil sh coeffs t = Ok (map (expansion deg neig basis coeffs) (seq 0 W)).
Proof. apply weights_cols. Qed.

(** calculate_weights(t): weight j is the sum over the degrees d and the eigenfunctions i of
    basis_i(d) * coeffs[j, d, i], for every basis returned by the expansion function *)
Lemma C52_weights_pf : forall (deg neig W : nat) expfunc (dil sh t : R) coeffs basis,
  coeff_array W deg neig coeffs ->
  expfunc (@linspace ROps 0 (INR deg) deg) (t * dil + sh) = Ok basis ->
  (neig <= length basis)%nat -> (forall i, (i < neig)%nat -> length (nth i basis []) = deg) ->
  exists w, @calculate_weights ROps deg neig expfunc dil sh coeffs t = Ok w /\ length w = W /\
    forall j, (j < W)%nat -> nth j w 0 = expansion deg neig basis coeffs j.
Proof.
  intros deg neig W expfunc dil sh t coeffs basis H1 H2 H3 H4. rewrite (weights_value deg neig W expfunc dil sh t coeffs basis) by auto.
  eexists. split; [reflexivity|]. split; [now rewrite map_length, seq_length|]. intros j Hj.
  rewrite nth_indep with (d' := expansion deg neig basis coeffs 0) by (rewrite map_length, seq_length; auto).
  rewrite map_nth. now rewrite seq_nth by auto.
Qed.

(** ** The layer *)
Lemma dot_sum : forall n (a b : rvl), length a = n -> length b = n -> dot a b = sum_up n (fun k => nth k a 0 * nth k b 0).
Proof.
  induction n as [|n IH]; intros a b Ha Hb.
  - destruct a; [|discriminate]. reflexivity.
  - destruct a as [|x a]; [discriminate|]. destruct b as [|y b]; [discriminate|]. rewrite dot_cons, (IH a b) by (cbn in *; lia).
    clear IH Ha Hb. induction n as [|n IH]; cbn in *; [lra|]. lra.
Qed.
Lemma slice_front {A} n (w : list A) : (n <= length w)%nat -> pyslice (Some 0%Z) (Some (Z.of_nat n)) w = firstn n w.
Proof.
  intros H. unfold pyslice, slice_bound. cbn [Z.ltb Z.compare]. replace (Z.of_nat n <? 0)%Z with false by (symmetry; apply Z.ltb_ge; lia).
  rewrite Nat2Z.id. cbn [Z.to_nat Nat.min skipn]. rewrite Nat.sub_0_r. f_equal. lia.
Qed.
Lemma slice_mid {A} n m (w : list A) : (n <= m)%nat -> (m <= length w)%nat ->
  pyslice (Some (Z.of_nat n)) (Some (Z.of_nat m)) w = firstn (m - n) (skipn n w).
Proof.
  intros H1 H2. unfold pyslice, slice_bound. replace (Z.of_nat n <? 0)%Z with false by (symmetry; apply Z.ltb_ge; lia).
  replace (Z.of_nat m <? 0)%Z with false by (symmetry; apply Z.ltb_ge; lia). rewrite !Nat2Z.id. f_equal; [lia|]. f_equal. lia.
Qed.
Lemma slice_back {A} n (w : list A) : (n <= length w)%nat -> pyslice (Some (Z.of_nat n)) None w = skipn n w.
Proof.
  intros H1. unfold pyslice, slice_bound. replace (Z.of_nat n <? 0)%Z with false by (symmetry; apply Z.ltb_ge; lia). rewrite Nat2Z.id.
  rewrite Nat.min_l by auto. rewrite firstn_all2; auto. rewrite skipn_length. lia.
Qed.
Lemma nth_first_lt {A} (d : A) : forall n l i, (i < n)%nat -> nth i (firstn n l) d = nth i l d.
Proof. induction n as [|n IH]; intros [|a l] [|i] H; cbn; auto; try lia. apply IH. lia. Qed.
Lemma nth_skip {A} (d : A) : forall n l i, nth i (skipn n l) d = nth (n + i) l d.
Proof. induction n as [|n IH]; intros [|a l] i; cbn; auto. now destruct i. Qed.
Lemma removelast_len {A} (l : list A) n : length l = (n + 1)%nat -> length (removelast l) = n.
Proof. intros H. rewrite removelast_firstn_len, firstn_length, H. lia. Qed.
Lemma nth_removelast {A} (l : list A) n k d : length l = (n + 1)%nat -> (k < n)%nat -> nth k (removelast l) d = nth k l d.
Proof. intros H Hk. rewrite removelast_firstn_len, H. apply nth_first_lt. lia. Qed.
Lemma pylast_last {A} (l : list A) d : l <> [] -> pylast l = Ok (last l d).
Proof.
  intros H. destruct (exists_last H) as (l' & a & ->). unfold pylast. rewrite rev_app_distr. cbn. now rewrite last_last.
Qed.

(** GalLinear.forward: with t the last entry of the last row of the input, the output of row b, column o is
    sum_k x[b][k] * w[o*in + k] + w[in*out + o] where w are the weights at t *)
Lemma C52_layer_pf : forall (nin nout deg neig : nat) expfunc (dil sh : R) coeffs basis (input : list rvl),
  coeff_array ((nin + 1) * nout) deg neig coeffs ->
  input <> [] -> Forall (fun row => length row = nin + 1)%nat input ->
  expfunc (@linspace ROps 0 (INR deg) deg) (last (last input []) 0 * dil + sh) = Ok basis ->
  (neig <= length basis)%nat -> (forall i, (i < neig)%nat -> length (nth i basis []) = deg) ->
  exists out, @gal_linear ROps nin nout true deg neig expfunc dil sh coeffs input = Ok out /\
    length out = length input /\ Forall (fun row => length row = nout) out /\
    forall b o, (b < length input)%nat -> (o < nout)%nat ->
      nth o (nth b out []) 0 = sum_up nin (fun k => nth k (nth b input []) 0 * expansion deg neig basis coeffs (o * nin + k)) +
                              expansion deg neig basis coeffs (nin * nout + o).
Proof.
  intros nin nout deg neig expfunc dil sh coeffs basis input HC Hne HF He Hb Hl.
  assert (Hlast : length (last input []) = (nin + 1)%nat).
  { destruct (exists_last Hne) as (l' & a & ->). rewrite last_last. apply Forall_app in HF. destruct HF as (_ & HF). now inversion HF. }
  unfold gal_linear. refine (eq_ind_r (fun z => exists out, rbind z _ = Ok out /\ _) _ (pylast_last input [] Hne)). cbn [rbind].
  assert (Hne2 : last input [] <> []) by (intros E; rewrite E in Hlast; cbn in Hlast; lia).
  refine (eq_ind_r (fun z => exists out, rbind z _ = Ok out /\ _) _ (pylast_last (last input []) 0 Hne2)). cbn [rbind].
  set (w := map (expansion deg neig basis coeffs) (seq 0 ((nin + 1) * nout))).
  refine (eq_ind_r (fun z => exists out, rbind z _ = Ok out /\ _) _ (weights_value deg neig ((nin + 1) * nout) expfunc dil sh (last (last input []) 0) coeffs basis HC He Hb Hl)). cbn [rbind].
  fold w. assert (Lw : length w = ((nin + 1) * nout)%nat) by (unfold w; now rewrite map_length, seq_length).
  assert (Nw : forall j, (j < (nin + 1) * nout)%nat -> nth j w 0 = expansion deg neig basis coeffs j).
  { intros j Hj. unfold w. rewrite nth_indep with (d' := expansion deg neig basis coeffs 0) by (rewrite map_length, seq_length; auto).
    rewrite map_nth. now rewrite seq_nth by auto. }
  change (num ROps) with R. rewrite (slice_front (nin * nout) w) by (rewrite Lw; nia). rewrite (slice_mid (nin * nout) ((nin + 1) * nout) w) by (rewrite ?Lw; nia).
  replace ((nin + 1) * nout - nin * nout)%nat with nout by nia.
  replace (forallb _ _) with true.
  2:{ symmetry. apply forallb_forall. intros r Hr. apply in_map_iff in Hr. destruct Hr as (r' & <- & Hr). apply Nat.eqb_eq. apply removelast_len.
      rewrite Forall_forall in HF. now apply HF. }
  eexists. split; [reflexivity|]. unfold linear. rewrite map_map. split; [apply map_length|].
  assert (Lb : length (firstn nout (skipn (nin * nout) w)) = nout) by (rewrite firstn_length, skipn_length, Lw; nia).
  assert (Lr : length (reshape2 (K := ROps) nout nin (firstn (nin * nout) w)) = nout) by (unfold reshape2; now rewrite map_length, seq_length).
  split.
  { apply Forall_forall. intros r Hr. apply in_map_iff in Hr. destruct Hr as (r' & <- & Hr). apply map2_length_eq; [rewrite map_length; exact Lr|exact Lb]. }
  intros b o Hbb Ho. set (F := fun r : rvl => map2 _ _ _).
  rewrite nth_indep with (d' := F []) by (now rewrite map_length). rewrite (map_nth F). unfold F.
  set (row := nth b input []). assert (Lrow : length row = (nin + 1)%nat) by (rewrite Forall_forall in HF; apply HF; now apply nth_In).
  rewrite (map2_nth _ _ _ _ 0 0) by (first [refine (eq_ind_r (fun z => (o < z)%nat) Ho _); rewrite map_length; exact Lr | refine (eq_ind_r (fun z => (o < z)%nat) Ho _); exact Lb]).
  rops. f_equal.
  - unfold reshape2. rewrite map_map. set (G := fun o0 : nat => @vdot ROps _ _).
    rewrite nth_indep with (d' := G 0%nat) by (rewrite map_length, seq_length; auto). rewrite map_nth, seq_nth by auto. cbn [plus]. unfold G.
    rewrite vdot_dot. rewrite (dot_sum nin); [|now apply removelast_len|rewrite firstn_length, skipn_length, firstn_length; change (num ROps) with R; rewrite Lw; nia].
    apply sum_up_ext. intros k Hk. f_equal; [now apply (nth_removelast _ nin)|].
    rewrite nth_first_lt by auto. rewrite nth_skip, nth_first_lt by nia. apply Nw. nia.
  - rewrite nth_first_lt by auto. rewrite nth_skip. apply Nw. nia.
Qed.

Lemma expansion_lin deg neig basis c1 c2 c3 a b j :
  (forall d i, (d < deg)%nat -> (i < neig)%nat -> coeff c3 j d i = a * coeff c1 j d i + b * coeff c2 j d i) ->
  expansion deg neig basis c3 j = a * expansion deg neig basis c1 j + b * expansion deg neig basis c2 j.
Proof.
  intros H. unfold expansion. rewrite <- sum_up_lin. apply sum_up_ext. intros d Hd. rewrite <- sum_up_lin. apply sum_up_ext. intros i Hi.
  rewrite H by auto. lra.
Qed.

(** the output is linear in the coefficients (same input, same basis) *)
Lemma C52_linear_pf : forall (nin nout deg neig : nat) expfunc (dil sh a1 a2 : R) c1 c2 c3 basis (input : list rvl),
  coeff_array ((nin + 1) * nout) deg neig c1 -> coeff_array ((nin + 1) * nout) deg neig c2 -> coeff_array ((nin + 1) * nout) deg neig c3 ->
  (forall j d i, (j < (nin + 1) * nout)%nat -> (d < deg)%nat -> (i < neig)%nat -> coeff c3 j d i = a1 * coeff c1 j d i + a2 * coeff c2 j d i) ->
  input <> [] -> Forall (fun row => length row = nin + 1)%nat input ->
  expfunc (@linspace ROps 0 (INR deg) deg) (last (last input []) 0 * dil + sh) = Ok basis ->
  (neig <= length basis)%nat -> (forall i, (i < neig)%nat -> length (nth i basis []) = deg) ->
  exists o1 o2 o3, @gal_linear ROps nin nout true deg neig expfunc dil sh c1 input = Ok o1 /\
    @gal_linear ROps nin nout true deg neig expfunc dil sh c2 input = Ok o2 /\
    @gal_linear ROps nin nout true deg neig expfunc dil sh c3 input = Ok o3 /\
    forall b o, (b < length input)%nat -> (o < nout)%nat -> nth o (nth b o3 []) 0 = a1 * nth o (nth b o1 []) 0 + a2 * nth o (nth b o2 []) 0.
Proof.
  intros nin nout deg neig expfunc dil sh a1 a2 c1 c2 c3 basis input H1 H2 H3 HL Hne HF He Hb Hl.
  destruct (C52_layer_pf nin nout deg neig expfunc dil sh c1 basis input H1 Hne HF He Hb Hl) as (o1 & E1 & _ & _ & V1).
  destruct (C52_layer_pf nin nout deg neig expfunc dil sh c2 basis input H2 Hne HF He Hb Hl) as (o2 & E2 & _ & _ & V2).
  destruct (C52_layer_pf nin nout deg neig expfunc dil sh c3 basis input H3 Hne HF He Hb Hl) as (o3 & E3 & _ & _ & V3).
  exists o1, o2, o3. repeat split; auto. intros b o Hbb Ho. rewrite V1, V2, V3 by auto.
  rewrite (expansion_lin deg neig basis c1 c2 c3 a1 a2 (nin * nout + o)) by (intros; apply HL; auto; nia).
  rewrite (sum_up_ext nin _ (fun k => a1 * (nth k (nth b input []) 0 * expansion deg neig basis c1 (o * nin + k)) +
                                     a2 * (nth k (nth b input []) 0 * expansion deg neig basis c2 (o * nin + k)))).
  - rewrite sum_up_lin. lra.
  - intros k Hk. rewrite (expansion_lin deg neig basis c1 c2 c3 a1 a2 (o * nin + k)) by (intros; apply HL; auto; nia). lra.
Qed.

(** a freshly initialised layer (coefficients zero) returns zeros *)
Lemma C52_zero_pf : forall (nin nout deg neig : nat) expfunc (dil sh : R) coeffs basis (input : list rvl),
  coeff_array ((nin + 1) * nout) deg neig coeffs -> (forall j d i, coeff coeffs j d i = 0) ->
  input <> [] -> Forall (fun row => length row = nin + 1)%nat input ->
  expfunc (@linspace ROps 0 (INR deg) deg) (last (last input []) 0 * dil + sh) = Ok basis ->
  (neig <= length basis)%nat -> (forall i, (i < neig)%nat -> length (nth i basis []) = deg) ->
  exists out, @gal_linear ROps nin nout true deg neig expfunc dil sh coeffs input = Ok out /\ length out = length input /\
    forall b o, (b < length input)%nat -> (o < nout)%nat -> nth o (nth b out []) 0 = 0.
Proof.
  intros nin nout deg neig expfunc dil sh coeffs basis input H1 HZ Hne HF He Hb Hl.
  destruct (C52_layer_pf nin nout deg neig expfunc dil sh coeffs basis input H1 Hne HF He Hb Hl) as (out & E1 & L1 & _ & V1).
  exists out. repeat split; auto. intros b o Hbb Ho. rewrite V1 by auto.
  assert (Z : forall j, expansion deg neig basis coeffs j = 0).
  { intros j. unfold expansion. rewrite (sum_up_ext deg _ (fun _ => 0)); [apply sum_up_zero|]. intros d _.
    rewrite (sum_up_ext neig _ (fun _ => 0)); [apply sum_up_zero|]. intros i _. rewrite HZ. lra. }
  rewrite Z. rewrite (sum_up_ext nin _ (fun _ => 0)); [rewrite sum_up_zero; lra|]. intros k _. rewrite Z. lra.
Qed.

(** GalConv2d: kernel entries and biases partition the weight vector *)
Lemma C52_conv_split_pf : forall (nin nout ks : nat) (w : rvl), length w = (nout * nin * ks * ks + nout)%nat ->
  let (k, b) := @gal_conv_split ROps nin nout ks w in
  w = k ++ b /\ length k = (nout * nin * ks * ks)%nat /\ length b = nout.
Proof.
  intros nin nout ks w Hw. unfold gal_conv_split. change (num ROps) with R. rewrite slice_front, slice_back by lia.
  rewrite firstn_length, skipn_length. split; [symmetry; apply firstn_skipn|]. lia.
Qed.
