(** Proofs: GalConv2d is a convolution. *)
From Coq Require Import ZArith QArith Qreals Reals Lra Lia String List Bool.
From Verif Require Import Num Py Tensor M_Nn M_Conv2d Spec_Nn Spec_Root Spec_Image L_Base L_Root Pf_Nn Pf_Gal.
Import ListNotations.
Local Open Scope R_scope.
Local Notation length := List.length.

Lemma sum_up_prod a b g : sum_up (a * b) g = sum_up a (fun i => sum_up b (fun j => g (i * b + j)%nat)).
Proof.
  induction a as [|a IH]; [reflexivity|]. cbn [sum_up]. rewrite <- IH. replace (S a * b)%nat with (a * b + b)%nat by lia.
  clear IH. generalize (a * b)%nat as m. intros m. induction b as [|b IH]; cbn [sum_up]; [rewrite Nat.add_0_r; lra|].
  rewrite Nat.add_succ_r. cbn [sum_up]. rewrite IH. lra.
Qed.

(** ** Padding *)
Lemma nth_rep {A} (a d : A) m i : (i < m)%nat -> nth i (repeat a m) d = a.
Proof. revert i; induction m as [|m IH]; intros [|i] H; cbn; auto; try lia. apply IH. lia. Qed.
Lemma pad1_len {A} p (z : A) l : length (pad1 p z l) = (length l + 2 * p)%nat.
Proof. unfold pad1. rewrite !app_length, !repeat_length. lia. Qed.
Lemma pad1_nth {A} p (z d : A) l i : (i < length l + 2 * p)%nat ->
  nth i (pad1 p z l) d = if (p <=? i)%nat && (i <? p + length l)%nat then nth (i - p) l d else z.
Proof.
  intros Hi. unfold pad1. destruct (Nat.leb_spec p i) as [H1|H1]; cbn [andb].
  - rewrite app_nth2 by (now rewrite repeat_length). rewrite repeat_length. destruct (Nat.ltb_spec i (p + length l)) as [H2|H2].
    + now rewrite app_nth1 by lia.
    + rewrite app_nth2 by lia. apply nth_rep. lia.
  - rewrite app_nth1 by (now rewrite repeat_length). now apply nth_rep.
Qed.

Lemma concat_nth {A} (k : nat) (d : A) : forall (l : list (list A)) i j, Forall (fun r => length r = k) l -> (i < length l)%nat -> (j < k)%nat ->
  nth (i * k + j) (concat l) d = nth j (nth i l []) d.
Proof.
  induction l as [|r l IH]; intros i j HF Hi Hj; [cbn in Hi; lia|]. inversion HF as [|? ? H1 H2]; subst. cbn [concat].
  destruct i as [|i].
  - cbn [Nat.mul plus nth]. now rewrite app_nth1.
  - rewrite app_nth2 by nia. replace (S i * length r + j - length r)%nat with (i * length r + j)%nat by nia. cbn [nth]. apply IH; auto. cbn in Hi. lia.
Qed.

Lemma window_spec ks y x (pl : list rvl) h w : length pl = h -> Forall (fun r => length r = w) pl -> (y + ks <= h)%nat -> (x + ks <= w)%nat ->
  length (@window ROps ks y x pl) = (ks * ks)%nat /\
  forall i j, (i < ks)%nat -> (j < ks)%nat -> nth (i * ks + j) (@window ROps ks y x pl) 0 = nth (x + j) (nth (y + i) pl []) 0.
Proof.
  intros Hh Hw Hy Hx. unfold window. change (num ROps) with R. set (cut := fun row : rvl => firstn ks (skipn x row)). set (rws := firstn ks (skipn y pl)).
  assert (Lr : length rws = ks) by (unfold rws; rewrite firstn_length, skipn_length; lia).
  assert (Rw : Forall (fun r => length r = w) rws).
  { apply Forall_forall. intros r Hr. rewrite Forall_forall in Hw. apply Hw. unfold rws in Hr.
    rewrite <- (firstn_skipn y pl). apply in_or_app. right. rewrite <- (firstn_skipn ks (skipn y pl)). apply in_or_app. now left. }
  assert (Hk : Forall (fun r => length r = ks) (map cut rws)).
  { apply Forall_forall. intros r Hr. apply in_map_iff in Hr. destruct Hr as (r' & <- & Hr). pose proof (proj1 (Forall_forall _ _) Rw r' Hr) as Rw'. cbv beta in Rw'.
    unfold cut. rewrite firstn_length, skipn_length. lia. }
  split.
  - assert (Hc : forall l : list rvl, Forall (fun r => length r = ks) l -> length (concat l) = (length l * ks)%nat).
    { induction l as [|r l IH]; intros HF; [reflexivity|]. inversion HF as [|? ? E1 E2]. cbn [concat length]. rewrite app_length, IH, E1 by auto. lia. }
    rewrite Hc by exact Hk. rewrite map_length, Lr. reflexivity.
  - intros i j Hi Hj. rewrite (concat_nth ks) by (auto; rewrite map_length; lia).
    rewrite (nth_indep (map cut rws) [] (cut [])) by (rewrite map_length; lia). rewrite (map_nth cut). unfold cut, rws.
    rewrite !nth_first_lt by auto. rewrite !nth_skip. reflexivity.
Qed.

(** ** Padded planes and pixels *)
Lemma entry4 (x : nd R 4) b c u v : entry 4 x [b; c; u; v] =
  match nth_error x b with Some i => match nth_error i c with Some p => match nth_error p u with Some r => nth_error r v | None => None end | None => None end | None => None end.
Proof.
  cbn [entry]. destruct (nth_error x b) as [i|]; auto. destruct (nth_error i c) as [p|]; auto. destruct (nth_error p u) as [r|]; auto.
  now destruct (nth_error r v).
Qed.
Lemma nth_nth_error {A} (l : list A) i d : nth i l d = match nth_error l i with Some a => a | None => d end.
Proof. revert i; induction l as [|a l IH]; intros [|i]; cbn; auto. Qed.

Lemma pad_plane_nth {A} (z d : A) p H W (pl : list (list A)) Y X : length pl = H -> Forall (fun r => length r = W) pl ->
  (Y < H + 2 * p)%nat -> (X < W + 2 * p)%nat ->
  nth X (nth Y (pad1 p (repeat z (W + 2 * p)) (map (pad1 p z) pl)) []) d =
  if (p <=? Y)%nat && (Y <? p + H)%nat && ((p <=? X)%nat && (X <? p + W)%nat) then nth (X - p) (nth (Y - p) pl []) d else z.
Proof.
  intros Lp Hr HY HX. assert (Lm : length (map (pad1 p z) pl) = H) by (now rewrite map_length).
  rewrite pad1_nth, Lm by (now rewrite Lm).
  destruct ((p <=? Y)%nat && (Y <? p + H)%nat) eqn:E; cbn [andb]; [|apply nth_rep; lia].
  apply andb_prop in E. destruct E as [E1 E2]. apply Nat.leb_le in E1. apply Nat.ltb_lt in E2.
  rewrite (nth_indep (map (pad1 p z) pl) [] (pad1 p z [])) by lia. rewrite (map_nth (pad1 p z)).
  assert (Lr : length (nth (Y - p) pl []) = W).
  { apply (proj1 (Forall_forall _ _) Hr). apply nth_In. lia. }
  now rewrite pad1_nth, Lr by (now rewrite Lr).
Qed.

Lemma pixel_plane (x : tensor R 4) B C H W b c img pl p Y X : is_tensor 4 x -> fst x = [B; C; H; W] ->
  nth_error (snd x) b = Some img -> nth_error img c = Some pl -> (Y < H + 2 * p)%nat -> (X < W + 2 * p)%nat ->
  length pl = H /\ Forall (fun r => length r = W) pl /\
  nth X (nth Y (@pad_plane ROps p W pl) []) 0 = pixel x b c (Z.of_nat Y - Z.of_nat p) (Z.of_nat X - Z.of_nat p).
Proof.
  intros (_ & Hsh) Ex Hb Hc HY HX. rewrite Ex in Hsh. cbn [has_shape] in Hsh. destruct Hsh as (_ & Hi).
  rewrite Forall_forall in Hi. destruct (Hi img (nth_error_In _ _ Hb)) as (_ & Hp). rewrite Forall_forall in Hp.
  destruct (Hp pl (nth_error_In _ _ Hc)) as (Lp & Hr). clear Hi Hp.
  assert (Hr' : Forall (fun r : rvl => length r = W) pl) by (eapply Forall_impl; [|exact Hr]; intros r [E _]; exact E).
  split; [exact Lp|]. split; [exact Hr'|].
  assert (EZ : @nQ ROps 0 = 0) by apply Q2R_0'.
  refine (eq_trans (pad_plane_nth (@nQ ROps 0 : R) 0 p H W pl Y X Lp Hr' HY HX) _).
  unfold pixel. rewrite entry4, Hb, Hc.
  destruct (Nat.leb_spec p Y) as [H1|H1]; cbn [andb].
  2:{ replace (0 <=? Z.of_nat Y - Z.of_nat p)%Z with false by (symmetry; apply Z.leb_gt; lia). exact EZ. }
  replace (0 <=? Z.of_nat Y - Z.of_nat p)%Z with true by (symmetry; apply Z.leb_le; lia). cbn [andb].
  replace (Z.to_nat (Z.of_nat Y - Z.of_nat p)) with (Y - p)%nat by lia.
  destruct (Nat.ltb_spec Y (p + H)) as [H2|H2]; cbn [andb].
  2:{ rewrite (proj2 (nth_error_None pl (Y - p))) by (rewrite Lp; lia). destruct (0 <=? _)%Z; exact EZ. }
  destruct (nth_error pl (Y - p)) as [r|] eqn:Er; [|apply nth_error_None in Er; rewrite Lp in Er; lia].
  assert (Er' : nth (Y - p) pl [] = r) by (now apply nth_error_nth). rewrite Er'.
  assert (Lrow : length r = W) by (apply (proj1 (Forall_forall _ _) Hr'); eapply nth_error_In; eauto).
  destruct (Nat.leb_spec p X) as [H3|H3]; cbn [andb].
  2:{ replace (0 <=? Z.of_nat X - Z.of_nat p)%Z with false by (symmetry; apply Z.leb_gt; lia). exact EZ. }
  replace (0 <=? Z.of_nat X - Z.of_nat p)%Z with true by (symmetry; apply Z.leb_le; lia).
  replace (Z.to_nat (Z.of_nat X - Z.of_nat p)) with (X - p)%nat by lia.
  destruct (Nat.ltb_spec X (p + W)) as [H4|H4].
  - apply nth_nth_error.
  - rewrite (proj2 (nth_error_None r (X - p))) by lia. exact EZ.
Qed.

(** ** The convolution *)
Lemma nth_error_seq0 m i : (i < m)%nat -> nth_error (seq 0 m) i = Some i.
Proof. intros H. rewrite (nth_error_nth' _ 0%nat) by (now rewrite seq_length). f_equal. now rewrite seq_nth. Qed.
Lemma last_window y q stride : (1 <= stride)%nat -> (y < q / stride + 1)%nat -> (y * stride <= q)%nat.
Proof. intros Hs Hy. pose proof (Nat.mul_div_le q stride ltac:(lia)). nia. Qed.

Lemma conv2d_value oc ic ks stride pad (weight bias : rvl) (x : tensor R 4) B H W :
  is_tensor 4 x -> fst x = [B; ic; H; W] -> (1 <= ks)%nat -> (1 <= stride)%nat -> (ks <= H + 2 * pad)%nat -> (ks <= W + 2 * pad)%nat ->
  length weight = (oc * ic * ks * ks)%nat ->
  exists out : tensor R 4, @conv2d ROps oc ic ks stride pad weight bias x = Ok out /\ is_tensor 4 out /\
    fst out = [B; oc; positions H pad ks stride; positions W pad ks stride] /\
    forall b o y u, (b < B)%nat -> (o < oc)%nat -> (y < positions H pad ks stride)%nat -> (u < positions W pad ks stride)%nat ->
      entry 4 (snd out) [b; o; y; u] =
      Some (convolved ic ks stride pad (fun o c i j => nth (((o * ic + c) * ks + i) * ks + j) weight 0) (fun o => nth o bias 0) x b o y u).
Proof.
  intros Hx Ex Hk Hs HH HW Lw. destruct x as [sh dat]. cbn [fst snd] in *. subst sh. unfold conv2d. cbn [fst snd].
  replace (stride =? 0)%nat with false by (symmetry; apply Nat.eqb_neq; lia). replace (ks =? 0)%nat with false by (symmetry; apply Nat.eqb_neq; lia).
  rewrite Nat.eqb_refl. replace (H + 2 * pad <? ks)%nat with false by (symmetry; apply Nat.ltb_ge; lia). replace (W + 2 * pad <? ks)%nat with false by (symmetry; apply Nat.ltb_ge; lia).
  cbn [orb negb]. eexists. split; [reflexivity|]. cbn [fst snd].
  fold (positions H pad ks stride). fold (positions W pad ks stride).
  assert (Hsh := proj2 Hx). cbn [fst snd has_shape] in Hsh. destruct Hsh as (LB & Hi).
  split; [|split; [reflexivity|]].
  { split; [reflexivity|]. cbn [fst snd has_shape]. split; [rewrite map_length; exact LB|].
    apply Forall_forall. intros img' Hi'. apply in_map_iff in Hi'. destruct Hi' as (img & <- & _). split; [now rewrite map_length, seq_length|].
    apply Forall_forall. intros pl' Hp. apply in_map_iff in Hp. destruct Hp as (o & <- & _). split; [now rewrite map_length, seq_length|].
    apply Forall_forall. intros r Hr. apply in_map_iff in Hr. destruct Hr as (y & <- & _). split; [now rewrite map_length, seq_length|].
    apply Forall_forall. intros. reflexivity. }
  intros b o y u Hb Ho Hy Hu. rewrite entry4.
  destruct (nth_error dat b) as [img|] eqn:Eb; [|apply nth_error_None in Eb; rewrite LB in Eb; lia].
  match goal with |- context [nth_error (map ?g dat) b] => assert (Em : nth_error (map g dat) b = option_map g (Some img)) by (rewrite <- Eb; apply nth_error_map) end.
  match type of Em with ?l = _ => match goal with |- context [nth_error ?a b] => change (nth_error a b) with l end end. rewrite Em.
  cbn [option_map]. rewrite nth_error_map, nth_error_seq0 by auto. cbn [option_map].
  rewrite nth_error_map, nth_error_seq0 by auto. cbn [option_map]. rewrite nth_error_map, nth_error_seq0 by auto. cbn [option_map].
  f_equal. unfold convolved. change (@nadd ROps) with Rplus. f_equal.
  2:{ rewrite <- Q2R_0'. reflexivity. }
  refine (eq_trans (vsum_fold _) _). rewrite sum_up_seq. f_equal. apply map_ext_in. intros c Hc. apply in_seq in Hc.
  destruct (proj1 (Forall_forall _ _) Hi img (nth_error_In _ _ Eb)) as (LC & _).
  destruct (nth_error img c) as [pl|] eqn:Ec; [|apply nth_error_None in Ec; lia].
  assert (Epl : nth c (map (@pad_plane ROps pad W) img) [] = @pad_plane ROps pad W pl).
  { apply nth_error_nth. refine (eq_trans (nth_error_map _ _ _) _). exact (f_equal (option_map (@pad_plane ROps pad W)) Ec). }
  rewrite Epl. unfold positions in Hy, Hu. apply last_window in Hy, Hu; auto.
  pose proof (fun Y X H1 H2 => pixel_plane ([B; ic; H; W], dat) B ic H W b c img pl pad Y X Hx eq_refl Eb Ec H1 H2) as HP.
  destruct (HP 0%nat 0%nat ltac:(lia) ltac:(lia)) as (Lp & Hr & _).
  assert (L1 : length (@pad_plane ROps pad W pl) = (H + 2 * pad)%nat) by (unfold pad_plane; rewrite pad1_len, map_length; change (num ROps) with R; now rewrite Lp).
  assert (L2 : Forall (fun r : rvl => length r = (W + 2 * pad)%nat) (@pad_plane ROps pad W pl)).
  { unfold pad_plane, pad1. apply Forall_app. split; [|apply Forall_app; split].
    - apply Forall_forall. intros r Hr'. apply repeat_spec in Hr'. rewrite Hr'. apply repeat_length.
    - apply Forall_forall. intros r Hr'. apply in_map_iff in Hr'. destruct Hr' as (r0 & <- & Hr').
      rewrite <- (proj1 (Forall_forall _ _) Hr r0 Hr'). apply (pad1_len pad (@nQ ROps 0) r0).
    - apply Forall_forall. intros r Hr'. apply repeat_spec in Hr'. rewrite Hr'. apply repeat_length. }
  destruct (window_spec ks (y * stride) (u * stride) _ _ _ L1 L2 ltac:(lia) ltac:(lia)) as (LW & NW).
  assert (Hn : (o * ic + c + 1 <= oc * ic)%nat) by nia. pose proof (Nat.mul_le_mono_r _ _ (ks * ks) Hn) as Hn'.
  rewrite vdot_dot. rewrite (dot_sum (ks * ks)); [|rewrite firstn_length, skipn_length; change (num ROps) with R; rewrite Lw; rewrite <- (Nat.mul_assoc (oc * ic)); lia|exact LW].
  rewrite sum_up_prod. apply sum_up_ext. intros i Hi'. apply sum_up_ext. intros j Hj.
  rewrite NW by auto. destruct (HP (y * stride + i)%nat (u * stride + j)%nat ltac:(lia) ltac:(lia)) as (_ & _ & E).
  refine (f_equal2 Rmult _ E). rewrite nth_first_lt by nia. rewrite nth_skip. f_equal. nia.
Qed.

(** ** The layer *)
Lemma map2_app_rep {A} (x : list (list A)) (p : A) B : length x = B -> map2 (@app A) x (repeat [p] B) = map (fun i => i ++ [p]) x.
Proof. intros <-. induction x as [|i x IH]; cbn; auto. now rewrite IH. Qed.
Lemma depthcat_image (t : R) B C H W (dat : nd R 4) : is_tensor 4 ([B; C; H; W], dat) ->
  @depthcat ROps 4 1 (Some t) ([B; C; H; W], dat) = Ok ([B; (C + 1)%nat; H; W], map (fun i => i ++ [repeat (repeat t W) H]) dat).
Proof.
  intros (_ & Hx). cbn [fst snd has_shape] in Hx. destruct Hx as (LB & _).
  unfold depthcat. change (dim_index 4 1) with (Ok (A := nat) 1%nat). cbn [rbind fst snd upd]. unfold torch_cat.
  change (dim_index 4 1) with (Ok (A := nat) 1%nat). cbn [rbind fst snd upd nth].
  destruct (list_eq_dec _ _ _) as [_|N]; [|congruence]. do 2 f_equal. cbn [ndcat full].
  replace (@nmul ROps t (@nQ ROps 1)) with t by (change (t = t * Q2R 1); unfold Q2R; cbn; lra).
  exact (map2_app_rep dat _ B LB).
Qed.

Lemma layer_value ic oc ks stride pad deg neig expfunc (dil sh t : R) coeffs basis (x : tensor R 4) B H W :
  is_tensor 4 x -> fst x = [B; ic; H; W] -> (1 <= B)%nat -> (1 <= H)%nat -> (1 <= W)%nat ->
  (1 <= ks)%nat -> (1 <= stride)%nat -> (ks <= H + 2 * pad)%nat -> (ks <= W + 2 * pad)%nat ->
  coeff_array (oc * ic * ks * ks + oc) deg 2 coeffs ->
  expfunc (@linspace ROps 0 (INR deg) deg) (t * dil + sh) = Ok basis ->
  (neig <= length basis)%nat -> (forall i, (i < neig)%nat -> length (nth i basis []) = deg) ->
  exists z out, @depthcat ROps 4 1 (Some t) x = Ok z /\ @gal_conv2d ROps ic oc ks stride pad true deg neig expfunc dil sh coeffs z = Ok out /\ is_tensor 4 out /\
    fst out = [B; oc; positions H pad ks stride; positions W pad ks stride] /\
    forall b o y u, (b < B)%nat -> (o < oc)%nat -> (y < positions H pad ks stride)%nat -> (u < positions W pad ks stride)%nat ->
      entry 4 (snd out) [b; o; y; u] =
      Some (convolved ic ks stride pad (fun o c i j => expansion deg neig basis coeffs (((o * ic + c) * ks + i) * ks + j)%nat)
              (fun o => expansion deg neig basis coeffs (oc * ic * ks * ks + o)%nat) x b o y u).
Proof.
  intros Hx Ex HB HH HW Hk Hs KH KW Hc Hb Lb Hr. destruct x as [xs dat]. cbn [fst] in Ex. subst xs.
  set (n := (oc * ic * ks * ks)%nat) in *. set (w := map (expansion deg neig basis coeffs) (seq 0 (n + oc))).
  assert (Lw : length w = (n + oc)%nat) by (unfold w; now rewrite map_length, seq_length).
  assert (Nw : forall k, (k < n + oc)%nat -> nth k w 0 = expansion deg neig basis coeffs k).
  { intros k Hk'. unfold w. rewrite (nth_indep _ 0 (expansion deg neig basis coeffs 0%nat)) by (now rewrite map_length, seq_length).
    rewrite map_nth, seq_nth by auto. reflexivity. }
  destruct (conv2d_value oc ic ks stride pad (firstn n w) (skipn n w) ([B; ic; H; W], dat) B H W Hx eq_refl Hk Hs KH KW) as (out & Eo & Ho & Es & Ev).
  { rewrite firstn_length, Lw. fold n. lia. }
  exists ([B; (ic + 1)%nat; H; W], map (fun i => i ++ [repeat (repeat t W) H]) dat), out.
  split; [now apply depthcat_image|]. split; [|split; [exact Ho|split; [exact Es|]]].
  - assert (LB : length dat = B) by (destruct Hx as (_ & Hx); cbn [fst snd has_shape] in Hx; exact (proj1 Hx)).
    unfold gal_conv2d. cbn [snd].
    destruct (exists_last (l := dat)) as (d0 & img & Ed); [intros ->; cbn in LB; lia|].
    assert (E1 : pylast (map (fun i => i ++ [repeat (repeat t W) H]) dat) = Ok (img ++ [repeat (repeat t W) H])).
    { rewrite Ed, map_app. apply pylast_app. }
    refine (eq_trans (f_equal (fun r => rbind r _) E1) _). cbn [rbind].
    refine (eq_trans (f_equal (fun r => rbind r _) (pylast_app img (repeat (repeat t W) H))) _). cbn [rbind].
    destruct H as [|H]; [lia|]. destruct W as [|W]; [lia|]. cbn [repeat pyget nth_error rbind].
    refine (eq_trans (f_equal (fun r => rbind r _) (weights_cols deg neig 2 (n + oc) expfunc dil sh t coeffs basis Hc Hb Lb Hr)) _). cbn [rbind].
    fold w. unfold gal_conv_split. replace (oc * ic * ks * ks)%nat with n by reflexivity.
    refine (eq_trans (f_equal2 (fun a b => @conv2d ROps oc ic ks stride pad a b _) (slice_front n w ltac:(lia)) (slice_back n w ltac:(lia))) _).
    refine (eq_trans (f_equal (@conv2d ROps oc ic ks stride pad (firstn n w) (skipn n w)) _) Eo). unfold drop_last_channel. cbn [fst snd]. f_equal.
    + do 2 f_equal. lia.
    + rewrite map_map. rewrite <- (map_id dat) at 2. apply map_ext. intros i. apply removelast_last.
  - intros b o y u Hb' Ho' Hy Hu. rewrite Ev by auto. f_equal. unfold convolved. f_equal.
    + apply sum_up_ext. intros c Hc'. apply sum_up_ext. intros i Hi. apply sum_up_ext. intros j Hj. f_equal.
      assert (K : (((o * ic + c) * ks + i) * ks + j < n)%nat).
      { unfold n. assert (o * ic + c + 1 <= oc * ic)%nat by nia. assert ((o * ic + c) * ks + i + 1 <= oc * ic * ks)%nat by nia. nia. }
      rewrite nth_first_lt by exact K. apply Nw. lia.
    + rewrite nth_skip. apply Nw. lia.
Qed.

(** C113. DepthCat followed by GalConv2d is the zero-padded convolution of the images with the depth-dependent kernel and bias
    given by the eigenfunction expansion of the coefficients at the current depth. *)
Lemma C113_conv_pf : forall ic oc ks stride pad deg neig expfunc (dil sh t : R) coeffs basis (x : tensor R 4) B H W,
  is_tensor 4 x -> fst x = [B; ic; H; W] -> (1 <= B)%nat -> (1 <= H)%nat -> (1 <= W)%nat ->
  (1 <= ks)%nat -> (1 <= stride)%nat -> (ks <= H + 2 * pad)%nat -> (ks <= W + 2 * pad)%nat ->
  coeff_array (oc * ic * ks * ks + oc) deg 2 coeffs ->
  expfunc (@linspace ROps 0 (INR deg) deg) (t * dil + sh) = Ok basis ->
  (neig <= length basis)%nat -> (forall i, (i < neig)%nat -> length (nth i basis []) = deg) ->
  exists z out, @depthcat ROps 4 1 (Some t) x = Ok z /\
    @gal_conv2d ROps ic oc ks stride pad true deg neig expfunc dil sh coeffs z = Ok out /\ is_tensor 4 out /\
    fst out = [B; oc; positions H pad ks stride; positions W pad ks stride] /\
    forall b o y u, (b < B)%nat -> (o < oc)%nat -> (y < positions H pad ks stride)%nat -> (u < positions W pad ks stride)%nat ->
      entry 4 (snd out) [b; o; y; u] =
      Some (convolved ic ks stride pad (fun o c i j => expansion deg neig basis coeffs (((o * ic + c) * ks + i) * ks + j)%nat)
              (fun o => expansion deg neig basis coeffs (oc * ic * ks * ks + o)%nat) x b o y u).
Proof. exact layer_value. Qed.

(** C113. Moving the images by multiples of the stride moves the output by the multiple. *)
Lemma C113_shift_pf : forall ic oc ks stride pad deg neig expfunc (dil sh t : R) coeffs basis (x x' z z' out out' : tensor R 4) B H W (dy du : Z),
  is_tensor 4 x -> fst x = [B; ic; H; W] -> is_tensor 4 x' -> fst x' = [B; ic; H; W] -> (1 <= B)%nat -> (1 <= H)%nat -> (1 <= W)%nat ->
  (1 <= ks)%nat -> (1 <= stride)%nat -> (ks <= H + 2 * pad)%nat -> (ks <= W + 2 * pad)%nat ->
  coeff_array (oc * ic * ks * ks + oc) deg 2 coeffs ->
  expfunc (@linspace ROps 0 (INR deg) deg) (t * dil + sh) = Ok basis ->
  (neig <= length basis)%nat -> (forall i, (i < neig)%nat -> length (nth i basis []) = deg) ->
  (forall b c u v, pixel x' b c u v = pixel x b c (u - Z.of_nat stride * dy) (v - Z.of_nat stride * du)) ->
  @depthcat ROps 4 1 (Some t) x = Ok z -> @depthcat ROps 4 1 (Some t) x' = Ok z' ->
  @gal_conv2d ROps ic oc ks stride pad true deg neig expfunc dil sh coeffs z = Ok out ->
  @gal_conv2d ROps ic oc ks stride pad true deg neig expfunc dil sh coeffs z' = Ok out' ->
  forall b o y u y' u', (b < B)%nat -> (o < oc)%nat ->
    (y < positions H pad ks stride)%nat -> (u < positions W pad ks stride)%nat ->
    (y' < positions H pad ks stride)%nat -> (u' < positions W pad ks stride)%nat ->
    Z.of_nat y' = (Z.of_nat y + dy)%Z -> Z.of_nat u' = (Z.of_nat u + du)%Z ->
    entry 4 (snd out') [b; o; y'; u'] = entry 4 (snd out) [b; o; y; u].
Proof.
  intros ic oc ks stride pad deg neig expfunc dil sh t coeffs basis x x' z z' out out' B H W dy du Hx Ex Hx' Ex' HB HH HW Hk Hs KH KW Hc Hb Lb Hr Hsh
    Ez Ez' Eo Eo' b o y u y' u' Bb Bo By Bu By' Bu' Ey Eu.
  destruct (layer_value ic oc ks stride pad deg neig expfunc dil sh t coeffs basis x B H W Hx Ex HB HH HW Hk Hs KH KW Hc Hb Lb Hr) as (z1 & o1 & A1 & A2 & _ & _ & A3).
  destruct (layer_value ic oc ks stride pad deg neig expfunc dil sh t coeffs basis x' B H W Hx' Ex' HB HH HW Hk Hs KH KW Hc Hb Lb Hr) as (z2 & o2 & D1 & D2 & _ & _ & D3).
  assert (z1 = z) as -> by congruence. assert (z2 = z') as -> by congruence.
  assert (o1 = out) as -> by congruence. assert (o2 = out') as -> by congruence.
  rewrite A3, D3 by auto. f_equal. unfold convolved. f_equal.
  apply sum_up_ext. intros c _. apply sum_up_ext. intros i _. apply sum_up_ext. intros j _. f_equal. rewrite Hsh.
  f_equal; nia.
Qed.

(** C113. With a single eigenfunction (every basis except Fourier) the second half of the coefficients has no effect on the output:
    the last dimension of the array is always 2. *)
Lemma C113_idle_coefficients_pf : forall ic oc ks stride pad deg neig expfunc (dil sh t : R) coeffs coeffs' basis (x z out out' : tensor R 4) B H W,
  is_tensor 4 x -> fst x = [B; ic; H; W] -> (1 <= B)%nat -> (1 <= H)%nat -> (1 <= W)%nat ->
  (1 <= ks)%nat -> (1 <= stride)%nat -> (ks <= H + 2 * pad)%nat -> (ks <= W + 2 * pad)%nat ->
  coeff_array (oc * ic * ks * ks + oc) deg 2 coeffs -> coeff_array (oc * ic * ks * ks + oc) deg 2 coeffs' ->
  expfunc (@linspace ROps 0 (INR deg) deg) (t * dil + sh) = Ok basis ->
  neig = 1%nat -> (neig <= length basis)%nat -> length (nth 0 basis []) = deg ->
  (forall k d, coeff coeffs k d 0 = coeff coeffs' k d 0) ->
  @depthcat ROps 4 1 (Some t) x = Ok z ->
  @gal_conv2d ROps ic oc ks stride pad true deg neig expfunc dil sh coeffs z = Ok out ->
  @gal_conv2d ROps ic oc ks stride pad true deg neig expfunc dil sh coeffs' z = Ok out' ->
  forall b o y u, (b < B)%nat -> (o < oc)%nat -> (y < positions H pad ks stride)%nat -> (u < positions W pad ks stride)%nat ->
    entry 4 (snd out') [b; o; y; u] = entry 4 (snd out) [b; o; y; u].
Proof.
  intros ic oc ks stride pad deg neig expfunc dil sh t coeffs coeffs' basis x z out out' B H W Hx Ex HB HH HW Hk Hs KH KW Hc Hc' Hb En Lb Hr Hsame
    Ez Eo Eo' b o y u Bb Bo By Bu. subst neig.
  assert (Hr' : forall i, (i < 1)%nat -> length (nth i basis []) = deg) by (intros [|i] Hi; [exact Hr|lia]).
  destruct (layer_value ic oc ks stride pad deg 1 expfunc dil sh t coeffs basis x B H W Hx Ex HB HH HW Hk Hs KH KW Hc Hb Lb Hr') as (z1 & o1 & A1 & A2 & _ & _ & A3).
  destruct (layer_value ic oc ks stride pad deg 1 expfunc dil sh t coeffs' basis x B H W Hx Ex HB HH HW Hk Hs KH KW Hc' Hb Lb Hr') as (z2 & o2 & D1 & D2 & _ & _ & D3).
  assert (z1 = z) as -> by congruence. assert (z2 = z) as -> by congruence.
  assert (o1 = out) as -> by congruence. assert (o2 = out') as -> by congruence.
  assert (EE : forall k, expansion deg 1 basis coeffs' k = expansion deg 1 basis coeffs k).
  { intros k. unfold expansion. apply sum_up_ext. intros d Hd. apply sum_up_ext. intros i Hi. assert (i = 0%nat) as -> by lia. now rewrite Hsame. }
  rewrite A3, D3 by auto. f_equal. unfold convolved. rewrite EE. f_equal.
  apply sum_up_ext. intros c _. apply sum_up_ext. intros i _. apply sum_up_ext. intros j _. now rewrite EE.
Qed.

(** C71. Without bias the convolutional layer fails as the linear one does: the weights and the depth are computed, then the assignment raises TypeError. *)
Lemma C71_conv_no_bias_refuted_pf : forall ic oc ks stride pad deg neig expfunc (dil sh t : R) coeffs basis (x : tensor R 4) B H W,
  is_tensor 4 x -> fst x = [B; ic; H; W] -> (1 <= B)%nat -> (1 <= H)%nat -> (1 <= W)%nat ->
  coeff_array (oc * ic * ks * ks + oc) deg 2 coeffs ->
  expfunc (@linspace ROps 0 (INR deg) deg) (t * dil + sh) = Ok basis ->
  (neig <= length basis)%nat -> (forall i, (i < neig)%nat -> length (nth i basis []) = deg) ->
  exists z, @depthcat ROps 4 1 (Some t) x = Ok z /\ @gal_conv2d ROps ic oc ks stride pad false deg neig expfunc dil sh coeffs z = Err TypeError.
Proof.
  intros ic oc ks stride pad deg neig expfunc dil sh t coeffs basis x B H W Hx Ex HB HH HW Hc Hb Lb Hr. destruct x as [xs dat]. cbn [fst] in Ex. subst xs.
  eexists. split; [now apply depthcat_image|].
  assert (LB : length dat = B) by (destruct Hx as (_ & Hx); cbn [fst snd has_shape] in Hx; exact (proj1 Hx)).
  unfold gal_conv2d. cbn [snd].
  destruct (exists_last (l := dat)) as (d0 & img & Ed); [intros ->; cbn in LB; lia|].
  assert (E1 : pylast (map (fun i => i ++ [repeat (repeat t W) H]) dat) = Ok (img ++ [repeat (repeat t W) H])).
  { rewrite Ed, map_app. apply pylast_app. }
  refine (eq_trans (f_equal (fun r => rbind r _) E1) _). cbn [rbind].
  refine (eq_trans (f_equal (fun r => rbind r _) (pylast_app img (repeat (repeat t W) H))) _). cbn [rbind].
  destruct H as [|H]; [lia|]. destruct W as [|W]; [lia|]. cbn [repeat pyget nth_error rbind].
  refine (eq_trans (f_equal (fun r => rbind r _) (weights_cols deg neig 2 _ expfunc dil sh t coeffs basis Hc Hb Lb Hr)) _). reflexivity.
Qed.

(** non-vacuity: one 2x2 image, padding 1, stride 2, one Fourier frequency; the corner output sees one pixel *)
Lemma C113_conv_ex_pf : exists z out,
  @depthcat ROps 4 1 (Some 5) ([1; 1; 2; 2]%nat, [[[[1; 2]; [3; 4]]]]) = Ok z /\
  @gal_conv2d ROps 1 1 2 2 1 true 1 2 (@fourier ROps cos sin) 1 0 [[[1; 9]]; [[2; 9]]; [[3; 9]]; [[4; 9]]; [[7; 9]]] z = Ok out /\
  fst out = [1; 1; 2; 2]%nat /\ entry 4 (snd out) [0; 0; 0; 0]%nat = Some (4 * 1 + 7) /\ entry 4 (snd out) [0; 0; 1; 0]%nat = Some (2 * 3 + 7).
Proof.
  destruct (C113_conv_pf 1 1 2 2 1 1 2 (@fourier ROps cos sin) 1 0 5 [[[1; 9]]; [[2; 9]]; [[3; 9]]; [[4; 9]]; [[7; 9]]] [[1]; [0]]
    ([1; 1; 2; 2]%nat, [[[[1; 2]; [3; 4]]]]) 1 2 2) as (z & out & Ez & Eo & _ & Es & Ev); try lia.
  - split; [reflexivity|]. cbn. repeat constructor.
  - reflexivity.
  - split; [reflexivity|]. repeat constructor.
  - cbn [linspace]. unfold fourier. cbn [map]. change (@nmul ROps) with Rmult. do 3 f_equal; f_equal; [replace ((5 * 1 + 0) * 0) with 0 by ring; apply cos_0|f_equal; replace ((5 * 1 + 0) * 0) with 0 by ring; apply sin_0].
  - cbn. lia.
  - intros [|[|i]] Hi; [reflexivity|reflexivity|lia].
  - exists z, out. split; [exact Ez|]. split; [exact Eo|]. split; [exact Es|].
    split; (rewrite Ev by (cbn; lia); f_equal; unfold convolved, expansion, coeff, pixel; cbn; change (Pos.to_nat 1) with 1%nat; change (Pos.to_nat 2) with 2%nat; cbn; lra).
Qed.
