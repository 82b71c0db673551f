(** Proofs of the properties of the layers. *)
From Coq Require Import ZArith QArith Qreals Reals Lra Lia String List Bool.
From Verif Require Import Num Py Tensor M_Nn Spec_Nn L_Base.
Import ListNotations.
Local Open Scope nat_scope.
Local Notation length := List.length.

Lemma upd_len {A} : forall (l : list A) i a, length (upd l i a) = length l.
Proof. induction l as [|b l IH]; intros [|i] a; cbn; auto. Qed.
Lemma upd_upd {A} : forall (l : list A) i a b, upd (upd l i a) i b = upd l i b.
Proof. induction l as [|c l IH]; intros [|i] a b; cbn; auto. now rewrite IH. Qed.
Lemma nth_upd {A} : forall (l : list A) i a d, i < length l -> nth i (upd l i a) d = a.
Proof. induction l as [|c l IH]; intros [|i] a d H; cbn in *; auto; try lia. apply IH. lia. Qed.
Lemma upd_nth {A} : forall (l : list A) i d, i < length l -> upd l i (nth i l d) = l.
Proof. induction l as [|c l IH]; intros [|i] d H; cbn in *; auto; try lia. now rewrite IH by lia. Qed.
Lemma upd_with_coord : forall l i v, upd l i v = with_coord i v l.
Proof. unfold with_coord. induction l as [|c l IH]; intros [|i] v; cbn; auto. now rewrite IH. Qed.

Lemma dim_index_ok r i d : denotes_dim r i d -> dim_index r i = Ok d.
Proof.
  intros (Hd & H). unfold dim_index. destruct H as [-> | ->].
  - replace (Z.of_nat d <? 0)%Z with false by (symmetry; apply Z.ltb_ge; lia).
    replace ((0 <=? Z.of_nat d)%Z && (Z.of_nat d <? Z.of_nat r)%Z)%bool with true.
    + now rewrite Nat2Z.id.
    + symmetry. apply andb_true_iff. split; [apply Z.leb_le|apply Z.ltb_lt]; lia.
  - replace (Z.of_nat d - Z.of_nat r <? 0)%Z with true by (symmetry; apply Z.ltb_lt; lia).
    replace (Z.of_nat d - Z.of_nat r + Z.of_nat r)%Z with (Z.of_nat d) by lia.
    replace ((0 <=? Z.of_nat d)%Z && (Z.of_nat d <? Z.of_nat r)%Z)%bool with true.
    + now rewrite Nat2Z.id.
    + symmetry. apply andb_true_iff. split; [apply Z.leb_le|apply Z.ltb_lt]; lia.
Qed.

Lemma nth_error_repeat_none {A} (a : A) n i : n <= i -> nth_error (repeat a n) i = None.
Proof. intros H. apply nth_error_None. now rewrite repeat_length. Qed.

Lemma full_shape {A} (a : A) : forall r sh, length sh = r -> has_shape r sh (full r sh a).
Proof.
  induction r as [|r IH]; intros [|n sh] H; try discriminate; cbn; auto.
  split; [apply repeat_length|]. apply Forall_forall. intros y Hy. apply repeat_spec in Hy. subst y. apply IH. now injection H.
Qed.

Lemma full_entry {A} (a : A) : forall r sh ix, length sh = r -> 
  (in_shape sh ix -> entry r (full r sh a) ix = Some a) /\ (~ in_shape sh ix -> entry r (full r sh a) ix = None).
Proof.
  induction r as [|r IH]; intros [|n sh] ix H; try discriminate.
  - cbn. destruct ix as [|i ix]; split; auto; intros Hi; exfalso.
    + apply Hi. constructor.
    + inversion Hi.
  - destruct ix as [|i ix]; cbn [entry full].
    + split; auto. intros Hi. inversion Hi.
    + destruct (IH sh ix ltac:(now injection H)) as (I1 & I2). split; intros Hi.
      * inversion Hi as [|? ? ? ? Hlt Hr]; subst. rewrite nth_error_repeat by auto. now apply I1.
      * destruct (Nat.lt_ge_cases i n) as [Hlt|Hge].
        -- rewrite nth_error_repeat by auto. apply I2. intros Hc. apply Hi. constructor; auto.
        -- rewrite nth_error_repeat_none by auto. reflexivity.
Qed.

Lemma map2_len {A B C} (f : A -> B -> C) : forall l m, length l = length m -> length (map2 f l m) = length l.
Proof. induction l as [|a l IH]; intros [|b m] H; try discriminate; cbn; auto. Qed.
Lemma nth_map2 {A B C} (f : A -> B -> C) : forall l m i, nth_error (map2 f l m) i =
  match nth_error l i, nth_error m i with Some a, Some b => Some (f a b) | _, _ => None end.
Proof.
  induction l as [|a l IH]; intros [|b m] [|i]; cbn; auto.
  - now destruct (nth_error l i).
Qed.

Lemma nth_map2_some {A B C} (f : A -> B -> C) l m i c : nth_error (map2 f l m) i = Some c ->
  exists a b, nth_error l i = Some a /\ nth_error m i = Some b /\ c = f a b.
Proof.
  rewrite nth_map2. destruct (nth_error l i) as [a|]; [|discriminate]. destruct (nth_error m i) as [b|]; [|discriminate].
  intros [= <-]. eauto.
Qed.
Lemma nth_map2_case {A B C} (f : A -> B -> C) l m i : length l = length m ->
  (exists a b, nth_error l i = Some a /\ nth_error m i = Some b /\ nth_error (map2 f l m) i = Some (f a b)) \/
  (nth_error l i = None /\ nth_error m i = None /\ nth_error (map2 f l m) i = None).
Proof.
  intros H. rewrite nth_map2. destruct (nth_error l i) as [a|] eqn:Ea; destruct (nth_error m i) as [b|] eqn:Eb; eauto 6.
  - exfalso. apply nth_error_None in Eb. assert (i < length l) by (apply nth_error_Some; now rewrite Ea). lia.
  - exfalso. apply nth_error_None in Ea. assert (i < length m) by (apply nth_error_Some; now rewrite Eb). lia.
Qed.
Lemma match_some {A B} (o : option A) (f : A -> option B) a : o = Some a -> match o with Some y => f y | None => None end = f a.
Proof. now intros ->. Qed.
Lemma match_none {A B} (o : option A) (f : A -> option B) : o = None -> match o with Some y => f y | None => None end = None.
Proof. now intros ->. Qed.

(** the entries of a concatenation *)
Lemma ndcat_spec {A} : forall r d sh1 sh2 (x y : nd A r), d < r -> length sh1 = r -> length sh2 = r -> has_shape r sh1 x -> has_shape r sh2 y ->
  upd sh1 d 0 = upd sh2 d 0 ->
  has_shape r (upd sh1 d (nth d sh1 0 + nth d sh2 0)) (ndcat r d x y) /\
  forall ix, entry r (ndcat r d x y) ix =
    if nth d ix 0 <? nth d sh1 0 then entry r x ix else entry r y (upd ix d (nth d ix 0 - nth d sh1 0)).
Proof.
  induction r as [|r IH]; intros d sh1 sh2 x y Hd H1 H2 Hx Hy E; [lia|].
  destruct sh1 as [|n sh1]; destruct sh2 as [|m sh2]; try discriminate. destruct d as [|d].
  - cbn in E. injection E as E. subst sh2. cbn in Hx, Hy. destruct Hx as (Lx & Fx), Hy as (Ly & Fy). cbn [ndcat upd nth].
    split.
    + cbn. split; [rewrite app_length; lia|]. apply Forall_app; auto.
    + intros [|i ix]; cbn [entry nth].
      * now destruct (0 <? n).
      * destruct (Nat.ltb_spec i n) as [Hlt|Hge].
        -- rewrite nth_error_app1 by lia. reflexivity.
        -- rewrite nth_error_app2 by lia. cbn [upd entry]. now rewrite Lx.
  - cbn in E. injection E as -> E. cbn in Hx, Hy. destruct Hx as (Lx & Fx), Hy as (Ly & Fy). cbn [ndcat nth upd].
    rewrite Forall_forall in Fx, Fy.
    assert (IH' : forall i a b, nth_error x i = Some a -> nth_error y i = Some b ->
      has_shape r (upd sh1 d (nth d sh1 0 + nth d sh2 0)) (ndcat r d a b) /\
      forall ix, entry r (ndcat r d a b) ix = if nth d ix 0 <? nth d sh1 0 then entry r a ix else entry r b (upd ix d (nth d ix 0 - nth d sh1 0))).
    { intros i a b Ha Hb. apply IH; auto; try lia. - apply Fx. now apply nth_error_In in Ha. - apply Fy. now apply nth_error_In in Hb. }
    split.
    + cbn. split; [rewrite map2_len; [exact Lx|exact (eq_trans Lx (eq_sym Ly))]|]. apply Forall_forall. intros z Hz. apply In_nth_error in Hz. destruct Hz as (i & Hi).
      destruct (nth_map2_some _ _ _ _ _ Hi) as (a & b & Ea & Eb & ->). now apply (IH' i).
    + intros [|i ix]; cbn [entry nth upd].
      * destruct (_ <? _); reflexivity.
      * destruct (nth_map2_case (ndcat r d) x y i (eq_trans Lx (eq_sym Ly))) as [(a & b & Ea & Eb & Ec)|(Ea & Eb & Ec)].
        -- refine (eq_trans (match_some _ _ _ Ec) _). rewrite (match_some _ _ _ Ea), (match_some _ _ _ Eb). apply (IH' i a b Ea Eb).
        -- refine (eq_trans (match_none _ _ Ec) _). rewrite (match_none _ _ Ea), (match_none _ _ Eb). now destruct (_ <? _).
Qed.

Lemma in_shape_upd : forall sh ix d a b, in_shape (upd sh d a) ix -> (d < length sh -> nth d ix 0 < b) -> in_shape (upd sh d b) ix.
Proof.
  induction sh as [|n sh IH]; intros ix [|d] a b H Hb; cbn in *; auto; inversion H as [|i m ix' sh' Hlt Hr]; subst; constructor; auto.
  - cbn in Hb. apply Hb. lia.
  - eapply IH; eauto. intros Hd. apply (Hb ltac:(lia)).
Qed.
Lemma in_shape_nth : forall sh ix d, in_shape sh ix -> d < length sh -> nth d ix 0 < nth d sh 0.
Proof. induction sh as [|n sh IH]; intros ix [|d] H Hd; cbn in *; try lia; inversion H; subst; cbn; auto. apply IH; auto. lia. Qed.
Lemma in_shape_shift : forall sh ix d b v, in_shape (upd sh d b) ix -> d < length sh -> v < nth d sh 0 -> in_shape sh (upd ix d v).
Proof.
  induction sh as [|n sh IH]; intros ix [|d] b v H Hd Hv; cbn in *; try lia; inversion H; subst; cbn; constructor; auto.
  eapply IH; eauto. lia.
Qed.

Lemma torch_cat_spec {A} r i d (x y : tensor A r) : denotes_dim r i d -> is_tensor r x -> is_tensor r y ->
  with_coord d 0 (fst x) = with_coord d 0 (fst y) ->
  exists z, torch_cat r i x y = Ok z /\ is_tensor r z /\ fst z = with_coord d (nth d (fst x) 0 + nth d (fst y) 0) (fst x) /\
    forall ix, entry r (snd z) ix =
      if nth d ix 0 <? nth d (fst x) 0 then entry r (snd x) ix else entry r (snd y) (with_coord d (nth d ix 0 - nth d (fst x) 0) ix).
Proof.
  intros Hd (Lx & Sx) (Ly & Sy) E. rewrite <- !upd_with_coord in E. unfold torch_cat. rewrite (dim_index_ok r i d Hd). cbn [rbind].
  destruct (list_eq_dec Nat.eq_dec _ _) as [_|n]; [|contradiction].
  destruct (ndcat_spec r d (fst x) (fst y) (snd x) (snd y) (proj1 Hd) Lx Ly Sx Sy E) as (S1 & S2).
  eexists. split; [reflexivity|]. cbn [fst snd]. repeat split.
  - cbn. now rewrite upd_len.
  - exact S1.
  - apply upd_with_coord.
  - intros ix. rewrite S2. now rewrite upd_with_coord.
Qed.

Lemma full_tensor {A} (a : A) r sh : length sh = r -> is_tensor r (sh, full r sh a).
Proof. intros H. split; auto. now apply full_shape. Qed.
Lemma with_coord_idem d v w l : with_coord d v (with_coord d w l) = with_coord d v l.
Proof. rewrite <- !upd_with_coord. apply upd_upd. Qed.
Lemma nth_with_coord d v l : d < length l -> nth d (with_coord d v l) 0 = v.
Proof. rewrite <- upd_with_coord. apply nth_upd. Qed.
Lemma with_coord_len d v l : length (with_coord d v l) = length l.
Proof. rewrite <- upd_with_coord. apply upd_len. Qed.

(** Augmenter() with order='first': zeros in front along the requested dimension (counted from either
    end), then the input, unchanged and contiguous *)
Lemma C51_augmenter_first_pf : forall (K : NumOps) r idx d dims (x : tensor K r), is_tensor r x -> denotes_dim r idx d ->
  exists y, augmenter r idx dims None "first" x = Ok y /\ is_tensor r y /\
    fst y = with_coord d (dims + nth d (fst x) 0) (fst x) /\
    forall ix, in_shape (fst y) ix -> entry r (snd y) ix =
      if nth d ix 0 <? dims then Some n0 else entry r (snd x) (with_coord d (nth d ix 0 - dims) ix).
Proof.
  intros K r idx d dims x (Lx & Sx) Hd. unfold augmenter. rewrite (dim_index_ok _ _ _ Hd). cbn [rbind].
  rewrite upd_with_coord. rewrite (eq_refl : String.eqb "first" "first" = true).
  set (sh := with_coord d dims (fst x)). assert (Ls : length sh = r) by (unfold sh; now rewrite with_coord_len).
  assert (Ns : nth d sh 0 = dims) by (apply nth_with_coord; rewrite Lx; apply Hd).
  destruct (torch_cat_spec r idx d (sh, full r sh n0) x Hd (full_tensor n0 r sh Ls) (conj Lx Sx)) as (y & E1 & E2 & E3 & E4).
  { cbn [fst]. unfold sh. apply with_coord_idem. }
  exists y. cbn [fst snd] in *. rewrite Ns in *. split; auto. split; auto. split.
  { rewrite E3. unfold sh. apply with_coord_idem. }
  intros ix Hix. rewrite E4. destruct (Nat.ltb_spec (nth d ix 0) dims) as [Hlt|Hge]; auto.
  apply (proj1 (full_entry n0 r sh ix Ls)). unfold sh. rewrite E3 in Hix. rewrite <- !upd_with_coord in *. unfold sh in Hix. rewrite <- upd_with_coord, upd_upd in Hix.
  eapply in_shape_upd; eauto.
Qed.

(** … with any other order: the input, unchanged, then the zeros *)
Lemma C51_augmenter_last_pf : forall (K : NumOps) r idx d dims order (x : tensor K r), is_tensor r x -> denotes_dim r idx d -> order <> "first"%string ->
  exists y, augmenter r idx dims None order x = Ok y /\ is_tensor r y /\
    fst y = with_coord d (nth d (fst x) 0 + dims) (fst x) /\
    forall ix, in_shape (fst y) ix -> entry r (snd y) ix =
      if nth d ix 0 <? nth d (fst x) 0 then entry r (snd x) ix else Some n0.
Proof.
  intros K r idx d dims order x (Lx & Sx) Hd Ho. unfold augmenter. rewrite (dim_index_ok _ _ _ Hd). cbn [rbind].
  rewrite upd_with_coord. rewrite (proj2 (String.eqb_neq order "first") Ho).
  set (sh := with_coord d dims (fst x)). assert (Ls : length sh = r) by (unfold sh; now rewrite with_coord_len).
  assert (Hdx : d < length (fst x)) by (rewrite Lx; apply Hd).
  assert (Ns : nth d sh 0 = dims) by (now apply nth_with_coord).
  destruct (torch_cat_spec r idx d x (sh, full r sh n0) Hd (conj Lx Sx) (full_tensor n0 r sh Ls)) as (y & E1 & E2 & E3 & E4).
  { cbn [fst]. unfold sh. now rewrite with_coord_idem. }
  exists y. cbn [fst snd] in *. rewrite Ns in *. split; auto. split; auto. split; auto.
  intros ix Hix. rewrite E4. destruct (Nat.ltb_spec (nth d ix 0) (nth d (fst x) 0)) as [Hlt|Hge]; auto.
  apply (proj1 (full_entry n0 r sh _ Ls)). rewrite E3 in Hix. rewrite <- upd_with_coord in Hix. 
  assert (Hn := in_shape_nth _ _ d Hix). rewrite upd_len, nth_upd in Hn by auto. specialize (Hn Hdx).
  assert (Hi2 : in_shape (upd (upd (fst x) d dims) d (nth d (fst x) 0 + dims)) ix) by now rewrite upd_upd.
  unfold sh. rewrite <- !upd_with_coord. eapply in_shape_shift; [exact Hi2|now rewrite upd_len|rewrite nth_upd by auto; lia].
Qed.

(** Augmenter(augment_func=g): the features g(x), in front or behind *)
Lemma C51_augment_func_pf : forall (K : NumOps) r idx d dims g order (x z : tensor K r), is_tensor r x -> is_tensor r z -> denotes_dim r idx d ->
  g x = Ok z -> with_coord d 0 (fst z) = with_coord d 0 (fst x) ->
  exists y, augmenter r idx dims (Some g) order x = Ok y /\ is_tensor r y /\
    fst y = with_coord d (nth d (fst z) 0 + nth d (fst x) 0) (fst x) /\
    (order = "first"%string -> forall ix, entry r (snd y) ix =
      if nth d ix 0 <? nth d (fst z) 0 then entry r (snd z) ix else entry r (snd x) (with_coord d (nth d ix 0 - nth d (fst z) 0) ix)) /\
    (order <> "first"%string -> forall ix, entry r (snd y) ix =
      if nth d ix 0 <? nth d (fst x) 0 then entry r (snd x) ix else entry r (snd z) (with_coord d (nth d ix 0 - nth d (fst x) 0) ix)).
Proof.
  intros K r idx d dims g order x z Hx Hz Hd Hg E. unfold augmenter. rewrite Hg. cbn [rbind].
  destruct (String.eqb_spec order "first") as [->|Ho].
  - destruct (torch_cat_spec r idx d z x Hd Hz Hx E) as (y & E1 & E2 & E3 & E4). exists y. repeat split; auto; try apply E2; try contradiction.
    rewrite E3. rewrite <- (with_coord_idem d _ 0 (fst z)), E. apply with_coord_idem.
  - destruct (torch_cat_spec r idx d x z Hd Hx Hz (eq_sym E)) as (y & E1 & E2 & E3 & E4). exists y. repeat split; auto; try apply E2; try contradiction.
    rewrite E3. now rewrite Nat.add_comm.
Qed.

(** DepthCat appends one slice, filled with the time *)
Lemma C51_depthcat_pf : forall r idx d (t : R) (x : tensor ROps r), is_tensor r x -> denotes_dim r idx d ->
  exists y, depthcat (K := ROps) r idx (Some t) x = Ok y /\ is_tensor r y /\
    fst y = with_coord d (nth d (fst x) 0 + 1) (fst x) /\
    forall ix, in_shape (fst y) ix -> entry r (snd y) ix = if nth d ix 0 <? nth d (fst x) 0 then entry r (snd x) ix else Some t.
Proof.
  intros r idx d t x (Lx & Sx) Hd. unfold depthcat. rewrite (dim_index_ok _ _ _ Hd). cbn [rbind].
  rewrite upd_with_coord.
  set (sh := with_coord d 1 (fst x)). assert (Ls : length sh = r) by (unfold sh; now rewrite with_coord_len).
  assert (Hdx : d < length (fst x)) by (rewrite Lx; apply Hd).
  assert (Ns : nth d sh 0 = 1) by (now apply nth_with_coord).
  assert (Et : @nmul ROps t n1 = t) by (change (Rmult t (Q2R 1) = t); rewrite Q2R_1'; apply Rmult_1_r).
  rewrite Et.
  destruct (torch_cat_spec r idx d x (sh, full r sh t) Hd (conj Lx Sx) (full_tensor t r sh Ls)) as (y & E1 & E2 & E3 & E4).
  { cbn [fst]. unfold sh. now rewrite with_coord_idem. }
  exists y. cbn [fst snd] in *. rewrite Ns in *. split; auto. split; auto. split; auto.
  intros ix Hix. rewrite E4. destruct (Nat.ltb_spec (nth d ix 0) (nth d (fst x) 0)) as [Hlt|Hge]; auto.
  apply (proj1 (full_entry t r sh _ Ls)). rewrite E3 in Hix. rewrite <- upd_with_coord in Hix. 
  assert (Hn := in_shape_nth _ _ d Hix). rewrite upd_len, nth_upd in Hn by auto. specialize (Hn Hdx).
  assert (Hi2 : in_shape (upd (upd (fst x) d 1) d (nth d (fst x) 0 + 1)) ix) by now rewrite upd_upd.
  unfold sh. rewrite <- !upd_with_coord. eapply in_shape_shift; [exact Hi2|now rewrite upd_len|rewrite nth_upd by auto; lia].
Qed.

(** DataControl appends the control along dimension 1 *)
Lemma C51_datacontrol_pf : forall (K : NumOps) r (u x : tensor K r), is_tensor r x -> is_tensor r u -> 2 <= r ->
  with_coord 1 0 (fst x) = with_coord 1 0 (fst u) ->
  exists y, datacontrol r (Some u) x = Ok y /\ is_tensor r y /\
    fst y = with_coord 1 (nth 1 (fst x) 0 + nth 1 (fst u) 0) (fst x) /\
    forall ix, entry r (snd y) ix =
      if nth 1 ix 0 <? nth 1 (fst x) 0 then entry r (snd x) ix else entry r (snd u) (with_coord 1 (nth 1 ix 0 - nth 1 (fst x) 0) ix).
Proof.
  intros K r u x Hx Hu Hr E. apply (torch_cat_spec r 1 1 x u); auto. split; [lia|]. left. reflexivity.
Qed.

(** sizes that differ elsewhere, or a dimension the tensor does not have, are errors, not wrong results *)
Lemma C51_mismatch_pf : forall (K : NumOps) r (u x : tensor K r), 2 <= r -> with_coord 1 0 (fst x) <> with_coord 1 0 (fst u) ->
  datacontrol r (Some u) x = Err RuntimeError.
Proof.
  intros K r u x Hr E. unfold datacontrol, torch_cat. rewrite (dim_index_ok r 1 1) by (split; [lia|left; reflexivity]). cbn [rbind].
  rewrite !upd_with_coord. now destruct (list_eq_dec Nat.eq_dec _ _).
Qed.

Lemma C51_bad_dimension_pf : forall (K : NumOps) r idx dims order t (x : tensor K r), (idx < - Z.of_nat r \/ Z.of_nat r <= idx)%Z ->
  augmenter r idx dims None order x = Err IndexError /\ depthcat r idx t x = Err IndexError.
Proof.
  intros K r idx dims order t x H. assert (E : dim_index r idx = Err IndexError).
  { unfold dim_index. destruct (Z.ltb_spec idx 0).
    - now replace (0 <=? idx + Z.of_nat r)%Z with false by (symmetry; apply Z.leb_gt; lia).
    - now replace (idx <? Z.of_nat r)%Z with false by (symmetry; apply Z.ltb_ge; lia); rewrite andb_false_r. }
  unfold augmenter, depthcat. now rewrite E.
Qed.

(** DepthCat outside a DEFunc has no time *)
Lemma C51_no_time_pf : forall (K : NumOps) r idx d (x : tensor K r), denotes_dim r idx d -> depthcat r idx None x = Err TypeError.
Proof. intros K r idx d x H. unfold depthcat. now rewrite (dim_index_ok _ _ _ H). Qed.

Lemma C51_ex_pf : 
  let x : tensor ROps 2 := ([2; 2], [[1; 2]; [3; 4]]%R) in
  is_tensor 2 x /\ denotes_dim 2 (-1) 1 /\
  augmenter (K := ROps) 2 (-1) 1 None "first" x = Ok ([2; 3], [[Q2R 0; 1; 2]; [Q2R 0; 3; 4]]%R) /\
  augmenter (K := ROps) 2 0 1 None "last" x = Ok ([3; 2], [[1; 2]; [3; 4]; [Q2R 0; Q2R 0]]%R) /\
  depthcat (K := ROps) 2 1 (Some 7%R) x = Ok ([2; 3], [[1; 2; 7 * Q2R 1]; [3; 4; 7 * Q2R 1]]%R) /\
  datacontrol (K := ROps) 2 (Some ([2; 1], [[5]; [6]]%R)) x = Ok ([2; 3], [[1; 2; 5]; [3; 4; 6]]%R).
Proof.
  intros x. split.
  { split; cbn; auto. repeat constructor. }
  split. { split; [lia|]. right. reflexivity. }
  repeat split.
Qed.
