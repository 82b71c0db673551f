(** Enumeration of rooted trees: checking a decidable condition on all trees of order <= p. *)
From Coq Require Import QArith List Arith Lia Bool.
From Verif Require Import Spec_Trees.
Import ListNotations.
Local Open Scope nat_scope.

(** [forests f n]: all lists of trees of total order exactly n, where trees of order m are [f m] *)
Fixpoint forests (fuel : nat) (tr : nat -> list tree) (n : nat) : list (list tree) :=
  match n with
  | 0 => [[]]
  | _ =>
    match fuel with
    | 0 => []
    | S fuel' =>
        flat_map (fun m => flat_map (fun t => map (cons t) (forests fuel' tr (n - m))) (tr m))
                 (seq 1 n)
    end
  end.

(** All trees of order exactly n (n <= fuel) *)
Fixpoint trees (fuel n : nat) : list tree :=
  match fuel, n with
  | S fuel', S m => map Node (forests m (trees fuel') m)
  | _, _ => []
  end.

Lemma order_pos t : 1 <= order t.
Proof. destruct t; simpl; lia. Qed.

Lemma forests_complete tr : forall cs fuel,
  length cs <= fuel ->
  (forall t, In t cs -> In t (tr (order t))) ->
  In cs (forests fuel tr (list_sum (map order cs))).
Proof.
  induction cs as [|t cs IH]; intros fuel Hf Ht.
  - simpl. destruct fuel; simpl; auto.
  - simpl map. cbn [list_sum fold_right]. 
    assert (Hp := order_pos t).
    destruct fuel as [|fuel]; [simpl in Hf; lia|].
    destruct (list_sum (order t :: map order cs)) as [|n] eqn:E.
    { simpl in E. lia. }
    change (order t + fold_right Nat.add 0 (map order cs)) with (list_sum (order t :: map order cs)) in *.
    rewrite E. cbn [forests].
    apply in_flat_map. exists (order t). split.
    + apply in_seq. simpl in E. lia.
    + apply in_flat_map. exists t. split; [apply Ht; now left|].
      apply in_map. replace (S n - order t) with (list_sum (map order cs)) by (simpl in E; lia).
      apply IH; [simpl in Hf; lia|]. intros t' H'; apply Ht; now right.
Qed.

Lemma length_le_order cs : length cs <= list_sum (map order cs).
Proof. induction cs as [|t cs IH]; simpl; auto. assert (Hp := order_pos t). lia. Qed.

Lemma order_child_lt t cs : In t cs -> order t < order (Node cs).
Proof.
  simpl. induction cs as [|s cs IH]; intros []; simpl.
  - subst; lia.
  - apply IH in H. lia.
Qed.

Lemma trees_complete : forall fuel t, order t <= fuel -> In t (trees fuel (order t)).
Proof.
  induction fuel as [|fuel IH]; intros [cs] H.
  - simpl in H; lia.
  - assert (HC := fun t => order_child_lt t cs).
    cbn [order] in *. cbn [trees]. apply in_map. apply forests_complete.
    + apply length_le_order.
    + intros t Ht. apply IH. specialize (HC t Ht). lia.
Qed.

Definition all_trees_upto (p : nat) : list tree :=
  flat_map (fun n => trees p n) (seq 1 p).

Lemma all_trees_upto_complete p t : order t <= p -> In t (all_trees_upto p).
Proof.
  intros H. unfold all_trees_upto. apply in_flat_map. exists (order t). split.
  - apply in_seq. assert (Hp := order_pos t). lia.
  - now apply trees_complete.
Qed.

Definition check_order (rows : qrows) (b : list Q) (p : nat) : bool :=
  forallb (fun t => Qeq_bool (qdot b (phi rows t)) (1 # density t)) (all_trees_upto p).

Lemma check_order_ok rows b p : check_order rows b p = true -> rk_order rows b p.
Proof.
  intros H t Ht. unfold check_order in H. rewrite forallb_forall in H.
  apply Qeq_bool_iff, H, all_trees_upto_complete, Ht.
Qed.

Definition check_order_within (eps : Q) (rows : qrows) (b : list Q) (p : nat) : bool :=
  forallb (fun t => let d := (qdot b (phi rows t) - (1 # density t))%Q in
                    Qle_bool (- eps) d && Qle_bool d eps) (all_trees_upto p).

Lemma check_order_within_ok eps rows b p :
  check_order_within eps rows b p = true -> rk_order_within eps rows b p.
Proof.
  intros H t Ht. unfold check_order_within in H. rewrite forallb_forall in H.
  specialize (H t (all_trees_upto_complete p t Ht)). apply andb_prop in H.
  split; apply Qle_bool_iff; tauto.
Qed.

Definition check_row_sums (rows : qrows) : bool :=
  forallb (fun r => Qeq_bool (fst r) (fold_right Qplus 0%Q (snd r))) rows.
Lemma check_row_sums_ok rows : check_row_sums rows = true -> row_sums rows.
Proof. intros H r Hr. unfold check_row_sums in H. rewrite forallb_forall in H. apply Qeq_bool_iff; auto. Qed.

(** Negative: a witness tree *)
Definition check_not_order (rows : qrows) (b : list Q) (t : tree) : bool :=
  negb (Qeq_bool (qdot b (phi rows t)) (1 # density t)).
Lemma check_not_order_ok rows b t p :
  order t <= p -> check_not_order rows b t = true -> ~ rk_order rows b p.
Proof.
  intros Ht H Ho. specialize (Ho t Ht). unfold check_not_order in H.
  apply Qeq_bool_iff in Ho. rewrite Ho in H. discriminate.
Qed.

(** ** Faster check over integers: all coefficients scaled by a common denominator D *)
Section Scaled.
Variable D : positive.

Definition scaled (k : nat) (q : Q) (z : Z) : Prop :=
  (q * inject_Z (Z.pow (Zpos D) (Z.of_nat k)) == inject_Z z)%Q.

Definition to_z (q : Q) : Z := (Qnum q * (Zpos D / QDen q))%Z.
Definition scalable (q : Q) : bool := (Z.eqb ((Zpos D) mod (QDen q)) 0).

Fixpoint zdot (a b : list Z) : Z :=
  match a, b with x :: a', y :: b' => (x * y + zdot a' b')%Z | _, _ => 0%Z end.
Definition zmuls (a b : list Z) : list Z := map (fun p => (fst p * snd p)%Z) (combine a b).
Fixpoint zphi (rows : list (list Z)) (t : tree) : list Z :=
  match t with
  | Node cs =>
      fold_right zmuls (map (fun _ => 1%Z) rows)
        (map (fun s => let p := zphi rows s in map (fun r => zdot r p) rows) cs)
  end.

Lemma to_z_scaled q : scalable q = true -> scaled 1 q (to_z q).
Proof.
  unfold scalable, scaled, to_z. intros H. apply Z.eqb_eq in H.
  rewrite Z.pow_1_r. unfold Qeq, Qmult, inject_Z. cbn [Qnum Qden].
  rewrite Pos.mul_1_r.
  assert (E := Z.div_mod (Zpos D) (QDen q)). rewrite H in E.
  specialize (E ltac:(discriminate)). rewrite Z.add_0_r in E.
  rewrite E at 1. ring.
Qed.

Lemma scaled_mul j k p q x y : scaled j p x -> scaled k q y -> scaled (j + k) (p * q) (x * y).
Proof.
  unfold scaled. intros H1 H2. rewrite Nat2Z.inj_add, Z.pow_add_r, inject_Z_mult by lia.
  rewrite inject_Z_mult, <- H1, <- H2. ring.
Qed.
Lemma scaled_add k p q x y : scaled k p x -> scaled k q y -> scaled k (p + q) (x + y).
Proof. unfold scaled. intros H1 H2. rewrite inject_Z_plus, <- H1, <- H2. ring. Qed.
Lemma scaled_eq k p q x : (p == q)%Q -> scaled k p x -> scaled k q x.
Proof. unfold scaled. intros E H. now rewrite <- E. Qed.
Lemma scaled_0 k : scaled k 0 0.
Proof. unfold scaled. ring. Qed.

Lemma scaled_dot j k a b x y :
  Forall2 (scaled j) a x -> Forall2 (scaled k) b y -> scaled (j + k) (qdot a b) (zdot x y).
Proof.
  intros H. revert b y. induction H as [|p z a x Hp Ha IH]; intros b y Hb; cbn [qdot zdot].
  - apply scaled_0.
  - destruct Hb as [|q w b y Hq Hb]; [apply scaled_0|].
    eapply scaled_eq; [symmetry; apply Qred_correct|].
    apply scaled_add; [now apply scaled_mul|now apply IH].
Qed.

Lemma scaled_muls j k a b x y :
  Forall2 (scaled j) a x -> Forall2 (scaled k) b y ->
  Forall2 (scaled (j + k)) (qmuls a b) (zmuls x y).
Proof.
  intros H. revert b y. induction H as [|p z a x Hp Ha IH]; intros b y Hb.
  - constructor.
  - destruct Hb as [|q w b y Hq Hb]; [constructor|].
    unfold qmuls, zmuls in *. cbn [combine map fst snd]. constructor; [|now apply IH].
    eapply scaled_eq; [symmetry; apply Qred_correct|]. now apply scaled_mul.
Qed.

Definition zrows_of (rows : qrows) : list (list Z) := map (fun r => map to_z (snd r)) rows.
Definition rows_scalable (rows : qrows) : bool := forallb (fun r => forallb scalable (snd r)) rows.

Lemma to_z_list l : forallb scalable l = true -> Forall2 (scaled 1) l (map to_z l).
Proof.
  induction l as [|q l IH]; simpl; intros H; constructor.
  - apply to_z_scaled. apply andb_prop in H. tauto.
  - apply IH. apply andb_prop in H. tauto.
Qed.

Lemma zphi_scaled rows : rows_scalable rows = true -> forall n t, order t <= n ->
  Forall2 (scaled (order t - 1)) (phi rows t) (zphi (zrows_of rows) t).
Proof.
  intros Hr. induction n as [|n IH]; intros [cs] Hn.
  - simpl in Hn; lia.
  - assert (Hone : Forall2 (scaled 0) (map (fun _ : Q * list Q => 1%Q) rows)
                     (map (fun _ : list Z => 1%Z) (zrows_of rows))).
    { clear. unfold zrows_of. rewrite map_map. induction rows; simpl; constructor; auto.
      unfold scaled. reflexivity. }
    assert (Hrow : forall k (p : list Q) z, Forall2 (scaled k) p z ->
      Forall2 (scaled (S k)) (map (fun r : Q * list Q => qdot (snd r) p) rows)
              (map (fun r => zdot r z) (zrows_of rows))).
    { clear - Hr. unfold zrows_of, rows_scalable in *. intros k p z Hp. rewrite map_map.
      revert Hr. generalize rows. clear rows. induction rows as [|r rows IH]; simpl; intros Hr; constructor.
      - apply (scaled_dot 1 k); auto. apply to_z_list. apply andb_prop in Hr. tauto.
      - apply IH. apply andb_prop in Hr. tauto. }
    cbn [order phi zphi] in *. replace (S (list_sum (map order cs)) - 1) with (list_sum (map order cs)) by lia.
    assert (Hn' : list_sum (map order cs) <= n) by lia. clear Hn.
    induction cs as [|s cs IHc]; [exact Hone|].
    cbn [map fold_right list_sum] in *.
    change (fold_right Nat.add 0 (map order cs)) with (list_sum (map order cs)) in *.
    apply scaled_muls.
    + assert (Hp := order_pos s). replace (order s) with (S (order s - 1)) at 1 by lia.
      apply Hrow, IH. lia.
    + apply IHc. lia.
Qed.

Definition zcheck_within (eps : Q) (rows : qrows) (b : list Q) (p : nat) : bool :=
  rows_scalable rows && forallb scalable b &&
  let zr := zrows_of rows in let zb := map to_z b in
  forallb (fun t =>
    let s := Z.pow (Zpos D) (Z.of_nat (order t)) in
    let d := (zdot zb (zphi zr t) * Zpos (density t) - s)%Z in
    Z.leb (Z.abs d * QDen eps) (Qnum eps * Zpos (density t) * s)) (all_trees_upto p).

Lemma zcheck_within_ok eps rows b p :
  zcheck_within eps rows b p = true -> rk_order_within eps rows b p.
Proof.
  unfold zcheck_within. intros H t Ht.
  apply andb_prop in H. destruct H as [H H3]. apply andb_prop in H. destruct H as [H1 H2].
  cbv zeta in H3. rewrite forallb_forall in H3.
  specialize (H3 t (all_trees_upto_complete p t Ht)). apply Z.leb_le in H3.
  assert (S := scaled_dot 1 _ _ _ _ _ (to_z_list _ H2) (zphi_scaled rows H1 _ t (le_n _))).
  assert (Hp := order_pos t). replace (1 + (order t - 1)) with (order t) in S by lia.
  revert H3 S. unfold scaled.
  generalize (zdot (map to_z b) (zphi (zrows_of rows) t)). intros z.
  generalize (qdot b (phi rows t)). intros q.
  assert (HD : (0 < Z.pow (Zpos D) (Z.of_nat (order t)))%Z) by (apply Z.pow_pos_nonneg; lia).
  revert HD. generalize (Z.pow (Zpos D) (Z.of_nat (order t))) as s. generalize (density t) as g.
  intros g s Hs H3 Hq. destruct q as [qn qd], eps as [en ed].
  unfold Qeq, Qmult, inject_Z in Hq. cbn [Qnum Qden] in *. rewrite Pos.mul_1_r, Z.mul_1_r in Hq.
  assert (Ha : (- (en * Zpos g * s) <= (z * Zpos g - s) * Zpos ed <= en * Zpos g * s)%Z) by nia.
  clear H3. unfold Qle, Qminus, Qplus, Qopp. cbn [Qnum Qden].
  rewrite !Pos2Z.inj_mul.
  assert (E : ((qn * Zpos g - Zpos qd) * Zpos ed * s = (z * Zpos g - s) * Zpos ed * Zpos qd)%Z).
  { replace ((qn * Zpos g - Zpos qd) * Zpos ed * s)%Z
      with ((qn * s) * Zpos g * Zpos ed - Zpos qd * Zpos ed * s)%Z by ring.
    rewrite Hq. ring. }
  assert (E1 : (- (en * Zpos g * s) * Zpos qd <= (z * Zpos g - s) * Zpos ed * Zpos qd)%Z)
    by (apply Z.mul_le_mono_nonneg_r; lia).
  assert (E2 : ((z * Zpos g - s) * Zpos ed * Zpos qd <= (en * Zpos g * s) * Zpos qd)%Z)
    by (apply Z.mul_le_mono_nonneg_r; lia).
  rewrite <- E in E1, E2.
  split; apply (Z.mul_le_mono_pos_r _ _ s Hs); ring_simplify; ring_simplify in E1; ring_simplify in E2; lia.
Qed.
End Scaled.

Definition check_row_sums_within (eps : Q) (rows : qrows) : bool :=
  forallb (fun r => let d := (fst r - fold_right Qplus 0%Q (snd r))%Q in
                    Qle_bool (- eps) d && Qle_bool d eps) rows.
Lemma check_row_sums_within_ok eps rows :
  check_row_sums_within eps rows = true -> row_sums_within eps rows.
Proof.
  intros H r Hr. unfold check_row_sums_within in H. rewrite forallb_forall in H.
  specialize (H r Hr). cbv zeta in H. apply andb_prop in H. split; apply Qle_bool_iff; tauto.
Qed.

Definition check_order_at (theta eps : Q) (rows : qrows) (b : list Q) (p : nat) : bool :=
  forallb (fun t => let d := (qdot b (phi rows t) - Qpower theta (Z.of_nat (order t)) * (1 # density t))%Q in
                    Qle_bool (- eps) d && Qle_bool d eps) (all_trees_upto p).
Lemma check_order_at_ok theta eps rows b p :
  check_order_at theta eps rows b p = true -> rk_order_at theta eps rows b p.
Proof.
  intros H t Ht. unfold check_order_at in H. rewrite forallb_forall in H.
  specialize (H t (all_trees_upto_complete p t Ht)). cbv zeta in H. apply andb_prop in H.
  split; apply Qle_bool_iff; tauto.
Qed.
