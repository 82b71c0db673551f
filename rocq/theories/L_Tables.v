(** dopri5 and tsit5: tables read by the code, order conditions, FSAL. *)
From Coq Require Import ZArith QArith Qreals Reals Lra Lia List Bool.
From Verif Require Import Num Py Tensor M_Constants M_SolversOde M_Utils M_Interp M_Odeint.
From Verif Require Import Spec_Ode Spec_Trees Spec_RK L_Base L_Fixed L_Vec L_Trees L_Steps.
Import ListNotations.
Local Open Scope R_scope.

(** Plain rationals as a number instance (only ring operations are meaningful). *)
Definition QRaw : NumOps := {|
  num := Q; nQ := fun q => q;
  nadd := Qplus; nsub := Qminus; nmul := Qmult; ndiv := Qdiv; nopp := Qopp;
  nabs := fun q => q; nsqrt := fun q => q; npowr := fun q _ => q;
  nmax := fun a _ => a; nmin := fun a _ => a;
  nltb := fun a b => negb (Qle_bool b a); nleb := Qle_bool; neqb := Qeq_bool |}.

Definition qrows7 (tab : tableau QRaw) : qrows :=
  let c i : Q := @tget QRaw (tc tab) i in
  let a i j : Q := @aget QRaw (ta tab) i j in
  [(0%Q, []);
   (c 0, [a 0 0]);
   (c 1, [a 1 0; a 1 1]);
   (c 2, [a 2 0; a 2 1; a 2 2]);
   (c 3, [a 3 0; a 3 1; a 3 2; a 3 3]);
   (c 4, [a 4 0; a 4 1; a 4 2; a 4 3; a 4 4]);
   (c 5, [a 5 0; a 5 1; a 5 2; a 5 3; a 5 4; a 5 5])]%nat.
Definition qb7 (tab : tableau QRaw) : list Q :=
  let b i : Q := @tget QRaw (tb tab) i in [b 0; b 1; b 2; b 3; b 4; b 5]%nat.
Definition qe7 (tab : tableau QRaw) : list Q :=
  let e i : Q := @tget QRaw (te tab) i in [e 0; e 1; e 2; e 3; e 4; e 5; e 6]%nat.

Lemma dopri5_rows : rows7 (construct_dopri5 ROps) = to_R_rows (qrows7 (construct_dopri5 QRaw)).
Proof. unfold to_R_rows, qrows7, rows7. cbn -[Q2R]. rewrite !RMicromega.Q2R_0. reflexivity. Qed.
Lemma tsit5_rows : rows7 (construct_tsit5 ROps) = to_R_rows (qrows7 (construct_tsit5 QRaw)).
Proof. unfold to_R_rows, qrows7, rows7. cbn -[Q2R]. rewrite !RMicromega.Q2R_0. reflexivity. Qed.

Lemma dopri5_b : b7 (construct_dopri5 ROps) = to_R (qb7 (construct_dopri5 QRaw)).
Proof. reflexivity. Qed.
Lemma tsit5_b : b7 (construct_tsit5 ROps) = to_R (qb7 (construct_tsit5 QRaw)).
Proof. reflexivity. Qed.
Lemma dopri5_e : e7 (construct_dopri5 ROps) = to_R (qe7 (construct_dopri5 QRaw)).
Proof.
  unfold e7, qe7, to_R, tget, construct_dopri5, vsub. cbn [te map2 nth map nsub nQ ROps QRaw num].
  rewrite !Qreals.Q2R_minus. reflexivity.
Qed.
Lemma tsit5_e : e7 (construct_tsit5 ROps) = to_R (qe7 (construct_tsit5 QRaw)).
Proof.
  unfold e7, qe7, to_R, tget, construct_tsit5, vsub. cbn [te map2 nth map nsub nQ ROps QRaw num].
  rewrite !Qreals.Q2R_minus. reflexivity.
Qed.

(** The table in the code is the published one. *)
Lemma dopri5_published :
  qrows7 (construct_dopri5 QRaw) = q_dopri5 /\ qb7 (construct_dopri5 QRaw) ++ [0%Q] = qb5_dopri5.
Proof. split; reflexivity. Qed.

Lemma dopri5_order5 : rk_order q_dopri5 qb5_dopri5 5.
Proof. apply check_order_ok. vm_compute. reflexivity. Qed.
Lemma dopri5_order4 : rk_order q_dopri5 qb4_dopri5 4.
Proof. apply check_order_ok. vm_compute. reflexivity. Qed.
Lemma dopri5_not_order6 : ~ rk_order q_dopri5 qb5_dopri5 6.
Proof.
  apply (check_not_order_ok _ _ (Node (repeat (Node []) 5))); [simpl; lia|]. vm_compute. reflexivity.
Qed.
Lemma dopri5_err_not_order5 : ~ rk_order q_dopri5 qb4_dopri5 5.
Proof.
  apply (check_not_order_ok _ _ (Node (repeat (Node []) 4))); [simpl; lia|]. vm_compute. reflexivity.
Qed.
Lemma dopri5_row_sums : row_sums q_dopri5.
Proof. apply check_row_sums_ok. vm_compute. reflexivity. Qed.

(** The embedded weights: solution weights minus error weights *)
Definition q_embedded (tab : tableau QRaw) : list Q :=
  map (fun p => Qred (fst p - snd p)) (combine (qb7 tab ++ [0%Q]) (qe7 tab)).

Definition eps80 : Q := 1 # (10 ^ 80).
Definition tsit_den : positive := (66 * 10 ^ 90)%positive.
Lemma tsit5_order5 :
  rk_order_within eps80 (qrows7 (construct_tsit5 QRaw)) (qb7 (construct_tsit5 QRaw)) 5.
Proof. apply (zcheck_within_ok tsit_den). vm_compute. reflexivity. Qed.
Lemma tsit5_order4 :
  rk_order_within eps80 (qrows7 (construct_tsit5 QRaw)) (q_embedded (construct_tsit5 QRaw)) 4.
Proof. apply (zcheck_within_ok tsit_den). vm_compute. reflexivity. Qed.

(** FSAL: the last row of the tableau is the solution weights at node 1 *)
Lemma fsal7 tab n f t h x :
  field_on n f -> length x = n ->
  @tget ROps (tc tab) 5 = 1 ->
  (forall j, (j < 6)%nat -> @aget ROps (ta tab) 5 j = @tget ROps (tb tab) j) ->
  nth 6 (erk_stages (rows7 tab) f t h x) [] = f (t + h) (erk_step (rows7 tab) (b7 tab) f t h x).
Proof.
  intros Hf Hx Hc Ha.
  unfold erk_step, erk_stages at 1, rows7 at 1. cbn [fold_left fst snd app nth].
  rewrite Hc. replace (t + 1 * h) with (t + h) by ring. f_equal.
  rewrite !Ha by lia. unfold b7, erk_stages, rows7. cbn [fold_left fst snd app].
  unfold comb at 1. reflexivity.
Qed.

Lemma dopri5_fsal n f t h x : field_on n f -> length x = n ->
  nth 6 (erk_stages (rows7 (construct_dopri5 ROps)) f t h x) [] =
  f (t + h) (erk_step (rows7 (construct_dopri5 ROps)) (b7 (construct_dopri5 ROps)) f t h x).
Proof.
  intros Hf Hx. apply (fsal7 _ n); auto.
  - unfold tget, construct_dopri5. cbn [tc nth]. rops. qlit. lra.
  - intros j Hj. do 6 (destruct j as [|j]; [reflexivity|]). lia.
Qed.
Lemma tsit5_fsal n f t h x : field_on n f -> length x = n ->
  nth 6 (erk_stages (rows7 (construct_tsit5 ROps)) f t h x) [] =
  f (t + h) (erk_step (rows7 (construct_tsit5 ROps)) (b7 (construct_tsit5 ROps)) f t h x).
Proof.
  intros Hf Hx. apply (fsal7 _ n); auto.
  - unfold tget, construct_tsit5. cbn [tc nth]. rops. qlit. lra.
  - intros j Hj. do 6 (destruct j as [|j]; [reflexivity|]). lia.
Qed.

Lemma tsit5_row_sums : row_sums_within eps80 (qrows7 (construct_tsit5 QRaw)).
Proof. apply check_row_sums_within_ok. vm_compute. reflexivity. Qed.

(** The embedded weights differ from the solution weights by the error weights *)
Definition check_embedded (tab : tableau QRaw) : bool :=
  forallb (fun x => Qeq_bool (fst x) (snd x))
    (combine (qe7 tab) (map (fun p => (fst p - snd p)%Q) (combine (qb7 tab ++ [0%Q]) (q_embedded tab)))).
Lemma tsit5_embedded : check_embedded (construct_tsit5 QRaw) = true.
Proof. vm_compute. reflexivity. Qed.
