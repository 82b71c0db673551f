(** The step functions of the model are the textbook methods. *)
From Coq Require Import ZArith QArith Qreals Reals Lra Lia List Bool.
From Verif Require Import Num Py Tensor M_Constants M_SolversOde M_Utils M_Interp M_Odeint.
From Verif Require Import Spec_Ode Spec_Trees Spec_RK L_Base L_Fixed L_Vec.
Import ListNotations.
Local Open Scope R_scope.

Lemma axpy_vadd a k x : axpy a k x = @vadd ROps x (@vscale ROps a k).
Proof.
  unfold axpy, vadd, vscale. rops.
  now rewrite map2_map_r, map2_combine.
Qed.

Lemma axpy_len n a k x : length x = n -> length k = n -> length (axpy a k x) = n.
Proof. intros. rewrite axpy_vadd. vlen. Qed.

Lemma field_len n f t x : field_on n f -> length x = n -> length (f t x) = n.
Proof. intros H; apply H. Qed.

Ltac mred := unfold mbind, first_stage, call, mret; cbn [fst snd app].

(** ** Euler *)
Definition euler_one (f : R -> rvec -> rvec) (t dt : R) (x : rvec) : rvec :=
  @vadd ROps x (@vscale ROps dt (f t x)).
Definition euler_log (t dt : R) (x : rvec) : list (R * rvec) := [(t, x)].
Lemma euler_stepper f : fixed_stepper (@euler_step ROps) f (euler_one f) euler_log.
Proof. intros x t dt. exists None, None. reflexivity. Qed.

Lemma euler_one_erk n f t h x : field_on n f -> length x = n ->
  euler_one f t h x = erk_step (to_R_rows q_euler) (to_R qb_euler) f t h x.
Proof.
  intros Hf Hx. unfold euler_one, erk_step, erk_stages, q_euler, qb_euler, comb.
  unfold to_R_rows, to_R. cbn [map fold_left combine app fst snd]. rewrite !axpy_vadd. qlit.
  replace (t + 0 / 1 * h) with t by lra. f_equal. f_equal. lra.
Qed.

(** ** Midpoint *)
Definition midpoint_arg (f : R -> rvec -> rvec) (t dt : R) (x : rvec) : rvec :=
  @vadd ROps x (@vscale ROps (/2 * dt) (f t x)).
Definition midpoint_one (f : R -> rvec -> rvec) (t dt : R) (x : rvec) : rvec :=
  @vadd ROps x (@vscale ROps dt (f (t + /2 * dt) (midpoint_arg f t dt x))).
Definition midpoint_log f (t dt : R) (x : rvec) : list (R * rvec) :=
  [(t, x); (t + /2 * dt, midpoint_arg f t dt x)].
Lemma midpoint_stepper f : fixed_stepper (@midpoint_step ROps) f (midpoint_one f) (midpoint_log f).
Proof.
  intros x t dt. exists None, None. unfold midpoint_step. mred. rewrite !nQhalf. reflexivity.
Qed.

Lemma midpoint_one_erk n f t h x : field_on n f -> length x = n ->
  midpoint_one f t h x = erk_step (to_R_rows q_midpoint) (to_R qb_midpoint) f t h x.
Proof.
  intros Hf Hx. unfold midpoint_one, erk_step, erk_stages, q_midpoint, qb_midpoint, comb.
  unfold to_R_rows, to_R. cbn [map fold_left combine app fst snd]. rewrite !axpy_vadd. qlit.
  replace (t + 0 / 1 * h) with t by lra. replace (t + 1/2 * h) with (t + /2 * h) by lra.
  unfold midpoint_arg. replace (h * (1/2)) with (/2 * h) by lra.
  vext n. lra.
Qed.

(** ** rk4 as coded: the nodes used are 0, 0, 1/2, 1/2 (c[0], c[1], c[2] of the full list) *)
Definition q_rk4_code : qrows :=
  [(0, []); (0, [1#2]); (1#2, [0; 1#2]); (1#2, [0; 0; 1])]%Q.

Lemma rk4_code n f : field_on n f -> forall t dt x, length x = n ->
  snd (@rk4_step ROps f x t dt None) =
  Ok (Ret3 None (erk_step (to_R_rows q_rk4_code) (to_R qb_rk4) f t dt x) None).
Proof.
  intros Hf t dt x Hx.
  unfold rk4_step, construct_rk4, aget, tget. mred. cbn [nth tc ta tb te].
  apply f_equal. apply (f_equal (fun y => Ret3 None y None)).
  unfold erk_step, erk_stages, q_rk4_code, qb_rk4, comb.
  unfold to_R_rows, to_R. cbn [map fold_left combine app fst snd]. rewrite !axpy_vadd. rops. qlit.
  replace (0 / 1) with 0 by lra. replace (1 / 1) with 1 by lra.
  replace (t + 0 * dt) with t by ring.
  replace (t + 1 / 2 * dt) with (t + / 2 * dt) by lra.
  set (k1 := f t x).
  assert (L1 : length k1 = n) by vlen.
  assert (E2 : @vadd ROps x (@vscale ROps dt (@vscale ROps (1/2) k1)) =
               @vadd ROps x (@vscale ROps (dt * (1/2)) k1)) by (vext n; ring).
  rewrite E2. set (k2 := f t (@vadd ROps x (@vscale ROps (dt * (1/2)) k1))).
  assert (L2 : length k2 = n) by vlen.
  match goal with |- context [f (t + /2 * dt) (@vadd ROps x (@vscale ROps dt (@vadd ROps (@vscale ROps 0 k1) (@vscale ROps (1/2) k2))))] =>
    assert (E3 : @vadd ROps x (@vscale ROps dt (@vadd ROps (@vscale ROps 0 k1) (@vscale ROps (1/2) k2)))
     = @vadd ROps (@vadd ROps x (@vscale ROps (dt * 0) k1)) (@vscale ROps (dt * (1/2)) k2))
     by (vext n; lra) end.
  rewrite E3. clear E2 E3.
  match goal with |- context [f (t + /2 * dt) ?a] => set (k3 := f (t + /2 * dt) a) end.
  assert (L3 : length k3 = n) by vlen.
  match goal with |- context [f (t + /2 * dt) ?a] => match a with context [@vscale ROps 1 k3] =>
    assert (E4 : a = @vadd ROps (@vadd ROps (@vadd ROps x (@vscale ROps (dt * 0) k1)) (@vscale ROps (dt * 0) k2))
       (@vscale ROps (dt * 1) k3)) by (vext n; lra) end end.
  rewrite E4. clear E4.
  match goal with |- context [f (t + /2 * dt) ?a] => set (k4 := f (t + /2 * dt) a) end.
  assert (L4 : length k4 = n) by vlen.
  vext n. lra.
Qed.

(** ** The seven stage pairs *)

Section Erk7.
Variables (tab : tableau ROps).
Let c i : R := @tget ROps (tc tab) i.
Let a i j : R := @aget ROps (ta tab) i j.
Let b i : R := @tget ROps (tb tab) i.
Let e i : R := @tget ROps (te tab) i.

(** Rows, solution weights and error weights that the code reads from a tableau *)
Definition rows7 : list (R * list R) :=
  [(0%R, []);
   (c 0, [a 0 0]);
   (c 1, [a 1 0; a 1 1]);
   (c 2, [a 2 0; a 2 1; a 2 2]);
   (c 3, [a 3 0; a 3 1; a 3 2; a 3 3]);
   (c 4, [a 4 0; a 4 1; a 4 2; a 4 3; a 4 4]);
   (c 5, [a 5 0; a 5 1; a 5 2; a 5 3; a 5 4; a 5 5])]%nat.
Definition b7 : list R := [b 0; b 1; b 2; b 3; b 4; b 5]%nat.
Definition e7 : list R := [e 0; e 1; e 2; e 3; e 4; e 5; e 6]%nat.

Lemma comb_len n x h w ks : length x = n -> (forall k, In k ks -> length k = n) ->
  length (comb x h w ks) = n.
Proof.
  unfold comb. revert x w. induction ks as [|k ks IH]; intros x w Hx Hk; destruct w as [|w0 w];
    cbn [combine fold_left]; auto.
  apply IH.
  - apply axpy_len; auto. apply Hk; now left.
  - intros k' Hk'; apply Hk; now right.
Qed.

Ltac lenks n :=
  first
  [ assumption
  | match goal with H : field_on n ?f |- length (?f _ _) = n => apply H end;
    first
    [ assumption
    | apply comb_len;
      [ assumption
      | let k := fresh "k" in let Hk := fresh "Hk" in intros k Hk; cbn [In] in Hk;
        repeat match type of Hk with
        | _ \/ _ => destruct Hk as [Hk|Hk]
        end; first [contradiction | subst k; lenks n ] ] ] ].

Lemma erk7_spec n f : field_on n f -> forall t dt x k1o,
  length x = n -> (forall k, k1o = Some k -> k = f t x) ->
  let ks := erk_stages rows7 f t dt x in
  snd (@erk7_step ROps tab f x t dt k1o) =
  Ok (Ret4 (nth 6 ks []) (erk_step rows7 b7 f t dt x)
           (comb (@vzeros ROps n) dt e7 ks) ks).
Proof.
  intros Hf t dt x k1o Hx Hk1 ks.
  assert (Hfs : forall B (k : rvec -> M (R * rvec) B),
     snd (mbind (@first_stage ROps rvec f x t k1o) k) = snd (k (f t x))).
  { intros B k. destruct k1o as [k0|]; [rewrite (Hk1 k0 eq_refl)|]; unfold first_stage, mbind, mret, call;
      cbn [fst snd]; reflexivity. }
  unfold erk7_step. rewrite Hfs. clear Hfs Hk1 k1o.
  unfold mbind, call, mret; cbn [fst snd].
  fold (c 0) (c 1) (c 2) (c 3) (c 4) (c 5) in *.
  change (@tget ROps (tc tab)) with c. change (@aget ROps (ta tab)) with a.
  change (@tget ROps (tb tab)) with b. change (@tget ROps (te tab)) with e.
  cbv beta zeta.
  unfold erk_step. fold ks.
  assert (Hks : exists k2 k3 k4 k5 k6 k7 : rvec,
    let k1 := f t x in
    length k2 = n /\ length k3 = n /\ length k4 = n /\ length k5 = n /\ length k6 = n /\ length k7 = n /\
    ks = [k1; k2; k3; k4; k5; k6; k7] /\
    k2 = f (t + c 0 * dt)%R (comb x dt [a 0 0] [k1])%nat /\
    k3 = f (t + c 1 * dt)%R (comb x dt [a 1 0; a 1 1] [k1; k2])%nat /\
    k4 = f (t + c 2 * dt)%R (comb x dt [a 2 0; a 2 1; a 2 2] [k1; k2; k3])%nat /\
    k5 = f (t + c 3 * dt)%R (comb x dt [a 3 0; a 3 1; a 3 2; a 3 3] [k1; k2; k3; k4])%nat /\
    k6 = f (t + c 4 * dt)%R (comb x dt [a 4 0; a 4 1; a 4 2; a 4 3; a 4 4] [k1; k2; k3; k4; k5])%nat /\
    k7 = f (t + c 5 * dt)%R (comb x dt [a 5 0; a 5 1; a 5 2; a 5 3; a 5 4; a 5 5] [k1; k2; k3; k4; k5; k6])%nat).
  { unfold ks, erk_stages, rows7. cbn [fold_left fst snd app].
    replace (t + 0 * dt)%R with t by ring.
    assert (H1 : comb x dt [] [] = x) by reflexivity. rewrite H1.
    do 6 eexists.
    refine (conj _ (conj _ (conj _ (conj _ (conj _ (conj _ (conj eq_refl
             (conj eq_refl (conj eq_refl (conj eq_refl (conj eq_refl (conj eq_refl eq_refl))))))))))));
    lenks n. }
  destruct Hks as (k2 & k3 & k4 & k5 & k6 & k7 & L2 & L3 & L4 & L5 & L6 & L7 & Eks & E2 & E3 & E4 & E5 & E6 & E7).
  set (k1 := f t x) in *. assert (L1 : length k1 = n) by (unfold k1; vlen).
  clearbody ks. subst ks. cbn [nth].
  rops.
  assert (A2 : f (t + c 0 * dt) (@vadd ROps x (@vscale ROps (dt * a 0 0) k1)) = k2).
  { rewrite E2. f_equal. unfold comb; cbn [combine fold_left fst snd]. now rewrite axpy_vadd. }
  rewrite A2. clear A2 E2.
  assert (A3 : f (t + c 1 * dt) (@vadd ROps x (@vscale ROps dt (@vadd ROps (@vscale ROps (a 1 0)%nat k1) (@vscale ROps (a 1 1)%nat k2)))) = k3).
  { rewrite E3. f_equal. unfold comb; cbn [combine fold_left fst snd]. rewrite !axpy_vadd. vext n; ring. }
  rewrite A3. clear A3 E3.
  assert (A4 := E4). unfold comb in A4; cbn [combine fold_left fst snd] in A4. rewrite !axpy_vadd in A4.
  rewrite <- A4. clear A4 E4.
  assert (A5 := E5). unfold comb in A5; cbn [combine fold_left fst snd] in A5. rewrite !axpy_vadd in A5.
  rewrite <- A5. clear A5 E5.
  assert (A6 := E6). unfold comb in A6; cbn [combine fold_left fst snd] in A6. rewrite !axpy_vadd in A6.
  rewrite <- A6. clear A6 E6.
  assert (A7 := E7). unfold comb in A7; cbn [combine fold_left fst snd] in A7. rewrite !axpy_vadd in A7.
  rewrite <- A7. clear A7 E7.
  unfold comb, b7, e7; cbn [combine fold_left fst snd]. rewrite !axpy_vadd.
  assert (X : forall (x1 x2 e1 e2 : rvec) l, x1 = x2 -> e1 = e2 ->
    @Ok (step_ret rvec) (Ret4 k7 x1 e1 l) = Ok (Ret4 k7 x2 e2 l)) by (intros; now subst).
  apply X; vext n; ring.
Qed.

Lemma erk7_calls f t dt x k1 :
  length (fst (@erk7_step ROps tab f x t dt k1)) = match k1 with Some _ => 6%nat | None => 7%nat end.
Proof. destruct k1; reflexivity. Qed.

End Erk7.
