(** The fourth order interpolant. *)
From Coq Require Import ZArith QArith Qreals Reals Lra Lia List Bool.
From Coquelicot Require Import Coquelicot.
From Verif Require Import Num Py Tensor M_Constants M_SolversOde M_Utils M_Interp M_Odeint.
From Verif Require Import Spec_Trees Spec_RK Spec_Adaptive L_Base L_Vec L_Trees L_Tables.
Import ListNotations.
Local Open Scope R_scope.

Lemma interp_value n dt f0 f1 x0 x1 xm t0 t1 t :
  length f0 = n -> length f1 = n -> length x0 = n -> length x1 = n -> length xm = n ->
  exists y, @interp_evaluate ROps (@fourth_fit ROps dt f0 f1 x0 x1 xm) t0 t1 t = Ok y /\
    length y = n /\
    forall i, (i < n)%nat -> @nth R i y 0 =
      quartic_interp dt (nth i f0 0) (nth i f1 0) (nth i x0 0) (nth i x1 0) (nth i xm 0)
        ((t - t0) / (t1 - t0)).
Proof.
  intros Hf0 Hf1 Hx0 Hx1 Hm. unfold interp_evaluate, fourth_fit. cbn [fold_left fst snd].
  eexists. split; [reflexivity|]. split; [vlen|].
  intros i Hi. rops. set (th := (t - t0) / (t1 - t0)).
  vnth n. rops. qlit. unfold quartic_interp. field.
Qed.

Lemma quartic_at_0 dt f0 f1 x0 x1 xm : quartic_interp dt f0 f1 x0 x1 xm 0 = x0.
Proof. unfold quartic_interp; ring. Qed.
Lemma quartic_at_1 dt f0 f1 x0 x1 xm : quartic_interp dt f0 f1 x0 x1 xm 1 = x1.
Proof. unfold quartic_interp; ring. Qed.
Lemma quartic_at_half dt f0 f1 x0 x1 xm : quartic_interp dt f0 f1 x0 x1 xm (1/2) = xm.
Proof. unfold quartic_interp; field. Qed.

Lemma quartic_reproduces a0 a1 a2 a3 a4 t0 dt t : dt <> 0 ->
  let q s := a0 + a1 * s + a2 * s ^ 2 + a3 * s ^ 3 + a4 * s ^ 4 in
  let q' s := a1 + 2 * a2 * s + 3 * a3 * s ^ 2 + 4 * a4 * s ^ 3 in
  quartic_interp dt (q' t0) (q' (t0 + dt)) (q t0) (q (t0 + dt)) (q (t0 + dt / 2))
    ((t - t0) / (t0 + dt - t0)) = q t.
Proof. intros H q q'. unfold quartic_interp, q, q'. field. lra. Qed.

Lemma quartic_deriv dt f0 f1 x0 x1 xm t0 t : dt <> 0 ->
  derivable_pt_lim (fun s => quartic_interp dt f0 f1 x0 x1 xm ((s - t0) / (t0 + dt - t0))) t
    (let th := (t - t0) / dt in
     (dt * f0 + 2 * (dt * (f1 - 4 * f0) - 11 * x0 - 5 * x1 + 16 * xm) * th
      + 3 * (dt * (5 * f0 - 3 * f1) + 18 * x0 + 14 * x1 - 32 * xm) * th ^ 2
      + 4 * (2 * dt * (f1 - f0) - 8 * (x1 + x0) + 16 * xm) * th ^ 3) / dt).
Proof.
  intros H.
  apply is_derive_Reals. unfold quartic_interp. auto_derive.
  - lra.
  - field. lra.
Qed.

Lemma quartic_slope_left dt f0 f1 x0 x1 xm t0 : dt <> 0 ->
  derivable_pt_lim (fun s => quartic_interp dt f0 f1 x0 x1 xm ((s - t0) / (t0 + dt - t0))) t0 f0.
Proof.
  intros H. pose proof (quartic_deriv dt f0 f1 x0 x1 xm t0 t0 H) as D. cbv zeta in D.
  match type of D with derivable_pt_lim _ _ ?v => replace v with f0 in D end; auto.
  field. auto.
Qed.
Lemma quartic_slope_right dt f0 f1 x0 x1 xm t0 : dt <> 0 ->
  derivable_pt_lim (fun s => quartic_interp dt f0 f1 x0 x1 xm ((s - t0) / (t0 + dt - t0))) (t0 + dt) f1.
Proof.
  intros H. pose proof (quartic_deriv dt f0 f1 x0 x1 xm t0 (t0 + dt) H) as D. cbv zeta in D.
  match type of D with derivable_pt_lim _ _ ?v => replace v with f1 in D end; auto.
  field. auto.
Qed.

(** Mid-state weights of the interpolator *)
Definition q_bmid : list Q := construct_4th QRaw.
Lemma bmid_R : construct_4th ROps = to_R q_bmid.
Proof. reflexivity. Qed.
Lemma bmid_order4 : rk_order_at (1#2) (1 # 10^15) q_dopri5 q_bmid 4.
Proof. apply check_order_at_ok. vm_compute. reflexivity. Qed.

Lemma bmid_sum_value n (b : list R) (ks : list rvec) :
  length b = length ks -> ks <> [] -> (forall k, In k ks -> length k = n) ->
  exists s, @bmid_sum ROps b ks = Ok s /\ length s = n /\
    forall x h, length x = n -> @vadd ROps x (@vscale ROps h s) = comb x h b ks.
Proof.
  intros Hl Hne Hk.
  destruct ks as [|k ks]; [congruence|]. destruct b as [|b0 b]; [discriminate|].
  assert (Ht : forall b ks, length b = length ks -> @bmid_terms ROps b ks = Ok (map2 (@vscale ROps) b ks)).
  { clear. induction b as [|b0 b IH]; intros [|k ks] H; try discriminate; auto.
    simpl. rewrite IH by (injection H; auto). reflexivity. }
  unfold bmid_sum. rewrite Ht by auto. cbn [map2 rbind].
  eexists. split; [reflexivity|].
  assert (Hk0 : length k = n) by (apply Hk; now left).
  assert (Hks : forall k', In k' ks -> length k' = n) by (intros; apply Hk; now right).
  injection Hl as Hl. clear Hne Hk Ht.
  set (s0 := @vadds ROps n0 (@vscale ROps b0 k)).
  assert (L0 : length s0 = n) by (unfold s0; vlen).
  assert (E0 : forall x h, length x = n -> @vadd ROps x (@vscale ROps h s0) = axpy (h * b0) k x).
  { intros x h Hx. unfold axpy. unfold s0. rewrite <- map2_combine with (f := fun a b => a + h * b0 * b).
    apply (list_ext n); [vlen|rops; rewrite map2_length_eq with (n := n); auto|].
    intros i Hi. vnth n. rewrite (map2_nth _ _ _ _ 0 0) by (rops; congruence). rops. rewrite ?Q2R_0'. field. }
  assert (G : forall ks b s x h, length b = length ks -> (forall k', In k' ks -> length k' = n) -> length s = n ->
    length x = n ->
    length (fold_left (@vadd ROps) (map2 (@vscale ROps) b ks) s) = n /\
    @vadd ROps x (@vscale ROps h (fold_left (@vadd ROps) (map2 (@vscale ROps) b ks) s)) =
    comb (@vadd ROps x (@vscale ROps h s)) h b ks).
  { clear. induction ks as [|k ks IH]; intros [|b0 b] s x h Hl Hk Hs Hx; try discriminate; [split; auto|].
    cbn [map2 fold_left].
    assert (Hk0 : length k = n) by (apply Hk; now left).
    destruct (IH b (@vadd ROps s (@vscale ROps b0 k)) x h) as [IH1 IH2]; auto.
    - intros; apply Hk; now right.
    - vlen.
    - split; auto. rewrite IH2. unfold comb. cbn [combine fold_left fst snd].
      f_equal. unfold axpy. rewrite <- map2_combine with (f := fun a b => a + h * b0 * b).
      apply (list_ext n); [vlen|rops; apply map2_length_eq; vlen|].
      intros i Hi. vnth n. rewrite (map2_nth _ _ _ _ 0 0) by (rops; rewrite ?vadd_len with (n:=n); vlen || lia).
      vnth n. rops. ring. }
  split.
  - destruct (G ks b s0 (@vzeros ROps n) 0) as [G1 _]; auto. apply vzeros_len.
  - intros x h Hx. destruct (G ks b s0 x h) as [_ G2]; auto. rewrite G2, E0 by auto. reflexivity.
Qed.

(** x + (s-t) t + (s-t)^2/2 solves x' = s *)
Lemma clock_solution x t s : derivable_pt_lim (fun u => x + (u - t) * t + (u - t) ^ 2 / 2) s s.
Proof. apply is_derive_Reals. auto_derive; [auto|]. field. Qed.
