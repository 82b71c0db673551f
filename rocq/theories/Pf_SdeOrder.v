(** Proofs of the property about the order of solutions of a scalar SDE. *)
From Coq Require Import ZArith QArith Qreals Reals Lra Lia String List Bool.
From Verif Require Import Num Py Tensor M_SolversOde M_Odeint M_Sde Spec_Ode Spec_Adaptive Spec_Conv Spec_Sde.
From Verif Require Import L_Fixed L_Sde L_Conv.
From Verif Require Import Pf_Sde Pf_SdeDep Pf_SdeCausal.
Import ListNotations.
Local Notation length := List.length.
Local Open Scope R_scope.

Lemma near1 (a b : list R) : nth 0 a 0 <= nth 0 b 0 -> near 1 (nth 0 b 0 - nth 0 a 0) a b.
Proof. intros N [|j] Hj; [|lia]. rewrite Rabs_minus_sym, Rabs_pos_eq by lra. lra. Qed.
Lemma order_step (L r t u w p q p' q' e : R) : r < t -> p <= q -> L * (t - r) <= 1 -> Rabs (u - w) <= L * (q - p) ->
  p' = p + u * (t - r) + e -> q' = q + w * (t - r) + e -> p' <= q'.
Proof.
  intros Hrt N HLs NF -> ->. pose proof (Rle_trans _ _ _ (Rle_abs _) NF) as N1.
  assert (N2 : (t - r) * (u - w) <= (t - r) * (L * (q - p))) by (apply Rmult_le_compat_l; lra).
  assert (N3 : L * (t - r) * (q - p) <= 1 * (q - p)) by (apply Rmult_le_compat_r; lra). lra.
Qed.

(** Scalar SDE with additive noise, L-Lipschitz drift, steps of size at most 1/L: along the same Brownian path the solutions from x <= z stay in
    that order at every time, for every solver. *)
Lemma C204_additive_partial_pf :
  forall name sde bm s S sigma L x z t0 t1 ts, sized 1 sde bm ->
  @sde_str_to_solver ROps name sde bm = Ok s -> scheme_of name (sde_f sde) (sde_g sde) bm = Some S ->
  (forall t y, length y = 1%nat -> sde_g sde t y = sigma t) -> 0 <= L -> lipschitz 1 L (sde_f sde) -> x <= z -> increasing (t0 :: t1 :: ts) ->
  (forall i a b, nth_error (t0 :: t1 :: ts) i = Some a -> nth_error (t0 :: t1 :: ts) (Datatypes.S i) = Some b -> L * (b - a) <= 1) ->
  exists xs zs, @sdeint ROps sde [x] (t0 :: t1 :: ts) name bm [] = Ok (t0 :: t1 :: ts, xs) /\ @sdeint ROps sde [z] (t0 :: t1 :: ts) name bm [] = Ok (t0 :: t1 :: ts, zs) /\
    length xs = length (t0 :: t1 :: ts) /\ length zs = length (t0 :: t1 :: ts) /\
    forall i a b, nth_error xs i = Some a -> nth_error zs i = Some b -> nth 0 a 0 <= nth 0 b 0.
Proof.
  intros name sde bm s S sigma L x z t0 t1 ts HZ Q HS Hg HL0 HL Hxz Hinc Hstep.
  destruct (C41_sde_trajectory_pf 1 name sde bm s S [x] t0 t1 ts HZ eq_refl Q HS) as (xs & Ex & Lx & X0 & Xs).
  destruct (C41_sde_trajectory_pf 1 name sde bm s S [z] t0 t1 ts HZ eq_refl Q HS) as (zs & Ez & Lz & Z0 & Zs).
  exists xs, zs. split; [exact Ex|]. split; [exact Ez|]. split; [exact Lx|]. split; [exact Lz|].
  assert (Y : forall i a b, nth_error xs i = Some a -> nth_error zs i = Some b -> length a = 1%nat /\ length b = 1%nat /\ nth 0 a 0 <= nth 0 b 0).
  { induction i as [|i IH]; intros a b Ea Eb.
    - pose proof (eq_trans (eq_sym X0) Ea) as Fa. pose proof (eq_trans (eq_sym Z0) Eb) as Fb. injection Fa as <-. injection Fb as <-. now split.
    - assert (Hi : (Datatypes.S i < length (t0 :: t1 :: ts))%nat).
      { eapply Nat.lt_le_trans; [|exact (Nat.eq_le_incl _ _ Lx)]. apply nth_error_Some. intros E. pose proof (eq_trans (eq_sym E) Ea). discriminate. }
      destruct (nth_error (t0 :: t1 :: ts) i) as [r|] eqn:Er; [|apply nth_error_None in Er; lia].
      destruct (nth_error (t0 :: t1 :: ts) (Datatypes.S i)) as [t|] eqn:Et; [|apply nth_error_None in Et; lia].
      destruct (nth_error xs i) as [a0|] eqn:Ea0; [|exfalso; apply nth_error_None in Ea0; pose proof (Nat.le_trans _ _ _ (Nat.eq_le_incl _ _ (eq_sym Lx)) Ea0) as F; cbn in F, Hi; lia].
      destruct (nth_error zs i) as [b0|] eqn:Eb0; [|exfalso; apply nth_error_None in Eb0; pose proof (Nat.le_trans _ _ _ (Nat.eq_le_incl _ _ (eq_sym Lz)) Eb0) as F; cbn in F, Hi; lia].
      destruct (IH a0 b0 eq_refl eq_refl) as (La & Lb & N).
      assert (Hrt : r < t) by (eapply (Hinc i (Datatypes.S i)); [lia|exact Er|exact Et]). pose proof (Hstep i r t Er Et) as HLs.
      destruct (scheme_additive 1 name sde bm S sigma HS Hg r t) as (c & Hc).
      destruct (Hc a0 a La (Xs i r t a0 a Er Et Ea0 Ea)) as (LA & EA). destruct (Hc b0 b Lb (Zs i r t b0 b Er Et Eb0 Eb)) as (LB & EB).
      split; [exact LA|]. split; [exact LB|]. specialize (EA 0%nat Nat.lt_0_1). specialize (EB 0%nat Nat.lt_0_1). unfold comp in EA, EB.
      pose proof (HL r a0 b0 _ La Lb (near1 a0 b0 N) 0%nat Nat.lt_0_1) as NF.
      exact (order_step L r t _ _ _ _ _ _ _ Hrt N HLs NF EA EB). }
  intros i a b Ea Eb. now apply (Y i).
Qed.

(** With multiplicative noise the order is lost: for dX = X dW the exact solutions never cross, but one Euler-Maruyama step of any size over which
    the path falls by more than 1 moves the solution from 1 below the solution from 0. *)
Lemma C204_multiplicative_refuted_pf :
  forall w h, w < -1 -> let sde := @MkSde ROps (fun _ _ => [0]) (fun _ y => y) (Some "diagonal"%string) (Some "ito"%string) in let bm := fun _ _ : R => [w] in
  exists y, y < 0 /\ @sdeint ROps sde [1] [0; h] "euler" bm [] = Ok ([0; h], [[1]; [y]]) /\ @sdeint ROps sde [0] [0; h] "euler" bm [] = Ok ([0; h], [[0]; [0]]).
Proof.
  intros w h Hw sde bm. exists (1 + w). split; [lra|]. split.
  - rewrite (sdeint_traj "euler" sde bm _ [1] _ eq_refl) by (cbn; lia). do 2 f_equal. rewrite !traj_hd. cbn. unfold em_step, bm, vadd, vmul, vscale. cbn. repeat f_equal; ring.
  - rewrite (sdeint_traj "euler" sde bm _ [0] _ eq_refl) by (cbn; lia). do 2 f_equal. rewrite !traj_hd. cbn. unfold em_step, bm, vadd, vmul, vscale. cbn. repeat f_equal; ring.
Qed.

(** The hypotheses are met: dX = -X dt + t dW with steps 1 and 1/2. *)
Lemma C204_ex_pf :
  let sde := @MkSde ROps (fun _ y => map Ropp y) (fun t _ => [t]) (Some "additive"%string) (Some "ito"%string) in let bm := fun u t : R => [7 * t - 7 * u] in
  sized 1 sde bm /\ (exists s, @sde_str_to_solver ROps "euler" sde bm = Ok s) /\ (exists S, scheme_of "euler" (sde_f sde) (sde_g sde) bm = Some S) /\
  lipschitz 1 1 (sde_f sde) /\ increasing [0; 1; 3 / 2] /\
  (forall i a b, nth_error [0; 1; 3 / 2] i = Some a -> nth_error [0; 1; 3 / 2] (Datatypes.S i) = Some b -> 1 * (b - a) <= 1).
Proof.
  intros sde bm. destruct C203_ex_pf as (H1 & H2 & H3 & H4 & _ & _). split; [exact H1|]. split; [exact H2|]. split; [exact H3|]. split; [exact H4|]. split.
  - intros [|[|[|i]]] [|[|[|j]]] a b Hij Ha Hb; cbn in *; try lia; try discriminate; try (destruct i; discriminate); try (destruct j; discriminate); injection Ha as <-; injection Hb as <-; lra.
  - intros [|[|[|i]]] a b Ha Hb; cbn in *; try discriminate; try (destruct i; discriminate); injection Ha as <-; injection Hb as <-; lra.
Qed.
