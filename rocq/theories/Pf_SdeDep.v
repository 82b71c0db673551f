(** Proofs of the property about the dependence of SDE solves on the initial state, for additive noise. *)
From Coq Require Import ZArith QArith Qreals Reals Lra Lia String List Bool.
From Verif Require Import Num Py Tensor M_SolversOde M_Odeint M_Sde Spec_Ode Spec_Adaptive Spec_Conv Spec_Sde.
From Verif Require Import L_Sde L_Conv.
From Verif Require Import Pf_Sde.
Import ListNotations.
Local Notation length := List.length.
Local Open Scope R_scope.

Lemma near_step (x z u w x' z' c s t D LD : R) : s < t -> Rabs (x - z) <= D -> Rabs (u - w) <= LD -> x' = x + u * (t - s) + c -> z' = z + w * (t - s) + c ->
  Rabs (x' - z') <= D + (t - s) * LD.
Proof.
  intros Hst N1 N2 -> ->. replace (x + u * (t - s) + c - (z + w * (t - s) + c)) with ((x - z) + (t - s) * (u - w)) by ring.
  eapply Rle_trans; [apply Rabs_triang|]. rewrite Rabs_mult, (Rabs_pos_eq (t - s)) by lra. apply Rplus_le_compat; [exact N1|]. apply Rmult_le_compat_l; [lra|exact N2].
Qed.
(** one step with additive noise: drift plus a term that does not depend on the state *)
Lemma scheme_additive n name (sde : sde_func ROps) bm S sigma : scheme_of name (sde_f sde) (sde_g sde) bm = Some S ->
  (forall t y, length y = n -> sde_g sde t y = sigma t) -> forall s t, exists c : nat -> R, forall a a', length a = n -> S s t a a' -> length a' = n /\
    forall i, (i < n)%nat -> comp a' i = comp a i + comp (sde_f sde s a) i * (t - s) + c i.
Proof.
  intros HS Hg s t. unfold scheme_of in HS.
  destruct (name =? "euler")%string; [|destruct (name =? "eulerHeun")%string; [|destruct (name =? "milstein_ito")%string; [|destruct (name =? "milstein_stratonovich")%string; [|discriminate]]]];
    injection HS as <-.
  - exists (fun i => comp (sigma s) i * comp (bm s t) i). intros a a' Ha (LA & HA). rewrite Ha in LA, HA. split; [exact LA|]. intros i Hi. rewrite HA, Hg by auto. ring.
  - exists (fun i => (comp (sigma s) i + comp (sigma t) i) / 2 * comp (bm s t) i). intros a a' Ha (LA & p & Lp & _ & HA). rewrite Ha in LA, Lp, HA. split; [exact LA|].
    intros i Hi. rewrite HA, !Hg by auto. ring.
  - exists (fun i => comp (sigma s) i * comp (bm s t) i). intros a a' Ha (LA & p & Lp & _ & HA). rewrite Ha in LA, Lp, HA. split; [exact LA|].
    intros i Hi. rewrite HA, !Hg by auto. unfold Rdiv. ring.
  - exists (fun i => comp (sigma s) i * comp (bm s t) i). intros a a' Ha (LA & p & Lp & _ & HA). rewrite Ha in LA, Lp, HA. split; [exact LA|].
    intros i Hi. rewrite HA, !Hg by auto. unfold Rdiv. ring.
Qed.
Lemma scheme_near n name (sde : sde_func ROps) bm S sigma L : scheme_of name (sde_f sde) (sde_g sde) bm = Some S ->
  (forall t y, length y = n -> sde_g sde t y = sigma t) -> lipschitz n L (sde_f sde) ->
  forall s t a b a' b' D, s < t -> length a = n -> length b = n -> near n D a b -> S s t a a' -> S s t b b' ->
  length a' = n /\ length b' = n /\ near n (D + (t - s) * (L * D)) a' b'.
Proof.
  intros HS Hg HL s t a b a' b' D Hst Ha Hb Hab HA HB. destruct (scheme_additive n name sde bm S sigma HS Hg s t) as (c & Hc).
  destruct (Hc a a' Ha HA) as (LA & EA). destruct (Hc b b' Hb HB) as (LB & EB).
  split; [exact LA|]. split; [exact LB|]. intros i Hi. pose proof (Hab i Hi) as N1. pose proof (HL s a b D Ha Hb Hab i Hi) as N2.
  specialize (EA i Hi). specialize (EB i Hi). unfold comp in EA, EB.
  exact (near_step _ _ _ _ _ _ _ _ _ _ _ Hst N1 N2 EA EB).
Qed.

(** Additive noise (the diffusion may depend on time but not on the state), drift L-Lipschitz: along the same Brownian path, whatever it is, the
    solutions from two initial states at distance e are at time t at most exp(L (t - t0)) e apart, for every solver. *)
Lemma C203_dependence_pf :
  forall n name sde bm s S sigma L e x z t0 t1 ts, sized n sde bm -> length x = n -> length z = n ->
  @sde_str_to_solver ROps name sde bm = Ok s -> scheme_of name (sde_f sde) (sde_g sde) bm = Some S ->
  (forall t y, length y = n -> sde_g sde t y = sigma t) -> 0 <= L -> lipschitz n L (sde_f sde) -> 0 <= e -> near n e x z -> increasing (t0 :: t1 :: ts) ->
  exists xs zs, @sdeint ROps sde x (t0 :: t1 :: ts) name bm [] = Ok (t0 :: t1 :: ts, xs) /\ @sdeint ROps sde z (t0 :: t1 :: ts) name bm [] = Ok (t0 :: t1 :: ts, zs) /\
    length xs = length (t0 :: t1 :: ts) /\ length zs = length (t0 :: t1 :: ts) /\
    forall i t a b, nth_error (t0 :: t1 :: ts) i = Some t -> nth_error xs i = Some a -> nth_error zs i = Some b -> near n (exp (L * (t - t0)) * e) a b.
Proof.
  intros n name sde bm s S sigma L e x z t0 t1 ts HZ Hx Hz Q HS Hg HL0 HL He Hxz Hinc.
  destruct (C41_sde_trajectory_pf n name sde bm s S x t0 t1 ts HZ Hx Q HS) as (xs & Ex & Lx & X0 & Xs).
  destruct (C41_sde_trajectory_pf n name sde bm s S z t0 t1 ts HZ Hz Q HS) as (zs & Ez & Lz & Z0 & Zs).
  exists xs, zs. split; [exact Ex|]. split; [exact Ez|]. split; [exact Lx|]. split; [exact Lz|].
  assert (Y : forall i t a b, nth_error (t0 :: t1 :: ts) i = Some t -> nth_error xs i = Some a -> nth_error zs i = Some b ->
    length a = n /\ length b = n /\ near n (exp (L * (t - t0)) * e) a b).
  { induction i as [|i IH]; intros t a b Et Ea Eb.
    - injection Et as <-. pose proof (eq_trans (eq_sym X0) Ea) as Fa. pose proof (eq_trans (eq_sym Z0) Eb) as Fb. injection Fa as <-. injection Fb as <-. split; [exact Hx|]. split; [exact Hz|].
      replace (L * (t0 - t0)) with 0 by ring. rewrite exp_0, Rmult_1_l. exact Hxz.
    - assert (Hi : (Datatypes.S i < length (t0 :: t1 :: ts))%nat) by (apply nth_error_Some; now rewrite Et).
      destruct (nth_error (t0 :: t1 :: ts) i) as [r|] eqn:Er; [|apply nth_error_None in Er; lia].
      destruct (nth_error xs i) as [a0|] eqn:Ea0; [|exfalso; apply nth_error_None in Ea0; pose proof (Nat.le_trans _ _ _ (Nat.eq_le_incl _ _ (eq_sym Lx)) Ea0) as F; cbn in F, Hi; lia].
      destruct (nth_error zs i) as [b0|] eqn:Eb0; [|exfalso; apply nth_error_None in Eb0; pose proof (Nat.le_trans _ _ _ (Nat.eq_le_incl _ _ (eq_sym Lz)) Eb0) as F; cbn in F, Hi; lia].
      destruct (IH r a0 b0 eq_refl eq_refl eq_refl) as (La & Lb & N).
      assert (Hrt : r < t) by (eapply (Hinc i (Datatypes.S i)); [lia|exact Er|exact Et]).
      destruct (scheme_near n name sde bm S sigma L HS Hg HL r t a0 b0 a b _ Hrt La Lb N (Xs i r t a0 a Er Et Ea0 Ea) (Zs i r t b0 b Er Et Eb0 Eb)) as (L1 & L2 & N').
      split; [exact L1|]. split; [exact L2|]. intros j Hj. eapply Rle_trans; [exact (N' j Hj)|].
      replace (L * (t - t0)) with (L * (r - t0) + L * (t - r)) by ring. rewrite exp_plus. set (E := exp (L * (r - t0))). assert (0 < E) by apply exp_pos.
      replace (E * e + (t - r) * (L * (E * e))) with ((1 + L * (t - r)) * (E * e)) by ring. replace (E * exp (L * (t - r)) * e) with (exp (L * (t - r)) * (E * e)) by ring.
      apply Rmult_le_compat_r; [apply Rmult_le_pos; lra|]. apply exp_ge1. }
  intros i t a b Et Ea Eb. now apply (Y i).
Qed.

(** The hypotheses are met: dX = -X dt + t dW. *)
Lemma C203_ex_pf :
  let sde := @MkSde ROps (fun _ y => map Ropp y) (fun t _ => [t]) (Some "additive"%string) (Some "ito"%string) in let bm := fun u t : R => [7 * t - 7 * u] in
  sized 1 sde bm /\ (exists s, @sde_str_to_solver ROps "euler" sde bm = Ok s) /\ (exists S, scheme_of "euler" (sde_f sde) (sde_g sde) bm = Some S) /\
  lipschitz 1 1 (sde_f sde) /\ near 1 1 [2] [3] /\ increasing [0; 1; 3].
Proof.
  intros sde bm. split; [|split; [eexists; reflexivity|split; [eexists; reflexivity|split; [|split]]]].
  - repeat split; try reflexivity; intros; cbn; now rewrite ?map_length.
  - intros t [|a [|? ?]] [|b [|? ?]] D Ha Hb H; try discriminate. intros [|i] Hi; [|lia]. specialize (H 0%nat Hi). cbn in *. replace (- a - - b) with (- (a - b)) by ring. rewrite Rabs_Ropp. lra.
  - intros [|i] Hi; [|lia]. cbn. apply Rabs_le. lra.
  - intros [|[|[|i]]] [|[|[|j]]] a b Hij Ha Hb; cbn in *; try lia; try discriminate; try (destruct i; discriminate); try (destruct j; discriminate); injection Ha as <-; injection Hb as <-; lra.
Qed.
