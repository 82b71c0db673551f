(** Proofs of the property about linear invariants and equilibria of leapfrog solves. *)
From Coq Require Import ZArith QArith Reals Lra Lia List Bool.
From Verif Require Import Num Py Tensor M_SolversOde M_Utils M_Odeint Spec_Ode Spec_RK Spec_Conv Spec_Leap Spec_Inv.
From Verif Require Import L_Base L_Fixed L_Inv L_Leap Pf_Leap Pf_Fixed.
Import ListNotations.
Local Notation length := List.length.
Local Open Scope R_scope.

Lemma inner_scale w c : forall g, inner w (map (Rmult c) g) = c * inner w g.
Proof. induction w as [|a w IH]; intros [|b g]; cbn; try ring. rewrite IH. ring. Qed.
Lemma inner_neg w : forall g, inner w (map Ropp g) = - inner w g.
Proof. induction w as [|a w IH]; intros [|b g]; cbn; try ring. rewrite IH. ring. Qed.
Lemma axpy_len n c (k y : list R) : length k = n -> length y = n -> length (axpy c k y) = n.
Proof. intros Hk Hy. unfold axpy. rewrite map_length, combine_length. lia. Qed.

Lemma leap_inner n f w t h p : field_on n f -> pair_on n p -> (forall t y, length y = n -> inner w (f t y) = 0) ->
  inner w (fst (leap f t h p)) = inner w (fst p) /\ inner w (snd (leap f t h p)) = - inner w (snd p).
Proof.
  intros Hf (H1 & H2) Hw. unfold leap. cbn [fst snd]. set (y := axpy (h / 2) (snd p) (fst p)). assert (Ly : length y = n) by (now apply axpy_len).
  pose proof (Hf (t + h / 2) y Ly) as Lf. pose proof (Hw (t + h / 2) y Ly) as E. rewrite !inner_axpy.
  - rewrite inner_scale, E. split; ring.
  - rewrite map_length. exact (eq_trans H2 (eq_sym Lf)).
  - exact (eq_trans Lf (eq_sym H1)).
Qed.
Lemma leap_traj_inner n f w : field_on n f -> (forall t y, length y = n -> inner w (f t y) = 0) ->
  forall ts p, pair_on n p -> forall k q, nth_error (one_step_traj (leap f) p ts) k = Some q ->
  pair_on n q /\ inner w (fst q) = inner w (fst p) /\ inner w (snd q) = (-1) ^ k * inner w (snd p).
Proof.
  intros Hf Hw. induction ts as [|a ts IH]; intros p Hp k q E; [destruct k; discriminate|]. rewrite traj_hd in E. destruct k as [|k].
  - injection E as <-. split; [exact Hp|]. split; cbn; ring.
  - cbn in E. destruct ts as [|b ts]; [destruct k; discriminate|].
    destruct (IH _ (leap_on n f a (b - a) p Hf Hp) k q E) as (Hq & E1 & E2). destruct (leap_inner n f w a (b - a) p Hf Hp Hw) as (F1 & F2).
    split; [exact Hq|]. rewrite E1, E2, F1, F2. split; [reflexivity|]. cbn [pow]. ring.
Qed.

(** If the field leaves w . y unchanged, every recorded position of a leapfrog solve has the value w . x of the start, whatever the initial
    velocity; the rate w . v of the recorded velocities only alternates in sign. Increasing and decreasing grids. *)
Lemma C201_invariant_pf :
  forall n f o w x v t0 t1 ts fuel atol rtol all, field_on n f -> length x = n -> length v = n -> o <> 2%nat -> separated (t0 :: t1 :: ts) ->
  (forall t y, length y = n -> inner w (f t y) = 0) ->
  exists ps, rmap snd (snd (@odeint_symplectic ROps fuel f (Some o) (x ++ v) (@TTensor ROps (t0 :: t1 :: ts)) (AsynchronousLeapfrog ROps false) true atol rtol all []))
    = Ok (map (fun p => fst p ++ snd p) ps) /\ length ps = length (t0 :: t1 :: ts) /\
  forall k y u, nth_error ps k = Some (y, u) -> length y = n /\ length u = n /\ inner w y = inner w x /\ inner w u = (-1) ^ k * inner w v.
Proof.
  intros n f o w x v t0 t1 ts fuel atol rtol all Hf Hx Hv Ho Hs Hw. destruct (Rle_lt_dec t0 t1) as [Hle|Hlt].
  - exists (one_step_traj (leap f) (x, v) (t0 :: t1 :: ts)). split; [|split].
    + rewrite (C115_trajectory_pf n) by auto. reflexivity.
    + apply traj_length.
    + intros k y u E. destruct (leap_traj_inner n f w Hf Hw _ (x, v) (conj Hx Hv) k _ E) as ((L1 & L2) & E1 & E2). auto.
  - exists (map flip (one_step_traj (leap f) (flip (x, v)) (t0 :: t1 :: ts))). split; [|split].
    + rewrite (C115_trajectory_reversed_pf n) by auto. reflexivity.
    + rewrite map_length. apply traj_length.
    + intros k y u E. rewrite nth_error_map in E. destruct (nth_error _ k) as [q|] eqn:Eq; [|discriminate]. injection E as <- <-.
      destruct (leap_traj_inner n f w Hf Hw _ (flip (x, v)) (flip_on n (x, v) (conj Hx Hv)) k _ Eq) as ((L1 & L2) & E1 & E2).
      split; [exact L1|]. split; [rewrite map_length; exact L2|]. split; [exact E1|]. rewrite inner_neg, E2. cbn [flip snd]. rewrite inner_neg. ring.
Qed.

Lemma axpy_zero c : forall y n, length y = n -> axpy c (repeat 0 n) y = y.
Proof. induction y as [|a y IH]; intros [|n] E; try discriminate; [reflexivity|]. cbn. f_equal; [ring|]. apply IH. now injection E. Qed.
Lemma leap_rest n f t h x : length x = n -> (forall t, f t x = repeat 0 n) -> leap f t h (x, repeat 0 n) = (x, repeat 0 n).
Proof.
  intros Hx H. unfold leap. cbn [fst snd]. rewrite axpy_zero, H, axpy_zero by auto. f_equal.
  assert (E : map (Rmult 2) (repeat 0 n) = repeat 0 n) by (clear; induction n as [|n IH]; cbn; [reflexivity|f_equal; [ring|exact IH]]).
  rewrite E. apply axpy_zero. apply repeat_length.
Qed.
Lemma flip_rest n (x : list R) : flip (x, repeat 0 n) = (x, repeat 0 n).
Proof. unfold flip. cbn [fst snd]. f_equal. induction n as [|n IH]; cbn; [reflexivity|f_equal; [ring|exact IH]]. Qed.
Lemma leap_traj_rest n f x : length x = n -> (forall t, f t x = repeat 0 n) -> forall ts, one_step_traj (leap f) (x, repeat 0 n) ts = map (fun _ => (x, repeat 0 n)) ts.
Proof.
  intros Hx H. induction ts as [|a ts IH]; [reflexivity|]. rewrite traj_hd. cbn [map]. f_equal. destruct ts as [|b ts]; [reflexivity|]. rewrite leap_rest by auto. exact IH.
Qed.

(** A leapfrog solve started at rest in an equilibrium stays there. *)
Lemma C201_equilibrium_pf :
  forall n f o x t0 t1 ts fuel atol rtol all, field_on n f -> length x = n -> o <> 2%nat -> separated (t0 :: t1 :: ts) -> (forall t, f t x = repeat 0 n) ->
  rmap snd (snd (@odeint_symplectic ROps fuel f (Some o) (x ++ repeat 0 n) (@TTensor ROps (t0 :: t1 :: ts)) (AsynchronousLeapfrog ROps false) true atol rtol all []))
    = Ok (map (fun _ => x ++ repeat 0 n) (t0 :: t1 :: ts)).
Proof.
  intros n f o x t0 t1 ts fuel atol rtol all Hf Hx Ho Hs H. pose proof (repeat_length 0 n) as Hr. destruct (Rle_lt_dec t0 t1) as [Hle|Hlt].
  - rewrite (C115_trajectory_pf n) by auto. rewrite (leap_traj_rest n) by auto. unfold rmap, rbind. f_equal. cbn [snd]. now rewrite map_map.
  - rewrite (C115_trajectory_reversed_pf n) by auto. rewrite flip_rest, (leap_traj_rest n) by auto. f_equal. rewrite !map_map. apply map_ext. intros _. rewrite flip_rest. reflexivity.
Qed.

(** The hypotheses are met: a field that exchanges between two components, with an initial velocity that does not fit the field. *)
Lemma C201_ex_pf :
  let f := fun (_ : R) (y : list R) => match y with [a; c] => [c - a; a - c] | _ => y end in
  field_on 2 f /\ separated [0; 1; 2] /\ (forall t y, length y = 2%nat -> inner [1; 1] (f t y) = 0) /\ (forall t, f t [3; 3] = repeat 0 2) /\
  inner [1; 1] [1; 1] <> 0 /\ one_step_traj (leap f) ([1; 0], [1; 1]) [0; 1] = [([1; 0], [1; 1]); ([0; 1], [-3; 1])].
Proof.
  intros f. split; [|split; [exact C04_ex_pf|split; [|split; [|split]]]].
  - intros t [|a [|c [|? ?]]] E; try discriminate. reflexivity.
  - intros t [|a [|c [|? ?]]] E; try discriminate. cbn. ring.
  - intros t. cbn. repeat f_equal; ring.
  - cbn. lra.
  - unfold f, leap, axpy. cbn. repeat f_equal; field.
Qed.
