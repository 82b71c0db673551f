(** Proofs of the property about affine changes of coordinates in leapfrog solves. *)
From Coq Require Import ZArith QArith Reals Lra Lia List Bool.
From Verif Require Import Num Py Tensor M_SolversOde M_Utils M_Odeint Spec_Ode Spec_RK Spec_Conv Spec_Leap Spec_Inv.
From Verif Require Import L_Base L_Fixed L_Inv L_Leap Pf_Leap Pf_Fixed Pf_LeapInv.
Import ListNotations.
Local Notation length := List.length.
Local Open Scope R_scope.

Lemma mat_axpy M a k x : length k = length x -> apply_matrix M (axpy a k x) = axpy a (apply_matrix M k) (apply_matrix M x).
Proof.
  intros H. induction M as [|r M IH]; [reflexivity|]. unfold apply_matrix, axpy in *. cbn [map combine fst snd]. f_equal; [|exact IH].
  exact (inner_axpy r a k x H).
Qed.
Lemma aff_axpy a k x : length k = length x -> forall M c, affine_map M c (axpy a k x) = axpy a (apply_matrix M k) (affine_map M c x).
Proof.
  intros H. induction M as [|r M IH]; intros [|u c]; [reflexivity..|].
  unfold affine_map, apply_matrix, axpy in *. cbn [map combine fst snd]. f_equal; [|apply IH].
  pose proof (inner_axpy r a k x H) as E. unfold axpy in E. rewrite E. ring.
Qed.
Lemma mat_scale M a x : apply_matrix M (map (Rmult a) x) = map (Rmult a) (apply_matrix M x).
Proof. unfold apply_matrix. rewrite map_map. apply map_ext. intros r. apply inner_scale. Qed.
Lemma mat_neg M x : apply_matrix M (map Ropp x) = map Ropp (apply_matrix M x).
Proof. unfold apply_matrix. rewrite map_map. apply map_ext. intros r. apply inner_neg. Qed.

(** positions are mapped by y -> M y + c, velocities by M *)
Definition move (M : list (list R)) (c : list R) (p : list R * list R) : list R * list R := (affine_map M c (fst p), apply_matrix M (snd p)).

Lemma leap_move n f g M c t h p : field_on n f -> pair_on n p -> (forall t y, length y = n -> g t (affine_map M c y) = apply_matrix M (f t y)) ->
  leap g t h (move M c p) = move M c (leap f t h p).
Proof.
  intros Hf (H1 & H2) Hg. unfold leap, move. cbn [fst snd].
  assert (Ly : length (axpy (h / 2) (snd p) (fst p)) = n) by (now apply axpy_len).
  rewrite <- aff_axpy by (exact (eq_trans H2 (eq_sym H1))). rewrite Hg by exact Ly. pose proof (Hf (t + h / 2) _ Ly) as Lf. f_equal.
  - rewrite aff_axpy; [reflexivity|exact (eq_trans Lf (eq_sym H1))].
  - rewrite mat_axpy, mat_scale; [reflexivity|]. rewrite map_length. exact (eq_trans H2 (eq_sym Lf)).
Qed.
Lemma leap_traj_move n f g M c : field_on n f -> (forall t y, length y = n -> g t (affine_map M c y) = apply_matrix M (f t y)) ->
  forall ts p, pair_on n p -> one_step_traj (leap g) (move M c p) ts = map (move M c) (one_step_traj (leap f) p ts).
Proof.
  intros Hf Hg. induction ts as [|a ts IH]; intros p Hp; [reflexivity|]. rewrite !traj_hd. cbn [map]. f_equal. destruct ts as [|b ts]; [reflexivity|].
  rewrite (leap_move n f g) by auto. apply IH. now apply leap_on.
Qed.
Lemma flip_move M c p : flip (move M c p) = move M c (flip p).
Proof. unfold flip, move. cbn [fst snd]. now rewrite mat_neg. Qed.
Lemma aff_len M c x : length c = length M -> length (affine_map M c x) = length M.
Proof. intros H. unfold affine_map, apply_matrix. rewrite map_length, combine_length, map_length. lia. Qed.

(** For every matrix M (square or not, invertible or not) and vector c: if g at M y + c is M times f at y, the leapfrog solve of g from (M x + c, M v)
    returns the positions and velocities of the solve of f from (x, v), mapped in the same way. Increasing and decreasing grids. *)
Lemma C202_affine_pf :
  forall n f g o o' M c x v t0 t1 ts fuel fuel' atol rtol atol' rtol' all all', field_on n f -> field_on (length M) g -> length c = length M -> length x = n -> length v = n ->
  o <> 2%nat -> o' <> 2%nat -> separated (t0 :: t1 :: ts) -> (forall t y, length y = n -> g t (affine_map M c y) = apply_matrix M (f t y)) ->
  exists ps, length ps = length (t0 :: t1 :: ts) /\
  rmap snd (snd (@odeint_symplectic ROps fuel f (Some o) (x ++ v) (@TTensor ROps (t0 :: t1 :: ts)) (AsynchronousLeapfrog ROps false) true atol rtol all []))
    = Ok (map (fun p => fst p ++ snd p) ps) /\
  rmap snd (snd (@odeint_symplectic ROps fuel' g (Some o') (affine_map M c x ++ apply_matrix M v) (@TTensor ROps (t0 :: t1 :: ts)) (AsynchronousLeapfrog ROps false) true atol' rtol' all' []))
    = Ok (map (fun p => affine_map M c (fst p) ++ apply_matrix M (snd p)) ps) /\
  forall p, In p ps -> length (fst p) = n /\ length (snd p) = n.
Proof.
  intros n f g o o' M c x v t0 t1 ts fuel fuel' atol rtol atol' rtol' all all' Hf Hgn Hc Hx Hv Ho Ho' Hs Hg.
  assert (La : length (affine_map M c x) = length M) by (now apply aff_len). assert (Lm : length (apply_matrix M v) = length M) by apply map_length.
  assert (Hon : forall l q, pair_on n q -> forall p, In p (one_step_traj (leap f) q l) -> pair_on n p).
  { induction l as [|a l IH]; intros q Hq p Hp; [destruct Hp|]. rewrite traj_hd in Hp. destruct Hp as [<-|Hp]; [exact Hq|]. destruct l as [|b l]; [destruct Hp|].
    apply (IH (leap f a (b - a) q)); [now apply leap_on|exact Hp]. }
  destruct (Rle_lt_dec t0 t1) as [Hle|Hlt].
  - exists (one_step_traj (leap f) (x, v) (t0 :: t1 :: ts)). split; [apply traj_length|]. split; [|split].
    + rewrite (C115_trajectory_pf n) by auto. reflexivity.
    + rewrite (C115_trajectory_pf (length M)) by auto. change (affine_map M c x, apply_matrix M v) with (move M c (x, v)).
      rewrite (leap_traj_move n f g) by (auto; split; auto). unfold rmap, rbind. cbn [snd]. f_equal. rewrite map_map. reflexivity.
    + exact (Hon _ (x, v) (conj Hx Hv)).
  - exists (map flip (one_step_traj (leap f) (flip (x, v)) (t0 :: t1 :: ts))). split; [rewrite map_length; apply traj_length|]. split; [|split].
    + rewrite (C115_trajectory_reversed_pf n) by auto. reflexivity.
    + rewrite (C115_trajectory_reversed_pf (length M)) by auto. change (affine_map M c x, apply_matrix M v) with (move M c (x, v)).
      rewrite flip_move, (leap_traj_move n f g) by (auto; apply flip_on; split; auto). f_equal. rewrite !map_map. apply map_ext. intros p. rewrite flip_move. reflexivity.
    + intros p Hp. apply in_map_iff in Hp. destruct Hp as (q & <- & Hq). apply (flip_on n). exact (Hon _ (flip (x, v)) (flip_on n (x, v) (conj Hx Hv)) q Hq).
Qed.

(** The hypotheses are met: y' = y in two components, of which the map keeps the sum, shifted by one. *)
Lemma C202_ex_pf :
  let f := fun (_ : R) (y : list R) => y in let g := fun (_ : R) (y : list R) => map (fun a => a - 1) y in
  field_on 2 f /\ field_on 1 g /\ (forall t y, length y = 2%nat -> g t (affine_map [[1; 1]] [1] y) = apply_matrix [[1; 1]] (f t y)) /\ separated [0; 1; 2] /\
  affine_map [[1; 1]] [1] [2; 3] = [6].
Proof.
  intros f g. split; [|split; [|split; [|split; [exact C04_ex_pf|]]]].
  - intros t y H. exact H.
  - intros t y H. unfold g. now rewrite map_length.
  - intros t [|a [|b [|? ?]]] E; try discriminate. cbn. f_equal. ring.
  - cbn. f_equal. ring.
Qed.
