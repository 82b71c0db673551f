(** Proofs of the superposition principle. *)
From Coq Require Import ZArith QArith Qreals Reals Lra Lia List Bool.
From Verif Require Import Num Py Tensor M_Constants M_SolversOde M_Utils M_Interp M_Odeint M_Autograd.
From Verif Require Import Spec_Ode Spec_RK Spec_Conv Spec_Order L_Base L_Fixed L_Vec L_Steps L_Utils L_Conv L_Reach L_Rel Pf_Fixed Pf_Values Pf_Autograd L_Order Pf_Order Pf_AdGrad Pf_Cross.
From Verif Require Pf_Jump.
Import ListNotations.
Local Notation length := List.length.
Local Open Scope R_scope.

(** a y + b z *)
Definition lin (a b : R) (y z : list R) : list R := map (fun p => a * fst p + b * snd p) (combine y z).
Lemma lin_len n a b y z : length y = n -> length z = n -> length (lin a b y z) = n.
Proof. intros. unfold lin. rewrite map_length, combine_length. lia. Qed.
Lemma axpy_len' n c k y : length k = n -> length y = n -> length (axpy c k y) = n.
Proof. intros. unfold axpy. rewrite map_length, combine_length. lia. Qed.
Lemma axpy_lin a b c : forall n k l y z, length k = n -> length l = n -> length y = n -> length z = n ->
  axpy c (lin a b k l) (lin a b y z) = lin a b (axpy c k y) (axpy c l z).
Proof.
  induction n as [|n IH]; intros [|k0 k] [|l0 l] [|y0 y] [|z0 z] Hk Hl Hy Hz; try discriminate; [reflexivity|].
  injection Hk as Hk. injection Hl as Hl. injection Hy as Hy. injection Hz as Hz. specialize (IH k l y z Hk Hl Hy Hz).
  unfold axpy, lin in *. cbn [map combine fst snd]. f_equal; [ring|exact IH].
Qed.
Definition lins (a b : R) (ks ls : list (list R)) : list (list R) := map (fun p => lin a b (fst p) (snd p)) (combine ks ls).
Lemma comb_lin n a b h : forall w ks ls y z, length ks = length ls -> Forall (fun k => length k = n) ks -> Forall (fun k => length k = n) ls -> length y = n -> length z = n ->
  comb (lin a b y z) h w (lins a b ks ls) = lin a b (comb y h w ks) (comb z h w ls) /\ length (comb y h w ks) = n /\ length (comb z h w ls) = n.
Proof.
  unfold comb. induction w as [|w0 w IH]; intros ks ls y z E F G Hy Hz; [cbn; auto|].
  destruct ks as [|k ks], ls as [|l ls]; try discriminate; [cbn; auto|]. injection E as E. apply Forall_cons_iff in F as [F1 F2]. apply Forall_cons_iff in G as [G1 G2].
  unfold lins. cbn [combine map fold_left fst snd]. rewrite (axpy_lin a b (h * w0) n) by auto. apply IH; auto using axpy_len'.
Qed.
Lemma stages_lin n a b (f g q : R -> list R -> list R) t h y z : field_on n f -> field_on n g ->
  (forall t u v, length u = n -> length v = n -> q t (lin a b u v) = lin a b (f t u) (g t v)) -> length y = n -> length z = n ->
  forall rows ks ls, length ks = length ls -> Forall (fun k => length k = n) ks -> Forall (fun k => length k = n) ls ->
  let st F x := fold_left (fun ks r => ks ++ [F (t + fst r * h) (comb x h (snd r) ks)]) rows in
  st q (lin a b y z) (lins a b ks ls) = lins a b (st f y ks) (st g z ls) /\ length (st f y ks) = length (st g z ls) /\
  Forall (fun k => length k = n) (st f y ks) /\ Forall (fun k => length k = n) (st g z ls).
Proof.
  intros Hf Hg Hq Hy Hz. induction rows as [|r rows IH]; intros ks ls E F G st; [unfold st; cbn; auto|].
  unfold st. cbn [fold_left]. destruct (comb_lin n a b h (snd r) ks ls y z E F G Hy Hz) as (C1 & C2 & C3).
  rewrite C1, Hq by auto.
  specialize (IH (ks ++ [f (t + fst r * h) (comb y h (snd r) ks)]) (ls ++ [g (t + fst r * h) (comb z h (snd r) ls)])).
  assert (A : lins a b (ks ++ [f (t + fst r * h) (comb y h (snd r) ks)]) (ls ++ [g (t + fst r * h) (comb z h (snd r) ls)])
    = lins a b ks ls ++ [lin a b (f (t + fst r * h) (comb y h (snd r) ks)) (g (t + fst r * h) (comb z h (snd r) ls))]).
  { unfold lins. generalize (f (t + fst r * h) (comb y h (snd r) ks)), (g (t + fst r * h) (comb z h (snd r) ls)). intros u v. clear -E. revert ls E. induction ks as [|k ks IH]; intros [|l ls] E; try discriminate; [reflexivity|]. injection E as E. cbn. f_equal. now apply IH. }
  rewrite A in IH. apply IH; [rewrite !app_length; cbn; lia| |]; apply Forall_app; split; auto.
Qed.
Lemma step_lin n a b f g q rows w t h y z : field_on n f -> field_on n g ->
  (forall t u v, length u = n -> length v = n -> q t (lin a b u v) = lin a b (f t u) (g t v)) -> length y = n -> length z = n ->
  erk_step rows w q t h (lin a b y z) = lin a b (erk_step rows w f t h y) (erk_step rows w g t h z).
Proof.
  intros Hf Hg Hq Hy Hz. destruct (stages_lin n a b f g q t h y z Hf Hg Hq Hy Hz rows [] [] eq_refl (Forall_nil _) (Forall_nil _)) as (S1 & S2 & S3 & S4).
  assert (E : erk_stages rows q t h (lin a b y z) = lins a b (erk_stages rows f t h y) (erk_stages rows g t h z)) by exact S1. unfold erk_step. rewrite E. exact (proj1 (comb_lin n a b h w _ _ y z S2 S3 S4 Hy Hz)).
Qed.
Lemma traj_lin n a b f g q rows w : field_on n f -> field_on n g ->
  (forall t u v, length u = n -> length v = n -> q t (lin a b u v) = lin a b (f t u) (g t v)) ->
  forall ts y z, length y = n -> length z = n ->
  one_step_traj (erk_step rows w q) (lin a b y z) ts = lins a b (one_step_traj (erk_step rows w f) y ts) (one_step_traj (erk_step rows w g) z ts).
Proof.
  intros Hf Hg Hq. induction ts as [|t [|t1 ts] IH]; intros y z Hy Hz; try reflexivity.
  rewrite !L_Jagged.traj_cons. unfold lins. cbn [combine map fst snd]. f_equal. rewrite (step_lin n a b f g) by auto.
  apply IH; now apply L_Steps2.erk_step_len.
Qed.

(** Superposition for fixed-step solvers: if q(t, a u + b v) = a f(t, u) + b g(t, v) (a linear field with sources), the states of q from
    a x + b z are the combinations of the states of f from x and of g from z. *)
Lemma C187_superposition_fixed_partial_pf :
  forall s rows w n a b f g q x z t0 t1 ts fuel atol rtol interp all semi,
  builtin_fixed s rows w -> field_on n f -> field_on n g -> field_on n q ->
  (forall t u v, length u = n -> length v = n -> q t (lin a b u v) = lin a b (f t u) (g t v)) ->
  length x = n -> length z = n -> separated (t0 :: t1 :: ts) -> t0 <= t1 ->
  exists sf sg,
    snd (@odeint ROps fuel f x (@TTensor ROps (t0 :: t1 :: ts)) s atol rtol interp all [] semi) = Ok (t0 :: t1 :: ts, sf) /\
    snd (@odeint ROps fuel g z (@TTensor ROps (t0 :: t1 :: ts)) s atol rtol interp all [] semi) = Ok (t0 :: t1 :: ts, sg) /\
    snd (@odeint ROps fuel q (lin a b x z) (@TTensor ROps (t0 :: t1 :: ts)) s atol rtol interp all [] semi)
      = Ok (t0 :: t1 :: ts, map (fun p => lin a b (fst p) (snd p)) (combine sf sg)) /\
    length sf = length (t0 :: t1 :: ts) /\ length sg = length (t0 :: t1 :: ts).
Proof.
  intros s rows w n a b f g q x z t0 t1 ts fuel atol rtol interp all semi HM Hf Hg Hh Hq Hx Hz Hsep Hle. pose proof (builtin_fixed_erk _ _ _ HM) as HE.
  do 2 eexists. split; [apply (fixed_grid fuel s rows w n); auto|]. split; [apply (fixed_grid fuel s rows w n); auto|].
  split; [|split; apply traj_length].
  rewrite (fixed_grid fuel s rows w n q (lin a b x z)) by (auto using lin_len). do 2 f_equal. now apply (traj_lin n).
Qed.

(** Not for dopri5: the field does not depend on the state, so that every mean of two solutions is a solution; the mean of the solves from
    two states differs from the solve from the mean of the states by more than 1/100. *)
Lemma C187_superposition_refuted_pf :
  exists (F : R -> list R -> list R) (T x z u v m : R), 0 < T /\ field_on 1 F /\ lipschitz 1 0 F /\
  (forall t y y', length y = 1%nat -> length y' = 1%nat -> F t (lin (1 / 2) (1 / 2) y y') = lin (1 / 2) (1 / 2) (F t y) (F t y')) /\
  1 / 100 < Rabs (m - (1 / 2 * u + 1 / 2 * v)) /\ forall fuel, (3 <= fuel)%nat ->
    snd (@odeint ROps fuel F [x] (@TTensor ROps [0; T]) (DormandPrince45 ROps) (1 / 1000) (1 / 1000) false false [] None) = Ok ([0; T], [[x]; [u]]) /\
    snd (@odeint ROps fuel F [z] (@TTensor ROps [0; T]) (DormandPrince45 ROps) (1 / 1000) (1 / 1000) false false [] None) = Ok ([0; T], [[z]; [v]]) /\
    snd (@odeint ROps fuel F (lin (1 / 2) (1 / 2) [x] [z]) (@TTensor ROps [0; T]) (DormandPrince45 ROps) (1 / 1000) (1 / 1000) false false [] None)
      = Ok ([0; T], [lin (1 / 2) (1 / 2) [x] [z]; [m]]).
Proof.
  set (s := 365 / 36). assert (Hx : s - 1 <= s - 1 / 1000 < s) by lra.
  exists (@qF ROps Pf_Jump.spike), Pf_Jump.TT, (s - 1 / 1000), (s + 1 / 1000), (Pf_Jump.y_of (s - 1 / 1000)), (s + 1 / 1000 + 11 / 84), (s + 11 / 84).
  split; [unfold Pf_Jump.TT; lra|]. split; [intros t y Hy; reflexivity|].
  split; [intros t y y' D _ _ _ i Hi; rewrite Rmult_0_l; apply Pf_Jump.near_self with (n := 1%nat); auto|].
  split; [intros t y y' _ _; unfold qF, lin; cbn [map combine fst snd]; f_equal; match goal with |- @eq _ ?a ?b => change (@eq R a b) end; field|].
  destruct (Pf_Jump.run_below 3 (s - 1 / 1000) ltac:(lia) Hx) as (_ & B). set (y := Pf_Jump.y_of (s - 1 / 1000)) in *.
  split; [rewrite Rabs_pos_eq; lra|].
  intros fuel Hf. split; [apply Pf_Jump.run_below; auto|]. split; [apply Pf_Jump.run_above; [lia|unfold s; lra]|].
  assert (EL : lin (1 / 2) (1 / 2) [s - 1 / 1000] [s + 1 / 1000] = [s]) by (unfold lin; cbn [map combine fst snd]; f_equal; field).
  rewrite EL. apply Pf_Jump.run_above; [lia|unfold s; lra].
Qed.

(** The hypotheses are met: y' = -y + 3t as the combination 2 (y' = -y) + 3 (y' = -y + t), by rk4. *)
Lemma C187_ex_pf :
  let f := fun (_ : R) (y : list R) => map Ropp y in let g := fun (t : R) (y : list R) => map (fun a => - a + t) y in
  let q := fun (t : R) (y : list R) => map (fun a => - a + 3 * t) y in
  builtin_fixed (RungeKutta4 ROps) (to_R_rows q_rk4_code) (to_R qb_rk4) /\ field_on 2 f /\ field_on 2 g /\ field_on 2 q /\ separated [0; 1/2] /\
  (forall t u v, length u = 2%nat -> length v = 2%nat -> q t (lin 2 3 u v) = lin 2 3 (f t u) (g t v)) /\ lin 2 3 [1; 0] [0; 1] = [2; 3].
Proof.
  intros f g q. split; [right; right; auto|]. do 3 (split; [intros t y Hy; unfold f, g, q; now rewrite map_length|]). split; [apply two_separated; lra|]. split.
  - intros t [|u0 [|u1 [|]]] [|v0 [|v1 [|]]] Hu Hv; try discriminate. unfold q, f, g, lin. cbn [map combine fst snd]. f_equal; [ring|f_equal; ring].
  - unfold lin. cbn [map combine fst snd]. f_equal; [ring|f_equal; ring].
Qed.
