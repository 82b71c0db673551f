(** Proofs: rounding errors of the fixed-step solvers. *)
From Coq Require Import ZArith QArith Qreals Reals Lra Lia List Bool Arith.
From Verif Require Import Num Py Tensor M_Constants M_SolversOde M_Utils M_Interp M_Odeint.
From Verif Require Import Spec_Ode Spec_RK Spec_Norm Spec_Conv Spec_Order Spec_Round L_Base L_Fixed L_Vec L_Steps L_Steps2 L_Conv L_Round.
From Verif Require Import Pf_Fixed Pf_Conv L_Reach L_Order Pf_Order Pf_Round.
From Flocq Require Import Core.
Import ListNotations.
Local Notation length := List.length.
Local Open Scope R_scope.

(** Lipschitz in time, with a constant that may grow linearly with the state *)
Definition lipschitz_time (n : nat) (Lt : R) (f : R -> list R -> list R) : Prop :=
  forall s t x D, length x = n -> 0 <= D -> bounded_by D x -> near n (Lt * (1 + D) * Rabs (s - t)) (f s x) (f t x).

(** the solver of the same name in exact and in rounded arithmetic *)
Definition same_solver (rnd : R -> R) (s : solver ROps (vec ROps)) (sr : solver (RndOps rnd) (vec (RndOps rnd))) : Prop :=
  (s = Euler ROps /\ sr = Euler (RndOps rnd)) \/ (s = Midpoint ROps /\ sr = Midpoint (RndOps rnd)) \/
  (s = RungeKutta4 ROps /\ sr = RungeKutta4 (RndOps rnd)).

Section Calc.
Variables (n : nat) (rnd : R -> R) (u eta eps nu : R).
Hypotheses (Hr : rounding u eta rnd) (Hu : 0 <= u) (Heta : 0 <= eta) (Heps : 0 <= eps) (Hnu : nu = u + eta + eps) (Hnu2 : nu <= 2).
Notation Q := (RndOps rnd).

Definition app (C D v w : R) : Prop := 0 <= C /\ 0 <= D /\ Rabs (v - w) <= C * nu /\ Rabs w <= D.
Definition vapp (C D : R) (v w : list R) : Prop := length v = n /\ length w = n /\ 0 <= C /\ 0 <= D /\
  forall i, (i < n)%nat -> Rabs (nth i v 0 - nth i w 0) <= C * nu /\ Rabs (nth i w 0) <= D.

Lemma nu0 : 0 <= nu. Proof. lra. Qed.
Lemma app_size C D v w : app C D v w -> Rabs v <= D + 2 * C.
Proof.
  intros (HC & HD & H1 & H2). replace v with ((v - w) + w) by ring. eapply Rle_trans; [apply Rabs_triang|].
  assert (C * nu <= C * 2) by (apply Rmult_le_compat_l; lra). lra.
Qed.
Lemma app_rnd C D v w : app C D v w -> app (C + (D + 2 * C) + 1) D (rnd v) w.
Proof.
  intros H. pose proof (app_size C D v w H) as Hs. destruct H as (HC & HD & H1 & H2). pose proof nu0. split; [lra|]. split; auto. split; auto.
  replace (rnd v - w) with ((rnd v - v) + (v - w)) by ring. eapply Rle_trans; [apply Rabs_triang|].
  pose proof (Hr v) as Hv. assert (u * Rabs v <= nu * (D + 2 * C)) by (apply Rmult_le_compat; try lra; apply Rabs_pos). lra.
Qed.
Lemma app_plus C D v w C' D' v' w' : app C D v w -> app C' D' v' w' -> app (C + C') (D + D') (v + v') (w + w').
Proof.
  intros (HC & HD & H1 & H2) (HC' & HD' & H1' & H2'). split; [lra|]. split; [lra|]. split.
  - replace (v + v' - (w + w')) with ((v - w) + (v' - w')) by ring. eapply Rle_trans; [apply Rabs_triang|]. lra.
  - eapply Rle_trans; [apply Rabs_triang|]. lra.
Qed.
Lemma app_minus C D v w C' D' v' w' : app C D v w -> app C' D' v' w' -> app (C + C') (D + D') (v - v') (w - w').
Proof.
  intros (HC & HD & H1 & H2) (HC' & HD' & H1' & H2'). split; [lra|]. split; [lra|]. split.
  - replace (v - v' - (w - w')) with ((v - w) + - (v' - w')) by ring. eapply Rle_trans; [apply Rabs_triang|]. rewrite Rabs_Ropp. lra.
  - unfold Rminus. eapply Rle_trans; [apply Rabs_triang|]. rewrite Rabs_Ropp. lra.
Qed.
Lemma app_mult C D v w C' D' v' w' : app C D v w -> app C' D' v' w' -> app (C * (D' + 2 * C') + D * C') (D * D') (v * v') (w * w').
Proof.
  intros (HC & HD & H1 & H2) H'. pose proof (app_size _ _ _ _ H') as Hs. destruct H' as (HC' & HD' & H1' & H2'). pose proof nu0.
  assert (P1 : 0 <= C * (D' + 2 * C')) by (apply Rmult_le_pos; lra). assert (P2 : 0 <= D * C') by (apply Rmult_le_pos; lra).
  split; [lra|]. split; [apply Rmult_le_pos; lra|]. split.
  - replace (v * v' - w * w') with ((v - w) * v' + w * (v' - w')) by ring. eapply Rle_trans; [apply Rabs_triang|]. rewrite !Rabs_mult.
    assert (Rabs (v - w) * Rabs v' <= (C * nu) * (D' + 2 * C')) by (apply Rmult_le_compat; auto using Rabs_pos).
    assert (Rabs w * Rabs (v' - w') <= D * (C' * nu)) by (apply Rmult_le_compat; auto using Rabs_pos). lra.
  - rewrite Rabs_mult. apply Rmult_le_compat; auto using Rabs_pos.
Qed.

(** the operations of the two number systems *)
Lemma app_add C D v w C' D' v' w' : app C D v w -> app C' D' v' w' ->
  app (C + C' + (D + D' + 2 * (C + C')) + 1) (D + D') (@nadd Q v v') (@nadd ROps w w').
Proof. intros H H'. apply (app_rnd _ _ _ _ (app_plus _ _ _ _ _ _ _ _ H H')). Qed.
Lemma app_mul C D v w C' D' v' w' : app C D v w -> app C' D' v' w' ->
  app (C * (D' + 2 * C') + D * C' + (D * D' + 2 * (C * (D' + 2 * C') + D * C')) + 1) (D * D') (@nmul Q v v') (@nmul ROps w w').
Proof. intros H H'. apply (app_rnd _ _ _ _ (app_mult _ _ _ _ _ _ _ _ H H')). Qed.
Lemma app_exact D w : Rabs w <= D -> app 0 D w w.
Proof. intros H. split; [lra|]. split; [pose proof (Rabs_pos w); lra|]. split; auto. rewrite Rminus_diag_eq, Rabs_R0 by reflexivity. lra. Qed.
Lemma app_const q : app (0 + (Rabs (Q2R q) + 2 * 0) + 1) (Rabs (Q2R q)) (@nQ Q q) (@nQ ROps q).
Proof. apply (app_rnd 0 (Rabs (Q2R q)) (Q2R q)). apply app_exact. apply Rle_refl. Qed.

Lemma vapp_add C D v w C' D' v' w' : vapp C D v w -> vapp C' D' v' w' ->
  vapp (C + C' + (D + D' + 2 * (C + C')) + 1) (D + D') (@vadd Q v v') (@vadd ROps w w').
Proof.
  intros (L1 & L2 & HC & HD & H) (L1' & L2' & HC' & HD' & H').
  assert (G : forall (g : R -> R -> R) a b, length a = n -> length b = n -> length (map2 g a b) = n /\
     forall i, (i < n)%nat -> nth i (map2 g a b) 0 = g (nth i a 0) (nth i b 0)).
  { clear. intros g. induction n as [|m IH]; intros [|a0 a] [|b0 b] Ha Hb; try discriminate.
    - split; [reflexivity|]. intros i Hi. lia.
    - cbn in Ha, Hb. injection Ha as Ha. injection Hb as Hb. destruct (IH a b Ha Hb) as [A1 A2]. split; [cbn; now rewrite A1|].
      intros [|i] Hi; [reflexivity|]. apply A2. lia. }
  destruct (G (@nadd Q) v v' L1 L1') as [G1 G2]. destruct (G (@nadd ROps) w w' L2 L2') as [G3 G4].
  split; [exact G1|]. split; [exact G3|]. split; [lra|]. split; [lra|].
  intros i Hi. destruct (H i Hi) as [A1 A2], (H' i Hi) as [B1 B2].
  destruct (app_add C D (nth i v 0) (nth i w 0) C' D' (nth i v' 0) (nth i w' 0)) as (_ & _ & X & Y); [repeat split; auto|repeat split; auto|].
  exact (conj (eq_ind_r (fun z => Rabs (z - _) <= _) (eq_ind_r (fun z => Rabs (_ - z) <= _) X (G4 i Hi)) (G2 i Hi)) (eq_ind_r (fun z => Rabs z <= _) Y (G4 i Hi))).
Qed.
Lemma vapp_scale C D c d C' D' v w : app C D c d -> vapp C' D' v w ->
  vapp (C * (D' + 2 * C') + D * C' + (D * D' + 2 * (C * (D' + 2 * C') + D * C')) + 1) (D * D') (@vscale Q c v) (@vscale ROps d w).
Proof.
  intros Hc (L1 & L2 & HC & HD & H).
  pose proof Hc as (HC0 & HD0 & _).
  assert (P1 : 0 <= C * (D' + 2 * C')) by (apply Rmult_le_pos; lra). assert (P2 : 0 <= D * C') by (apply Rmult_le_pos; lra).
  assert (P3 : 0 <= D * D') by (apply Rmult_le_pos; lra).
  split; [unfold vscale; now rewrite map_length|]. split; [unfold vscale; now rewrite map_length|]. split; [lra|]. split; [lra|].
  intros i Hi. destruct (H i Hi) as [A1 A2]. unfold vscale.
  assert (N : forall (g : R -> R) a, length a = n -> nth i (map g a) 0 = g (nth i a 0)).
  { intros g a Ha. rewrite (nth_indep _ 0 (g 0)) by (rewrite map_length; lia). apply map_nth. }
  destruct (app_mul C D c d C' D' (nth i v 0) (nth i w 0) Hc) as (_ & _ & X & Y); [repeat split; auto|].
  exact (conj (eq_ind_r (fun z => Rabs (z - _) <= _) (eq_ind_r (fun z => Rabs (_ - z) <= _) X (N (@nmul ROps d) w L2)) (N (@nmul Q c) v L1))
    (eq_ind_r (fun z => Rabs z <= _) Y (N (@nmul ROps d) w L2))).
Qed.

Variables (f fr : R -> list R -> list R) (L Lt F : R).
Hypotheses (HL : 0 <= L) (HLt : 0 <= Lt) (HF : 0 <= F) (Hf : field_on n f) (Hfr : field_on n fr) (Hlip : lipschitz n L f)
  (Hlipt : lipschitz_time n Lt f) (Hf0 : bounded_by F (f 0 (repeat 0 n)))
  (Hnear : forall t z, length z = n -> near n eps (fr t z) (f t z)).

Lemma vapp_field C D t t' C' D' v w : app C D t' t -> vapp C' D' v w ->
  vapp (1 + Lt * (1 + (D' + 2 * C')) * C + L * C') (F + Lt * D + L * D') (fr t' v) (f t w).
Proof.
  intros (HC & HD & Ht1 & Ht2) (L1 & L2 & HC' & HD' & H). pose proof nu0 as Hn0.
  assert (P1 : 0 <= Lt * (1 + (D' + 2 * C'))) by (apply Rmult_le_pos; lra).
  assert (P2 : 0 <= Lt * (1 + (D' + 2 * C')) * C) by (apply Rmult_le_pos; lra).
  assert (P3 : 0 <= L * C') by (apply Rmult_le_pos; lra). assert (P4 : 0 <= L * D') by (apply Rmult_le_pos; lra).
  assert (P5 : 0 <= Lt * D) by (apply Rmult_le_pos; lra).
  split; [now apply Hfr|]. split; [now apply Hf|]. split; [lra|]. split; [lra|].
  assert (Hv : bounded_by (D' + 2 * C') v).
  { intros a Ha. destruct (In_nth v a 0 Ha) as (i & Hi & <-). rewrite L1 in Hi. destruct (H i Hi) as [A1 A2].
    apply (app_size C' D' _ (nth i w 0)). repeat split; auto. }
  intros i Hi. split.
  - replace (nth i (fr t' v) 0 - nth i (f t w) 0) with
      ((nth i (fr t' v) 0 - nth i (f t' v) 0) + (nth i (f t' v) 0 - nth i (f t v) 0) + (nth i (f t v) 0 - nth i (f t w) 0)) by ring.
    eapply Rle_trans; [apply Rabs_triang|]. 
    pose proof (Rabs_triang (nth i (fr t' v) 0 - nth i (f t' v) 0) (nth i (f t' v) 0 - nth i (f t v) 0)) as T.
    pose proof (Hnear t' v L1 i Hi) as E1.
    pose proof (Hlipt t' t v (D' + 2 * C') L1 ltac:(lra) Hv i Hi) as E2.
    assert (E3 : Rabs (nth i (f t v) 0 - nth i (f t w) 0) <= L * (C' * nu)).
    { apply (Hlip t v w (C' * nu) L1 L2); auto. intros j Hj. apply H, Hj. }
    assert (Lt * (1 + (D' + 2 * C')) * Rabs (t' - t) <= Lt * (1 + (D' + 2 * C')) * (C * nu)) by (apply Rmult_le_compat_l; auto). lra.
  - set (z := repeat 0 n). assert (Lz : length z = n) by apply repeat_length.
    assert (Nz : forall j, nth j z 0 = 0) by (intros j; unfold z; clear; revert j; induction n as [|m IH]; intros [|j]; cbn; auto).
    replace (nth i (f t w) 0) with ((nth i (f t w) 0 - nth i (f t z) 0) + (nth i (f t z) 0 - nth i (f 0 z) 0) + nth i (f 0 z) 0) by ring.
    eapply Rle_trans; [apply Rabs_triang|].
    pose proof (Rabs_triang (nth i (f t w) 0 - nth i (f t z) 0) (nth i (f t z) 0 - nth i (f 0 z) 0)) as T.
    assert (E1 : Rabs (nth i (f t w) 0 - nth i (f t z) 0) <= L * D').
    { apply (Hlip t w z D' L2 Lz); auto. intros j Hj. rewrite Nz, Rminus_0_r. apply H, Hj. }
    assert (E2 : Rabs (nth i (f t z) 0 - nth i (f 0 z) 0) <= Lt * (1 + 0) * Rabs (t - 0)).
    { apply (Hlipt t 0 z 0 Lz); [lra| |exact Hi]. intros a Ha. apply repeat_spec in Ha. rewrite Ha, Rabs_R0. lra. }
    assert (E3 : Rabs (nth i (f 0 z) 0) <= F) by (apply Hf0; refine (nth_In (f 0 z) 0 _); rewrite (Hf 0 z Lz); exact Hi).
    rewrite Rminus_0_r in E2. assert (Lt * Rabs t <= Lt * D) by (apply Rmult_le_compat_l; auto). lra.
Qed.
End Calc.

(** one step *)
Definition env (n : nat) (L Lt F : R) (rnd : R -> R) (u eta eps : R) (f fr : R -> list R -> list R) : Prop :=
  rounding u eta rnd /\ 0 <= u /\ 0 <= eta /\ 0 <= eps /\ u + eta + eps <= 2 /\
  field_on n f /\ field_on n fr /\ lipschitz n L f /\ lipschitz_time n Lt f /\ bounded_by F (f 0 (repeat 0 n)) /\
  (forall t z, length z = n -> near n eps (fr t z) (f t z)).

Definition step_close (n : nat) (L Lt F A H B : R) (one : (R -> list R -> list R) -> R -> R -> list R -> list R)
  (oner : forall rnd : R -> R, (R -> list R -> list R) -> R -> R -> list R -> list R) : Prop :=
  exists C, forall rnd u eta eps f fr, env n L Lt F rnd u eta eps f fr -> forall t t' h h' x,
    length x = n -> bounded_by B x -> Rabs t <= A -> 0 <= h <= H ->
    Rabs (t' - t) <= (4 * A + 3) * (u + eta + eps) -> Rabs (h' - h) <= (10 * A + 8) * (u + eta + eps) ->
    length (oner rnd fr t' h' x) = n /\ near n (C * (u + eta + eps)) (oner rnd fr t' h' x) (one f t h x).

(** the new states, in any arithmetic *)
Section Next.
Context {K : NumOps} (f : K -> vec K -> vec K) (t h : K) (x : vec K).
Definition euler_next : vec K := (x + h * f t x)%V.
Definition midpoint_next : vec K := (x + h * f (t + nhalf * h)%N (x + (nhalf * h)%N * f t x))%V.
Definition rk4_next : vec K :=
  let k1 := f t x in
  let k2 := f (t + nQ (0 # 1) * h)%N (x + h * (nQ (1 # 2) * k1))%V in
  let k3 := f (t + nQ (1 # 2) * h)%N (x + h * (nQ (0 # 1) * k1 + nQ (1 # 2) * k2))%V in
  let k4 := f (t + nQ (1 # 2) * h)%N (x + h * (nQ (0 # 1) * k1 + nQ (0 # 1) * k2 + nQ (1 # 1) * k3))%V in
  (x + h * (nQ (1 # 6) * k1 + nQ (1 # 3) * k2 + nQ (1 # 3) * k3 + nQ (1 # 6) * k4))%V.
Lemma euler_next_is : snd (euler_step f x t h None) = Ok (Ret3 None euler_next None). Proof. reflexivity. Qed.
Lemma midpoint_next_is : snd (midpoint_step f x t h None) = Ok (Ret3 None midpoint_next None). Proof. reflexivity. Qed.
Lemma rk4_next_is : snd (rk4_step f x t h None) = Ok (Ret3 None rk4_next None). Proof. reflexivity. Qed.
End Next.

Section Steps.
Variables (n : nat) (L Lt F A H B : R).
Hypotheses (HL : 0 <= L) (HLt : 0 <= Lt) (HF : 0 <= F) (HA : 0 <= A) (HH : 0 <= H) (HB : 0 <= B).

(** all that one step depends on; constants are to be the same for all instances *)
Record inst : Type := MkInst {
  i_rnd : R -> R; i_u : R; i_eta : R; i_eps : R; i_f : R -> list R -> list R; i_fr : R -> list R -> list R;
  i_env : env n L Lt F i_rnd i_u i_eta i_eps i_f i_fr;
  i_t : R; i_t' : R; i_h : R; i_h' : R; i_x : list R;
  i_len : length i_x = n; i_bd : bounded_by B i_x; i_tA : Rabs i_t <= A; i_hH : 0 <= i_h <= H;
  i_dt : Rabs (i_t' - i_t) <= (4 * A + 3) * (i_u + i_eta + i_eps); i_dh : Rabs (i_h' - i_h) <= (10 * A + 8) * (i_u + i_eta + i_eps) }.
Definition i_nu (i : inst) : R := i_u i + i_eta i + i_eps i.

Definition uapp (v w : inst -> R) : Prop := exists C D, forall i, app (i_nu i) C D (v i) (w i).
Definition uvapp (v w : inst -> list R) : Prop := exists C D, forall i, vapp n (i_nu i) C D (v i) (w i).

Lemma uvapp_add v w v' w' : uvapp v w -> uvapp v' w' -> uvapp (fun i => @vadd (RndOps (i_rnd i)) (v i) (v' i)) (fun i => @vadd ROps (w i) (w' i)).
Proof.
  intros (C & D & G) (C' & D' & G'). do 2 eexists. intros i. destruct (i_env i) as (Hr & Hu & He & Hp & H2 & _).
  exact (vapp_add n (i_rnd i) (i_u i) (i_eta i) (i_eps i) (i_nu i) Hr Hu He Hp eq_refl H2 _ _ _ _ _ _ _ _ (G i) (G' i)).
Qed.
Lemma uvapp_scale v w v' w' : uapp v w -> uvapp v' w' -> uvapp (fun i => @vscale (RndOps (i_rnd i)) (v i) (v' i)) (fun i => @vscale ROps (w i) (w' i)).
Proof.
  intros (C & D & G) (C' & D' & G'). do 2 eexists. intros i. destruct (i_env i) as (Hr & Hu & He & Hp & H2 & _).
  exact (vapp_scale n (i_rnd i) (i_u i) (i_eta i) (i_eps i) (i_nu i) Hr Hu He Hp eq_refl H2 _ _ _ _ _ _ _ _ (G i) (G' i)).
Qed.
Lemma uvapp_field v w v' w' : uapp v w -> uvapp v' w' -> uvapp (fun i => i_fr i (v i) (v' i)) (fun i => i_f i (w i) (w' i)).
Proof.
  intros (C & D & G) (C' & D' & G'). do 2 eexists. intros i. destruct (i_env i) as (Hr & Hu & He & Hp & H2 & Hf & Hfr & Hl & Hlt & H0 & Hn).
  exact (vapp_field n (i_u i) (i_eta i) (i_eps i) (i_nu i) Hu He Hp eq_refl H2 (i_f i) (i_fr i) L Lt F HL HLt HF Hf Hfr Hl Hlt H0 Hn
    _ _ _ _ _ _ _ _ (G i) (G' i)).
Qed.
Lemma uapp_add v w v' w' : uapp v w -> uapp v' w' -> uapp (fun i => @nadd (RndOps (i_rnd i)) (v i) (v' i)) (fun i => @nadd ROps (w i) (w' i)).
Proof.
  intros (C & D & G) (C' & D' & G'). do 2 eexists. intros i. destruct (i_env i) as (Hr & Hu & He & Hp & H2 & _).
  exact (app_add (i_rnd i) (i_u i) (i_eta i) (i_eps i) (i_nu i) Hr Hu He Hp eq_refl H2 _ _ _ _ _ _ _ _ (G i) (G' i)).
Qed.
Lemma uapp_mul v w v' w' : uapp v w -> uapp v' w' -> uapp (fun i => @nmul (RndOps (i_rnd i)) (v i) (v' i)) (fun i => @nmul ROps (w i) (w' i)).
Proof.
  intros (C & D & G) (C' & D' & G'). do 2 eexists. intros i. destruct (i_env i) as (Hr & Hu & He & Hp & H2 & _).
  exact (app_mul (i_rnd i) (i_u i) (i_eta i) (i_eps i) (i_nu i) Hr Hu He Hp eq_refl H2 _ _ _ _ _ _ _ _ (G i) (G' i)).
Qed.
Lemma uapp_const q : uapp (fun i => @nQ (RndOps (i_rnd i)) q) (fun i => @nQ ROps q).
Proof.
  do 2 eexists. intros i. destruct (i_env i) as (Hr & Hu & He & Hp & H2 & _).
  exact (app_const (i_rnd i) (i_u i) (i_eta i) (i_eps i) (i_nu i) Hr Hu He Hp eq_refl H2 q).
Qed.
Lemma uapp_t : uapp i_t' i_t.
Proof. exists (4 * A + 3), A. intros i. split; [lra|]. split; [lra|]. split; [apply i_dt|apply i_tA]. Qed.
Lemma uapp_h : uapp i_h' i_h.
Proof. exists (10 * A + 8), H. intros i. split; [lra|]. split; [lra|]. split; [apply i_dh|]. pose proof (i_hH i). rewrite Rabs_right; lra. Qed.
Lemma uvapp_x : uvapp i_x i_x.
Proof.
  exists 0, B. intros i. split; [apply i_len|]. split; [apply i_len|]. split; [lra|]. split; [lra|]. intros j Hj. split.
  - rewrite Rminus_diag_eq, Rabs_R0 by reflexivity. lra.
  - apply (i_bd i), nth_In. rewrite i_len. exact Hj.
Qed.

Lemma uvapp_close one oner : uvapp (fun i => oner (i_rnd i) (i_fr i) (i_t' i) (i_h' i) (i_x i)) (fun i => one (i_f i) (i_t i) (i_h i) (i_x i)) ->
  step_close n L Lt F A H B one oner.
Proof.
  intros (C & D & G). exists C. intros rnd u eta eps f fr E t t' h h' x X1 X2 X3 X4 X5 X6.
  destruct (G (MkInst rnd u eta eps f fr E t t' h h' x X1 X2 X3 X4 X5 X6)) as (G1 & _ & _ & _ & G'). split; [exact G1|]. intros j Hj. exact (proj1 (G' j Hj)).
Qed.

Lemma euler_close : step_close n L Lt F A H B (@euler_next ROps) (fun rnd => @euler_next (RndOps rnd)).
Proof. apply uvapp_close. exact (uvapp_add _ _ _ _ uvapp_x (uvapp_scale _ _ _ _ uapp_h (uvapp_field _ _ _ _ uapp_t uvapp_x))). Qed.
Lemma midpoint_close : step_close n L Lt F A H B (@midpoint_next ROps) (fun rnd => @midpoint_next (RndOps rnd)).
Proof.
  apply uvapp_close. pose proof (uvapp_field _ _ _ _ uapp_t uvapp_x) as K1.
  pose proof (uapp_mul _ _ _ _ (uapp_const (1 # 2)) uapp_h) as Hh.
  pose proof (uvapp_field _ _ _ _ (uapp_add _ _ _ _ uapp_t Hh) (uvapp_add _ _ _ _ uvapp_x (uvapp_scale _ _ _ _ Hh K1))) as K2.
  exact (uvapp_add _ _ _ _ uvapp_x (uvapp_scale _ _ _ _ uapp_h K2)).
Qed.
Lemma rk4_close : step_close n L Lt F A H B (@rk4_next ROps) (fun rnd => @rk4_next (RndOps rnd)).
Proof.
  apply uvapp_close. pose proof (uvapp_field _ _ _ _ uapp_t uvapp_x) as K1.
  assert (S : forall q v w, uvapp v w -> uvapp (fun i => @vscale (RndOps (i_rnd i)) (nQ q) (v i)) (fun i => @vscale ROps (nQ q) (w i)))
    by (intros q v w Hv; exact (uvapp_scale _ _ _ _ (uapp_const q) Hv)).
  assert (T : forall q, uapp (fun i => @nadd (RndOps (i_rnd i)) (i_t' i) (@nmul (RndOps (i_rnd i)) (nQ q) (i_h' i))) (fun i => @nadd ROps (i_t i) (@nmul ROps (nQ q) (i_h i))))
    by (intros q; exact (uapp_add _ _ _ _ uapp_t (uapp_mul _ _ _ _ (uapp_const q) uapp_h))).
  assert (X : forall v w, uvapp v w -> uvapp (fun i => @vadd (RndOps (i_rnd i)) (i_x i) (@vscale (RndOps (i_rnd i)) (i_h' i) (v i))) (fun i => @vadd ROps (i_x i) (@vscale ROps (i_h i) (w i))))
    by (intros v w Hv; exact (uvapp_add _ _ _ _ uvapp_x (uvapp_scale _ _ _ _ uapp_h Hv))).
  pose proof (uvapp_field _ _ _ _ (T (0 # 1)) (X _ _ (S (1 # 2) _ _ K1))) as K2.
  pose proof (uvapp_field _ _ _ _ (T (1 # 2)) (X _ _ (uvapp_add _ _ _ _ (S (0 # 1) _ _ K1) (S (1 # 2) _ _ K2)))) as K3.
  pose proof (uvapp_field _ _ _ _ (T (1 # 2)) (X _ _ (uvapp_add _ _ _ _ (uvapp_add _ _ _ _ (S (0 # 1) _ _ K1) (S (0 # 1) _ _ K2)) (S (1 # 1) _ _ K3)))) as K4.
  exact (X _ _ (uvapp_add _ _ _ _ (uvapp_add _ _ _ _ (uvapp_add _ _ _ _ (S (1 # 6) _ _ K1) (S (1 # 3) _ _ K2)) (S (1 # 3) _ _ K3)) (S (1 # 6) _ _ K4))).
Qed.
End Steps.

(** the trajectory *)
Section Traj.
Variables (n : nat) (L Lt F A H B C : R) (rows : list (R * list R)) (b : list R).
Variables (rnd : R -> R) (u eta eps : R) (f fr : R -> list R -> list R) (oner : R -> R -> list R -> list R).
Hypotheses (HL : 0 <= L) (HC : 0 <= C) (HH : 0 <= H <= 2 * A) (Hu : 0 <= u <= 1 / 1000000).
Hypothesis E : env n L Lt F rnd u eta eps f fr.
Notation nu := (u + eta + eps).
Hypothesis close : forall t t' h h' x, length x = n -> bounded_by B x -> Rabs t <= A -> 0 <= h <= H ->
  Rabs (t' - t) <= (4 * A + 3) * nu -> Rabs (h' - h) <= (10 * A + 8) * nu ->
  length (oner t' h' x) = n /\ near n (C * nu) (oner t' h' x) (erk_step rows b f t h x).
Notation Lam := (growth L H rows b).

Lemma round_traj : forall targets a t x xr e,
  (forall c, In c (a :: targets) -> Rabs c <= A) -> increasing (a :: targets) -> steps_at_most H (a :: targets) ->
  Rabs (t - a) <= clock_error u eta A -> length x = n -> length xr = n -> bounded_by B xr ->
  (forall p, In p (clock_traj rnd oner t xr targets) -> bounded_by B (snd p)) ->
  near n e xr x -> 0 <= e ->
  forall i c z p, nth_error (a :: targets) i = Some c -> nth_error (one_step_traj (erk_step rows b f) x (a :: targets)) i = Some z ->
    nth_error ((t, xr) :: clock_traj rnd oner t xr targets) i = Some p ->
  near n (exp (Lam * (c - a)) * (e + INR i * (C * nu))) (snd p) z.
Proof.
  destruct E as (Hr & _ & He & Hp & H2 & Hf & Hfr & Hl & Hlt & H0 & Hn).
  assert (HLam : 0 <= Lam) by (apply growth_pos; lra).
  assert (HCn : 0 <= C * nu) by (apply Rmult_le_pos; lra).
  induction targets as [|c targets IH]; intros a t x xr e HA Hinc Hst Ht Hx Hxr Hb Hall Hne He0 i c' z p Hc Hz Hpp.
  { destruct i as [|i]; [|destruct i; discriminate]. cbn in Hc, Hz, Hpp. injection Hc as <-. injection Hz as <-. injection Hpp as <-. cbn [snd INR].
    rewrite Rminus_diag_eq, Rmult_0_r, exp_0 by reflexivity. eapply near_le; [|exact Hne]. lra. }
  destruct i as [|i].
  { cbn in Hc, Hz, Hpp. injection Hc as <-. injection Hz as <-. injection Hpp as <-. cbn [snd INR].
    rewrite Rminus_diag_eq, Rmult_0_r, exp_0 by reflexivity. eapply near_le; [|exact Hne]. lra. }
  assert (Hlt1 : a < c) by (apply (Hinc 0%nat 1%nat a c); [lia|reflexivity|reflexivity]).
  assert (Hca : 0 <= c - a <= H) by (split; [lra|apply (Hst 0%nat a c); reflexivity]).
  assert (HaA : Rabs a <= A) by (apply HA; left; reflexivity). assert (HcA : Rabs c <= A) by (apply HA; right; left; reflexivity).
  destruct (clock_parts rnd u eta Hr Hu He A H HH a c t HaA HcA Hca Ht) as (Ht' & _ & _ & _ & Hd).
  change (nth_error (c :: targets) i = Some c') in Hc.
  change (nth_error (one_step_traj (erk_step rows b f) (erk_step rows b f a (c - a) x) (c :: targets)) i = Some z) in Hz.
  cbn [nth_error clock_traj] in Hpp. cbv zeta in Hpp. cbn [clock_traj] in Hall. cbv zeta in Hall.
  set (h := rnd (c - t)) in *. set (t' := rnd (t + h)) in *. set (xr' := oner t h xr) in *.
  assert (PuA : 0 <= u * A) by (apply Rmult_le_pos; lra).
  assert (PeA : 0 <= eta * A) by (apply Rmult_le_pos; lra). assert (PpA : 0 <= eps * A) by (apply Rmult_le_pos; lra).
  destruct (close a t (c - a) h xr Hxr Hb HaA Hca) as [Hlen Hnear1].
  { eapply Rle_trans; [exact Ht|]. unfold clock_error. lra. }
  { replace (h - (c - a)) with ((h - (t' - t)) + (t' - c) + - (t - a)) by ring. eapply Rle_trans; [apply Rabs_triang|]. rewrite Rabs_Ropp.
    pose proof (Rabs_triang (h - (t' - t)) (t' - c)). unfold clock_error in *. lra. }
  fold xr' in Hlen, Hnear1.
  assert (Hstep : near n ((1 + (c - a) * Lam) * e) (erk_step rows b f a (c - a) xr) (erk_step rows b f a (c - a) x)).
  { apply (stable_step n f L rows b H a (a + (c - a))); auto; lra. }
  set (e' := (1 + (c - a) * Lam) * e + C * nu).
  assert (Hg : 0 <= (c - a) * Lam) by (apply Rmult_le_pos; lra).
  assert (He' : 0 <= e') by (unfold e'; assert (0 <= (1 + (c - a) * Lam) * e) by (apply Rmult_le_pos; lra); lra).
  assert (Hne' : near n e' xr' (erk_step rows b f a (c - a) x)).
  { intros j Hj. replace (nth j xr' 0 - nth j (erk_step rows b f a (c - a) x) 0) with
      ((nth j xr' 0 - nth j (erk_step rows b f a (c - a) xr) 0) + (nth j (erk_step rows b f a (c - a) xr) 0 - nth j (erk_step rows b f a (c - a) x) 0)) by ring.
    eapply Rle_trans; [apply Rabs_triang|]. specialize (Hnear1 j Hj). specialize (Hstep j Hj). unfold e'. lra. }
  eapply near_le; [|refine (IH c t' (erk_step rows b f a (c - a) x) xr' e' _ _ _ Ht' _ Hlen _ _ Hne' He' i c' z p Hc Hz Hpp)].
  - assert (Hcc : 0 <= c' - c).
    { destruct i as [|i]; [injection Hc as <-; lra|]. assert (c < c') by (apply (Hinc 1%nat (S (S i)) c c'); [lia|reflexivity|exact Hc]). lra. }
    rewrite S_INR. set (m := INR i). assert (Pm : 0 <= m) by apply pos_INR.
    replace (Lam * (c' - a)) with (Lam * (c' - c) + Lam * (c - a)) by ring. rewrite exp_plus, Rmult_assoc.
    apply Rmult_le_compat_l; [left; apply exp_pos|].
    pose proof (exp_ineq1_le (Lam * (c - a))) as Hexp.
    assert (PmC : 0 <= m * (C * nu)) by (apply Rmult_le_pos; auto).
    assert ((1 + (c - a) * Lam) * e <= exp (Lam * (c - a)) * e) by (apply Rmult_le_compat_r; lra).
    assert (1 * ((m + 1) * (C * nu)) <= exp (Lam * (c - a)) * ((m + 1) * (C * nu))) by (apply Rmult_le_compat_r; lra).
    unfold e'. lra.
  - intros q Hq. apply HA. right. exact Hq.
  - intros j1 j2 z1 z2 Hj E1 E2. apply (Hinc (S j1) (S j2)); auto. lia.
  - intros j z1 z2 E1 E2. apply (Hst (S j)); auto.
  - now apply erk_step_len.
  - apply (Hall (t', xr')). left. reflexivity.
  - intros q Hq. apply Hall. right. exact Hq.
Qed.
End Traj.

Lemma spaced_separated u eta l : spaced u eta l -> separated l.
Proof.
  intros Hs i j a b Hij Ha Hb Hc. unfold close_to in Hc. pose proof (Rabs_pos b).
  destruct (Nat.lt_trichotomy i j) as [Hl|[->|Hl]]; [|congruence|].
  - destruct (spaced_gap u eta l Hs i j a b Hl Ha Hb) as [_ G]. rewrite Rabs_minus_sym in Hc. pose proof (Rle_abs (b - a)). lra.
  - destruct (spaced_gap u eta l Hs j i b a Hl Hb Ha) as [G _]. pose proof (Rle_abs (a - b)). lra.
Qed.

Lemma close_erk n L Lt F A H B one oner rows b : (forall f, field_on n f -> forall t h x, length x = n -> one f t h x = erk_step rows b f t h x) ->
  step_close n L Lt F A H B one oner ->
  exists C, 0 <= C /\ forall rnd u eta eps f fr, env n L Lt F rnd u eta eps f fr -> forall t t' h h' x,
    length x = n -> bounded_by B x -> Rabs t <= A -> 0 <= h <= H ->
    Rabs (t' - t) <= (4 * A + 3) * (u + eta + eps) -> Rabs (h' - h) <= (10 * A + 8) * (u + eta + eps) ->
    length (oner rnd fr t' h' x) = n /\ near n (C * (u + eta + eps)) (oner rnd fr t' h' x) (erk_step rows b f t h x).
Proof.
  intros Hone (C & G). exists (Rabs C). split; [apply Rabs_pos|]. intros rnd u eta eps f fr E t t' h h' x X1 X2 X3 X4 X5 X6.
  destruct (G rnd u eta eps f fr E t t' h h' x X1 X2 X3 X4 X5 X6) as [G1 G2]. split; [exact G1|].
  destruct E as (_ & Hu & He & Hp & _ & Hf & _). rewrite <- (Hone f Hf t h x X1). eapply near_le; [|exact G2].
  apply Rmult_le_compat_r; [lra|apply Rle_abs].
Qed.

Lemma midpoint_next_erk n f : field_on n f -> forall t h x, length x = n -> @midpoint_next ROps f t h x = erk_step (to_R_rows q_midpoint) (to_R qb_midpoint) f t h x.
Proof.
  intros Hf t h x Hx. rewrite <- (midpoint_one_erk n f t h x Hf Hx). destruct (midpoint_stepper f x t h) as (a & c & E).
  pose proof (eq_trans (eq_sym (f_equal snd E)) (@midpoint_next_is ROps f t h x)) as G. cbn [snd] in G. injection G as _ G _. symmetry. exact G.
Qed.

(** C168.  Rounding errors of the fixed-step solvers add up at most linearly: for problems of a given size (states, field at the
    origin, times, step sizes and Lipschitz constants bounded) there is one constant C for all fields, grids, roundings and numbers
    of steps such that the i-th computed state differs from that of exact arithmetic by at most C (e0 + i (u + eta + eps)): u and
    eta are the errors of the arithmetic, eps of the computed field, e0 of the initial state. *)
Lemma C168_rounding_pf :
  forall n L Lt F B A H, 0 <= L -> 0 <= Lt -> 0 <= F -> 0 <= B -> 0 <= H <= 2 * A ->
  exists C, 0 <= C /\
  forall rnd u eta eps f fr s sr x xr e0 t0 t1 ts fuel atol rtol interp all semi times sol times' solr,
  rounding u eta rnd -> 0 <= u <= 1 / 1000000 -> 0 <= eta <= 1 / 1000000000000 -> 0 <= eps <= 1 -> 0 <= e0 ->
  same_solver rnd s sr ->
  let grid := t0 :: t1 :: ts in
  spaced u eta grid -> steps_at_most H grid -> (forall b, In b grid -> Rabs b <= A) ->
  field_on n f -> field_on n fr -> lipschitz n L f -> lipschitz_time n Lt f -> bounded_by F (f 0 (repeat 0 n)) ->
  (forall t z, List.length z = n -> near n eps (fr t z) (f t z)) ->
  List.length x = n -> List.length xr = n -> near n e0 xr x ->
  snd (@odeint ROps fuel f x (@TTensor ROps grid) s atol rtol interp all [] semi) = Ok (times, sol) ->
  snd (@odeint (RndOps rnd) fuel fr xr (@TTensor (RndOps rnd) grid) sr atol rtol interp all [] semi) = Ok (times', solr) ->
  (forall z, In z solr -> bounded_by B z) ->
  times = grid /\ times' = grid /\
  forall i z zr, nth_error sol i = Some z -> nth_error solr i = Some zr ->
    near n (C * (e0 + INR i * (u + eta + eps))) zr z.
Proof.
  intros n L Lt F B A H HL HLt HF HB HH. assert (HA : 0 <= A) by lra. assert (HH0 : 0 <= H) by lra.
  destruct (close_erk n L Lt F A H B _ _ (to_R_rows q_euler) (to_R qb_euler) (fun f Hf t h x Hx => euler_one_erk n f t h x Hf Hx)
    (euler_close n L Lt F A H B HL HLt HF HA HH0 HB)) as (C1 & P1 & G1).
  destruct (close_erk n L Lt F A H B _ _ (to_R_rows q_midpoint) (to_R qb_midpoint) (midpoint_next_erk n)
    (midpoint_close n L Lt F A H B HL HLt HF HA HH0 HB)) as (C2 & P2 & G2).
  destruct (close_erk n L Lt F A H B _ _ (to_R_rows q_rk4_code) (to_R qb_rk4) (fun f Hf t h x Hx => rk4_one_erk n f t h x Hf Hx)
    (rk4_close n L Lt F A H B HL HLt HF HA HH0 HB)) as (C3 & P3 & G3).
  set (E1 := exp (growth L H (to_R_rows q_euler) (to_R qb_euler) * (2 * A))).
  set (E2 := exp (growth L H (to_R_rows q_midpoint) (to_R qb_midpoint) * (2 * A))).
  set (E3 := exp (growth L H (to_R_rows q_rk4_code) (to_R qb_rk4) * (2 * A))).
  assert (Q1 : 0 < E1) by apply exp_pos. assert (Q2 : 0 < E2) by apply exp_pos. assert (Q3 : 0 < E3) by apply exp_pos.
  assert (R1 : 0 <= E1 * C1) by (apply Rmult_le_pos; lra). assert (R2 : 0 <= E2 * C2) by (apply Rmult_le_pos; lra).
  assert (R3 : 0 <= E3 * C3) by (apply Rmult_le_pos; lra).
  exists (E1 + E1 * C1 + (E2 + E2 * C2) + (E3 + E3 * C3)). split; [lra|].
  intros rnd u eta eps f fr s sr x xr e0 t0 t1 ts fuel atol rtol interp all semi times sol times' solr
    Hr Hu He Hp He0 Hss grid Hsp Hst HgA Hf Hfr Hl Hlt Hf0 Hn Hx Hxr Hne Hex Hrd Hb.
  assert (E : env n L Lt F rnd u eta eps f fr).
  { split; [exact Hr|]. split; [lra|]. split; [lra|]. split; [lra|]. split; [lra|]. repeat (split; [assumption|]). assumption. }
  pose proof (spaced_increasing u eta grid Hsp) as Hinc. pose proof (spaced_separated u eta grid Hsp) as Hsep.
  assert (Hlt01 : t0 < t1) by exact (spaced_lt u eta t0 t1 ts Hsp).
  assert (Main : forall rows b oner C, erk_solver s rows b -> s_fixed sr = true -> 0 <= C ->
    (forall t h v, exists a c, snd (s_step sr fr v t h None) = Ok (Ret3 a (oner rnd fr t h v) c)) ->
    (forall rnd u eta eps f fr, env n L Lt F rnd u eta eps f fr -> forall t t' h h' x,
      length x = n -> bounded_by B x -> Rabs t <= A -> 0 <= h <= H ->
      Rabs (t' - t) <= (4 * A + 3) * (u + eta + eps) -> Rabs (h' - h) <= (10 * A + 8) * (u + eta + eps) ->
      length (oner rnd fr t' h' x) = n /\ near n (C * (u + eta + eps)) (oner rnd fr t' h' x) (erk_step rows b f t h x)) ->
    exp (growth L H rows b * (2 * A)) + exp (growth L H rows b * (2 * A)) * C <= E1 + E1 * C1 + (E2 + E2 * C2) + (E3 + E3 * C3) ->
    times = grid /\ times' = grid /\
    forall i z zr, nth_error sol i = Some z -> nth_error solr i = Some zr ->
      near n ((E1 + E1 * C1 + (E2 + E2 * C2) + (E3 + E3 * C3)) * (e0 + INR i * (u + eta + eps))) zr z).
  { intros rows b oner C HE Hfx HC Hone Hcl HCC.
    pose proof (fixed_grid fuel s rows b n f x t0 t1 ts atol rtol interp all semi HE Hf Hx (Rlt_le _ _ Hlt01) Hsep) as X1.
    assert (X2 : snd (@odeint (RndOps rnd) fuel fr xr (@TTensor (RndOps rnd) grid) sr atol rtol interp all [] semi)
       = Ok (grid, xr :: map snd (clock_traj rnd (oner rnd fr) t0 xr (t1 :: ts)))).
    { refine (eq_trans (odeint_fixed_any (K := RndOps rnd) fuel fr xr t0 t1 ts sr atol rtol interp all [] semi Hfx _) _).
      - apply Rltb_false. lra.
      - apply (rounded_fixed rnd u eta Hr Hu He fr (s_step sr) (oner rnd fr) xr t0 t1 ts Hone Hsp). }
    pose proof (eq_trans (eq_sym Hex) X1) as Y1. injection Y1 as -> ->. pose proof (eq_trans (eq_sym Hrd) X2) as Y2. injection Y2 as -> ->.
    split; [reflexivity|]. split; [reflexivity|]. intros i z zr Hz Hzr.
    assert (Hi : (i < length grid)%nat).
    { assert (Hi : (i < length (one_step_traj (erk_step rows b f) x grid))%nat) by (apply nth_error_Some; intros N; pose proof (eq_trans (eq_sym Hz) N); discriminate).
      rewrite traj_length in Hi. exact Hi. }
    destruct (nth_error grid i) as [c|] eqn:Hc; [|apply nth_error_None in Hc; lia].
    assert (Hzr' : nth_error (map snd ((t0, xr) :: clock_traj rnd (oner rnd fr) t0 xr (t1 :: ts))) i = Some zr) by exact Hzr.
    rewrite nth_error_map in Hzr'. destruct (nth_error ((t0, xr) :: clock_traj rnd (oner rnd fr) t0 xr (t1 :: ts)) i) as [p|] eqn:Hpp; [|discriminate].
    injection Hzr' as <-.
    assert (Hc0 : 0 <= c - t0 <= 2 * A).
    { assert (t0 <= c) by (destruct i; [injection Hc as <-; lra|left; apply (Hinc 0%nat (S i) t0 c); [lia|reflexivity|exact Hc]]).
      pose proof (HgA t0 (or_introl eq_refl)) as Z1. pose proof (HgA c (nth_error_In _ _ Hc)) as Z2. apply Rabs_le_inv in Z1. apply Rabs_le_inv in Z2. lra. }
    eapply near_le; [|refine (round_traj n L Lt F A H B C rows b rnd u eta eps f fr (oner rnd fr) HL HC HH Hu E (Hcl rnd u eta eps f fr E)
       (t1 :: ts) t0 t0 x xr e0 HgA Hinc Hst _ Hx Hxr _ _ Hne He0 i c z p Hc Hz Hpp)].
    - pose proof (growth_pos L HL H rows b HH0) as HLam. set (Lam := growth L H rows b) in *. set (nu := u + eta + eps). assert (0 <= nu) by (unfold nu; lra).
      assert (Ex : exp (Lam * (c - t0)) <= exp (Lam * (2 * A))).
      { destruct (Rle_lt_or_eq_dec (Lam * (c - t0)) (Lam * (2 * A))) as [Hlt'| ->]; [apply Rmult_le_compat_l; lra|left; now apply exp_increasing|lra]. }
      pose proof (exp_pos (Lam * (c - t0))) as Px. pose proof (pos_INR i) as Pi. set (m := INR i) in *.
      assert (Pm : 0 <= m * nu) by (apply Rmult_le_pos; lra). assert (PC : 0 <= m * (C * nu)) by (apply Rmult_le_pos; [lra|apply Rmult_le_pos; lra]).
      apply Rle_trans with (exp (Lam * (2 * A)) * (e0 + m * (C * nu))); [apply Rmult_le_compat_r; lra|].
      set (X := exp (Lam * (2 * A))) in *. assert (0 <= X * C) by (apply Rmult_le_pos; lra).
      apply Rle_trans with ((X + X * C) * (e0 + m * nu)); [|apply Rmult_le_compat_r; lra].
      assert (0 <= X * C * e0) by (apply Rmult_le_pos; lra). assert (0 <= X * (m * nu)) by (apply Rmult_le_pos; lra).
      replace (X * (e0 + m * (C * nu))) with (X * e0 + X * C * (m * nu)) by ring.
      replace ((X + X * C) * (e0 + m * nu)) with (X * e0 + X * (m * nu) + X * C * e0 + X * C * (m * nu)) by ring. lra.
    - rewrite Rminus_diag_eq, Rabs_R0 by reflexivity. unfold clock_error. assert (0 <= u * A) by (apply Rmult_le_pos; lra). lra.
    - apply Hb. left. reflexivity.
    - intros q Hq. apply Hb. right. exact (in_map snd _ _ Hq). }
  destruct Hss as [[-> ->]|[[-> ->]|[-> ->]]].
  - apply (Main _ _ (fun rnd => @euler_next (RndOps rnd)) C1 C05_euler_pf eq_refl P1 (fun t h v => ex_intro _ None (ex_intro _ None eq_refl)) G1). fold E1. lra.
  - apply (Main _ _ (fun rnd => @midpoint_next (RndOps rnd)) C2 C05_midpoint_pf eq_refl P2 (fun t h v => ex_intro _ None (ex_intro _ None eq_refl)) G2). fold E2. lra.
  - apply (Main _ _ (fun rnd => @rk4_next (RndOps rnd)) C3 C05_rk4_pf eq_refl P3 (fun t h v => ex_intro _ None (ex_intro _ None eq_refl)) G3). fold E3. lra.
Qed.

(** C168 with C103: the error of a solve in rounded arithmetic against the true solution is that of the order of the method (hmax the
    largest step) plus the rounding errors. *)
Lemma C168_total_error_pf :
  forall s rows b p n f L Lt F B A H y yd J K M t0 T, classical_order s rows b p f ->
  field_on n f -> 0 <= L -> lipschitz n L f -> 0 <= Lt -> lipschitz_time n Lt f -> 0 <= F -> bounded_by F (f 0 (repeat 0 n)) ->
  t0 <= T -> 0 <= M -> 0 <= K -> smooth_solution n t0 T p f y yd J K M -> 0 <= B -> 0 <= H <= 2 * A ->
  exists C, 0 <= C /\
  forall rnd u eta eps fr sr xr e0 t1 ts hmax fuel atol rtol interp all semi times solr,
  rounding u eta rnd -> 0 <= u <= 1 / 1000000 -> 0 <= eta <= 1 / 1000000000000 -> 0 <= eps <= 1 -> 0 <= e0 ->
  same_solver rnd s sr ->
  let grid := t0 :: t1 :: ts in
  spaced u eta grid -> steps_at_most hmax grid -> hmax <= H -> (forall b, In b grid -> Rabs b <= A) -> last (t1 :: ts) t0 <= T ->
  field_on n fr -> (forall t z, List.length z = n -> near n eps (fr t z) (f t z)) ->
  List.length xr = n -> near n e0 xr (y t0) ->
  snd (@odeint (RndOps rnd) fuel fr xr (@TTensor (RndOps rnd) grid) sr atol rtol interp all [] semi) = Ok (times, solr) ->
  (forall z, In z solr -> bounded_by B z) ->
  forall i c zr, nth_error grid i = Some c -> nth_error solr i = Some zr ->
    near n (C * ((c - t0) * hmax ^ p + e0 + INR i * (u + eta + eps))) zr (y c).
Proof.
  intros s rows b p n f L Lt F B A H y yd J K M t0 T Hord Hf HL Hl HLt Hlt HF Hf0 HT HM HK Hs HB HH.
  destruct (C103_order_partial_pf s rows b p n f L y yd J K M t0 T Hord Hf HL Hl HT HM HK Hs) as (C1 & P1 & G1).
  destruct (C168_rounding_pf n L Lt F B A H HL HLt HF HB HH) as (C2 & P2 & G2).
  exists (C1 + C2). split; [lra|].
  intros rnd u eta eps fr sr xr e0 t1 ts hmax fuel atol rtol interp all semi times solr Hr Hu He Hp He0 Hss grid Hsp Hst Hhm HgA Hla Hfr Hn Hxr Hne Hrd Hb i c zr Hc Hzr.
  pose proof (spaced_increasing u eta grid Hsp) as Hinc. pose proof (spaced_separated u eta grid Hsp) as Hsep.
  destruct (G1 hmax t1 ts Hinc Hst Hla) as [X1 X2]. cbv zeta in X1, X2. specialize (X1 fuel atol rtol interp all semi Hsep). fold grid in X1, X2.
  assert (Hy : length (y t0) = n) by (destruct Hs as (Hy & _); apply Hy).
  assert (HstH : steps_at_most H grid) by (intros j a d Ha Hd; eapply Rle_trans; [apply (Hst j a d Ha Hd)|exact Hhm]).
  destruct (G2 rnd u eta eps f fr s sr (y t0) xr e0 t0 t1 ts fuel atol rtol interp all semi _ _ times solr Hr Hu He Hp He0 Hss Hsp HstH HgA
    Hf Hfr Hl Hlt Hf0 Hn Hy Hxr Hne X1 Hrd Hb) as (_ & _ & G).
  assert (Hi : (i < length (one_step_traj (erk_step rows b f) (y t0) grid))%nat).
  { rewrite traj_length. apply nth_error_Some. rewrite Hc. discriminate. }
  destruct (nth_error (one_step_traj (erk_step rows b f) (y t0) grid) i) as [z|] eqn:Hz; [|apply nth_error_None in Hz; lia].
  pose proof (X2 i c z Hc Hz) as N1. pose proof (G i z zr Hz Hzr) as N2.
  assert (Hct : t0 <= c) by (destruct i; [injection Hc as <-; lra|left; apply (Hinc 0%nat (S i) t0 c); [lia|reflexivity|exact Hc]]).
  assert (Hhp : 0 <= hmax).
  { assert (t0 < t1) by exact (spaced_lt u eta t0 t1 ts Hsp). assert (t1 - t0 <= hmax) by (apply (Hst 0%nat); reflexivity). lra. }
  assert (P3 : 0 <= (c - t0) * hmax ^ p) by (apply Rmult_le_pos; [lra|apply pow_le; lra]).
  assert (P4 : 0 <= INR i * (u + eta + eps)) by (apply Rmult_le_pos; [apply pos_INR|lra]).
  intros j Hj. specialize (N1 j Hj). specialize (N2 j Hj).
  pose proof (Rabs_triang (nth j (zr : list R) 0 - nth j (z : list R) 0) (nth j (z : list R) 0 - nth j (y c) 0)) as Tr.
  replace (nth j (zr : list R) 0 - nth j (z : list R) 0 + (nth j (z : list R) 0 - nth j (y c) 0)) with (nth j (zr : list R) 0 - nth j (y c) 0) in Tr by ring.
  refine (Rle_trans _ _ _ Tr _).
  set (a := (c - t0) * hmax ^ p) in *. set (d := INR i * (u + eta + eps)) in *.
  replace (C1 * (c - t0) * hmax ^ p) with (C1 * a) in N1 by (unfold a; ring).
  assert (0 <= C1 * (e0 + d)) by (apply Rmult_le_pos; lra). assert (0 <= C2 * a) by (apply Rmult_le_pos; lra).
  replace ((C1 + C2) * (a + e0 + d)) with (C2 * (e0 + d) + C1 * a + (C1 * (e0 + d) + C2 * a)) by ring.
  lra.
Qed.

(** y' = -y from 1 in float32 with rk4 on the grid 0, 1/2, 1 meets the hypotheses with n = L = A = 1, Lt = F = 0, H = 1/2, some B *)
Lemma C168_ex_pf :
  let rnd := round radix2 (FLT_exp (-149) 24) ZnearestE in
  let f := fun (_ : R) (x : list R) => map Ropp x in
  let grid := [0; 1 / 2; 1] in
  exists u eta B sol solr, rounding u eta rnd /\ 0 <= u <= 1 / 1000000 /\ 0 <= eta <= 1 / 1000000000000 /\
    spaced u eta grid /\ steps_at_most (1 / 2) grid /\ (forall b, In b grid -> Rabs b <= 1) /\
    field_on 1 f /\ lipschitz 1 1 f /\ lipschitz_time 1 0 f /\ bounded_by 0 (f 0 [0]) /\
    same_solver rnd (RungeKutta4 ROps) (RungeKutta4 (RndOps rnd)) /\
    snd (@odeint ROps 0 f [1] (@TTensor ROps grid) (RungeKutta4 ROps) 0 0 false false [] None) = Ok (grid, sol) /\
    snd (@odeint (RndOps rnd) 0 f [1] (@TTensor (RndOps rnd) grid) (RungeKutta4 (RndOps rnd)) 0 0 false false [] None) = Ok (grid, solr) /\
    List.length solr = 3%nat /\ 0 <= B /\ (forall z, In z solr -> bounded_by B z).
Proof.
  cbv zeta. set (rnd := round radix2 (FLT_exp (-149) 24) ZnearestE).
  pose proof float32_eta as He. set (eta := / 2 * bpow radix2 (-149)) in *. set (u := / 16777216).
  assert (Hr : rounding u eta rnd) by exact float32_rounding.
  assert (Hsp : spaced u eta [0; 1 / 2; 1]).
  { apply C107_spaced_grids_pf; unfold u; try lra. intros [|[|[|i]]] a b Ha Hb; cbn in Ha, Hb; try discriminate; try (injection Ha as <-; injection Hb as <-; lra). }
  assert (Hu : 0 <= u <= 1 / 1000000) by (unfold u; lra).
  assert (Hf : field_on 1 (fun (_ : R) (x : list R) => map Ropp x)) by (intros t x Hx; now rewrite map_length).
  assert (HBd : forall l : list (list R), exists B, 0 <= B /\ forall z, In z l -> bounded_by B z).
  { assert (H1 : forall z : list R, exists B, 0 <= B /\ bounded_by B z).
    { induction z as [|a z (B & HB & Hz)]; [exists 0; split; [lra|intros a []]|]. exists (B + Rabs a). pose proof (Rabs_pos a). split; [lra|].
      intros c [<-|Hc]; [lra|]. specialize (Hz c Hc). lra. }
    induction l as [|z l (B & HB & Hl)]; [exists 0; split; [lra|intros z []]|]. destruct (H1 z) as (B' & HB' & Hz). exists (B + B'). split; [lra|].
    intros w [<-|Hw] a Ha; [specialize (Hz a Ha); lra|]. specialize (Hl w Hw a Ha). lra. }
  set (solr := [1] :: map snd (clock_traj rnd (@rk4_next (RndOps rnd) (fun _ x => map Ropp x)) 0 [1] [1 / 2; 1])).
  destruct (HBd solr) as (B & HB & Hbd).
  exists u, eta, B. eexists. exists solr. split; [exact Hr|]. split; [exact Hu|]. split; [exact He|]. split; [exact Hsp|].
  split. { intros [|[|[|i]]] a b Ha Hb; cbn in Ha, Hb; try discriminate; try (injection Ha as <-; injection Hb as <-; lra). }
  split. { intros b [<-|[<-|[<-|[]]]]; rewrite Rabs_right; lra. }
  split; [exact Hf|].
  split. { intros t x y D Hx Hy Hn i Hi. rewrite Rmult_1_l. destruct x as [|x [|]], y as [|y [|]]; try discriminate. assert (i = 0)%nat by lia; subst i.
    specialize (Hn 0%nat Hi). cbn in Hn |- *. replace (- x - - y) with (- (x - y)) by ring. rewrite Rabs_Ropp. exact Hn. }
  split. { intros s t x D _ _ _ i Hi. rewrite Rminus_diag_eq, Rabs_R0 by reflexivity. lra. }
  split. { intros a [<-|[]]. rewrite Ropp_0, Rabs_R0. lra. }
  split. { right. right. split; reflexivity. }
  split. { apply (fixed_grid 0 (RungeKutta4 ROps) _ _ 1 _ [1] 0 (1 / 2) [1] 0 0 false false None C05_rk4_pf Hf eq_refl); [lra|].
    exact (spaced_separated u eta _ Hsp). }
  split. { refine (eq_trans (odeint_fixed_any (K := RndOps rnd) 0 _ [1] 0 (1 / 2) [1] (RungeKutta4 (RndOps rnd)) 0 0 false false [] None eq_refl _) _).
    - apply Rltb_false. lra.
    - apply (rounded_fixed rnd u eta Hr Hu He _ (s_step (RungeKutta4 (RndOps rnd))) (@rk4_next (RndOps rnd) (fun _ x => map Ropp x)) [1] 0 (1 / 2) [1]); [|exact Hsp].
      intros t h v. exists None, None. reflexivity. }
  split; [reflexivity|]. split; [exact HB|exact Hbd].
Qed.
