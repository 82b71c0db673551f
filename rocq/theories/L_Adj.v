(** The adjoint solve transposes the derivative of the solve up to first order: composition over a grid. *)
From Coq Require Import ZArith QArith Qreals Reals Lra Lia List Bool.
From Verif Require Import Num Py Tensor M_SolversOde M_Utils M_Odeint M_Root M_Sens Spec_Ode Spec_Trees Spec_RK Spec_Root Spec_Sens Spec_Conv Spec_Grad.
From Verif Require Import L_Base L_Fixed L_Vec L_Steps L_Steps2 L_Fixed2 L_Root L_Sens L_SensP L_Conv L_Models L_Tangent Pf_Fixed Pf_Sens Pf_SensP.
Import ListNotations.
Local Open Scope R_scope.
Local Notation length := List.length.
Local Notation rvl := (list R).

(** ** The model of the backward pass *)
Section Back.
Context (n m : nat) (L : R) (f : rvl -> R -> rvl -> rvl) (p : rvl) (D : R -> rvl -> rvl -> rvl -> rvl) (F : adj_field (K := ROps)).
Hypothesis Hsm : smooth_family n m L f p D.
Hypothesis HF : af_f F = f p.
Hypothesis Htr : transposes n m D (af_vjp_x F) (fun t x w => @cat_params ROps (af_vjp_p F t x w)).
Hypothesis Hdg : af_dg F = None.
Notation vx := (af_vjp_x F).
Notation vp := (fun t x w => @cat_params ROps (af_vjp_p F t x w)).
Notation asz := (asize n m).

Lemma Dlen t x u q : length x = n -> length u = n -> length q = m -> length (D t x u q) = n.
Proof. destruct Hsm as (_ & _ & H & _). apply H. Qed.
Lemma fon : field_on n (f p).
Proof. destruct Hsm as (Hp & H & _). now apply H. Qed.

Lemma dyn_form t A : length A = asz -> exists l, length l = 1%nat /\
  @adjoint_dynamics ROps F n t A = f p t (block 0 n A) ++ vx t (block 0 n A) (@vopp ROps (block n n A)) ++ vp t (block 0 n A) (@vopp ROps (block n n A)) ++ l.
Proof.
  intros HA. unfold adjoint_dynamics, dlam. rewrite Hdg, HF. eexists. split; [|reflexivity]. reflexivity.
Qed.
Lemma dyn_lens t A : length A = asz ->
  length (f p t (block 0 n A)) = n /\ length (vx t (block 0 n A) (@vopp ROps (block n n A))) = n /\ length (vp t (block 0 n A) (@vopp ROps (block n n A))) = m.
Proof.
  intros HA. unfold asize in HA. assert (L1 : length (block 0 n A) = n) by (apply block_len; lia). assert (L2 : length (@vopp ROps (block n n A)) = n) by (apply vopp_len, block_len; lia).
  split; [now apply fon|]. destruct (Htr t (block 0 n A) (@vopp ROps (block n n A)) L1 L2) as (A1 & A2 & _). split; assumption.
Qed.
Lemma dyn_on2 : field_on asz (@adjoint_dynamics ROps F n).
Proof.
  intros t A HA. destruct (dyn_form t A HA) as (l & Hl & E). destruct (dyn_lens t A HA) as (L1 & L2 & L3).
  refine (eq_trans (f_equal (@length R) E) _). rewrite !app_length. change (num ROps) with R in *. change (vec ROps) with rvl in *. rewrite L1, L2, L3, Hl. unfold asize. lia.
Qed.
Lemma dyn_x t A : length A = asz -> block 0 n (@adjoint_dynamics ROps F n t A) = f p t (block 0 n A).
Proof.
  intros HA. destruct (dyn_form t A HA) as (l & Hl & E). destruct (dyn_lens t A HA) as (L1 & L2 & L3).
  refine (eq_trans (f_equal (block 0 n) E) _). now apply block0_app.
Qed.
Lemma dyn_val t A u q : length A = asz -> length u = n -> length q = m ->
  dot (block n n (@adjoint_dynamics ROps F n t A)) u + dot (block (n + n) m (@adjoint_dynamics ROps F n t A)) q = - dot (block n n A) (D t (block 0 n A) u q).
Proof.
  intros HA Hu Hq. destruct (dyn_form t A HA) as (l & Hl & E). destruct (dyn_lens t A HA) as (L1 & L2 & L3).
  change (num ROps) with R in *. change (vec ROps) with rvl in *.
  assert (E1 : block n n (@adjoint_dynamics ROps F n t A) = vx t (block 0 n A) (@vopp ROps (block n n A))).
  { refine (eq_trans (f_equal (block n n) E) _). now apply block_app. }
  assert (E2 : block (n + n) m (@adjoint_dynamics ROps F n t A) = vp t (block 0 n A) (@vopp ROps (block n n A))).
  { refine (eq_trans (f_equal (block (n + n) m) E) _). rewrite (app_assoc (f p t (block 0 n A))). apply block_app; [|exact L3]. rewrite app_length. change (num ROps) with R in *. lia. }
  refine (eq_trans (f_equal2 (fun a c => dot a u + dot c q) E1 E2) _).
  unfold asize in HA.
  destruct (Htr t (block 0 n A) (@vopp ROps (block n n A))) as (_ & _ & H); [apply block_len; lia|apply vopp_len, block_len; lia|].
  rewrite H by auto. apply neg_vopp_dot.
Qed.

Lemma ops_len t h x rows : length x = n -> Forall (fun G : op => forall u q, length u = n -> length q = m -> length (G u q) = n) (ops m f p D t h x rows).
Proof.
  intros Hx. induction rows as [|r rows IH] using rev_ind; [constructor|]. rewrite ops_snoc. cbv zeta. apply Forall_app. split; [exact IH|].
  constructor; [|constructor]. intros u q Hu Hq.
  assert (LX : length (comb x h (snd r) (erk_stages rows (f p) t h x)) = n) by (apply comb_len; auto; apply erk_stages_len; auto; apply fon).
  apply comb_len; [now apply Dlen|]. intros k Hk. apply in_map_iff in Hk. destruct Hk as (G & <- & HG).
  rewrite Forall_forall in IH. apply IH; auto; [now apply Dlen|apply repeat_length].
Qed.

Lemma wdot_sum (P Q S : rvl -> rvl) c v q l (g : op -> rvl) : forall w ks (Gs : list op), Forall2 (fun k G => dot (P k) v + dot (Q k) q = - dot l (g G)) ks Gs -> 
  c = 1 -> wdot w (map P ks) v + wdot w (map Q ks) q = - wdot w (map g Gs) l.
Proof.
  intros w ks Gs HF2 _. revert w. induction HF2 as [|k G ks Gs HkG HF2 IH]; intros [|a w]; cbn [map wdot]; try lra.
  specialize (IH w). rewrite (dot_comm (g G)). nra.
Qed.

Lemma dual_stages rows t h A : length A = asz ->
  map (block 0 n) (erk_stages rows (@adjoint_dynamics ROps F n) t h A) = erk_stages rows (f p) t h (block 0 n A) /\
  Forall2 (fun k (G : op) => forall u q, length u = n -> length q = m -> dot (block n n k) u + dot (block (n + n) m k) q = - dot (block n n A) (G u q))
    (erk_stages rows (@adjoint_dynamics ROps F n) t h A) (ops m f p D t h (block 0 n A) rows).
Proof.
  intros HA. assert (HA' := HA). unfold asize in HA'.
  assert (L0 : length (block 0 n A) = n) by (apply block_len; lia).
  assert (Lz : length (repeat 0 m) = m) by apply repeat_length.
  induction rows as [|r rows (IH1 & IH2)] using rev_ind; [split; [reflexivity|constructor]|].
  pose proof (ops_len t h (block 0 n A) rows L0) as LG.
  rewrite !stages_snoc. rewrite ops_snoc. cbv zeta.
  set (dyn := @adjoint_dynamics ROps F n) in *. set (ks := erk_stages rows dyn t h A) in *.
  set (Gs := ops m f p D t h (block 0 n A) rows) in *. set (xs := erk_stages rows (f p) t h (block 0 n A)) in *.
  assert (Lks : Forall (fun k => length k = asz) ks) by (apply Forall_forall; apply erk_stages_len; [exact dyn_on2|exact HA]).
  set (Aj := comb A h (snd r) ks). assert (LAj : length Aj = asz) by (apply comb_len; auto; now apply Forall_forall).
  assert (EX : block 0 n Aj = comb (block 0 n A) h (snd r) xs) by (unfold Aj; rewrite (block_comb 0 n asz) by auto; now rewrite IH1).
  split.
  - rewrite map_app, IH1. f_equal. cbn [map]. f_equal. unfold dyn. rewrite dyn_x by exact LAj. now rewrite EX.
  - apply Forall2_snoc; [exact IH2|]. intros u q Hu Hq. unfold dyn. rewrite dyn_val by auto. rewrite EX. f_equal.
    set (d := D (t + fst r * h) (comb (block 0 n A) h (snd r) xs) u q).
    assert (Ld : length d = n).
    { apply Dlen; auto. apply comb_len; auto. apply erk_stages_len; [apply fon|auto]. }
    unfold Aj. rewrite (block_comb n n asz) by auto.
    rewrite (dot_comb n); [|apply block_len; lia|apply Forall_map; eapply Forall_impl; [|exact Lks]; intros k Hk; apply block_len; unfold asize in Hk; lia].
    rewrite (dot_comm _ (comb d (- h) (snd r) _)). rewrite (dot_comb n); auto.
    2:{ apply Forall_map. eapply Forall_impl; [|exact LG]. intros G HG. now apply HG. }
    rewrite (dot_comm d).
    assert (EW : wdot (snd r) (map (block n n) ks) d + wdot (snd r) (map (block (n + n) m) ks) (repeat 0 m)
      = - wdot (snd r) (map (fun G : op => G d (repeat 0 m)) Gs) (block n n A)).
    { apply (wdot_sum (block n n) (block (n + n) m) (fun k => k) 1); auto. eapply Forall2_weak; [|exact IH2]. intros k G HG. now apply HG. }
    assert (EZ : wdot (snd r) (map (block (n + n) m) ks) (repeat 0 m) = 0).
    { generalize (snd r). generalize ks. induction ks0 as [|k ks0 IHk]; intros [|a w]; cbn [map wdot]; auto. rewrite IHk, dot_comm, dot_zero. lra. }
    rewrite EZ in EW. nra.
Qed.

Lemma dual_step rows b t h A u q : length A = asz -> length u = n -> length q = m ->
  let A1 := erk_step rows b (@adjoint_dynamics ROps F n) t h A in
  length A1 = asz /\ block 0 n A1 = erk_step rows b (f p) t h (block 0 n A) /\
  dot (block n n A1) u + dot (block (n + n) m A1) q = dot (block n n A) (transposed_step m f p D rows b t h (block 0 n A) u q) + dot (block (n + n) m A) q.
Proof.
  intros HA Hu Hq A1. assert (HA' := HA). unfold asize in HA'.
  assert (L0 : length (block 0 n A) = n) by (apply block_len; lia).
  assert (L1 : length A1 = asz) by (apply erk_step_len; [exact dyn_on2|exact HA]).
  destruct (dual_stages rows t h A HA) as (E1 & E2). split; [exact L1|].
  assert (Lks : Forall (fun k => length k = asz) (erk_stages rows (@adjoint_dynamics ROps F n) t h A)) by (apply Forall_forall; apply erk_stages_len; [exact dyn_on2|exact HA]).
  unfold A1, erk_step. split; [rewrite (block_comb 0 n asz) by auto; now rewrite E1|].
  rewrite !(block_comb _ _ asz) by auto.
  rewrite (dot_comb n); [|apply block_len; lia|apply Forall_map; eapply Forall_impl; [|exact Lks]; intros k Hk; apply block_len; unfold asize in Hk; lia].
  rewrite (dot_comb m); [|apply block_len; lia|apply Forall_map; eapply Forall_impl; [|exact Lks]; intros k Hk; apply block_len; unfold asize in Hk; lia].
  unfold transposed_step. rewrite (dot_comm _ (comb u (- h) b _)). rewrite (dot_comb n); auto.
  2:{ apply Forall_map. eapply Forall_impl; [|apply (ops_len t h (block 0 n A) rows L0)]. intros G HG. now apply HG. }
  rewrite (dot_comm u).
  pose proof (wdot_sum (block n n) (block (n + n) m) (fun k => k) 1 u q (block n n A) (fun G : op => G u q) b _ _
    ltac:(eapply Forall2_weak; [|exact E2]; intros k G HG; now apply HG) eq_refl) as EW. cbv beta in EW. nra.
Qed.

Context (fuel : nat) (s : solver ROps (vec ROps)) (rows : list (R * rvl)) (b : rvl) (atol rtol : R).
Hypothesis Hs : erk_solver s rows b.

Lemma adj_interval_smooth t_prev t_i g gt A : separated [t_i; t_prev] -> length A = asz -> length g = n ->
  exists A' dL, @adj_interval ROps fuel F n m s atol rtol t_prev t_i g gt A = Ok (A', dL) /\ length A' = asz /\
  block 0 n A' = erk_step rows b (f p) t_i (t_prev - t_i) (block 0 n A) /\
  forall u q, length u = n -> length q = m ->
    dot (block n n A') u + dot (block (n + n) m A') q =
    dot (block n n A) (transposed_step m f p D rows b t_i (t_prev - t_i) (block 0 n A) u q) + dot (block (n + n) m A) q + dot g u.
Proof.
  intros Hsep HA Hg. unfold adj_interval.
  assert (E0 : Nat.eqb (length (@adjoint_dynamics ROps F n t_i A)) (length A) = true).
  { apply Nat.eqb_eq. etransitivity; [apply dyn_on2, HA|symmetry; exact HA]. }
  change (num ROps) with R in *. change (vec ROps) with rvl in *. rewrite E0. cbn [negb].
  destruct (two_point fuel s rows b asz (@adjoint_dynamics ROps F n) A t_i t_prev atol rtol (Some (n + n)%nat) Hs dyn_on2 HA Hsep) as (tm & E).
  change (num ROps) with R in *. change (vec ROps) with rvl in *. rewrite E. cbn [rbind snd].
  pose proof (fun u q => dual_step rows b t_i (t_prev - t_i) A u q HA) as DS. cbv zeta in DS.
  set (A1 := erk_step rows b (@adjoint_dynamics ROps F n) t_i (t_prev - t_i) A) in *.
  assert (H1 : length A1 = asz) by (apply erk_step_len; [exact dyn_on2|exact HA]).
  assert (H1' := H1). unfold asize in H1'.
  cbn [pylast rev app rbind].
  destruct (pylast_some A1) as (lt & ->). { intros E1. rewrite E1 in H1'. cbn in H1'. lia. }
  cbn [rbind]. do 2 eexists. split; [reflexivity|].
  pose proof (pyslice_mu' n m A1 H1) as Emu. change (num ROps) with R in *. change (vec ROps) with rvl in *. rewrite Emu.
  assert (L1 : length (firstn n A1) = n) by (rewrite firstn_length; lia).
  assert (L2 : length (firstn n (skipn n A1)) = n) by (rewrite firstn_length, skipn_length; lia).
  assert (L4 : length (@vadd ROps (firstn n (skipn n A1)) g) = n) by (now apply vadd_len).
  assert (L5 : length (block (n + n) m A1) = m) by (apply block_len; lia).
  split; [|split].
  - rewrite !app_length. change (num ROps) with R in *. change (vec ROps) with rvl in *. rewrite L1, L4, L5. unfold asize. cbn. lia.
  - rewrite block0_app by exact L1. exact (proj1 (proj2 (DS (block 0 n A) (repeat 0 m) ltac:(apply block_len; unfold asize in HA; lia) (repeat_length _ _)))).
  - intros u q Hu Hq. rewrite (block_app n n) by auto. rewrite app_assoc.
    rewrite (block_app (n + n) m) by (first [exact L5 | rewrite app_length; change (num ROps) with R in *; lia]).
    rewrite vadd_plus, dot_plus_l by lia. pose proof (proj2 (proj2 (DS u q Hu Hq))) as E2. unfold block in E2 at 1. lra.
Qed.

Fixpoint utraj (Ps : list op) (u q : rvl) : list rvl := u :: match Ps with [] => [] | P :: Ps => utraj Ps (P u q) q end.
Fixpoint back_ops (rts : list R) (t : R) (x : rvl) (acc : list op) : list op :=
  match rts with
  | [] => acc
  | t1 :: r => back_ops r t1 (erk_step rows b (f p) t (t1 - t) x) (transposed_step m f p D rows b t (t1 - t) x :: acc)
  end.

Lemma transposed_len t h x u q : length x = n -> length u = n -> length q = m -> length (transposed_step m f p D rows b t h x u q) = n.
Proof.
  intros Hx Hu Hq. apply comb_len; auto. intros k Hk. apply in_map_iff in Hk. destruct Hk as (G & <- & HG).
  pose proof (proj1 (Forall_forall _ _) (ops_len t h x rows Hx) G HG) as H. now apply H.
Qed.

Lemma adj_loop_smooth : forall rpre grpre gtpre t g gt Ps gsuf A dL,
  length rpre = length grpre -> length rpre = length gtpre ->
  (exists suf, separated (rev rpre ++ t :: suf)) -> length A = asz -> Forall (fun g => length g = n) grpre ->
  (forall u q, length u = n -> length q = m -> dot (block n n A) u + dot (block (n + n) m A) q = pairing (g :: gsuf) (utraj Ps u q)) ->
  exists A' dL', @adj_loop ROps fuel F n m s atol rtol (t :: rpre) (g :: grpre) (gt :: gtpre) A dL = Ok (A', dL') /\ length A' = asz /\
  forall u q, length u = n -> length q = m -> dot (block n n A') u + dot (block (n + n) m A') q
    = pairing (rev grpre ++ g :: gsuf) (utraj (back_ops rpre t (block 0 n A) Ps) u q).
Proof.
  induction rpre as [|t1 rpre IH]; intros [|g1 grpre] [|gt1 gtpre] t g gt Ps gsuf A dL E1 E2 (suf & Hsep) HA Hg HI; try discriminate.
  - exists A, dL. split; [reflexivity|]. split; [exact HA|]. exact HI.
  - cbn [rev] in *. rewrite <- !app_assoc in *. cbn [app] in *.
    apply Forall_cons_iff in Hg. destruct Hg as (Hg1 & Hg).
    destruct (adj_interval_smooth t1 t g1 gt1 A (pair_separated _ _ _ _ Hsep) HA Hg1) as (A1 & dL1 & Ea & HA1 & Hx & Hd).
    assert (L0 : length (block 0 n A) = n) by (apply block_len; unfold asize in HA; lia).
    destruct (IH grpre gtpre t1 g1 gt1 (transposed_step m f p D rows b t (t1 - t) (block 0 n A) :: Ps) (g :: gsuf) A1 dL1
      ltac:(now injection E1) ltac:(now injection E2) ltac:(exists (t :: suf); exact Hsep) HA1 Hg) as (A' & dL' & El & HA' & HI').
    { intros u q Hu Hq. rewrite Hd by auto. rewrite HI by (auto; now apply transposed_len). cbn [utraj pairing]. lra. }
    exists A', dL'. split; [|split; [exact HA'|]].
    + cbn [adj_loop]. etransitivity; [apply (f_equal (fun z => rbind z _)); exact Ea|]. cbn [rbind]. exact El.
    + intros u q Hu Hq. rewrite HI' by auto. cbn [back_ops]. now rewrite Hx.
Qed.

Lemma adjoint_backward_smooth t_sol sol gt gx :
  separated t_sol -> t_sol <> [] -> length gx = length t_sol -> length gt = length t_sol ->
  length (last sol []) = n -> sol <> [] -> Forall (fun g => length g = n) gx ->
  exists out, @adjoint_backward ROps fuel F m s atol rtol t_sol sol gt gx = Ok out /\ length (ao_x out) = n /\ length (ao_params out) = m /\
  forall u q, length u = n -> length q = m -> dot (ao_x out) u + dot (ao_params out) q
     = pairing gx (utraj (back_ops (tl (rev t_sol)) (last t_sol 0) (last sol []) []) u q).
Proof.
  intros Hsep Hne Hgx Hgt Hsol Hsn Hg. unfold adjoint_backward.
  destruct (exists_last Hsn) as (sol0 & xT & ->). rewrite last_last in *.
  destruct (exists_last Hne) as (ts0 & tT & ->).
  assert (Hgn : gx <> []) by (intros ->; rewrite app_length in Hgx; cbn in Hgx; lia).
  assert (Hgtn : gt <> []) by (intros ->; rewrite app_length in Hgt; cbn in Hgt; lia).
  destruct (exists_last Hgn) as (gx0 & lT & ->). destruct (exists_last Hgtn) as (gt0 & gtT & ->).
  rewrite !app_length in *. cbn [length] in *. rewrite last_last.
  unfold pylast. rewrite !rev_app_distr. cbn [rev app rbind tl].
  apply Forall_app in Hg. destruct Hg as (Hg & HlT). apply Forall_cons_iff in HlT. destruct HlT as (HlT & _).
  change (num ROps) with R in *. change (vec ROps) with rvl in *. rewrite Hsol.
  set (ltT := @vdot ROps lT (af_f F tT xT)).
  assert (Ez : @vzeros ROps m = repeat 0 m) by (unfold vzeros; rops; now rewrite Q2R_0').
  change (num ROps) with R in *. change (vec ROps) with rvl in *. rewrite Ez.
  destruct (adj_loop_smooth (rev ts0) (rev gx0) (rev gt0) tT lT gtT [] [] (xT ++ lT ++ repeat 0 m ++ [ltT]) ltT) as (A' & dL' & E & HA' & HI).
  - rewrite !rev_length. lia.
  - rewrite !rev_length. lia.
  - exists []. rewrite rev_involutive. exact Hsep.
  - rewrite !app_length, repeat_length. change (num ROps) with R in *. change (vec ROps) with rvl in *. unfold asize. cbn. lia.
  - apply Forall_rev. exact Hg.
  - intros u q Hu Hq. rewrite (block_app n n) by auto. rewrite app_assoc.
    rewrite (block_app (n + n) m) by (first [apply repeat_length | rewrite app_length; change (num ROps) with R in *; lia]).
    rewrite dot_zero. cbn [pairing utraj]. lra.
  - change (num ROps) with R in *. change (vec ROps) with rvl in *.
    eexists. split; [etransitivity; [apply (f_equal (fun z => rbind z _)); exact E|]; reflexivity|].
    cbn [ao_x ao_params]. rewrite rev_involutive in HI.
    pose proof (pyslice_mu' n m A' HA') as Emu. change (num ROps) with R in *. change (vec ROps) with rvl in *. rewrite Emu.
    split; [apply block_len; unfold asize in HA'; lia|]. split; [apply block_len; unfold asize in HA'; lia|].
    intros u q Hu Hq. pose proof (HI u q Hu Hq) as HI'. rewrite block0_app in HI' by exact Hsol. exact HI'.
Qed.
End Back.
