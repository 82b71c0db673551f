(** Proofs: what a solve can know of its vector field; tolerances and the global error. *)
From Coq Require Import Floats ZArith QArith Qreals Reals Lra Lia List Bool Sorted Factorial.
From Verif Require Import Num Py Tensor M_Constants M_SolversOde M_Utils M_Interp M_Odeint.
From Verif Require Import Spec_Ode Spec_Trees Spec_RK Spec_Norm Spec_Adaptive Spec_Conv Spec_Inv Spec_Oracle.
From Verif Require Import L_Base L_Fixed L_Vec L_Steps L_Tables L_Steps2 L_Interp L_Utils L_Fixed2 L_Adaptive L_Run.
From Verif Require Import L_Adaptive2 L_Adaptive3 L_Adaptive4 L_Conv Pf_Fixed Pf_Adaptive L_Reach L_Inv L_Oracle L_Gronwall Pf_Inv.
Import ListNotations.
Local Open Scope R_scope.

Lemma builtin_agr {K : NumOps} (s : solver K (vec K)) (P : K * vec K -> Prop) u v : builtin_solver s ->
  (forall t y, P (t, y) -> v t y = u t y) -> agr_step P u v (s_step s).
Proof.
  intros [[c E]|[[a ->]|[net [->|[->| ->]]]]] H.
  - destruct c; cbn [solver_of_class] in E; try discriminate E; injection E as <-.
    + now apply agr_euler.
    + now apply agr_midpoint.
    + now apply agr_rk4.
    + now apply (agr_erk7 P u v H (construct_dopri5 K)).
    + now apply (agr_erk7 P u v H (construct_tsit5 K)).
    + now apply agr_alf.
  - now apply agr_alf.
  - apply agr_hyper. now apply agr_euler.
  - apply agr_hyper. now apply agr_midpoint.
  - apply agr_hyper. now apply agr_rk4.
Qed.

(** C105.  In any arithmetic: a solve (forward in time) reads the vector field only at the calls it logs.
    Another field with the same values there gives the same result, exception or non-termination, and the
    same calls. *)
Lemma C105_only_calls_pf :
  forall (K : NumOps) fuel (f g : K -> vec K -> vec K) x t0 t1 ts (s : solver K (vec K)) atol rtol interp all save_at semi,
  builtin_solver s -> (t1 <? t0)%N = false ->
  let solve h := odeint fuel h x (TTensor (t0 :: t1 :: ts)) s atol rtol interp all save_at semi in
  (forall t y, In (t, y) (fst (solve f)) -> g t y = f t y) -> solve g = solve f.
Proof.
  intros K fuel f g x t0 t1 ts s atol rtol interp all save_at semi Hs Ht solve H.
  apply (agr_odeint (fun p => In p (fst (solve f)))); auto.
  - intros a b l [= <- <- <-] E. congruence.
  - intros u v Huv. apply builtin_agr; auto.
Qed.

(** C105, backward in time: the calls are logged at the negated times, except the one that chooses the
    first step size, which is made at the time of the negated clock. *)
Lemma C105_only_calls_reversed_pf :
  forall (K : NumOps) fuel (f g : K -> vec K -> vec K) x ts (s : solver K (vec K)) atol rtol interp all save_at semi,
  builtin_solver s ->
  let solve h := odeint fuel h x (TTensor ts) s atol rtol interp all save_at semi in
  (forall t y, In (t, y) (fst (solve f)) -> g t y = f t y /\ g (nopp t) y = f (nopp t) y) -> solve g = solve f.
Proof.
  intros K fuel f g x ts s atol rtol interp all save_at semi Hs solve H.
  apply (agr_odeint (fun p => In p (fst (solve f)))); auto.
  - intros t y Hp. now apply H.
  - intros a b l _ _ t y Hp. now apply H.
  - intros u v Huv. apply builtin_agr; auto.
Qed.

(** C105, hybrid solves. *)
Lemma C105_only_calls_hybrid_pf :
  forall (K : NumOps) fuel (f g : K -> vec K -> vec K) x ts j (s : solver K (vec K)) cbs atol rtol etol jump_first semi,
  builtin_solver s ->
  let solve h := odeint_hybrid fuel h x ts j s cbs atol rtol etol jump_first semi in
  (forall t y, In (t, y) (fst (solve f)) -> g t y = f t y) -> solve g = solve f.
Proof.
  intros K fuel f g x ts j s cbs atol rtol etol jf semi Hs solve H.
  set (P := fun p => In p (fst (solve f))).
  exact (agr_hybrid P f g H s (builtin_agr s P f g Hs H) fuel x ts j cbs atol rtol etol jf semi (fun p Hp => Hp)).
Qed.


(** In floating point, midpoint on [0; 1] from 1 calls the field at (0, 1) and (1/2, 3/2): the fields x and
    x + t (t - 1/2) are not distinguished. *)
Lemma C105_ex_pf :
  let K := FloatOps (fun a b => a) in
  let f := fun (t : PrimFloat.float) (x : list PrimFloat.float) => x in
  let g := fun (t : PrimFloat.float) (x : list PrimFloat.float) =>
    map (fun a => PrimFloat.add a (PrimFloat.mul t (PrimFloat.sub t 0.5%float))) x in
  let solve h := @odeint K 0 h [1%float] (@TTensor K [0%float; 1%float]) (Midpoint K) 0.001%float 0.001%float false false [] None in
  builtin_solver (Midpoint K) /\ fst (solve f) = [(0, [1]); (0.5, [1.5])]%float /\
  (forall t y, In (t, y) (fst (solve f)) -> g t y = f t y) /\ g 1%float [1%float] = [1.5%float].
Proof.
  cbv zeta. split; [left; exists NMidpoint; reflexivity|].
  assert (E : fst (@odeint (FloatOps (fun a b => a)) 0 (fun t x => x) [1%float] (@TTensor (FloatOps (fun a b => a)) [0%float; 1%float])
    (Midpoint (FloatOps (fun a b => a))) 0.001%float 0.001%float false false [] None) = [(0, [1]); (0.5, [1.5])]%float) by (vm_compute; reflexivity).
  split; [exact E|]. split; [|vm_compute; reflexivity].
  intros t y H. change (In (t, y) (fst (@odeint (FloatOps (fun a b => a)) 0 (fun t x => x) [1%float] (@TTensor (FloatOps (fun a b => a)) [0%float; 1%float])
    (Midpoint (FloatOps (fun a b => a))) 0.001%float 0.001%float false false [] None))) in H. rewrite E in H. destruct H as [[= <- <-]|[[= <- <-]|[]]]; vm_compute; reflexivity.
Qed.

(** ** Polynomials vanishing at given times *)
Fixpoint padd (p q : list R) : list R :=
  match p, q with [], _ => q | _, [] => p | a :: p', b :: q' => (a + b) :: padd p' q' end.
Lemma padd_eval p : forall q t, polynomial (padd p q) t = polynomial p t + polynomial q t.
Proof. induction p as [|a p IH]; intros [|b q] t; cbn [padd polynomial]; try lra. rewrite IH. lra. Qed.
Lemma pscal_eval k p t : polynomial (map (Rmult k) p) t = k * polynomial p t.
Proof. induction p as [|a p IH]; cbn [map polynomial]; [lra|]. rewrite IH. lra. Qed.
Definition plin (a : R) (p : list R) : list R := padd (0 :: p) (map (Rmult (- a)) p).
Lemma plin_eval a p t : polynomial (plin a p) t = (t - a) * polynomial p t.
Proof. unfold plin. rewrite padd_eval, pscal_eval. cbn [polynomial]. ring. Qed.
Fixpoint pzero (l : list R) : list R := match l with [] => [1] | a :: l' => plin a (plin a (pzero l')) end.
Lemma pzero_in l : forall t, In t l -> polynomial (pzero l) t = 0.
Proof.
  induction l as [|a l IH]; intros t []; cbn [pzero]; rewrite !plin_eval.
  - subst. rewrite Rminus_diag_eq by reflexivity. ring.
  - rewrite IH by auto. ring.
Qed.
Lemma pzero_nonneg l t : 0 <= polynomial (pzero l) t.
Proof. induction l as [|a l IH]; cbn [pzero]; [cbn; lra|]. rewrite !plin_eval. pose proof (Rle_0_sqr (t - a)). unfold Rsqr in *. nra. Qed.
Lemma pzero_pos l t : ~ In t l -> 0 < polynomial (pzero l) t.
Proof.
  induction l as [|a l IH]; intros H; cbn [pzero]; [cbn; lra|]. rewrite !plin_eval.
  assert (Ha : t - a <> 0) by (intros E; apply H; left; lra). assert (H0 : ~ In t l) by (intros Hi; apply H; now right).
  specialize (IH H0). pose proof (Rsqr_pos_lt _ Ha) as Hq. unfold Rsqr in Hq. rewrite <- Rmult_assoc. apply Rmult_lt_0_compat; auto.
Qed.
Lemma gap l : forall a b, a < b -> exists a' b', a <= a' /\ a' < b' /\ b' <= b /\ forall s, In s l -> ~ (a' <= s <= b').
Proof.
  induction l as [|c l IH]; intros a b Hab.
  - exists a, b. repeat split; try lra. intros s [].
  - destruct (IH a b Hab) as (a1 & b1 & H1 & H2 & H3 & H4).
    destruct (Rlt_dec c ((a1 + b1) / 2)) as [Hc|Hc].
    + exists ((a1 + b1) / 2), b1. repeat split; try lra. intros s [->|Hs]; [lra|]. intros Hb. apply (H4 s Hs). lra.
    + exists a1, ((3 * a1 + b1) / 4). repeat split; try lra. intros s [->|Hs]; [lra|]. intros Hb. apply (H4 s Hs). lra.
Qed.
Fixpoint pint (k : nat) (p : list R) : list R := match p with [] => [] | a :: p' => a / INR (S k) :: pint (S k) p' end.
Lemma pint_deriv p : forall k t, derivable_pt_lim (fun s => s ^ S k * polynomial (pint k p) s) t (t ^ k * polynomial p t).
Proof.
  induction p as [|a p IH]; intros k t; cbn [pint polynomial].
  - refine (dlim_ext (fun _ => 0) _ t 0 _ _ _ (derivable_pt_lim_const 0 t)); intros; ring.
  - pose proof (derivable_pt_lim_scal _ (a / INR (S k)) t _ (derivable_pt_lim_pow t (S k))) as D1.
    pose proof (derivable_pt_lim_plus _ _ t _ _ D1 (IH (S k) t)) as D2.
    refine (dlim_ext _ _ t _ _ _ _ D2).
    + intros s. unfold plus_fct, mult_real_fct. cbn [pow]. ring.
    + cbn [pred]. cbn [pow]. field. apply not_0_INR. lia.
Qed.
Definition panti (p : list R) : list R := 0 :: pint 0 p.
Lemma panti_deriv p t : derivable_pt_lim (polynomial (panti p)) t (polynomial p t).
Proof.
  refine (dlim_ext _ _ t _ _ _ _ (pint_deriv p 0 t)); [|simpl; ring].
  intros s. unfold panti. cbn [polynomial pow]. ring.
Qed.
Lemma pzero_grows l a b : a < b -> polynomial (panti (pzero l)) a < polynomial (panti (pzero l)) b.
Proof.
  intros Hab. destruct (gap l a b Hab) as (a' & b' & H1 & H2 & H3 & H4).
  set (Q := polynomial (panti (pzero l))).
  assert (Hmono : forall u v, u <= v -> Q u <= Q v).
  { intros u v [Huv| ->]; [|lra]. destruct (MVT_cor2 Q (polynomial (pzero l)) u v Huv) as (c & E & Hc); [intros; apply panti_deriv|].
    pose proof (pzero_nonneg l c). assert (0 <= polynomial (pzero l) c * (v - u)) by (apply Rmult_le_pos; lra). lra. }
  destruct (MVT_cor2 Q (polynomial (pzero l)) a' b' H2) as (c & E & Hc); [intros; apply panti_deriv|].
  assert (0 < polynomial (pzero l) c) by (apply pzero_pos; intros Hi; apply (H4 c Hi); lra).
  assert (0 < polynomial (pzero l) c * (b' - a')) by (apply Rmult_lt_0_compat; lra).
  pose proof (Hmono a a' H1). pose proof (Hmono b' b H3). lra.
Qed.

Lemma nth_repeat_lt {A} (a d : A) n i : (i < n)%nat -> nth i (repeat a n) d = a.
Proof. revert i; induction n as [|n IH]; intros [|i] H; simpl; try lia; auto. apply IH. lia. Qed.

Lemma nth_shift d (x : list R) i : (i < length x)%nat -> nth i (map (fun a => a + d) x) 0 = nth i x 0 + d.
Proof. revert i; induction x as [|a x IH]; intros [|i] H; simpl in *; try lia; auto. apply IH. lia. Qed.

(** C106, refuted.  Whatever the tolerances and the grid, and for every bound B: there is a field that depends
    on time only, polynomially (so its Lipschitz constant in the state is 0), for which the adaptive solve
    returns the initial state at all times while the exact solution moves by at least B. *)
Lemma C106_tolerance_refuted_pf :
  forall s rows b bh n x t0 t1 ts atol rtol interp save_at semi B,
  builtin_pair s rows b bh -> length x = n -> (1 <= n)%nat -> increasing (t0 :: t1 :: ts) ->
  0 < atol -> 0 <= rtol -> semi <> Some 0%nat ->
  let T := last (t1 :: ts) t0 in
  exists c fuel y, let f := fun t (_ : list R) => repeat (polynomial c t) n in
    snd (@odeint ROps fuel f x (@TTensor ROps (t0 :: t1 :: ts)) s atol rtol interp false save_at semi)
      = Ok (t0 :: t1 :: ts, repeat x (List.length (t0 :: t1 :: ts))) /\
    solves n t0 T f y /\ y t0 = x /\ forall i, (i < n)%nat -> B <= nth i (y T) 0 - nth i x 0.
Proof.
  intros s rows b bh n x t0 t1 ts atol rtol interp save_at semi B HP Hx Hn Hinc Ha Hr Hsemi T.
  set (z := fun (t : R) (_ : list R) => repeat 0 n).
  assert (Hz : field_on n z) by (intros t y _; apply repeat_length).
  destruct (C84_returns_pf s rows b bh n z x t0 t1 ts atol rtol interp false save_at semi HP Hz Hx Hinc Ha Hr Hn Hsemi (fun t => eq_refl))
    as (fuel & [times sol] & Hret).
  set (l := map fst (fst (@odeint ROps fuel z x (@TTensor ROps (t0 :: t1 :: ts)) s atol rtol interp false save_at semi))).
  assert (HT : t0 < T).
  { assert (t0 < t1) by (apply (Hinc 0%nat 1%nat); auto). pose proof (inc_last t0 t1 ts Hinc) as Hl. specialize (Hl t1). unfold T. assert (t1 <= last (t1 :: ts) t0) by (apply Hl; right; now left). lra. }
  pose proof (pzero_grows l t0 T HT) as Hg. set (Q := polynomial (panti (pzero l))) in *.
  set (k := Rabs B / (Q T - Q t0)).
  exists (map (Rmult k) (pzero l)), fuel, (fun t => map (fun a => a + k * (Q t - Q t0)) x). cbv zeta.
  assert (Hsol : times = t0 :: t1 :: ts /\ length sol = length (t0 :: t1 :: ts)).
  { destruct interp.
    - destruct (C10_interpolated_times_pf fuel s rows b bh n z x _ atol rtol save_at semi times sol HP Hz Hx Hinc ltac:(simpl; lia) Hret) as (E1 & E2 & _). auto.
    - destruct (C09_adaptive_times_pf fuel s rows b bh n z x _ atol rtol save_at semi times sol HP Hz Hx Hinc ltac:(simpl; lia) Hret) as (E1 & E2 & _). auto. }
  destruct Hsol as [-> Hlen]. assert (Hxx : forall i, (i < n)%nat -> (i < length x)%nat) by (intros i Hi; eapply Nat.lt_le_trans; [exact Hi|]; apply Nat.eq_le_incl; symmetry; exact Hx).
  assert (HB : builtin_solver s).
  { destruct HP as [(-> & _)|(-> & _)]; left; [exists NDormandPrince45|exists NTsitouras45]; reflexivity. }
  split.
  - assert (Hlt : @nltb ROps t1 t0 = false) by (apply Rltb_false; left; apply (Hinc 0%nat 1%nat); auto).
    refine (eq_trans (f_equal snd (C105_only_calls_pf ROps fuel z _ x t0 t1 ts s atol rtol interp false save_at semi HB Hlt _)) _).
    + intros t y Hin. unfold z. f_equal. rewrite pscal_eval, pzero_in; [ring|]. unfold l. apply in_map_iff. exists (t, y). split; auto.
    + refine (eq_trans Hret _). f_equal. f_equal. rewrite <- Hlen.
      assert (Hall : forall y, In y sol -> y = x).
      { apply (C84_equilibrium_pf fuel s rows b n z x (t0 :: t1 :: ts) atol rtol interp false save_at semi (t0 :: t1 :: ts) sol); auto.
        - right. now exists bh.
        - now left.
        - simpl; lia. }
      clear - Hall. induction sol as [|w sol IH]; cbn [length repeat]; auto. f_equal; [apply Hall; now left|apply IH; intros; apply Hall; now right].
  - split; [|split].
    + split; [intros; rewrite map_length; auto|]. intros i t Hi _. pose proof (Hxx i Hi) as Hix. rewrite nth_repeat_lt by auto. rewrite pscal_eval.
      pose proof (derivable_pt_lim_scal _ k t _ (derivable_pt_lim_minus _ (fct_cte (Q t0)) t _ _ (panti_deriv (pzero l) t) (derivable_pt_lim_const (Q t0) t))) as D1.
      pose proof (derivable_pt_lim_plus (fct_cte (nth i x 0)) _ t _ _ (derivable_pt_lim_const _ t) D1) as D2.
      refine (dlim_ext _ _ t _ _ _ _ D2); [|rops; ring].
      intros u. unfold plus_fct, mult_real_fct, minus_fct, fct_cte. fold Q.
      rewrite (nth_shift _ x i Hix). reflexivity.
    + refine (eq_trans (map_ext _ (fun a => a) _ x) (map_id x)). intros a. change (a + k * (Q t0 - Q t0) = a :> R). ring.
    + intros i Hi. pose proof (Hxx i Hi) as Hix. rewrite (nth_shift _ x i Hix).
      apply Rle_trans with (Rabs B); [apply Rle_abs|]. right. unfold k. symmetry.
      assert (G : forall u : R, u + Rabs B / (Q T - Q t0) * (Q T - Q t0) - u = Rabs B) by (intros u; field; lra). apply G.
Qed.

(** ** From local to global errors *)
Lemma run_local n f L (acc : R -> R -> list R -> list R -> Prop) dn (Y : R -> list R -> R -> list R) (y : R -> list R) t0 T delta :
  0 <= L -> 0 <= delta -> lipschitz n L f -> solves n t0 T f y ->
  (forall t z, t0 <= t <= T -> length z = n -> solves n t T f (Y t z) /\ Y t z t = z) ->
  forall t x req times xs, run acc dn false true t x req times xs -> forall E,
  (forall t' h z z', t <= t' -> 0 < h -> t' + h <= T -> length z = n -> (z = x \/ In z xs) -> In z' xs -> acc t' h z z' ->
     length z' = n /\ near n delta z' (Y t' z (t' + h))) ->
  t0 <= t -> length x = n -> 0 <= E -> near n E x (y t) -> (forall s, In s req -> s <= T) ->
  forall k c z, nth_error times k = Some c -> nth_error xs k = Some z ->
  near n ((E + INR (S k) * delta) * exp (L * (c - t))) z (y c).
Proof.
  intros HL Hdel Hlip Hy HY t x req times xs Hrun.
  induction Hrun as [t x|t h x x' crossed hit req times xs Hh Ha Hcr Hin Hreq Hne Hrun IH]; intros E Hloc Ht Hx HE Hn HT k c z Hc Hz.
  - destruct k; discriminate.
  - rewrite (Hin eq_refl) in *. clear Hin Hcr crossed. cbn [app map] in *. rewrite orb_true_r in *. cbn [app] in *.
    assert (HthT : t + h <= T).
    { destruct Hne as [->|Hne]; [apply HT; now left|]. destruct req as [|r0 req]; [congruence|].
      specialize (Hreq r0 (or_introl eq_refl)). assert (r0 <= T); [|lra]. apply HT. apply in_or_app. right. now left. }
    assert (HT' : forall s, In s req -> s <= T) by (intros s Hs; apply HT, in_or_app; now right).
    destruct (Hloc t h x x' ltac:(lra) Hh HthT Hx (or_introl eq_refl) (or_introl eq_refl) Ha) as [Hx' Hn1].
    destruct (HY t x ltac:(lra) Hx) as [HYs HY0].
    assert (Hn2 : near n (E * exp (L * (t + h - t))) (Y t x (t + h)) (y (t + h))).
    { apply (gronwall n f L t T E); auto; [|rewrite HY0; auto|lra]. destruct Hy as [Hyl Hyd]. split; auto. intros i s Hi Hs. apply Hyd; auto. lra. }
    assert (Hn3 : near n ((E + delta) * exp (L * h)) x' (y (t + h))).
    { eapply near_le; [|exact (near_trans n _ _ _ _ _ Hn1 Hn2)]. replace (t + h - t) with h by ring.
      assert (1 <= exp (L * h)). { rewrite <- exp_0. destruct (Rle_lt_or_eq_dec 0 (L * h)) as [Hl|<-]; [apply Rmult_le_pos; lra|left; now apply exp_increasing|lra]. }
      assert (delta * 1 <= delta * exp (L * h)) by (apply Rmult_le_compat_l; auto). lra. }
    destruct k as [|k].
    + injection Hc as <-. injection Hz as <-. eapply near_le; [|exact Hn3]. right. simpl. replace (t + h - t) with h by ring. ring.
    + cbn [nth_error] in Hc, Hz.
      assert (HE' : 0 <= (E + delta) * exp (L * h)) by (apply Rmult_le_pos; [lra|left; apply exp_pos]).
      assert (Hloc' : forall t' h0 z0 z', t + h <= t' -> 0 < h0 -> t' + h0 <= T -> length z0 = n -> z0 = x' \/ In z0 xs -> In z' xs -> acc t' h0 z0 z' ->
        length z' = n /\ near n delta z' (Y t' z0 (t' + h0))).
      { intros t' h0 z0 z' H1 H2 H3 H4 H5 H6 H7. apply Hloc; auto; [lra| |now right]. right. destruct H5 as [->|H5]; [now left|now right]. }
      pose proof (IH ((E + delta) * exp (L * h)) Hloc' ltac:(lra) Hx' HE' Hn3 HT' k c z Hc Hz) as B.
      eapply near_le; [|exact B].
      assert (Hct : t + h < c) by (apply (run_after _ _ _ _ _ Hrun); eapply nth_error_In; eauto).
      replace (L * (c - t)) with (L * h + L * (c - (t + h))) by ring. rewrite exp_plus.
      rewrite <- Rmult_assoc. apply Rmult_le_compat_r; [left; apply exp_pos|].
      assert (1 <= exp (L * h)). { rewrite <- exp_0. destruct (Rle_lt_or_eq_dec 0 (L * h)) as [Hl|<-]; [apply Rmult_le_pos; lra|left; now apply exp_increasing|lra]. }
      rewrite (S_INR (S k)). assert (0 <= INR (S k)) by apply pos_INR.
      assert (INR (S k) * delta * 1 <= INR (S k) * delta * exp (L * h)) by (apply Rmult_le_compat_l; [apply Rmult_le_pos; auto|auto]). lra.
Qed.

Lemma estimate_bound n atol rtol B x x' xh : length x = n -> length x' = n -> length xh = n -> 0 < atol -> 0 <= rtol ->
  bounded_by B x -> bounded_by B x' -> scaled_error atol rtol None x x' (minus_list x' xh) <= 1 ->
  near n (sqrt (INR n) * (atol + rtol * B)) x' xh.
Proof.
  intros Hx Hx' Hxh Ha Hr HB HB' Hs i Hi. unfold scaled_error in Hs.
  set (l := map _ _) in Hs.
  assert (Hlen : length l = n) by (unfold l; rewrite map_length, !combine_length; unfold minus_list; rewrite map_length, combine_length; lia).
  assert (HBp : Rabs (nth i x 0) <= B) by (apply HB, nth_In; lia). assert (HBp' : Rabs (nth i x' 0) <= B) by (apply HB', nth_In; lia).
  set (w := atol + rtol * Rmax (Rabs (nth i x 0)) (Rabs (nth i x' 0))).
  assert (Hin : In ((nth i x' 0 - nth i xh 0) / w) l).
  { unfold l. apply in_map_iff. exists (nth i x' 0 - nth i xh 0, (nth i x 0, nth i x' 0)). split; [reflexivity|].
    replace (nth i x' 0 - nth i xh 0, (nth i x 0, nth i x' 0)) with (nth i (combine (minus_list x' xh) (combine x x')) (0 - 0, (0, 0))).
    - apply nth_In. rewrite !combine_length. unfold minus_list. rewrite map_length, combine_length. lia.
    - rewrite combine_nth by (unfold minus_list; rewrite map_length, !combine_length; lia). rewrite combine_nth by lia. f_equal.
      unfold minus_list. change (0 - 0) with ((fun p : R * R => fst p - snd p) (0, 0)). rewrite map_nth, combine_nth by lia. reflexivity. }
  pose proof (entry_le_rms _ _ Hin) as He. rewrite Hlen in He.
  assert (Hw : 0 < w <= atol + rtol * B).
  { unfold w. pose proof (Rmax_l (Rabs (nth i x 0)) (Rabs (nth i x' 0))). pose proof (Rabs_pos (nth i x 0)).
    assert (Rmax (Rabs (nth i x 0)) (Rabs (nth i x' 0)) <= B) by (apply Rmax_lub; auto).
    assert (0 <= rtol * Rmax (Rabs (nth i x 0)) (Rabs (nth i x' 0))) by (apply Rmult_le_pos; lra).
    assert (rtol * Rmax (Rabs (nth i x 0)) (Rabs (nth i x' 0)) <= rtol * B) by (apply Rmult_le_compat_l; lra). lra. }
  assert (He1 : Rabs ((nth i x' 0 - nth i xh 0) / w) <= sqrt (INR n)).
  { eapply Rle_trans; [exact He|]. rewrite <- (Rmult_1_r (sqrt (INR n))) at 2. apply Rmult_le_compat_l; [apply sqrt_pos|exact Hs]. }
  unfold Rdiv in He1. rewrite Rabs_mult, (Rabs_right (/ w)) in He1 by (apply Rle_ge; left; apply Rinv_0_lt_compat; lra).
  apply Rle_trans with (sqrt (INR n) * w); [|apply Rmult_le_compat_l; [apply sqrt_pos|lra]].
  apply Rmult_le_reg_r with (/ w); [apply Rinv_0_lt_compat; lra|]. rewrite Rmult_assoc, Rinv_r by lra. rewrite Rmult_1_r. exact He1.
Qed.

(** C106, partial.  With return_all_eval and no dense output: if on every accepted step the true local error is
    at most kappa times the difference of the two formulas of the pair, the error of the k-th returned state is
    at most k kappa sqrt(n) (atol + rtol B) exp(L (t_k - t_0)), B a bound of the returned states and L the
    Lipschitz constant.  [Y t z] is the exact solution through z at time t. *)
Lemma C106_reliable_estimate_partial_pf :
  forall s rows b bh n f L kappa B Y y fuel t0 t1 ts atol rtol save_at times sol,
  builtin_pair s rows b bh -> field_on n f -> 0 <= L -> lipschitz n L f -> increasing (t0 :: t1 :: ts) ->
  0 < atol -> 0 <= rtol -> 0 <= kappa -> 0 <= B ->
  let T := last (t1 :: ts) t0 in
  solves n t0 T f y ->
  (forall t z, t0 <= t <= T -> List.length z = n -> solves n t T f (Y t z) /\ Y t z t = z) ->
  (forall t h z z' D, t0 <= t -> t + h <= T -> List.length z = n -> pair_accepts rows b bh f atol rtol None t h z z' ->
     near n D z' (erk_step rows bh f t h z) -> near n (kappa * D) z' (Y t z (t + h))) ->
  snd (@odeint ROps fuel f (y t0) (@TTensor ROps (t0 :: t1 :: ts)) s atol rtol false true save_at None) = Ok (times, sol) ->
  (forall z, In z sol -> bounded_by B z) ->
  List.length sol = List.length times /\
  forall k tk xk, nth_error times k = Some tk -> nth_error sol k = Some xk ->
  near n (INR k * (kappa * (sqrt (INR n) * (atol + rtol * B))) * exp (L * (tk - t0))) xk (y tk).
Proof.
  intros s rows b bh n f L kappa B Y y fuel t0 t1 ts atol rtol save_at times sol HP Hf HL Hlip Hinc Ha Hr Hk HB T Hy HY Hrel Hret Hbd.
  pose proof (inc_last t0 t1 ts Hinc) as Hlast. apply increasing_sorted in Hinc.
  destruct (odeint_run s rows b bh (builtin_embedded _ _ _ _ HP) n f Hf _ _ _ _ _ _ _ _ _ _ _ _ _ Hinc (proj1 Hy t0) Hret)
    as (times' & sol' & -> & -> & Hrun).
  split; [cbn [length]; f_equal; exact (run_lengths _ _ _ _ _ Hrun)|].
  replace (interp_on s false) with false in Hrun by (unfold interp_on; destruct (s_is_tsit5 s); reflexivity).
  intros [|k] tk xk Htk Hxk.
  - injection Htk as <-. injection Hxk as <-. simpl INR. rewrite !Rmult_0_l. intros i Hi. rewrite Rminus_diag_eq, Rabs_R0 by reflexivity. lra.
  - cbn [nth_error] in Htk, Hxk.
    set (delta := kappa * (sqrt (INR n) * (atol + rtol * B))).
    assert (Hdel : 0 <= delta). { unfold delta. apply Rmult_le_pos; auto. apply Rmult_le_pos; [apply sqrt_pos|]. assert (0 <= rtol * B) by (apply Rmult_le_pos; auto). lra. }
    replace (INR (S k) * delta) with (0 + INR (S k) * delta) by ring.
    refine (run_local n f L _ _ Y y t0 T delta HL Hdel Hlip Hy HY t0 (y t0) (t1 :: ts) times' sol' Hrun 0 _ (Rle_refl _) (proj1 Hy t0) (Rle_refl _) _ _ k tk xk Htk Hxk).
    + intros t h z z' Ht Hh HthT Hz Hzin Hz' Hacc.
      assert (Ez' : z' = erk_step rows b f t h z) by apply Hacc.
      assert (Hl' : length z' = n) by (rewrite Ez'; apply (erk_step_len n); auto).
      split; auto. apply Hrel; auto.
      apply (estimate_bound n atol rtol B z z' (erk_step rows bh f t h z)); auto.
      * apply (erk_step_len n); auto.
      * apply Hbd. destruct Hzin as [->|Hzin]; [now left|now right].
      * apply Hbd. now right.
      * apply Hacc.
    + intros i Hi. rewrite Rminus_diag_eq, Rabs_R0 by reflexivity. lra.
    + intros u Hu. apply Hlast. now right.
Qed.
Lemma dopri5_time t h z : erk_step (to_R_rows q_dopri5) (to_R qb5_dopri5) (fun u (_ : list R) => [u]) t h [z] = [z + (t * h + h * h / 2)].
Proof.
  unfold erk_step, erk_stages, to_R_rows, to_R, q_dopri5, qb5_dopri5.
  cbn [map fst snd fold_left app comb axpy nth length seq combine].
  cbn.
  unfold Q2R. cbn [Qnum Qden]. apply (f_equal2 cons); [field|reflexivity].
Qed.

(** y' = t meets the hypotheses: dopri5 is exact for it, kappa = 0. *)
Lemma C106_ex_pf :
  let f := fun (t : R) (_ : list R) => [t] in
  let Y := fun t z s => [nth 0 z 0 + (s * s - t * t) / 2] in
  field_on 1 f /\ lipschitz 1 0 f /\
  (forall a b t z, List.length z = 1%nat -> solves 1 a b f (Y t z) /\ Y t z t = z) /\
  (forall atol rtol t h z z' D, List.length z = 1%nat ->
     pair_accepts (to_R_rows q_dopri5) (to_R qb5_dopri5) (to_R qb4_dopri5) f atol rtol None t h z z' ->
     near 1 D z' (erk_step (to_R_rows q_dopri5) (to_R qb4_dopri5) f t h z) -> near 1 (0 * D) z' (Y t z (t + h))).
Proof.
  intros f Y. split; [intros t x _; reflexivity|]. split.
  { intros t x z D _ _ _ i _. unfold f. rewrite Rminus_diag_eq, Rabs_R0 by reflexivity. lra. }
  split.
  - intros a b t z Hz. destruct z as [|z [|]]; try discriminate. unfold Y. split.
    + split; [reflexivity|]. intros i s Hi _. destruct i as [|i]; [|lia]. unfold f. cbn [nth].
      refine (dlim_ext (fun s => 1 * ((s - 0) * (s - 0)) / 2 + (z - t * t / 2)) _ s (1 * (s - 0) + 0) _ _ _ _); [intros; field|ring|].
      apply (derivable_pt_lim_plus (fun s => 1 * ((s - 0) * (s - 0)) / 2) (fct_cte (z - t * t / 2))); [apply dlim_pow2|apply derivable_pt_lim_const].
    + cbn [nth]. apply (f_equal2 cons); [field|reflexivity].
  - intros atol rtol t h z z' D Hz [-> _] _. destruct z as [|z [|]]; try discriminate. unfold f. rewrite dopri5_time.
    intros i Hi. destruct i as [|i]; [|lia]. unfold Y. cbn [nth].
    replace (z + (t * h + h * h / 2) - (z + ((t + h) * (t + h) - t * t) / 2)) with 0 by field. rewrite Rabs_R0. lra.
Qed.
