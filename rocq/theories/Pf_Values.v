(** Values computed while gradients are recorded. *)
From Coq Require Import ZArith QArith List Bool Floats.
From Verif Require Import Num Py Tensor M_Constants M_SolversOde M_Utils M_Interp M_Odeint M_Autograd.
From Verif Require Import L_Rel.
Import ListNotations.
Local Notation length := List.length.
Local Open Scope nat_scope.

Section Plain.
Context {K : NumOps}.
Notation D := (DualOps K).

(** The values without their derivatives: of a number, a vector, a list of calls of the vector field, a returned solution *)
Definition plain (a : D) : K := fst a.
Definition plain_vec (x : vec D) : vec K := map plain x.
Definition plain_calls (l : list (D * vec D)) : list (K * vec K) := map (fun c => (plain (fst c), plain_vec (snd c))) l.
Definition plain_res (a : res (list D * list (vec D))) : res (list K * list (vec K)) :=
  match a with Ok (times, sol) => Ok (plain_vec times, map plain_vec sol) | Err e => Err e | OutOfFuel => OutOfFuel end.
Definition plain_tspan (ts : tspan D) : tspan K := match ts with TTensor l => TTensor (plain_vec l) | TList l => TList (plain_vec l) end.

(** The values of F do not depend on derivatives; they are those of f. *)
Definition values_of (F : D -> vec D -> vec D) (f : K -> vec K -> vec K) : Prop :=
  forall t X, plain_vec (F t X) = f (plain t) (plain_vec X).

(** The same solver object used with and without gradients *)
Inductive same_solver : solver D (vec D) -> solver K (vec K) -> Prop :=
| ss_euler : same_solver (Euler D) (Euler K)
| ss_midpoint : same_solver (Midpoint D) (Midpoint K)
| ss_rk4 : same_solver (RungeKutta4 D) (RungeKutta4 K)
| ss_alf a : same_solver (AsynchronousLeapfrog D a) (AsynchronousLeapfrog K a)
| ss_dopri5 : same_solver (DormandPrince45 D) (DormandPrince45 K)
| ss_tsit5 : same_solver (Tsitouras45 D) (Tsitouras45 K)
| ss_hyper_euler G g : values_of G g -> same_solver (HyperEuler G) (HyperEuler g)
| ss_hyper_midpoint G g : values_of G g -> same_solver (HyperMidpoint G) (HyperMidpoint g)
| ss_hyper_rk4 G g : values_of G g -> same_solver (HyperRungeKutta4 G) (HyperRungeKutta4 g).
Definition same_event (c : callback D) (d : callback K) : Prop :=
  (forall t X, check_event c t X = check_event d (plain t) (plain_vec X)) /\ values_of (jump_map c) (jump_map d).

Definition rp (a : D) (b : K) : Prop := plain a = b.
Lemma rp_related : related D K rp.
Proof. constructor; unfold rp, plain; intros; subst; reflexivity. Qed.
Lemma rp_vec X x : Forall2 rp X x <-> plain_vec X = x.
Proof.
  unfold plain_vec. revert x. induction X as [|a X IH]; intros x; cbn [map]; split; intros H.
  - now inversion H. - subst. constructor.
  - inversion H as [|? b ? y Hb Hy]; subst. apply IH in Hy. unfold rp in Hb. now rewrite Hb, Hy.
  - destruct x as [|b y]; [discriminate|]. injection H as H1 H2. constructor; [exact H1|now apply IH].
Qed.
Lemma rp_vec' X : Forall2 rp X (plain_vec X).
Proof. now apply rp_vec. Qed.
Lemma rp_field F f : values_of F f -> rel_field rp (Forall2 rp) F f.
Proof. intros H t t' x x' Ht Hx. apply rp_vec in Hx. apply rp_vec. unfold rp in Ht. subst. apply H. Qed.
Lemma rp_solver s s' : same_solver s s' -> rel_solver rp s s'.
Proof.
  intros H. destruct H; apply (mk_rel rp rp_related).
  - apply (euler_rel rp rp_related). - apply (midpoint_rel rp rp_related). - apply (rk4_rel rp rp_related). - apply (alf_rel rp rp_related).
  - apply (erk7_rel rp rp_related), (dopri5_tab rp rp_related). - apply (erk7_rel rp rp_related), (tsit5_tab rp rp_related).
  - apply (hyper_rel rp rp_related); [apply (euler_rel rp rp_related)|now apply rp_field].
  - apply (hyper_rel rp rp_related); [apply (midpoint_rel rp rp_related)|now apply rp_field].
  - apply (hyper_rel rp rp_related); [apply (rk4_rel rp rp_related)|now apply rp_field].
Qed.
Lemma rp_out a b : rel_m rp (Forall2 rp) (rel_pair (Forall2 rp) (Forall2 (Forall2 rp))) a b -> plain_calls (fst a) = fst b /\ plain_res (snd a) = snd b.
Proof.
  intros [H1 H2]. split.
  - unfold plain_calls. induction H1 as [|c d l l' [Hc Hd] _ IH]; cbn [map]; [reflexivity|]. rewrite IH. destruct d as [t x]. cbn [fst snd] in *.
    apply rp_vec in Hd. unfold rp in Hc. subst. reflexivity.
  - destruct (snd a) as [[ts sol]| |], (snd b) as [[ts' sol']| |]; cbn in *; try contradiction; [|now subst|reflexivity].
    destruct H2 as [Ht Hs]. cbn in *. apply rp_vec in Ht. do 2 f_equal; [exact Ht|]. induction Hs as [|u v l l' Hu _ IH]; cbn; [reflexivity|].
    apply rp_vec in Hu. now rewrite Hu, IH.
Qed.
Lemma rp_tspan ts : rel_tspan rp ts (plain_tspan ts).
Proof. destruct ts; cbn; apply rp_vec'. Qed.
Lemma rp_event c d : same_event c d -> rel_cb rp c d.
Proof.
  intros [H1 H2]. split; [|now apply rp_field]. intros t t' x x' Ht Hx. apply rp_vec in Hx. unfold rp in Ht. subst. apply H1.
Qed.
End Plain.

(** C148.  [odeint] with any solver, options and grid, in any arithmetic: with gradients recorded the solve returns the same times
    and states, or raises the same exception, and calls the vector field at the same points. *)
Lemma C148_odeint_pf :
  forall (K : NumOps) fuel (F : DualOps K -> vec (DualOps K) -> vec (DualOps K)) (f : K -> vec K -> vec K) X ts sd s atol rtol interp all save_at semi,
  values_of F f -> same_solver sd s ->
  let with_grad := odeint_autograd fuel F X ts sd atol rtol interp all save_at semi in
  let without := odeint fuel f (plain_vec X) (plain_tspan ts) s (plain atol) (plain rtol) interp all (plain_vec save_at) semi in
  plain_res (snd with_grad) = snd without /\ plain_calls (fst with_grad) = fst without.
Proof.
  intros K fuel F f X ts sd s atol rtol interp all sv semi HF Hs a b. apply and_comm. apply rp_out. unfold a, b, odeint_autograd.
  apply (odeint_rel rp rp_related); auto; try apply rp_vec'; try reflexivity; [now apply rp_field|apply rp_tspan|now apply rp_solver].
Qed.

(** C148 for hybrid solves *)
Lemma C148_hybrid_pf :
  forall (K : NumOps) fuel (F : DualOps K -> vec (DualOps K) -> vec (DualOps K)) (f : K -> vec K -> vec K) X ts j_span sd s cbd cbs atol rtol etol jump_first semi,
  values_of F f -> same_solver sd s -> Forall2 same_event cbd cbs ->
  let with_grad := odeint_hybrid_autograd fuel F X ts j_span sd cbd atol rtol etol jump_first semi in
  let without := odeint_hybrid fuel f (plain_vec X) (plain_vec ts) j_span s cbs (plain atol) (plain rtol) (plain etol) jump_first semi in
  plain_res (snd with_grad) = snd without /\ plain_calls (fst with_grad) = fst without.
Proof.
  intros K fuel F f X ts j sd s cbd cbs atol rtol etol jf semi HF Hs Hc a b. apply and_comm. apply rp_out. unfold a, b, odeint_hybrid_autograd.
  apply (hybrid_rel rp rp_related); auto; try apply rp_vec'; try reflexivity.
  - intros u v Huv. apply rp_vec in Huv. apply rp_vec. subst v. unfold detv, plain_vec. rewrite map_map. reflexivity.
  - now apply rp_field. - now apply rp_solver.
  - induction Hc; constructor; auto. now apply rp_event.
Qed.

(** Double precision, dopri5: the field theta x with a derivative in theta and the event "x > 2, halve x" meet the hypotheses of
    C148, and the solve returns. *)
Lemma C148_ex_pf : forall pw : float -> float -> float,
  let D := DualOps (FloatOps pw) in
  let F := fun (_ : D) (X : vec D) => map (@nmul D (0.5, 1)%float) X in
  let f := fun (_ : FloatOps pw) (x : vec (FloatOps pw)) => map (@nmul (FloatOps pw) 0.5%float) x in
  values_of F f /\ same_solver (DormandPrince45 D) (DormandPrince45 (FloatOps pw)) /\
  same_event (@MkCb D (fun _ X => PrimFloat.ltb 2 (fst (hd (0, 0)%float X))) (fun _ X => map (@nmul D (0.5, 0)%float) X))
             (@MkCb (FloatOps pw) (fun _ x => PrimFloat.ltb 2 (hd 0%float x)) (fun _ x => map (@nmul (FloatOps pw) 0.5%float) x)) /\
  snd (@odeint (FloatOps pw) 40 (fun _ _ => [0%float]) [1%float] (@TTensor (FloatOps pw) [0%float; 1%float]) (DormandPrince45 (FloatOps pw)) 0.001%float 0.001%float false false [] None)
    = Ok ([0%float; 1%float], [[1%float]; [1%float]]).
Proof.
  intros pw D F f. split; [|split; [constructor|split; [split|]]].
  - intros t X. unfold F, f, plain_vec. rewrite !map_map. apply map_ext. reflexivity.
  - intros t X. cbn. destruct X; reflexivity.
  - intros t X. unfold plain_vec. cbn [jump_map]. rewrite !map_map. apply map_ext. reflexivity.
  - vm_compute. reflexivity.
Qed.
