(** Derivatives computed by autograd through solves with the asynchronous leapfrog method. *)
From Coq Require Import ZArith QArith Qreals Reals Lra Lia List Bool.
From Verif Require Import Num Py Tensor M_Constants M_SolversOde M_Utils M_Interp M_Odeint M_Autograd.
From Verif Require Import Spec_Autograd.
From Verif Require Import L_Base L_Nan Pf_Autograd.
Import ListNotations.
Local Notation length := List.length.
Local Open Scope R_scope.

Lemma nth_firstn_d {A} (d : A) : forall n i l, (i < n)%nat -> nth i (firstn n l) d = nth i l d.
Proof. induction n as [|n IH]; intros [|i] [|a l] H; cbn; try lia; auto. apply IH. lia. Qed.
Lemma nth_skipn_d {A} (d : A) : forall n i l, nth i (skipn n l) d = nth (n + i) l d.
Proof. induction n as [|n IH]; intros i [|a l]; cbn; auto. now destruct i. Qed.

Lemma tv_firstn n m A a : tracks_vec (n + m) A a -> tracks_vec n (firstn n A) (fun e => firstn n (a e)).
Proof.
  intros (L1 & L2 & H). split; [rewrite firstn_length; lia|]. split; [intros e; rewrite firstn_length, L2; lia|].
  intros i Hi. rewrite nth_firstn_d by lia. apply (tr_ext _ (fun e => nth i (a e) 0)); [|apply H; lia].
  intros e. now rewrite nth_firstn_d by lia.
Qed.
Lemma tv_skipn n m A a : tracks_vec (n + m) A a -> tracks_vec m (skipn n A) (fun e => skipn n (a e)).
Proof.
  intros (L1 & L2 & H). split; [rewrite skipn_length; lia|]. split; [intros e; rewrite skipn_length, L2; lia|].
  intros i Hi. rewrite nth_skipn_d. apply (tr_ext _ (fun e => nth (n + i) (a e) 0)); [|apply H; lia].
  intros e. now rewrite nth_skipn_d.
Qed.
Lemma tv_app n m A B a b : tracks_vec n A a -> tracks_vec m B b -> tracks_vec (n + m) (A ++ B) (fun e => a e ++ b e).
Proof.
  intros (L1 & L2 & H) (L3 & L4 & H'). split; [rewrite app_length; lia|]. split; [intros e; rewrite app_length, L2, L4; lia|].
  intros i Hi. destruct (Nat.lt_ge_cases i n) as [Hl|Hl].
  - rewrite app_nth1 by lia. apply (tr_ext _ (fun e => nth i (a e) 0)); [|now apply H].
    intros e. symmetry. apply app_nth1. now rewrite L2.
  - rewrite app_nth2 by lia. apply (tr_ext _ (fun e => nth (i - n) (b e) 0)); [|rewrite L1; apply H'; lia].
    intros e. rewrite app_nth2 by (rewrite L2; lia). now rewrite L2.
Qed.

(** One step: the state is (x, v), the field is called with x only *)
Lemma step_alf_tracks n F f : tracks_field n F f -> tracks_step_at (n + n) (@alf_step DR false) (fun _ => @alf_step ROps false) F f.
Proof.
  intros HF X x t h HX. pose proof HX as (L1 & L2 & _).
  assert (Hh : Nat.div (n + n) 2 = n) by (replace (n + n)%nat with (n * 2)%nat by lia; apply Nat.div_mul; lia).
  pose proof (tv_firstn n n X x HX) as Hx. pose proof (tv_skipn n n X x HX) as Hv.
  unfold alf_step. do 2 eexists. split; [|split].
  - change (num DR) with (R * R)%type. rewrite L1, Hh. cbv [first_stage mbind call mret fst snd app]. reflexivity.
  - intros e. change (num ROps) with R. rewrite L2, Hh. cbv [first_stage mbind call mret fst snd app]. reflexivity.
  - cbv beta. apply tv_app; repeat first [eassumption | apply tv_add | apply tv_sub | (apply tv_scale; [tval; reflexivity|]) | (eapply tv_call; [eassumption|tval; reflexivity|])].
Qed.

Lemma prep_tracks n F f ts : tracks_field n F f ->
  (exists er, @prep_time DR F (@TTensor DR (map c0 ts)) = Err er /\ forall e, @prep_time ROps (f e) (@TTensor ROps ts) = Err er) \/
  exists F' f' ts', tracks_field n F' f' /\ @prep_time DR F (@TTensor DR (map c0 ts)) = Ok (F', map c0 ts') /\
    forall e, @prep_time ROps (f e) (@TTensor ROps ts) = Ok (f' e, ts').
Proof.
  intros HF. unfold prep_time. cbn [ts_list]. rewrite !pyget_map. unfold pyget. destruct ts as [|t0 [|t1 ts]]; cbn [nth_error rmap rbind].
  - left. exists IndexError. auto.
  - left. exists IndexError. auto.
  - right. change (@nltb DR (t1, 0) (t0, 0)) with (Rltb t1 t0). change (@nltb ROps) with Rltb. destruct (Rltb t1 t0).
    + exists (@neg_field DR F), (fun e => @neg_field ROps (f e)), (map Ropp (t0 :: t1 :: ts)). split; [now apply neg_tracks|].
      split; [|reflexivity]. rewrite map_map. do 2 f_equal. rewrite map_map. apply map_ext. intros a. apply t_opp.
    + exists F, f, (t0 :: t1 :: ts). split; [exact HF|]. split; reflexivity.
Qed.

(** C162.  odeint_symplectic with the leapfrog solver, any order attribute of the field, any grid, any save_at: if autograd
    differentiates the field correctly in position and parameter, and the initial position and velocity are given with their
    derivatives, the derivatives of the returned states that autograd computes are the derivatives of the returned states; if the
    call raises, it raises the same exception with and without derivatives. *)
Lemma C162_symplectic_pf :
  forall fuel fuel' n (order : option nat) F f X x ts save_at atol rtol atol' rtol' all,
  tracks_field n F f -> tracks_vec (n + n) X x ->
  tracks_solve (n + n)
    (snd (@odeint_symplectic DR fuel F order X (@TTensor DR (map (fun t => (t, 0)) ts)) (AsynchronousLeapfrog DR false) true atol' rtol' all
       (map (fun t => (t, 0)) save_at)))
    (fun e => snd (@odeint_symplectic ROps fuel' (f e) order (x e) (@TTensor ROps ts) (AsynchronousLeapfrog ROps false) true atol rtol all save_at)).
Proof.
  intros fuel fuel' n order F f X x ts sv atol rtol atol' rtol' all HF HX. unfold odeint_symplectic.
  destruct (prep_tracks n F f ts HF) as [(er & P1 & P2)|(F' & f' & ts' & HF' & P1 & P2)].
  - right. exists er. split.
    + rewrite snd_mbind, snd_mlift. exact (f_equal (fun r => rbind r _) P1).
    + intros e. rewrite snd_mbind, snd_mlift. exact (f_equal (fun r => rbind r _) (P2 e)).
  - assert (Q : forall (o : option nat), o = None \/ o = Some 2%nat -> tracks_solve (n + n)
      (snd (@odeint_symplectic DR fuel F o X (@TTensor DR (map (fun t => (t, 0)) ts)) (AsynchronousLeapfrog DR false) true atol' rtol' all
       (map (fun t => (t, 0)) sv)))
      (fun e => snd (@odeint_symplectic ROps fuel' (f e) o (x e) (@TTensor ROps ts) (AsynchronousLeapfrog ROps false) true atol rtol all sv))).
    { intros o Ho. right. exists RuntimeError. unfold odeint_symplectic. split.
      - rewrite snd_mbind, snd_mlift. refine (eq_trans (f_equal (fun r => rbind r _) P1) _). destruct Ho as [-> | ->]; reflexivity.
      - intros e. rewrite snd_mbind, snd_mlift. refine (eq_trans (f_equal (fun r => rbind r _) (P2 e)) _). destruct Ho as [-> | ->]; reflexivity. }
    destruct order as [o|]; [|apply (Q None); auto].
    destruct (Nat.eq_dec o 2) as [->|Ho]; [apply (Q (Some 2%nat)); auto|]. clear Q.
    assert (Eo : (o =? 2)%nat = false) by now apply Nat.eqb_neq.
    destruct (fixed_odeint_tracks_at (n + n) _ _ F' f' X x ts' sv (step_alf_tracks n F' f' HF') HX) as [(times & A & a & G1 & G2 & G3)|(er & G1 & G2)].
    + left. exists times, A, a. split; [|split; [|exact G3]].
      * rewrite snd_mbind, snd_mlift. refine (eq_trans (f_equal (fun r => rbind r _) P1) _). cbn [rbind]. rewrite Eo. exact G1.
      * intros e. rewrite snd_mbind, snd_mlift. refine (eq_trans (f_equal (fun r => rbind r _) (P2 e)) _). cbn [rbind]. rewrite Eo. exact (G2 e).
    + right. exists er. split.
      * rewrite snd_mbind, snd_mlift. refine (eq_trans (f_equal (fun r => rbind r _) P1) _). cbn [rbind]. rewrite Eo. exact G1.
      * intros e. rewrite snd_mbind, snd_mlift. refine (eq_trans (f_equal (fun r => rbind r _) (P2 e)) _). cbn [rbind]. rewrite Eo. exact (G2 e).
Qed.

(** C162 for odeint with the leapfrog solver, called with the augmented state. *)
Lemma C162_odeint_pf :
  forall fuel fuel' n F f X x ts save_at atol rtol atol' rtol' interp all semi,
  tracks_field n F f -> tracks_vec (n + n) X x ->
  tracks_solve (n + n)
    (snd (@odeint_autograd ROps fuel F X (@TTensor DR (map (fun t => (t, 0)) ts)) (AsynchronousLeapfrog DR false) atol' rtol' interp all
       (map (fun t => (t, 0)) save_at) semi))
    (fun e => snd (@odeint ROps fuel' (f e) (x e) (@TTensor ROps ts) (AsynchronousLeapfrog ROps false) atol rtol interp all save_at semi)).
Proof.
  intros fuel fuel' n F f X x ts sv atol rtol atol' rtol' interp all semi HF HX. unfold odeint_autograd, odeint_ad, odeint.
  destruct (prep_tracks n F f ts HF) as [(er & P1 & P2)|(F' & f' & ts' & HF' & P1 & P2)].
  - right. exists er. split.
    + rewrite snd_mbind, snd_mlift. exact (f_equal (fun r => rbind r _) P1).
    + intros e. rewrite snd_mbind, snd_mlift. exact (f_equal (fun r => rbind r _) (P2 e)).
  - destruct (fixed_odeint_tracks_at (n + n) _ _ F' f' X x ts' sv (step_alf_tracks n F' f' HF') HX) as [(times & A & a & G1 & G2 & G3)|(er & G1 & G2)].
    + left. exists times, A, a. split; [|split; [|exact G3]].
      * rewrite snd_mbind, snd_mlift. refine (eq_trans (f_equal (fun r => rbind r _) P1) _). exact G1.
      * intros e. rewrite snd_mbind, snd_mlift. refine (eq_trans (f_equal (fun r => rbind r _) (P2 e)) _). exact (G2 e).
    + right. exists er. split.
      * rewrite snd_mbind, snd_mlift. refine (eq_trans (f_equal (fun r => rbind r _) P1) _). exact G1.
      * intros e. rewrite snd_mbind, snd_mlift. refine (eq_trans (f_equal (fun r => rbind r _) (P2 e)) _). exact (G2 e).
Qed.

(** C162, the usual start: the velocity is the field at the initial position.  Position and velocity with their derivatives then meet
    the hypothesis of C162. *)
Lemma C162_start_pf :
  forall n F f X x t, tracks_field n F f -> tracks_vec n X x -> tracks_vec (n + n) (X ++ F (t, 0) X) (fun e => x e ++ f e t (x e)).
Proof. intros n F f X x t HF HX. apply tv_app; [exact HX|]. now apply (HF t X x). Qed.

(** The field (1 + e) x from position 2 + e *)
Lemma C162_ex_pf :
  let F := fun (_ : R * R) (Y : list (R * R)) => map (@nmul DR (1, 1)) Y in
  let f := fun (e _ : R) (y : list R) => map (Rmult (1 + e)) y in
  tracks_field 1 F f /\ tracks_vec (1 + 1) [(2, 1); (2, 3)] (fun e => [2 + e; (1 + e) * (2 + e)]).
Proof.
  cbv zeta. destruct C143_ex_pf as (HF & HX & _). cbv zeta in HF, HX. split; [exact HF|].
  pose proof (C162_start_pf 1 _ _ _ _ 0 HF HX) as H. cbn [map app] in H.
  replace (@nmul DR (1, 1) (2, 1)) with ((2, 3) : R * R) in H; [exact H|].
  cbn. apply injective_projections; cbn; lra.
Qed.
