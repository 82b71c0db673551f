(** Lemmas on the SDE solvers. *)
From Coq Require Import ZArith QArith Qreals Reals Lra Lia String List Bool.
From Verif Require Import Num Py Tensor M_SolversOde M_Odeint M_Sde Spec_Ode Spec_Sde L_Base L_Fixed L_Fixed2 L_Vec L_Conv L_MS.
Import ListNotations.
Local Open Scope R_scope.
Notation length := List.length.

Definition adapt (step : rvec -> R -> R -> rvec) : @step_fun ROps rvec :=
  fun _ x t dt _ => ([], Ok (Ret3 None (step x t dt) None)).

Lemma sde_loop_fixed step ts sv : forall n k x t dt sol,
  @sde_loop ROps step ts sv n k x t dt sol = snd (@fixed_loop ROps rvec (fun _ y => y) (adapt step) ts sv n k x t dt sol).
Proof.
  induction n as [|n IH]; intros k x t dt sol; [reflexivity|].
  cbn [sde_loop fixed_loop]. unfold adapt at 1. rewrite mbind_Ok. cbn [snd].
  destruct (Nat.ltb k (length ts - 1)).
  - unfold pyget. destruct (nth_error ts (k + 1)) as [tn|]; cbn [rbind]; [|reflexivity].
    unfold mlift, mret. rewrite !mbind_Ok. cbn [snd]. apply IH.
  - unfold mret. rewrite mbind_Ok. cbn [rbind snd]. apply IH.
Qed.

Lemma adapt_stepper step : fixed_stepper (adapt step) (fun _ y => y) (fun t h x => step x t h) (fun _ _ _ => []).
Proof. intros x t dt. exists None, None. reflexivity. Qed.

Lemma saved_eta {A B} (sv : B) (l : list A) :
  match l with [] => Err IndexError | _ :: _ => Ok (sv, l) end = match l with [] => Err IndexError | a :: l' => Ok (sv, a :: l') end.
Proof. destruct l; reflexivity. Qed.

(** complete description of the driver *)
Lemma fixed_sdeint_full step x t0 t1 ts sv :
  @fixed_sdeint ROps x (t0 :: t1 :: ts) step sv =
  match select sv (t0 :: t1 :: ts) (one_step_traj (fun t h x => step x t h) x (t0 :: t1 :: ts)) with
  | [] => Err IndexError
  | l => Ok (sv, l)
  end.
Proof.
  unfold fixed_sdeint. cbn [pyget nth_error rbind]. unfold pylast.
  destruct (rev (t0 :: t1 :: ts)) as [|z zs] eqn:Er.
  { apply (f_equal (@length R)) in Er. rewrite rev_length in Er. discriminate. }
  cbn [rbind]. rewrite sde_loop_fixed. cbn [length]. rewrite Nat.sub_1_r. cbn [Nat.pred].
  pose proof (fixed_loop_spec (fun _ y => y) (adapt step) _ _ (adapt_stepper step) sv (t1 :: ts) [] t0 x
    (if Nat.eqb (@isclose_count ROps t0 sv) 0 then [] else [x]) (t1 - t0)) as H.
  cbn [app length] in H. 
  assert (H' := H ltac:(intros a l [= -> _]; reflexivity)). clear H.
  change (@nsub ROps t1 t0) with (t1 - t0).
  etransitivity; [apply (f_equal (fun p => rbind (snd p) _)); exact H'|]. cbn [snd rbind].
  set (T := one_step_traj (fun t h x => step x t h) (step x t0 (t1 - t0)) (t1 :: ts)).
  change (one_step_traj (fun t h x => step x t h) x (t0 :: t1 :: ts)) with (x :: T). cbn [tl].
  change (select sv (t0 :: t1 :: ts) (x :: T)) with
    (if Nat.eqb (@isclose_count ROps t0 sv) 0 then select sv (t1 :: ts) T else x :: select sv (t1 :: ts) T).
  destruct (Nat.eqb (@isclose_count ROps t0 sv) 0); cbn [app]; [|reflexivity].
  exact (saved_eta sv (select sv (t1 :: ts) T)).
Qed.

Lemma select_all {X} sv : forall ts (xs : list X), length xs = length ts -> (forall t, In t ts -> In t sv) -> select sv ts xs = xs.
Proof.
  induction ts as [|t ts IH]; intros [|x xs] Hl Hi; try discriminate; [reflexivity|]. cbn [select].
  destruct (Nat.eqb_spec (@isclose_count ROps t sv) 0) as [E|E].
  - exfalso. pose proof (proj1 (isclose_count_zero t sv) E t (Hi t (or_introl eq_refl))) as Hc. apply Hc.
    unfold close_to. replace (t - t) with 0 by ring. rewrite Rabs_R0. pose proof (Rabs_pos t). lra.
  - f_equal. apply IH; [now injection Hl|]. intros; apply Hi; now right.
Qed.

(** componentwise reading of vector operations *)
Lemma comp_vadd n a b i : length a = n -> length b = n -> (i < n)%nat -> comp (@vadd ROps a b) i = comp a i + comp b i.
Proof.
  unfold comp, vadd. rops. revert a b i. induction n as [|n IH]; intros [|x a] [|y b] [|i] Ha Hb Hi; try discriminate; try lia; [reflexivity|].
  cbn. apply IH; auto; lia.
Qed.
Lemma comp_vsub n a b i : length a = n -> length b = n -> (i < n)%nat -> comp (@vsub ROps a b) i = comp a i - comp b i.
Proof.
  unfold comp, vsub. rops. revert a b i. induction n as [|n IH]; intros [|x a] [|y b] [|i] Ha Hb Hi; try discriminate; try lia; [reflexivity|].
  cbn. apply IH; auto; lia.
Qed.
Lemma comp_vmul n a b i : length a = n -> length b = n -> (i < n)%nat -> comp (@vmul ROps a b) i = comp a i * comp b i.
Proof.
  unfold comp, vmul. rops. revert a b i. induction n as [|n IH]; intros [|x a] [|y b] [|i] Ha Hb Hi; try discriminate; try lia; [reflexivity|].
  cbn. apply IH; auto; lia.
Qed.
Lemma comp_map n (h : R -> R) a i : length a = n -> (i < n)%nat -> comp (map h a) i = h (comp a i).
Proof.
  unfold comp. revert a i. induction n as [|n IH]; intros [|x a] [|i] Ha Hi; try discriminate; try lia; [reflexivity|].
  cbn. apply IH; auto; lia.
Qed.
Lemma vmul_len n (a b : rvec) : length a = n -> length b = n -> length (@vmul ROps a b) = n.
Proof.
  unfold vmul. revert a b. induction n as [|n IH]; intros [|x a] [|y b] Ha Hb; try discriminate; [reflexivity|].
  cbn. f_equal. apply IH; auto.
Qed.
Lemma vsub_len' n (a b : rvec) : length a = n -> length b = n -> length (@vsub ROps a b) = n.
Proof. intros Ha Hb. rewrite map2_vsub_list. now apply sub_len. Qed.
Lemma vadd_len' n (a b : rvec) : length a = n -> length b = n -> length (@vadd ROps a b) = n.
Proof. intros Ha Hb. rewrite map2_vadd_list. now apply add_len. Qed.
Lemma vscale_len' n c (a : rvec) : length a = n -> length (@vscale ROps c a) = n.
Proof. intros Ha. unfold vscale. now rewrite map_length. Qed.
