(** Derivatives computed by autograd through events. *)
From Coq Require Import ZArith QArith Qreals Reals Lra Lia List Bool Floats.
From Verif Require Import Num Py Tensor M_Constants M_SolversOde M_Utils M_Interp M_Odeint M_Autograd.
From Verif Require Import Spec_Ode Spec_Trees Spec_RK Spec_Autograd.
From Verif Require Import L_Base L_Fixed L_Vec L_Steps L_Steps2 L_Tables L_Fixed2 L_Utils L_Nan Pf_Fixed Pf_Hybrid Pf_Autograd.
Import ListNotations.
Local Notation length := List.length.
Local Open Scope R_scope.

(** Numbers with a real value: the reals, and the reals with derivatives. *)
Record valued (K : NumOps) (val : K -> R) (e : R -> K) (dk : K -> K) (d1 : K -> K) : Prop := {
  v_e : forall a, val (e a) = a;
  v_ltb : forall a b, nltb a b = Rltb (val a) (val b);
  v_leb : forall a b, nleb a b = Rleb (val a) (val b);
  v_eqb : forall a b, neqb a b = Reqb (val a) (val b);
  v_Q : forall q, nQ q = e (Q2R q);
  v_add : forall a b, nadd (e a) (e b) = e (a + b);
  v_sub : forall a b, nsub (e a) (e b) = e (a - b);
  v_mul : forall a b, nmul (e a) (e b) = e (a * b);
  v_div2 : forall a, ndiv (e a) (e 2) = e (a / 2);
  v_max : forall a b, nmax (e a) (e b) = e (Rmax a b);
  v_min : forall a b, nmin (e a) (e b) = e (Rmin a b);
  v_z_mul : forall c, nmul c (e 0) = e 0;
  v_z_add : forall c, nadd c (e 0) = c;
  v_vadd : forall a b, val (nadd a b) = val a + val b;
  v_vmul : forall a b, val (nmul a b) = val a * val b;
  v_vdiv : forall a b, val (ndiv a b) = val a / val b;
  v_vabs : forall a, val (nabs a) = Rabs (val a);
  v_vsqrt : forall a, val (nsqrt a) = R_sqrt.sqrt (val a);
  v_dk : forall a, dk (e a) = e a;
  v_d1 : forall a, val (d1 a) = val a;
  v_d1e : forall a, d1 (e a) = e a }.

Lemma valued_R : valued ROps (fun a => a) (fun a => a) (fun a => a) (fun a => a).
Proof. constructor; intros; cbn; try reflexivity; lra. Qed.

Lemma valued_D : valued (DualOps ROps) fst (fun a => (a, 0)) det det.
Proof.
  assert (D : forall a b c d, dpick ROps (a, 0) (b, 0) c d = 0).
  { intros a b c d. unfold dpick. cbn [snd]. destruct c; [reflexivity|]. destruct d; [reflexivity|]. cbn. ring. }
  constructor; intros; cbn; try reflexivity; unfold det, cst; cbn [fst]; 
    try (f_equal; first [apply D | exact nQ0 | ring | unfold Rdiv; ring]).
  destruct c. cbn. f_equal; ring.
Qed.

Section Run.
Context (K : NumOps) (val : K -> R) (e : R -> K) (dk d1 : K -> K) (HV : valued K val e dk d1).
Context (dv : vec K -> vec K) (Hdv : forall Y, dv [Y] = [d1 Y]).
Local Notation z := (e 0).

Lemma ltb_e a b : nltb (e a) (e b) = Rltb a b.
Proof. now rewrite (v_ltb _ _ _ _ _ HV), !(v_e _ _ _ _ _ HV). Qed.
Lemma zero_step X t h k : k = None \/ k = Some [z] -> exists st,
  snd (@dopri5_step K (fun _ _ => [z]) [X] t h k) = Ok (Ret4 [z] [X] [z] st).
Proof.
  intros Hk. eexists. unfold dopri5_step, erk7_step. 
  assert (E : snd (@first_stage K (vec K) (fun _ _ => [z]) [X] t k) = Ok [z]) by (destruct Hk as [-> | ->]; reflexivity).
  refine (eq_trans (snd_bind_ok _ _ _ E) _). unfold call. rewrite !mbind_Ok. cbn [snd mret].
  cbv [vadd vscale map2 map]. rewrite !(v_z_mul _ _ _ _ _ HV), !(v_z_add _ _ _ _ _ HV), !(v_z_mul _ _ _ _ _ HV), !(v_z_add _ _ _ _ _ HV). reflexivity.
Qed.

Lemma hairer_z s : val (hairer_norm [ndiv z s]) = 0.
Proof.
  unfold hairer_norm, vmean, vsum. cbn [map fold_left].
  rewrite (v_vsqrt _ _ _ _ _ HV), (v_vdiv _ _ _ _ _ HV), (v_vadd _ _ _ _ _ HV), (v_vmul _ _ _ _ _ HV), (v_vabs _ _ _ _ _ HV), (v_vdiv _ _ _ _ _ HV), !(v_e _ _ _ _ _ HV).
  rewrite (v_Q _ _ _ _ _ HV), (v_e _ _ _ _ _ HV).
  replace (0 / val s) with 0 by (unfold Rdiv; ring). rewrite Rabs_R0.
  replace (Q2R 0) with 0 by (unfold Q2R; cbn; lra).
  replace ((0 + 0 * 0) / _) with 0 by (unfold Rdiv; ring). apply R_sqrt.sqrt_0.
Qed.

Lemma q6 : Q2R (1 # 1000000) = / 1000000. Proof. unfold Q2R; cbn; lra. Qed.
Lemma zero_init X t atol rtol : snd (@init_step K (fun _ _ => [z]) [z] [X] t 5 atol rtol) = Ok (e (/ 1000000)).
Proof.
  unfold init_step. cbv zeta. cbn [map vdiv map2].
  assert (A : forall s, (hairer_norm [ndiv z s] <? nQ (1 # 100000))%N = true).
  { intros s. rewrite (v_ltb _ _ _ _ _ HV), hairer_z, (v_Q _ _ _ _ _ HV), (v_e _ _ _ _ _ HV). apply Rltb_true. unfold Q2R; cbn; lra. }
  assert (B : forall s, (hairer_norm [ndiv z s] <=? nQ (1 # 1000000000000000))%N = true).
  { intros s. rewrite (v_leb _ _ _ _ _ HV), hairer_z, (v_Q _ _ _ _ _ HV), (v_e _ _ _ _ _ HV). apply Rleb_true. unfold Q2R; cbn; lra. }
  unfold call. rewrite mbind_Ok. cbn [snd mret vsub vdiv map map2].
  rewrite A, orb_true_r, B. rewrite (v_sub _ _ _ _ _ HV). replace (0 - 0) with 0 by lra.
  rewrite (v_leb _ _ _ _ _ HV), (v_vdiv _ _ _ _ _ HV), hairer_z.
  replace (Rleb (0 / _) _) with true.
  2:{ symmetry. apply Rleb_true. rewrite (v_Q _ _ _ _ _ HV (1 # 1000000000000000)), (v_e _ _ _ _ _ HV). unfold Rdiv. rewrite Rmult_0_l. unfold Q2R; cbn; lra. }
  cbn [andb]. rewrite !(v_Q _ _ _ _ _ HV), !(v_mul _ _ _ _ _ HV), (v_max _ _ _ _ _ HV), (v_min _ _ _ _ _ HV). do 2 f_equal.
  rewrite q6. replace (Q2R 100) with 100 by (unfold Q2R; cbn; lra). replace (Q2R (1 # 1000)) with (/ 1000) by (unfold Q2R; cbn; lra).
  rewrite Rmax_left by lra. apply Rmin_right. lra.
Qed.

(** The event: the state is positive and t >= 6e-7; the state changes sign. *)
Definition flip : @callback K := MkCb (fun t x => (z <? hd z x)%N && (e (6 / 10000000) <=? t)%N) (fun _ x => map nopp x).

Section At.
Variables (X : K) (atol rtol etol : K).
Hypotheses (HX : 0 < val X) (He1 : / 2000000 <= val etol) (He2 : val etol < / 1000000).
Hypothesis Hopp : val (nopp (d1 X)) = - val X.

Lemma flag_at (Y : K) t : event_flags [flip] (e t) [Y] = [Rltb 0 (val Y) && Rleb (6 / 10000000) t].
Proof. unfold event_flags, flip. cbn [map check_event hd]. now rewrite (v_ltb _ _ _ _ _ HV), (v_leb _ _ _ _ _ HV), !(v_e _ _ _ _ _ HV). Qed.
Lemma flag_on (Y : K) t : 0 < val Y -> 6 / 10000000 <= t -> event_flags [flip] (e t) [Y] = [true].
Proof. intros H1 H2. rewrite flag_at, (proj2 (Rltb_true _ _) H1), (proj2 (Rleb_true _ _) H2). reflexivity. Qed.
Lemma flag_early (Y : K) t : t < 6 / 10000000 -> event_flags [flip] (e t) [Y] = [false].
Proof. intros H. rewrite flag_at, (proj2 (Rleb_false _ _) H), andb_false_r. reflexivity. Qed.
Lemma flag_neg (Y : K) t : val Y <= 0 -> event_flags [flip] (e t) [Y] = [false].
Proof. intros H. rewrite flag_at, (proj2 (Rltb_false _ _) H). reflexivity. Qed.

Lemma bisect_S n f s cbs es et dt ti di xi k1 fl : snd (@bisect_ad K dk dv (S n) f s cbs es et dt ti di xi k1 fl) =
  snd (if (et <? di)%N then
        r <- s_step s f xi ti (dk (di / nQ 2)%N) k1 ;;
        match r with
        | Ret3 _ _ _ => mraise ValueError
        | Ret4 f_new x_ _ _ =>
            if triggered (event_flags cbs (ti + dk (di / nQ 2))%N (dv x_)) es
            then bisect_ad dk dv n f s cbs es et dt ti (dk (di / nQ 2)%N) xi k1 (event_flags cbs (ti + dk (di / nQ 2))%N (dv x_))
            else bisect_ad dk dv n f s cbs es et dt (ti + dk (di / nQ 2))%N dt (dv x_) (Some (dv f_new)) (event_flags cbs (ti + dk (di / nQ 2))%N (dv x_))
        end
      else mret (ti, xi, k1, fl)).
Proof. reflexivity. Qed.

Lemma half a : dk (ndiv (e a) (nQ 2)) = e (a / 2).
Proof. rewrite (v_Q _ _ _ _ _ HV). replace (Q2R 2) with 2 by (unfold Q2R; cbn; lra). rewrite (v_div2 _ _ _ _ _ HV). apply (v_dk _ _ _ _ _ HV). Qed.

Lemma zero_bisect n : snd (@bisect_ad K dk dv (S (S (S n))) (fun _ _ => [z]) (@DormandPrince45 K) [flip] [false] etol (e (/ 1000000))
   z (e (/ 1000000)) [X] (Some [z]) [true]) = Ok (e (/ 2000000), [d1 X], Some [z], [true]).
Proof.
  rewrite bisect_S. rewrite (v_ltb _ _ _ _ _ HV), (v_e _ _ _ _ _ HV), (proj2 (Rltb_true _ _) He2). rewrite half.
  destruct (zero_step X z (e (/ 1000000 / 2)) (Some [z]) (or_intror eq_refl)) as (st & E).
  refine (eq_trans (snd_bind_ok _ _ _ E) _). cbv beta iota. rewrite !Hdv. rewrite (v_add _ _ _ _ _ HV), (v_d1e _ _ _ _ _ HV).
  replace (0 + / 1000000 / 2) with (/ 2000000) by lra.
  rewrite flag_early by lra. cbn [triggered map2 xorb negb andb count_true filter length Nat.ltb Nat.leb].
  change (triggered [false] [false]) with false. cbv iota.
  rewrite bisect_S. rewrite (v_ltb _ _ _ _ _ HV), (v_e _ _ _ _ _ HV), (proj2 (Rltb_true _ _) He2). rewrite half.
  destruct (zero_step (d1 X) (e (/ 2000000)) (e (/ 1000000 / 2)) (Some [z]) (or_intror eq_refl)) as (st2 & E2).
  refine (eq_trans (snd_bind_ok _ _ _ E2) _). cbv beta iota. rewrite !Hdv. rewrite (v_add _ _ _ _ _ HV).
  rewrite flag_on by (rewrite ?(v_d1 _ _ _ _ _ HV); lra). change (triggered [true] [false]) with true. cbv iota.
  rewrite bisect_S. rewrite (v_ltb _ _ _ _ _ HV), (v_e _ _ _ _ _ HV), (proj2 (Rltb_false _ _)) by lra. reflexivity.
Qed.

Definition P : @hparams K := MkHP (fun _ _ => [z]) (@DormandPrince45 K) [flip] (e (/ 1000000)) [e (/ 1000000)] atol rtol etol None.

Lemma first_iter : snd (@hybrid_iter_ad K dk dv P (MkH z (e (/ 1000000)) [X] (Some [z]) 0 None [z] [[X]])) =
  Ok (MkH (e (/ 2000000)) (e (/ 1000000)) [nopp (d1 X)] None 0 None [z; e (/ 2000000); e (/ 2000000)] [[X]; [d1 X]; [nopp (d1 X)]]).
Proof.
  unfold hybrid_iter_ad, hybrid_attempt, P. cbn [h_t h_dt h_x h_k1 h_ck h_old h_times h_sol hp_T hp_t_eval hp_cbs hp_f hp_solver hp_etol hp_atol hp_rtol hp_semi nth_error].
  rewrite (v_add _ _ _ _ _ HV), ltb_e. rewrite (proj2 (Rltb_false _ _)) by lra. cbv iota.
  rewrite (v_add _ _ _ _ _ HV), ltb_e. rewrite (proj2 (Rltb_false _ _)) by lra. cbv iota zeta.
  destruct (zero_step X z (e (/ 1000000)) (Some [z]) (or_intror eq_refl)) as (st & E).
  refine (eq_trans (snd_bind_ok _ _ _ E) _). cbv beta iota. rewrite (v_add _ _ _ _ _ HV).
  rewrite flag_on by lra. cbn [map]. change (triggered [true] [false]) with true. cbv iota.
  refine (eq_trans (snd_bind_ok _ _ _ (zero_bisect 97)) _). reflexivity.
Qed.

Lemma second_iter ts sol : exists dt', snd (@hybrid_iter_ad K dk dv P (MkH (e (/ 2000000)) (e (/ 1000000)) [nopp (d1 X)] None 0 None ts sol)) =
  Ok (MkH (e (/ 1000000)) dt' [nopp (d1 X)] (Some [z]) 0 None (ts ++ [e (/ 1000000)]) (sol ++ [[nopp (d1 X)]])).
Proof.
  eexists. unfold hybrid_iter_ad, hybrid_attempt, P. cbn [h_t h_dt h_x h_k1 h_ck h_old h_times h_sol hp_T hp_t_eval hp_cbs hp_f hp_solver hp_etol hp_atol hp_rtol hp_semi nth_error].
  rewrite (v_add _ _ _ _ _ HV), ltb_e. rewrite (proj2 (Rltb_true _ _)) by lra. cbv iota.
  rewrite (v_sub _ _ _ _ _ HV), (v_add _ _ _ _ _ HV), ltb_e. rewrite (proj2 (Rltb_false _ _)) by lra. cbv iota zeta.
  destruct (zero_step (nopp (d1 X)) (e (/ 2000000)) (e (/ 1000000 - / 2000000)) None (or_introl eq_refl)) as (st & E).
  refine (eq_trans (snd_bind_ok _ _ _ E) _). cbv beta iota. rewrite (v_add _ _ _ _ _ HV).
  rewrite flag_neg by lra. cbn [map]. change (triggered [false] [false]) with false. cbv iota.
  assert (A : (error_ratio atol rtol None [nopp (d1 X)] [nopp (d1 X)] [z] <=? n1)%N = true).
  { rewrite (v_leb _ _ _ _ _ HV). unfold error_ratio. cbn [vabs vmax map map2 vdiv]. rewrite hairer_z. rewrite (v_Q _ _ _ _ _ HV), (v_e _ _ _ _ _ HV).
    apply Rleb_true. unfold Q2R; cbn; lra. }
  rewrite A. cbn [snd mret]. replace (/ 2000000 + (/ 1000000 - / 2000000)) with (/ 1000000) by lra. reflexivity.
Qed.

Lemma run fuel : snd (@odeint_hybrid_ad K dk dv (S (S fuel)) (fun _ _ => [z]) [X] [z; e (/ 1000000)] 1 (@DormandPrince45 K) [flip]
    atol rtol etol false None) =
  Ok ([z; e (/ 2000000); e (/ 2000000); e (/ 1000000)], [[X]; [d1 X]; [nopp (d1 X)]; [nopp (d1 X)]]).
Proof.
  unfold odeint_hybrid_ad.
  etransitivity; [apply (snd_bind_ok _ _ z); reflexivity|].
  etransitivity; [apply (snd_bind_ok _ _ (e (/ 1000000))); reflexivity|]. cbv zeta.
  etransitivity; [apply (snd_bind_ok _ _ ([X], 0%nat)); reflexivity|]. cbv beta iota zeta.
  etransitivity; [apply (snd_bind_ok _ _ [z]); reflexivity|].
  etransitivity; [apply (snd_bind_ok _ _ (e (/ 1000000))); apply zero_init|]. 
  change (skipn 1 [z; e (/ 1000000)]) with [e (/ 1000000)]. fold P.
  cbn [hybrid_loop_ad h_t hp_T P]. change (hp_T P) with (e (/ 1000000)).
  rewrite (v_ltb _ _ _ _ _ HV), !(v_e _ _ _ _ _ HV). rewrite (proj2 (Rltb_true _ _)) by lra. cbn [andb Nat.ltb Nat.leb].
  refine (eq_trans (snd_bind_ok _ _ _ first_iter) _). cbn [h_t].
  rewrite (v_ltb _ _ _ _ _ HV), !(v_e _ _ _ _ _ HV). rewrite (proj2 (Rltb_true _ _)) by lra. cbn [andb Nat.ltb Nat.leb].
  destruct (second_iter [z; e (/ 2000000); e (/ 2000000)] [[X]; [d1 X]; [nopp (d1 X)]]) as (dt' & E).
  refine (eq_trans (snd_bind_ok _ _ _ E) _). destruct fuel; cbn [hybrid_loop_ad h_t h_times h_sol app];
  change (hp_T P) with (e (/ 1000000)); rewrite (v_ltb _ _ _ _ _ HV), !(v_e _ _ _ _ _ HV); rewrite (proj2 (Rltb_false _ _)) by lra; reflexivity.
Qed.
End At.
End Run.

Notation DR := (DualOps ROps).

Lemma hybrid_ad_id {K : NumOps} fuel f x ts js s cbs atol rtol etol jf semi :
  snd (@odeint_hybrid_ad K (fun a => a) (fun v => v) fuel f x ts js s cbs atol rtol etol jf semi) =
  snd (@odeint_hybrid K fuel f x ts js s cbs atol rtol etol jf semi).
Proof.
  unfold odeint_hybrid_ad, odeint_hybrid. repeat (apply snd_bind_ext; intros ?).
  match goal with |- snd (let '(_, _) := ?q in _) = _ => destruct q end.
  repeat (apply snd_bind_ext; intros ?). now rewrite hybrid_loop_ad_id.
Qed.

(** One iteration of the event loop as autograd sees it, over the reals *)
Definition hybrid_iter_autograd := @hybrid_iter_ad DR det detv.

Lemma bisect_detached n : forall f s cbs es et dt ti di xi k1 fl t' x' k' fl',
  snd (@bisect_ad DR det detv n f s cbs es et dt ti di xi k1 fl) = Ok (t', x', k', fl') ->
  snd t' = snd ti /\ (x' = xi \/ forall a, In a x' -> snd a = 0).
Proof.
  assert (Z : forall y a, In a (@detv ROps y) -> snd a = 0).
  { intros y a H. apply in_map_iff in H. destruct H as (b & <- & _). exact nQ0. }
  induction n as [|n IH]; intros f s cbs es et dt ti di xi k1 fl t' x' k' fl' H; cbn [bisect_ad] in H.
  { cbn in H. injection H as <- <- _ _. auto. }
  destruct (et <? di)%N; [|cbn in H; injection H as <- <- _ _; auto].
  apply mbind_inv_ok in H. destruct H as (r & _ & H). destruct r as [|fn xn xe st]; [discriminate|]. cbv zeta in H.
  destruct (triggered _ es).
  - apply IH in H. destruct H as [H1 H2]. auto.
  - apply IH in H. destruct H as [H1 H2]. split.
    + rewrite H1. transitivity (snd ti + @nQ ROps 0); [reflexivity|]. rewrite nQ0. apply Rplus_0_r.
    + right. destruct H2 as [-> | H2]; auto. apply Z.
Qed.

(** C144 (what the code does).  An iteration that finds an event: the event time carries the derivative of the time at which the
    step started, whatever the event depends on, and the state before the jump is the state at the start of the step or carries no
    derivative at all. *)
Lemma C144_event_detached_pf :
  forall p st st' h old ck fn xn xe stg,
  @hybrid_attempt DR p st = (h, old, ck) ->
  snd (s_step (hp_solver p) (hp_f p) (h_x st) (h_t st) h (h_k1 st)) = Ok (Ret4 fn xn xe stg) ->
  (exists cb, In cb (hp_cbs p) /\ check_event cb (@nadd DR (h_t st) h) xn = true) ->
  snd (hybrid_iter_autograd p st) = Ok st' ->
  exists t' x' cb, In cb (hp_cbs p) /\ h_times st' = h_times st ++ [t'; t'] /\ h_sol st' = h_sol st ++ [x'; jump_map cb t' x'] /\
    h_t st' = t' /\ h_x st' = jump_map cb t' x' /\
    snd t' = snd (h_t st) /\ (x' = h_x st \/ forall a, In a x' -> snd a = 0).
Proof.
  intros p st st' h old ck fn xn xe stg Ha Hs Hev H. unfold hybrid_iter_autograd, hybrid_iter_ad in H. rewrite Ha in H.
  rewrite (snd_bind_ok _ _ _ Hs) in H. cbv beta iota zeta in H.
  assert (T : triggered (@event_flags DR (hp_cbs p) (@nadd DR (h_t st) h) xn) (map (fun _ => false) (hp_cbs p)) = true).
  { clear H. unfold triggered, event_flags. apply Nat.ltb_lt. destruct Hev as (cb & Hin & Hc).
    induction (hp_cbs p) as [|c l IHl]; [destruct Hin|]. cbn [map map2]. unfold count_true. cbn [filter].
    destruct Hin as [-> | Hin].
    - rewrite Hc. cbn. lia.
    - specialize (IHl Hin). unfold count_true in IHl. destruct (check_event c _ xn); cbn [xorb negb andb length]; [lia|exact IHl]. }
  match type of H with snd (if ?c then _ else _) = _ => replace c with true in H by (symmetry; exact T) end.
  apply mbind_inv_ok in H. destruct H as ([[[t' x'] k'] fl'] & Hb & H). cbv beta iota zeta in H.
  apply mbind_inv_ok in H. destruct H as (i & _ & H). apply mbind_inv_ok in H. destruct H as (cb & Hcb & H). cbn in H. injection H as <-.
  cbn [h_times h_sol h_t h_x]. destruct (bisect_detached _ _ _ _ _ _ _ _ _ _ _ _ _ _ _ _ Hb) as [A B].
  exists t', x', cb. repeat split; auto.
  rewrite snd_mlift in Hcb. unfold pyget in Hcb. destruct (nth_error _ i) eqn:E; inversion Hcb; subst. eapply nth_error_In; eauto.
Qed.

(** C144 (REFUTED).  Zero vector field, event "x positive and t at least 6e-7", jump x -> -x, dopri5 on [0, 1e-6], any
    tolerances with 5e-7 <= event_tol < 1e-6: from every u > 0 the solve returns u, u, -u, -u; with the derivative v of u the
    computed derivatives are v, 0, 0, 0. *)
Lemma C144_run_pf :
  forall fuel u v atol rtol etol datol drtol detol, 0 < u -> / 2000000 <= etol < / 1000000 ->
  snd (@odeint_hybrid ROps (S (S fuel)) (fun _ _ => [0]) [u] [0; / 1000000] 1 (DormandPrince45 ROps)
         [@MkCb ROps (fun t x => Rltb 0 (hd 0 x) && Rleb (6 / 10000000) t) (fun _ x => map Ropp x)] atol rtol etol false None)
    = Ok ([0; / 2000000; / 2000000; / 1000000], [[u]; [u]; [- u]; [- u]]) /\
  snd (@odeint_hybrid_autograd ROps (S (S fuel)) (fun _ _ => [(0, 0)]) [(u, v)] [(0, 0); (/ 1000000, 0)] 1 (DormandPrince45 DR)
         [@MkCb DR (fun t x => Rltb 0 (fst (hd (0, 0) x)) && Rleb (6 / 10000000) (fst t)) (fun _ x => map (@nopp DR) x)]
         (atol, datol) (rtol, drtol) (etol, detol) false None)
    = Ok ([(0, 0); (/ 2000000, 0); (/ 2000000, 0); (/ 1000000, 0)], [[(u, v)]; [(u, 0)]; [(- u, 0)]; [(- u, 0)]]).
Proof.
  intros fuel u v atol rtol etol datol drtol detol Hu [H1 H2]. split.
  - pose proof (run ROps _ _ _ _ valued_R (fun v => v) (fun _ => eq_refl) u atol rtol etol Hu H1 H2 eq_refl fuel) as E.
    rewrite hybrid_ad_id in E. exact E.
  - pose proof (run DR _ _ _ _ valued_D detv (fun _ => eq_refl) (u, v) (atol, datol) (rtol, drtol) (etol, detol) Hu H1 H2 eq_refl fuel) as E.
    cbn [fst] in E. refine (eq_trans _ (eq_trans E _)); [reflexivity|].
    unfold det, cst. cbn. rewrite RMicromega.Q2R_0, Ropp_0. reflexivity.
Qed.

(** C144 (REFUTED), as a statement about derivatives: field, event and jump are differentiated correctly, and the derivatives of
    the returned states are not those of the states returned from x0 = exp(e) at e = 0 (the last state is -exp(e)). *)
Lemma C144_event_gradient_refuted_pf :
  exists F f X x (cbD : @callback DR) (cbR : @callback ROps) fuel ts etol,
  tracks_field 1 F f /\ tracks_vec 1 X x /\
  (forall (t : R) Y y, tracks_vec 1 Y y -> check_event cbD (t, 0) Y = check_event cbR t (y 0) /\
     tracks_vec 1 (jump_map cbD (t, 0) Y) (fun e => jump_map cbR t (y e))) /\
  (forall e, exists times s1 s2 s3 s4, snd (@odeint_hybrid ROps fuel (f e) (x e) ts 1 (DormandPrince45 ROps) [cbR] (/ 1000) (/ 1000) etol false None)
     = Ok (times, [s1; s2; s3; s4])) /\
  ~ tracks_solve 1
    (snd (@odeint_hybrid_autograd ROps fuel F X (map (fun t => (t, 0)) ts) 1 (DormandPrince45 DR) [cbD] (/ 1000, 0) (/ 1000, 0) (etol, 0) false None))
    (fun e => snd (@odeint_hybrid ROps fuel (f e) (x e) ts 1 (DormandPrince45 ROps) [cbR] (/ 1000) (/ 1000) etol false None)).
Proof.
  exists (fun _ _ => [(0, 0)]), (fun _ _ _ => [0]), [(1, 1)], (fun e => [exp e]),
    (@MkCb DR (fun t x => Rltb 0 (fst (hd (0, 0) x)) && Rleb (6 / 10000000) (fst t)) (fun _ x => map (@nopp DR) x)),
    (@MkCb ROps (fun t x => Rltb 0 (hd 0 x) && Rleb (6 / 10000000) t) (fun _ x => map Ropp x)),
    2%nat, [0; / 1000000], (/ 2000000).
  assert (E : forall e, 0 < exp e) by apply exp_pos.
  assert (H : / 2000000 <= / 2000000 < / 1000000) by lra.
  split; [|split; [|split; [|split]]].
  - intros t Y y _. split; [reflexivity|]. split; [reflexivity|]. intros [|i] Hi; [|lia]. split; [reflexivity|]. cbn. apply derivable_pt_lim_const.
  - split; [reflexivity|]. split; [reflexivity|]. intros [|i] Hi; [|lia]. split; cbn; [now rewrite exp_0|].
    pose proof (derivable_pt_lim_exp 0) as D. rewrite exp_0 in D. exact D.
  - intros t Y y (L1 & L2 & HY). specialize (HY 0%nat (Nat.lt_0_succ 0)). destruct Y as [|[a a'] [|? ?]]; try discriminate.
    split.
    + cbn [check_event hd fst]. destruct HY as [HY _]. cbn [nth fst] in HY. specialize (L2 0). destruct (y 0) as [|b [|? ?]]; try discriminate.
      cbn [nth] in HY. now rewrite HY.
    + split; [reflexivity|]. split; [intros e; cbn [jump_map]; rewrite map_length; apply L2|]. intros [|i] Hi; [|lia].
      cbn [jump_map map nth]. apply (tr_ext _ (fun e => - nth 0 (y e) 0)).
      * intros e. specialize (L2 e). destruct (y e) as [|b [|? ?]]; try discriminate. reflexivity.
      * destruct HY as [H1 H2]. split; cbn in *; [now rewrite H1|]. now apply derivable_pt_lim_opp.
  - intros e. destruct (C144_run_pf 0 (exp e) 0 (/ 1000) (/ 1000) (/ 2000000) 0 0 0 (E e) H) as [G _]. do 5 eexists. exact G.
  - intros [(times & A & s & G1 & G2 & G3)|(er & G1 & _)].
    + destruct (C144_run_pf 0 1 1 (/ 1000) (/ 1000) (/ 2000000) 0 0 0 Rlt_0_1 H) as [_ G].
      assert (A = [[(1, 1)]; [(1, 0)]; [(- (1), 0)]; [(- (1), 0)]]) as ->.
      { assert (X : Ok (map (fun t : R => (t, 0)) times, A) = Ok ([(0, 0); (/ 2000000, 0); (/ 2000000, 0); (/ 1000000, 0)], [[(1, 1)]; [(1, 0)]; [(- (1), 0)]; [(- (1), 0)]])).
        { rewrite <- G1. exact G. } now injection X. }
      destruct G3 as [_ G3]. specialize (G3 3%nat ltac:(cbn; lia)). destruct G3 as (_ & _ & G3). specialize (G3 0%nat (Nat.lt_0_succ 0)).
      destruct G3 as [_ G3]. cbn [nth snd] in G3.
      assert (D : derivable_pt_lim (fun e => - exp e) 0 (- exp 0)) by (apply derivable_pt_lim_opp, derivable_pt_lim_exp).
      assert (D' : derivable_pt_lim (fun e => - exp e) 0 0).
      { intros eps Heps. destruct (G3 eps Heps) as (del & Hd). exists del. intros h Hh1 Hh2. specialize (Hd h Hh1 Hh2).
        assert (Q : forall e, nth 0 (nth 3 (s e) []) 0 = - exp e).
        { intros e. destruct (C144_run_pf 0 (exp e) 0 (/ 1000) (/ 1000) (/ 2000000) 0 0 0 (E e) H) as [Ge _].
          assert (X : s e = [[exp e]; [exp e]; [- exp e]; [- exp e]]).
          { assert (Y : Ok (times, s e) = Ok ([0; / 2000000; / 2000000; / 1000000], [[exp e]; [exp e]; [- exp e]; [- exp e]])).
            { rewrite <- G2. exact Ge. } now injection Y. }
          now rewrite X. }
        rewrite !Q in Hd. exact Hd. }
      pose proof (uniqueness_limite _ _ _ _ D D') as C. rewrite exp_0 in C. lra.
    + destruct (C144_run_pf 0 1 1 (/ 1000) (/ 1000) (/ 2000000) 0 0 0 Rlt_0_1 H) as [_ G].
      assert (X : Err er = Ok ([(0, 0); (/ 2000000, 0); (/ 2000000, 0); (/ 1000000, 0)], [[(1, 1)]; [(1, 0)]; [(- (1), 0)]; [(- (1), 0)]])) by (rewrite <- G1; exact G).
      discriminate.
Qed.

(** C144 (REFUTED), double precision and the default tolerances: the same field and jump, event "x positive and t at least 0.6", t_span
    [0, 1], initial state 1 with derivative 1: the last state is -1 and its computed derivative is 0. *)
Lemma C144_default_refuted_pf :
  forall pw : float -> float -> float,
  match snd (@odeint_hybrid_autograd (FloatOps pw) 50 (fun _ _ => [(0, 0)%float]) [(1, 1)%float] [(0, 0)%float; (1, 0)%float] 1 (DormandPrince45 (DualOps (FloatOps pw)))
         [@MkCb (DualOps (FloatOps pw)) (fun t x => (PrimFloat.ltb 0 (fst (hd (0, 0)%float x)) && PrimFloat.leb 0.6 (fst t))%float%bool) (fun _ x => map (@nopp (DualOps (FloatOps pw))) x)]
         (0.001, 0)%float (0.001, 0)%float (0.0001, 0)%float true None) with
  | Ok (times, sol) => fst (last times (0, 0)%float) = 1%float /\ last sol [] = [(-1, 0)%float]
  | _ => False
  end.
Proof. intros pw. vm_compute. split; reflexivity. Qed.
