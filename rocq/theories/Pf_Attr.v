(** Attributes named t in the modules of a vector field. *)
From Coq Require Import ZArith QArith Reals Lia Lra List Bool.
From Verif Require Import Num Py Tensor M_Attr L_Base.
Import ListNotations.
Local Notation length := List.length.
Local Open Scope nat_scope.

(** What the field is meant to compute: modules of the library that declare a depth variable ([true]: DepthCat)
    find the time in their attribute t, all others what was put there by whoever wrote them. *)
Definition meant {K : NumOps} (lib : list bool) (ms : list (slot K)) (t : K) : list (slot K) :=
  map2 (fun (d : bool) s => if d then TPlain (Some t) else s) lib ms.
(** modules of the library hold a time or None; other modules have no attribute t *)
Definition no_clash {K : NumOps} (lib : list bool) (ms : list (slot K)) : Prop :=
  Forall2 (fun (d : bool) s => if d then exists v, s = TPlain v else s = Absent) lib ms.
Definition assignable {K : NumOps} (s : slot K) : Prop :=
  match s with TParam _ | TChild | TProp _ => False | _ => True end.

Lemma assign_ok {K : NumOps} (lib : list bool) (ms : list (slot K)) t : no_clash lib ms -> assign_all ms t = Ok (meant lib ms t).
Proof.
  intros H. induction H as [|d s lib ms Hs H IH]; [reflexivity|]. cbn. destruct d.
  - destruct Hs as (v & ->). cbn. now rewrite IH.
  - subst s. cbn. now rewrite IH.
Qed.
Lemma meant_clash {K : NumOps} (lib : list bool) (ms : list (slot K)) t : no_clash lib ms -> no_clash lib (meant lib ms t).
Proof.
  intros H. induction H as [|d s lib ms Hs H IH]; [constructor|]. cbn. constructor; [|exact IH]. destruct d; [eauto|exact Hs].
Qed.
Lemma meant_meant {K : NumOps} (lib : list bool) (ms : list (slot K)) t u : meant lib (meant lib ms t) u = meant lib ms u.
Proof.
  revert ms. induction lib as [|d lib IH]; intros [|s ms]; cbn; try reflexivity. f_equal; [now destruct d|apply IH].
Qed.

(** C161, the part that holds: if the only modules with an attribute t are those of the library, every sequence of calls returns the
    values that are meant, the counter nfe grows by one for each call, and no attribute of other modules is touched. *)
Lemma C161_no_clash_partial_pf :
  forall (K : NumOps) (X : Type) (vf : @field K X) (lib : list bool) (ms : list (slot K)) (nfe : nat) (cs : list (K * X)),
  no_clash lib ms ->
  exists ms', run_calls vf ms nfe cs = Ok (ms', nfe + length cs, map (fun c => vf (meant lib ms (fst c)) (fst c) (snd c)) cs) /\
    (forall i, nth_error lib i = Some false -> nth_error ms' i = nth_error ms i).
Proof.
  intros K X vf lib ms nfe cs. revert ms nfe. induction cs as [|[t x] cs IH]; intros ms nfe H; cbn [run_calls length map fst snd].
  - exists ms. rewrite Nat.add_0_r. auto.
  - unfold defunc_forward. rewrite (assign_ok lib ms t H). cbn [rbind].
    destruct (IH (meant lib ms t) (nfe + 1) (meant_clash lib ms t H)) as (ms' & E & U). exists ms'. rewrite E. split.
    + unfold rmap. cbn [rbind]. replace (nfe + 1 + length cs) with (nfe + S (length cs)) by lia. do 3 f_equal.
      apply map_ext. intros c. now rewrite meant_meant.
    + intros i Hi. rewrite (U i Hi). clear -Hi. revert ms i Hi. induction lib as [|d lib IH]; intros [|s ms] [|i] Hi; cbn in *; try discriminate; auto.
      * now injection Hi as ->.
      * now apply IH.
Qed.

(** C161, refuted: a module with a parameter, a submodule or a property named t cannot be used in a field at all: every call of
    the field raises TypeError or AttributeError. *)
Lemma C161_parameter_refuted_pf :
  forall (K : NumOps) (X : Type) (vf : @field K X) (ms : list (slot K)) (s : slot K) (nfe : nat) (t : K) (x : X) (cs : list (K * X)),
  In s ms -> ~ assignable s ->
  run_calls vf ms nfe ((t, x) :: cs) = Err TypeError \/ run_calls vf ms nfe ((t, x) :: cs) = Err AttributeError.
Proof.
  intros K X vf ms s nfe t x cs Hin Hs. cbn [run_calls]. unfold defunc_forward.
  enough (A : assign_all ms t = Err TypeError \/ assign_all ms t = Err AttributeError) by (destruct A as [-> | ->]; cbn; auto).
  induction ms as [|s' ms IH]; [destruct Hin|]. cbn [assign_all]. destruct Hin as [-> | Hin].
  - destruct s; cbn in Hs |- *; try (exfalso; apply Hs; exact I); auto.
  - destruct (IH Hin) as [A | A]; rewrite A; destruct s'; cbn; auto.
Qed.

(** C161, refuted: attributes and buffers named t of other modules are overwritten by the time of the last call, so they also change in
    what state_dict saves. *)
Lemma C161_overwrite_refuted_pf :
  forall (K : NumOps) (X : Type) (vf : @field K X) (ms : list (slot K)) (nfe : nat) (cs : list (K * X)) (t : K) (x : X),
  Forall assignable ms ->
  exists ms' ys, run_calls vf ms nfe (cs ++ [(t, x)]) = Ok (ms', nfe + length cs + 1, ys) /\
    (forall i v, nth_error ms i = Some (TPlain v) -> nth_error ms' i = Some (TPlain (Some t))) /\
    (forall i v, nth_error ms i = Some (TBuffer v) -> nth_error ms' i = Some (TBuffer (Some t))).
Proof.
  intros K X vf ms nfe cs t x.
  assert (A : forall ms t, Forall assignable ms -> exists ms', assign_all ms t = Ok ms' /\ Forall assignable ms' /\
    (forall i v, nth_error ms i = Some (TPlain v) -> nth_error ms' i = Some (TPlain (Some t))) /\
    (forall i v, nth_error ms i = Some (TBuffer v) -> nth_error ms' i = Some (@TBuffer K (Some t)))).
  { clear. intros ms t H. induction H as [|s ms Hs H IH].
    - exists []. repeat split; try constructor; intros [|i] v E; discriminate E.
    - destruct IH as (ms' & E & F & P & B). cbn [assign_all]. rewrite E.
      destruct s; cbn in Hs; try contradiction; cbn; eexists; (split; [reflexivity|]); (split; [constructor; [exact I|exact F]|]);
      split; intros [|i] w Q; cbn in Q |- *; try discriminate Q; try reflexivity; eauto. }
  revert ms nfe. induction cs as [|[u y] cs IH]; intros ms nfe H; cbn [app run_calls length].
  - unfold defunc_forward. destruct (A ms t H) as (ms' & E & _ & P & B). rewrite E. cbn.
    exists ms', [vf ms' t x]. split; [do 3 f_equal; lia|auto].
  - unfold defunc_forward. destruct (A ms u H) as (m1 & E & F & P & B). rewrite E. cbn [rbind].
    destruct (IH m1 (nfe + 1) F) as (ms' & ys & E' & P' & B'). rewrite E'. unfold rmap. cbn [rbind].
    exists ms', (vf m1 u y :: ys). split; [do 3 f_equal; lia|]. split; intros i v Q; [eapply P'; eauto|eapply B'; eauto].
Qed.

(** x' = - x / tau, with the time constant tau held in the attribute t of its module *)
Definition relaxation : @field ROps R :=
  fun ms _ x => match ms with [TPlain (Some tau)] | [TBuffer (Some tau)] => (- x / tau)%R | _ => 0%R end.

(** C161, refuted: the value of the field is not the one that is meant, for every time constant and every other time. *)
Lemma C161_value_refuted_pf :
  forall (tau t x : R) (nfe : nat), (tau <> 0 -> t <> 0 -> t <> tau -> x <> 0 ->
  relaxation [@TPlain ROps (Some tau)] t x = - x / tau /\
  exists ms' y, run_calls relaxation [@TPlain ROps (Some tau)] nfe [(t, x)] = Ok (ms', nfe + 1, [y])%nat /\ y = - x / t /\
    y <> relaxation (meant [false] [@TPlain ROps (Some tau)] t) t x)%R.
Proof.
  intros tau t x nfe Ht Ht' Hn Hx. split; [reflexivity|]. exists [@TPlain ROps (Some t)], (- x / t)%R.
  split; [reflexivity|]. split; [reflexivity|]. cbn. intros E. apply Hn.
  assert (E' : (- x * tau = - x * t)%R).
  { replace (- x * tau)%R with (- x / t * (t * tau))%R by (field; assumption). rewrite E. field. assumption. }
  apply Rmult_eq_reg_l in E'; [congruence|lra].
Qed.

(** One module of the library and one without attribute t, three calls; a field with a parameter named t; the time constant 2 *)
Lemma C161_ex_pf :
  no_clash [true; false] [@TPlain ROps None; Absent] /\
  (forall nfe, exists ms', @run_calls ROps R (fun ms (t x : R) => match ms with TPlain (Some u) :: _ => (u + x)%R | _ => 0%R end)
     [@TPlain ROps None; Absent] nfe [(1, 2); (3, 4); (5, 6)]%R = Ok (ms', nfe + 3, [1 + 2; 3 + 4; 5 + 6]%R)) /\
  ~ assignable (@TParam ROps 1%R) /\ Forall assignable [@TPlain ROps (Some 2%R)] /\
  relaxation [@TPlain ROps (Some 2%R)] 1%R 2%R = (-1)%R.
Proof.
  split; [constructor; [eexists; reflexivity|constructor; [reflexivity|constructor]]|].
  split; [intros nfe; eexists; cbn; do 3 f_equal; lia|]. split; [intros []|]. split; [repeat constructor|]. cbn. field.
Qed.
