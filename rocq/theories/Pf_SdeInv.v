(** Proofs of the property about linear invariants and equilibria of SDE solves. *)
From Coq Require Import ZArith QArith Qreals Reals Lra Lia String List Bool.
From Verif Require Import Num Py Tensor M_SolversOde M_Odeint M_Sde Spec_Ode Spec_Sde.
From Verif Require Import Spec_Inv L_Sde.
From Verif Require Import Pf_Sde.
Import ListNotations.
Local Notation length := List.length.
Local Open Scope R_scope.

Definition Sm (n : nat) (g : nat -> R) : R := fold_right Rplus 0 (map g (seq 0 n)).
Lemma Sm_S n g : Sm (S n) g = g 0%nat + Sm n (fun i => g (S i)).
Proof. unfold Sm. cbn [seq map fold_right]. now rewrite <- seq_shift, map_map. Qed.
Lemma Sm_ext n : forall g h, (forall i, (i < n)%nat -> g i = h i) -> Sm n g = Sm n h.
Proof. induction n as [|n IH]; intros g h H; [reflexivity|]. rewrite !Sm_S. f_equal; [apply H; lia|]. apply IH. intros i Hi. apply H. lia. Qed.
Lemma Sm_add n : forall g h, Sm n (fun i => g i + h i) = Sm n g + Sm n h.
Proof. induction n as [|n IH]; intros g h; [cbn; ring|]. rewrite !Sm_S, IH. ring. Qed.
Lemma Sm_mul n c : forall g, Sm n (fun i => c * g i) = c * Sm n g.
Proof. induction n as [|n IH]; intros g; [cbn; ring|]. rewrite !Sm_S, IH. ring. Qed.
Lemma inner_Sm : forall w y, inner w y = Sm (length y) (fun i => nth i w 0 * comp y i).
Proof.
  induction w as [|a w IH]; intros y.
  - cbn. transitivity (Sm (length y) (fun _ => 0 * 0)).
    + rewrite Sm_mul. ring.
    + apply Sm_ext. intros [|i] _; cbn; ring.
  - destruct y as [|b y]; [reflexivity|]. cbn [inner List.length]. rewrite Sm_S. cbn. f_equal. apply IH.
Qed.
(** scalar products of sums given by components *)
Lemma inner_comb3 w n (y x a b d : list R) h k m : length y = n -> length x = n -> length a = n -> length b = n -> length d = n ->
  (forall i, (i < n)%nat -> nth i w 0 * comp y i = nth i w 0 * (comp x i + comp a i * h + comp b i * k + comp d i * m)) ->
  inner w y = inner w x + h * inner w a + k * inner w b + m * inner w d.
Proof.
  intros Hy Hx Ha Hb Hd H. rewrite !inner_Sm, Hy, Hx, Ha, Hb, Hd. rewrite <- !Sm_mul, <- !Sm_add. apply Sm_ext. intros i Hi. rewrite H by auto. ring.
Qed.

Lemma milstein_inv n sde bm w lam s t x y : sized n sde bm -> length x = n -> (forall t y, length y = n -> inner w (sde_f sde t y) = 0) ->
  (forall t y, length y = n -> inner w (sde_g sde t y) = 0) /\ (forall i, (i < n)%nat -> comp (bm s t) i = comp (bm s t) 0) \/
  (forall t y i, length y = n -> (i < n)%nat -> nth i w 0 * comp (sde_g sde t y) i = 0) ->
  milstein (sde_f sde) (sde_g sde) bm lam s t x y -> length y = n /\ inner w y = inner w x.
Proof.
  intros (Zf & Zg & Zb) Hx Hf Hc (Ly & p & Lp & _ & Hy). rewrite Hx in Ly, Hy, Lp. split; [exact Ly|]. set (c := comp (bm s t) 0) in *.
  pose proof (Zg s p Lp) as Lg'. pose proof (Zf s x Hx) as Lf. pose proof (Zg s x Hx) as Lg. pose proof (Hf s x Hx) as F0. destruct Hc as [(H1 & H2)|H].
  - set (K := / (2 * sqrt (t - s)) * (c ^ 2 - lam * (t - s))).
    rewrite (inner_comb3 w n y x (sde_f sde s x) (sde_g sde s x) (sde_g sde s p) (t - s) (c - K) K); auto.
    + rewrite F0, !H1 by auto. ring.
    + intros i Hi. rewrite Hy, H2 by auto. unfold K, Rdiv. ring.
  - rewrite (inner_comb3 w n y x (sde_f sde s x) x x (t - s) 0 0); auto.
    + rewrite F0. ring.
    + intros i Hi. rewrite Hy by auto. pose proof (H s x i Hx Hi) as E1. pose proof (H s p i Lp Hi) as E2. unfold Rdiv.
      set (K := / (2 * sqrt (t - s)) * (comp (bm s t) i ^ 2 - lam * (t - s))).
      transitivity (nth i w 0 * (comp x i + comp (sde_f sde s x) i * (t - s)) + nth i w 0 * comp (sde_g sde s x) i * (comp (bm s t) i - K) + nth i w 0 * comp (sde_g sde s p) i * K);
        [unfold K; ring|]. rewrite E1, E2. ring.
Qed.

(** the four schemes keep w . y *)
Lemma scheme_inv n name sde bm S w : sized n sde bm -> scheme_of name (sde_f sde) (sde_g sde) bm = Some S ->
  (forall t y, length y = n -> inner w (sde_f sde t y) = 0) ->
  (forall t y, length y = n -> inner w (sde_g sde t y) = 0) /\ (forall s t i j, (i < n)%nat -> (j < n)%nat -> comp (bm s t) i = comp (bm s t) j) \/
  (forall t y i, length y = n -> (i < n)%nat -> nth i w 0 * comp (sde_g sde t y) i = 0) ->
  forall s t x y, length x = n -> S s t x y -> length y = n /\ inner w y = inner w x.
Proof.
  intros (Zf & Zg & Zb) HS Hf Hg s t x y Hx Hy.
  assert (Hc : (forall t y, length y = n -> inner w (sde_g sde t y) = 0) /\ (forall i, (i < n)%nat -> comp (bm s t) i = comp (bm s t) 0) \/
     (forall t y i, length y = n -> (i < n)%nat -> nth i w 0 * comp (sde_g sde t y) i = 0)).
  { destruct Hg as [(H1 & H2)|H]; [left|now right]. split; auto. intros i Hi. apply H2; lia. }
  clear Hg. set (c := comp (bm s t) 0) in *. pose proof (Zf s x Hx) as Lf. pose proof (Zg s x Hx) as Lg. pose proof (Hf s x Hx) as F0.
  unfold scheme_of in HS.
  destruct (name =? "euler")%string; [|destruct (name =? "eulerHeun")%string; [|destruct (name =? "milstein_ito")%string; [|destruct (name =? "milstein_stratonovich")%string; [|discriminate]]]];
    injection HS as <-.
  - destruct Hy as (Ly & Hy). rewrite Hx in Ly, Hy. split; [exact Ly|]. destruct Hc as [(H1 & H2)|H].
    + rewrite (inner_comb3 w n y x (sde_f sde s x) (sde_g sde s x) (sde_g sde s x) (t - s) c 0); auto.
      * rewrite F0, H1 by auto. ring.
      * intros i Hi. rewrite Hy, H2 by auto. ring.
    + rewrite (inner_comb3 w n y x (sde_f sde s x) x x (t - s) 0 0); auto.
      * rewrite F0. ring.
      * intros i Hi. rewrite Hy by auto. replace (nth i w 0 * (comp x i + comp (sde_f sde s x) i * (t - s) + comp (sde_g sde s x) i * comp (bm s t) i))
          with (nth i w 0 * (comp x i + comp (sde_f sde s x) i * (t - s)) + nth i w 0 * comp (sde_g sde s x) i * comp (bm s t) i) by ring. rewrite H by auto. ring.
  - destruct Hy as (Ly & p & Lp & _ & Hy). rewrite Hx in Ly, Hy, Lp. split; [exact Ly|]. pose proof (Zg t p Lp) as Lg'. destruct Hc as [(H1 & H2)|H].
    + rewrite (inner_comb3 w n y x (sde_f sde s x) (sde_g sde s x) (sde_g sde t p) (t - s) (c / 2) (c / 2)); auto.
      * rewrite F0, !H1 by auto. ring.
      * intros i Hi. rewrite Hy, H2 by auto. field.
    + rewrite (inner_comb3 w n y x (sde_f sde s x) x x (t - s) 0 0); auto.
      * rewrite F0. ring.
      * intros i Hi. rewrite Hy by auto. pose proof (H s x i Hx Hi) as E1. pose proof (H t p i Lp Hi) as E2.
        replace (nth i w 0 * (comp x i + comp (sde_f sde s x) i * (t - s) + (comp (sde_g sde s x) i + comp (sde_g sde t p) i) / 2 * comp (bm s t) i))
          with (nth i w 0 * (comp x i + comp (sde_f sde s x) i * (t - s)) + (nth i w 0 * comp (sde_g sde s x) i + nth i w 0 * comp (sde_g sde t p) i) / 2 * comp (bm s t) i) by field.
        rewrite E1, E2. field.
  - revert Hy. now apply milstein_inv.
  - revert Hy. now apply milstein_inv.
Qed.

Lemma follows_Q (Q : list R -> Prop) (S : R -> R -> list R -> list R -> Prop) x ts xs : Q x -> (forall s t a b, Q a -> S s t a b -> Q b) -> follows S x ts xs -> forall y, In y xs -> Q y.
Proof.
  intros Hx HQ (L & H0 & HS) y Hy. apply In_nth_error in Hy. destruct Hy as (m & Hm). revert y Hm. induction m as [|m IH]; intros y Hm.
  - rewrite H0 in Hm. now injection Hm as <-.
  - assert (Hl : (Datatypes.S m < length xs)%nat) by (apply nth_error_Some; now rewrite Hm).
    destruct (nth_error xs m) as [a|] eqn:Ea; [|apply nth_error_None in Ea; lia].
    destruct (nth_error ts m) as [u|] eqn:Eu; [|apply nth_error_None in Eu; lia].
    destruct (nth_error ts (Datatypes.S m)) as [v|] eqn:Ev; [|apply nth_error_None in Ev; lia].
    apply (HQ u v a y); auto. now apply (HS m).
Qed.

Lemma name_scheme name sde bm s : @sde_str_to_solver ROps name sde bm = Ok s -> exists S, scheme_of name (sde_f sde) (sde_g sde) bm = Some S.
Proof.
  unfold sde_str_to_solver, scheme_of. destruct (name =? "euler")%string; [eauto|]. destruct (name =? "eulerHeun")%string; [eauto|].
  destruct (name =? "midpoint")%string; [discriminate|]. destruct (name =? "milstein_ito")%string; [eauto|]. destruct (name =? "milstein_stratonovich")%string; [eauto|discriminate].
Qed.

(** Linear invariants of SDE solves, path by path, for every accepted solver name, grid and Brownian path: if w . f = 0 and
    - w . g = 0 and all components are driven by the same Brownian motion (scalar noise), or
    - only components with w_i = 0 are driven by noise (diagonal noise),
    then w . y has in all returned states its value at the initial state. *)
Lemma C196_invariant_pf :
  forall n name (sde : sde_func ROps) (bm : brownian ROps) s w x t0 t1 ts, sized n sde bm -> length x = n -> @sde_str_to_solver ROps name sde bm = Ok s ->
  (forall t y, length y = n -> inner w (sde_f sde t y) = 0) ->
  (forall t y, length y = n -> inner w (sde_g sde t y) = 0) /\ (forall s t i j, (i < n)%nat -> (j < n)%nat -> comp (bm s t) i = comp (bm s t) j) \/
  (forall t y i, length y = n -> (i < n)%nat -> nth i w 0 * comp (sde_g sde t y) i = 0) ->
  exists xs, @sdeint ROps sde x (t0 :: t1 :: ts) name bm [] = Ok (t0 :: t1 :: ts, xs) /\ (length xs = length (t0 :: t1 :: ts))%nat /\ forall y, In y xs -> inner w y = inner w x.
Proof.
  intros n name sde bm s w x t0 t1 ts HZ Hx Es Hf Hg. destruct (name_scheme name sde bm s Es) as (S & ES).
  destruct (C41_sde_trajectory_pf n name sde bm s S x t0 t1 ts HZ Hx Es ES) as (xs & E & HF). exists xs. split; [exact E|]. split; [apply HF|].
  intros y Hy. apply (follows_Q (fun y => length y = n /\ inner w y = inner w x) S x (t0 :: t1 :: ts) xs); auto.
  intros u v a b (La & Ia) Hab. destruct (scheme_inv n name sde bm S w HZ ES Hf Hg u v a b La Hab) as (Lb & Ib). split; [exact Lb|]. congruence.
Qed.

(** From a state in which drift and diffusion vanish at all times, every solver returns that state at all times, for every Brownian path. *)
Lemma C196_equilibrium_pf :
  forall n name (sde : sde_func ROps) (bm : brownian ROps) s x t0 t1 ts, sized n sde bm -> length x = n -> @sde_str_to_solver ROps name sde bm = Ok s ->
  (forall t, sde_f sde t x = repeat 0 n) -> (forall t, sde_g sde t x = repeat 0 n) ->
  exists xs, @sdeint ROps sde x (t0 :: t1 :: ts) name bm [] = Ok (t0 :: t1 :: ts, xs) /\ (length xs = length (t0 :: t1 :: ts))%nat /\ forall y, In y xs -> y = x.
Proof.
  intros n name sde bm s x t0 t1 ts HZ Hx Es Hf Hg. destruct (name_scheme name sde bm s Es) as (S & ES).
  destruct (C41_sde_trajectory_pf n name sde bm s S x t0 t1 ts HZ Hx Es ES) as (xs & E & HF). exists xs. split; [exact E|]. split; [apply HF|].
  assert (Cf : forall t i, comp (sde_f sde t x) i = 0) by (intros t i; rewrite Hf; apply nth_repeat).
  assert (Cg : forall t i, comp (sde_g sde t x) i = 0) by (intros t i; rewrite Hg; apply nth_repeat).
  assert (Hext : forall b : list R, length b = length x -> (forall i, (i < length x)%nat -> comp b i = comp x i) -> b = x).
  { intros b Hl Hi. apply (nth_ext b x 0 0); auto. intros i Hlt. apply Hi. now rewrite <- Hl. }
  apply (follows_Q (fun y => y = x) S x (t0 :: t1 :: ts) xs); auto. intros u v a b -> Hab.
  unfold scheme_of in ES.
  destruct (name =? "euler")%string; [|destruct (name =? "eulerHeun")%string; [|destruct (name =? "milstein_ito")%string; [|destruct (name =? "milstein_stratonovich")%string; [|discriminate]]]];
    injection ES as <-.
  - destruct Hab as (L & H). apply Hext; [exact L|]. intros i Hi. rewrite H, Cf, Cg by exact Hi. ring.
  - destruct Hab as (L & p & Lp & Hp & H). assert (p = x) as ->. { apply Hext; [exact Lp|]. intros i Hi. rewrite Hp, Cg by exact Hi. ring. }
    apply Hext; [exact L|]. intros i Hi. rewrite H, Cf, !Cg by exact Hi. unfold Rdiv. ring.
  - destruct Hab as (L & p & Lp & Hp & H). assert (p = x) as ->. { apply Hext; [exact Lp|]. intros i Hi. rewrite Hp, Cf, Cg by exact Hi. ring. }
    apply Hext; [exact L|]. intros i Hi. rewrite H, Cf, !Cg by exact Hi. unfold Rdiv. ring.
  - destruct Hab as (L & p & Lp & Hp & H). assert (p = x) as ->. { apply Hext; [exact Lp|]. intros i Hi. rewrite Hp, Cf, Cg by exact Hi. ring. }
    apply Hext; [exact L|]. intros i Hi. rewrite H, Cf, !Cg by exact Hi. unfold Rdiv. ring.
Qed.

(** The hypotheses are met: an exchange between two components with one noise, dX = -X dW, dY = X dW, keeps X + Y and rests at X = 0. *)
Definition swap_sde : sde_func ROps := @MkSde ROps (fun _ y => match y with [a; b] => [0; 0] | _ => y end) (fun _ y => match y with [a; b] => [- a; a] | _ => y end) (Some "scalar"%string) (Some "ito"%string).
Lemma C196_ex_pf :
  sized 2 swap_sde (fun s t => [t - s; t - s]) /\ (exists s, @sde_str_to_solver ROps "euler" swap_sde (fun s t : R => [t - s; t - s]) = Ok s) /\
  (forall t y, length y = 2%nat -> inner [1; 1] (sde_f swap_sde t y) = 0) /\ (forall t y, length y = 2%nat -> inner [1; 1] (sde_g swap_sde t y) = 0) /\
  (forall s t i j, (i < 2)%nat -> (j < 2)%nat -> comp [t - s; t - s] i = comp [t - s; t - s] j) /\ sde_g swap_sde 0 [0; 1] = repeat 0 2.
Proof.
  split; [|split; [eexists; reflexivity|]].
  - split; [|split]; [intros t y Hy; destruct y as [|a [|b [|? ?]]]; try discriminate; reflexivity..|]. reflexivity.
  - split; [|split; [|split]].
    + intros t y Hy. destruct y as [|a [|b [|? ?]]]; try discriminate. cbn. ring.
    + intros t y Hy. destruct y as [|a [|b [|? ?]]]; try discriminate. cbn. ring.
    + intros s t [|[|i]] [|[|j]] Hi Hj; try lia; reflexivity.
    + cbn. repeat f_equal. ring.
Qed.
