(** Plotting utilities. *)
From Coq Require Import ZArith QArith Reals Lia Lra List Bool.
From Verif Require Import Num Py Tensor M_Plot L_Base.
Import ListNotations.
Local Notation length := List.length.
Local Open Scope nat_scope.

(** The path of coordinate d of sample i *)
Definition path {K : NumOps} (tr : traj K) (i d : nat) : list K := map (fun row => nth d (nth i row []) n0) (tr_rows tr).
(** The colour that stands for a class *)
Definition class_color (y : Z) : color := if (y =? 0)%Z then Orange else Blue.
Definition two_classes (y : Z) : Prop := y = 0%Z \/ y = 1%Z.

Lemma rall_ok {A B} (g : A -> res B) (h : A -> B) l : (forall a, In a l -> g a = Ok (h a)) -> rall (map g l) = Ok (map h l).
Proof.
  intros H. induction l as [|a l IH]; [reflexivity|]. cbn [map rall]. rewrite (H a) by now left. cbn [rbind].
  rewrite IH; [reflexivity|]. intros b Hb. apply H. now right.
Qed.
Lemma rall_err {A B} (g : A -> res B) e l a : In a l -> g a = Err e -> (forall b, In b l -> (exists v, g b = Ok v) \/ g b = Err e) -> rall (map g l) = Err e.
Proof.
  intros Hin Ha H. induction l as [|b l IH]; [destruct Hin|]. cbn [map rall].
  destruct (H b (or_introl eq_refl)) as [(v & E)|E]; rewrite E; cbn [rbind]; [|reflexivity].
  destruct Hin as [-> | Hin]; [congruence|]. rewrite IH; auto. intros c Hc. apply H. now right.
Qed.
Lemma column_ok {K : NumOps} (tr : traj K) i d : i < tr_samples tr -> d < tr_dims tr -> column tr i d = Ok (path tr i d).
Proof. intros Hi Hd. unfold column. apply Nat.ltb_lt in Hi, Hd. now rewrite Hi, Hd. Qed.
Lemma label_ok y : two_classes y -> label_color y = Ok (class_color y).
Proof. intros [-> | ->]; reflexivity. Qed.
Lemma pyget_nth {A} (l : list A) i d : i < length l -> pyget l i = Ok (nth i l d).
Proof. intros H. unfold pyget. now rewrite (nth_error_nth' l d H). Qed.
Lemma forall_nth_lt {A} (P : A -> Prop) l i d : Forall P l -> i < length l -> P (nth i l d).
Proof. intros H Hi. apply (proj1 (Forall_forall _ _) H). now apply nth_In. Qed.

(** C163, the part that holds for trajectories: if there are at least as many samples and labels as are drawn, two dimensions and two
    classes, every sample is drawn once, at its own coordinates and in the colour of its class. *)
Lemma C163_trajectories_partial_pf :
  forall (K : NumOps) (tr : traj K) (s_span : list K) (yn : list Z) (n : nat),
  n <= tr_samples tr -> 2 <= tr_dims tr -> n <= length yn -> Forall two_classes yn ->
  let c i := class_color (nth i yn 0%Z) in
  plot_2d_flows tr n = Ok (map (fun i => (Red, [path tr i 0])) (seq 0 n), map (fun i => (Blue, [path tr i 1])) (seq 0 n)) /\
  plot_2D_depth_trajectory s_span tr yn n = Ok (map (fun i => ((c i, [s_span; path tr i 0]), (c i, [s_span; path tr i 1]))) (seq 0 n)) /\
  plot_2D_state_space tr yn n = Ok (map (fun i => (c i, [path tr i 0; path tr i 1])) (seq 0 n)) /\
  plot_2D_space_depth s_span tr yn n = Ok (map (fun i => (c i, [s_span; path tr i 0; path tr i 1])) (seq 0 n)).
Proof.
  intros K tr s_span yn n Hn Hd Hy HL c.
  assert (I : forall i, In i (seq 0 n) -> column tr i 0 = Ok (path tr i 0) /\ column tr i 1 = Ok (path tr i 1) /\
    pyget yn i = Ok (nth i yn 0%Z) /\ label_color (nth i yn 0%Z) = Ok (c i)).
  { intros i Hi. apply in_seq in Hi. split; [apply column_ok; lia|]. split; [apply column_ok; lia|]. split; [apply pyget_nth; lia|].
    apply label_ok. apply forall_nth_lt; [exact HL|lia]. }
  unfold plot_2d_flows, plot_2D_depth_trajectory, plot_2D_state_space, plot_2D_space_depth. split; [|split; [|split]].
  - rewrite (rall_ok _ (fun i => (Red, [path tr i 0]))) by (intros i Hi; destruct (I i Hi) as (-> & _); reflexivity). cbn [rbind].
    rewrite (rall_ok _ (fun i => (Blue, [path tr i 1]))) by (intros i Hi; destruct (I i Hi) as (_ & -> & _); reflexivity). reflexivity.
  - apply rall_ok. intros i Hi. destruct (I i Hi) as (-> & -> & -> & E). cbn [rbind]. rewrite E. reflexivity.
  - apply rall_ok. intros i Hi. destruct (I i Hi) as (-> & -> & -> & E). cbn [rbind]. rewrite E. reflexivity.
  - apply rall_ok. intros i Hi. destruct (I i Hi) as (-> & -> & -> & E). cbn [rbind]. rewrite E. reflexivity.
Qed.

(** C163, refuted for trajectories: a third class, or fewer samples than the number to be drawn (128 if it is not given), raises IndexError. *)
Lemma C163_classes_refuted_pf :
  forall (K : NumOps) (tr : traj K) (s_span : list K) (yn : list Z) (n : nat), 2 <= tr_dims tr ->
  (n <= tr_samples tr /\ n <= length yn /\ (exists i, i < n /\ (2 <= nth i yn 0)%Z)) \/ tr_samples tr < n ->
  plot_2D_depth_trajectory s_span tr yn n = Err IndexError /\ plot_2D_state_space tr yn n = Err IndexError /\
  plot_2D_space_depth s_span tr yn n = Err IndexError.
Proof.
  intros K tr s_span yn n Hd H.
  assert (L : forall y, (exists c, label_color y = Ok c) \/ label_color y = Err IndexError).
  { intros y. unfold label_color. destruct y as [|[p|p|]|[p|[p|p|]|]]; eauto. }
  assert (C : forall i d, (exists v, column tr i d = Ok v) \/ column tr i d = Err IndexError).
  { intros i d. unfold column. destruct (_ && _); eauto. }
  assert (P : forall i, (exists v, pyget yn i = Ok v) \/ pyget yn i = Err IndexError).
  { intros i. unfold pyget. destruct (nth_error yn i); eauto. }
  assert (E : exists i, In i (seq 0 n) /\ (column tr i 0 = Err IndexError \/ (pyget yn i = Ok (nth i yn 0%Z) /\ label_color (nth i yn 0%Z) = Err IndexError))).
  { destruct H as [(H1 & H2 & i & Hi & Hy)|H].
    - exists i. split; [apply in_seq; lia|]. right. split; [apply pyget_nth; lia|]. destruct (nth i yn 0%Z) as [|[p|p|]|p]; try lia; reflexivity.
    - exists (tr_samples tr). split; [apply in_seq; lia|]. left. unfold column. now rewrite Nat.ltb_irrefl. }
  destruct E as (i & Hin & E). unfold plot_2D_depth_trajectory, plot_2D_state_space, plot_2D_space_depth.
  split; [|split]; (apply (rall_err _ IndexError _ i Hin);
    [destruct E as [-> |(E1 & E2)]; [reflexivity|]; destruct (C i 0) as [(a & ->)| ->], (C i 1) as [(b & ->)| ->]; cbn [rbind]; try reflexivity; rewrite E1; cbn [rbind]; rewrite E2; reflexivity
    |intros j _; destruct (C j 0) as [(a & ->)| ->], (C j 1) as [(b & ->)| ->], (P j) as [(y & ->)| ->]; cbn [rbind]; try (right; reflexivity); destruct (L y) as [(c & ->)| ->]; cbn; eauto]).
Qed.

(** C163, refuted for data sets: plot_3D_dataset draws all points in every iteration, so that all are seen in the colour of the last label. *)
Lemma C163_dataset_refuted_pf :
  forall (K : NumOps) (eq : list K -> list K -> bool) (X : list (list K)) (yn : list Z),
  (forall p, eq p p = true) -> length yn = length X -> Forall two_classes yn ->
  exists calls, plot_3D_dataset X yn = Ok calls /\ length calls = length X /\
    forall p, In p X -> seen_color eq calls p = Some (class_color (last yn 0%Z)).
Proof.
  intros K eq X yn He HL HT. exists (map (fun i => (class_color (nth i yn 0%Z), X)) (seq 0 (length X))). split; [|split].
  - unfold plot_3D_dataset. apply rall_ok. intros i Hi. apply in_seq in Hi. rewrite (pyget_nth yn i 0%Z) by lia. cbn [rbind].
    rewrite label_ok; [reflexivity|]. apply forall_nth_lt; [exact HT|lia].
  - now rewrite map_length, seq_length.
  - intros p Hp.
    assert (G : forall l : list nat, l <> [] -> seen_color eq (map (fun i => (class_color (nth i yn 0%Z), X)) l) p = Some (class_color (nth (last l 0) yn 0%Z))).
    { induction l as [|i l IH]; [congruence|]. intros _. cbn [map seen_color]. destruct l as [|j l].
      - cbn. assert (Q : existsb (eq p) X = true) by (apply existsb_exists; exists p; auto). now rewrite Q.
      - rewrite IH by discriminate. reflexivity. }
    destruct X as [|p0 X']; [destruct Hp|]. rewrite G by discriminate. do 2 f_equal.
    destruct yn as [|y yn _] using rev_ind; [discriminate|]. rewrite last_last. rewrite app_length in HL. cbn [length] in HL |- *.
    rewrite seq_S, last_last. cbn [Nat.add].
    rewrite app_nth2 by lia. now replace (length X' - length yn) with 0 by lia.
Qed.

(** C163, refuted for vector fields: plot_static_vector_field raises AttributeError for every NeuralODE (there is no attribute defunc), and
    plot_traj_vf_1D raises NameError for every NeuralODE that has been called with a data control. *)
Lemma C163_fields_refuted_pf :
  forall (K : NumOps) (vf : K -> list K -> list K) (controlled : bool) (x y t : K) (xs ys : list K) (s0 x0 : K) (s_span x_span : list K) (n : nat),
  plot_static_vector_field (node_model vf controlled) (x :: xs) (y :: ys) t = Err AttributeError /\
  plot_traj_vf_1D (node_model vf true) (s0 :: s_span) (x0 :: x_span) n = Err NameError.
Proof.
  intros K vf controlled x y t xs ys s0 x0 s_span x_span n. split; [reflexivity|].
  assert (P : forall (a : K) l, exists z, pylast (a :: l) = Ok z).
  { intros a l. unfold pylast. destruct (rev (a :: l)) eqn:E; [|eauto]. apply (f_equal (@length _)) in E. rewrite rev_length in E. discriminate. }
  unfold plot_traj_vf_1D. destruct (P s0 s_span) as (a & ->), (P x0 x_span) as (b & ->). reflexivity.
Qed.

(** C163, the part that holds for vector fields: without control, plot_traj_vf_1D draws the values of the field of the NeuralODE on the grid. *)
Lemma C163_field_partial_pf :
  forall (K : NumOps) (v : K -> K -> K) (s0 s1 x0 x1 : K) (s_span x_span : list K) (n : nat),
  pylast (s0 :: s_span) = Ok s1 -> pylast (x0 :: x_span) = Ok x1 ->
  plot_traj_vf_1D (node_model (fun t x => map (v t) x) false) (s0 :: s_span) (x0 :: x_span) n =
    Ok (plot_linspace s0 s1 n, plot_linspace x0 x1 n, map (fun s => map (fun x => v s x) (plot_linspace x0 x1 n)) (plot_linspace s0 s1 n)).
Proof.
  intros K v s0 s1 x0 x1 s_span x_span n Hs Hx. unfold plot_traj_vf_1D. rewrite Hs, Hx. cbn [pyget nth_error rbind attr pm_controlled node_model].
  rewrite (rall_ok _ (fun s => map (fun x => v s x) (plot_linspace x0 x1 n))); [reflexivity|].
  intros s _. apply rall_ok. reflexivity.
Qed.

(** C163, refuted for decision boundaries: with a mesh of points in the plane, one row each, and a model that returns one row of scores for
    each point, plot_2d_boundary raises RuntimeError. *)
Lemma C163_boundary_refuted_pf :
  forall (K : NumOps) (argmax : list K -> nat) (p : list K) (mesh : list (list K)) (model : list (list K) -> list (list K)),
  (forall m, length (model m) = length m) ->
  plot_2d_boundary_preds argmax (p :: mesh) 2 model = Err RuntimeError.
Proof.
  intros K argmax p mesh model H. unfold plot_2d_boundary_preds. rewrite map_length, H.
  replace (length (p :: mesh) =? length (p :: mesh) * 2) with false; [reflexivity|]. symmetry. apply Nat.eqb_neq. cbn [length]. lia.
Qed.

(** Two samples with labels 0 and 1 over three times; three points of which the first two are orange but seen in blue; x' = -x on a grid *)
Lemma C163_ex_pf :
  let tr := @MkTraj ROps [[[0; 1]; [2; 3]]; [[4; 5]; [6; 7]]; [[8; 9]; [10; 11]]]%R 2 2 in
  plot_2D_state_space tr [0; 1]%Z 2 = Ok [(Orange, [[0; 4; 8]; [1; 5; 9]]); (Blue, [[2; 6; 10]; [3; 7; 11]])]%R /\
  plot_2D_state_space tr [0; 2]%Z 2 = Err IndexError /\ plot_2D_state_space tr [0; 1]%Z 128 = Err IndexError /\
  (exists calls, @plot_3D_dataset ROps [[0; 0; 0]; [1; 1; 1]; [2; 2; 2]]%R [0; 0; 1]%Z = Ok calls /\
     forall eq, (forall p, eq p p = true) -> @seen_color ROps eq calls [0; 0; 0]%R = Some Blue) /\
  Forall two_classes [0; 0; 1]%Z.
Proof.
  cbv zeta. split; [reflexivity|]. split; [reflexivity|]. split.
  { refine (proj1 (proj2 (C163_classes_refuted_pf ROps _ [] _ 128 _ _))); cbn; [lia|right; lia]. }
  assert (T : Forall two_classes [0; 0; 1]%Z) by (repeat constructor). split; [|exact T].
  eexists. split; [reflexivity|]. intros eq He. cbn. now rewrite He.
Qed.

(** C163, refuted for classes labelled -1 and 1: no exception, but both are drawn in the same colour. *)
Lemma C163_signs_refuted_pf :
  forall (K : NumOps) (tr : traj K) (s_span : list K) (yn : list Z) (n : nat),
  n <= tr_samples tr -> 2 <= tr_dims tr -> n <= length yn -> Forall (fun y => y = (-1)%Z \/ y = 1%Z) yn ->
  plot_2D_state_space tr yn n = Ok (map (fun i => (Blue, [path tr i 0; path tr i 1])) (seq 0 n)) /\
  plot_2D_space_depth s_span tr yn n = Ok (map (fun i => (Blue, [s_span; path tr i 0; path tr i 1])) (seq 0 n)).
Proof.
  intros K tr s_span yn n Hn Hd Hy HL.
  assert (I : forall i, In i (seq 0 n) -> column tr i 0 = Ok (path tr i 0) /\ column tr i 1 = Ok (path tr i 1) /\
    pyget yn i = Ok (nth i yn 0%Z) /\ label_color (nth i yn 0%Z) = Ok Blue).
  { intros i Hi. apply in_seq in Hi. split; [apply column_ok; lia|]. split; [apply column_ok; lia|]. split; [apply pyget_nth; lia|].
    destruct (forall_nth_lt _ yn i 0%Z HL ltac:(lia)) as [E|E]; rewrite E; reflexivity. }
  unfold plot_2D_state_space, plot_2D_space_depth. split; apply rall_ok; intros i Hi; destruct (I i Hi) as (-> & -> & -> & E); cbn [rbind]; rewrite E; reflexivity.
Qed.

(** The grid of plot_traj_vf_1D: n equally spaced points from the first to the last entry of the span. *)
Lemma C163_grid_pf :
  forall (a b : R) (n : nat), 2 <= n ->
  length (@plot_linspace ROps a b n) = n /\
  (forall i, i < n -> nth i (@plot_linspace ROps a b n) 0%R = (a + (b - a) * (INR i / INR (n - 1)))%R) /\
  nth 0 (@plot_linspace ROps a b n) 0%R = a /\ nth (n - 1) (@plot_linspace ROps a b n) 0%R = b.
Proof.
  intros a b n Hn.
  assert (E : @plot_linspace ROps a b n = map (fun i => (a + (b - a) * (INR i / INR (n - 1)))%R) (seq 0 n)).
  { destruct n as [|[|n]]; [lia|lia|]. unfold plot_linspace. apply map_ext. intros i. rewrite !nnat_INR. rops. unfold Rdiv. ring. }
  assert (N : forall i, i < n -> nth i (@plot_linspace ROps a b n) 0%R = (a + (b - a) * (INR i / INR (n - 1)))%R).
  { intros i Hi. rewrite E. rewrite (nth_indep _ 0%R ((fun i => (a + (b - a) * (INR i / INR (n - 1)))%R) 0)) by (rewrite map_length, seq_length; exact Hi).
    rewrite (map_nth (fun i => (a + (b - a) * (INR i / INR (n - 1)))%R)). rewrite seq_nth by exact Hi. reflexivity. }
  split; [rewrite E, map_length, seq_length; reflexivity|]. split; [exact N|]. split.
  - refine (eq_trans (N 0 ltac:(lia)) _). change (INR 0) with 0%R. unfold Rdiv. rewrite Rmult_0_l, Rmult_0_r. apply Rplus_0_r.
  - refine (eq_trans (N (n - 1) ltac:(lia)) _). assert (H : INR (n - 1) <> 0%R) by (apply not_0_INR; lia). unfold Rdiv. rewrite Rinv_r by exact H. rewrite Rmult_1_r. apply Rplus_minus.
Qed.

(** plot_static_vector_field with an object that has the attribute defunc: at every point of the grid the two components of the field there. *)
Lemma C163_static_partial_pf :
  forall (K : NumOps) (m : pmodel K) (u v : K -> K -> K -> K) (xs ys : list K) (t : K),
  pm_defunc m = Some (fun t p => [u t (nth 0 p n0) (nth 1 p n0); v t (nth 0 p n0) (nth 1 p n0)]) ->
  plot_static_vector_field m xs ys t = Ok (map (fun x => map (fun y => (u t x y, v t x y)) ys) xs).
Proof.
  intros K m u v xs ys t Hm. unfold plot_static_vector_field. rewrite Hm. apply rall_ok. intros x _. apply rall_ok. intros y _. reflexivity.
Qed.
