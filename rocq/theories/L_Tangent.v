(** Derivatives of explicit Runge-Kutta steps, and of their adjoint steps, up to second order in the step size. *)
From Coq Require Import ZArith QArith Reals Lra Lia List Bool.
From Verif Require Import Num Py Tensor Spec_Ode Spec_Trees Spec_RK Spec_Root Spec_Conv Spec_Grad.
From Verif Require Import L_Base L_Vec L_Steps L_Tables L_Steps2 L_Root L_Sens L_Conv L_Models.
Import ListNotations.
Local Open Scope R_scope.
Local Notation length := List.length.

Definition asum (w : list R) : R := fold_right Rplus 0 (map Rabs w).
Lemma asum_pos w : 0 <= asum w.
Proof. induction w as [|a w IH]; cbn; [lra|]. pose proof (Rabs_pos a). unfold asum in IH. lra. Qed.

Lemma near_refl n e x : 0 <= e -> near n e x x.
Proof. intros He i _. rewrite Rminus_diag_eq, Rabs_R0 by reflexivity. exact He. Qed.
Lemma near_sym n e x y : near n e x y -> near n e y x.
Proof. intros H i Hi. rewrite Rabs_minus_sym. auto. Qed.
Lemma within_le n E E' u : E <= E' -> within n E u -> within n E' u.
Proof. intros H1 H2 i Hi. specialize (H2 i Hi). lra. Qed.
Lemma within_near n E e u v : within n E u -> near n e v u -> within n (E + e) v.
Proof.
  intros H1 H2 i Hi. specialize (H1 i Hi). specialize (H2 i Hi).
  replace (nth i v 0) with (nth i u 0 + (nth i v 0 - nth i u 0)) by ring. eapply Rle_trans; [apply Rabs_triang|]. lra.
Qed.
Lemma within_minus n E x y : length x = n -> length y = n -> near n E x y -> within n E (minus_vec x y).
Proof. intros Hx Hy H i Hi. rewrite nth_minus by lia. auto. Qed.

Lemma wsum_within n K i : (i < n)%nat -> 0 <= K -> forall w ks, Forall (within n K) ks -> Rabs (wsum i w ks) <= K * asum w.
Proof.
  intros Hi HK w. unfold asum. induction w as [|a w IH]; intros [|k ks] HF; cbn [wsum map fold_right]; try (rewrite Rabs_R0).
  - lra.
  - lra.
  - pose proof (asum_pos (a :: w)) as P. cbn in P. apply Rmult_le_pos; auto.
  - inversion HF as [|? ? Hk HF']; subst. specialize (IH ks HF'). specialize (Hk i Hi).
    eapply Rle_trans; [apply Rabs_triang|]. rewrite Rabs_mult.
    assert (Rabs a * Rabs (nth i k 0) <= Rabs a * K) by (apply Rmult_le_compat_l; [apply Rabs_pos|auto]). lra.
Qed.
Lemma comb_within n K x h w ks : 0 <= K -> length x = n -> Forall (fun k => length k = n) ks -> Forall (within n K) ks ->
  near n (Rabs h * (K * asum w)) (comb x h w ks) x.
Proof.
  intros HK Hx Hl HF i Hi. rewrite (nth_comb n) by (auto; now apply Forall_forall).
  replace (nth i x 0 + h * wsum i w ks - nth i x 0) with (h * wsum i w ks) by ring. rewrite Rabs_mult.
  apply Rmult_le_compat_l; [apply Rabs_pos|]. now apply (wsum_within n).
Qed.

(** stages that agree up to e: with weights that sum to one the step is an Euler step up to h e *)
Lemma wsum_const n e i v : (i < n)%nat -> 0 <= e -> forall b ks, length b = length ks -> Forall (fun k => near n e k v) ks ->
  Rabs (wsum i b ks - fold_right Rplus 0 b * nth i v 0) <= e * asum b.
Proof.
  intros Hi He b. unfold asum. induction b as [|a b IH]; intros [|k ks] Hl HF; try discriminate; cbn [wsum map fold_right].
  - rewrite Rmult_0_l, Rminus_0_r, Rabs_R0. lra.
  - inversion HF as [|? ? Hk HF']; subst. specialize (IH ks ltac:(now injection Hl) HF'). specialize (Hk i Hi).
    replace (a * nth i k 0 + wsum i b ks - (a + fold_right Rplus 0 b) * nth i v 0)
      with (a * (nth i k 0 - nth i v 0) + (wsum i b ks - fold_right Rplus 0 b * nth i v 0)) by ring.
    eapply Rle_trans; [apply Rabs_triang|]. rewrite Rabs_mult.
    assert (Rabs a * Rabs (nth i k 0 - nth i v 0) <= Rabs a * e) by (apply Rmult_le_compat_l; [apply Rabs_pos|auto]). lra.
Qed.
Lemma comb_const n e x h b ks v : 0 <= e -> length x = n -> length v = n -> Forall (fun k => length k = n) ks -> length b = length ks ->
  fold_right Rplus 0 b = 1 -> Forall (fun k => near n e k v) ks ->
  near n (Rabs h * (e * asum b)) (comb x h b ks) (axpy h v x).
Proof.
  intros He Hx Hv Hl Hb H1 HF i Hi. rewrite (nth_comb n) by (auto; now apply Forall_forall). rewrite (nth_axpy n) by auto.
  replace (nth i x 0 + h * wsum i b ks - (nth i x 0 + h * nth i v 0)) with (h * (wsum i b ks - 1 * nth i v 0)) by ring.
  rewrite Rabs_mult. apply Rmult_le_compat_l; [apply Rabs_pos|]. rewrite <- H1. now apply (wsum_const n).
Qed.

Lemma wsum_const2 n e i d : (i < n)%nat -> 0 <= e -> forall b ks' ks, length b = length ks -> Forall2 (fun k' k => length k' = n /\ length k = n /\ near n e (minus_vec k' k) d) ks' ks ->
  Rabs (wsum i b ks' - wsum i b ks - fold_right Rplus 0 b * nth i d 0) <= e * asum b.
Proof.
  intros Hi He b. unfold asum. induction b as [|a b IH]; intros ks' ks Hl HF.
  - destruct HF; [|discriminate]. cbn. replace (0 - 0 - 0 * nth i d 0) with 0 by ring. rewrite Rabs_R0. lra.
  - destruct HF as [|k' k ks' ks (L1 & L2 & Hk) HF]; [discriminate|]. cbn [wsum map fold_right].
    specialize (IH ks' ks ltac:(now injection Hl) HF). specialize (Hk i Hi). rewrite nth_minus in Hk by lia.
    replace (a * nth i k' 0 + wsum i b ks' - (a * nth i k 0 + wsum i b ks) - (a + fold_right Rplus 0 b) * nth i d 0)
      with (a * (nth i k' 0 - nth i k 0 - nth i d 0) + (wsum i b ks' - wsum i b ks - fold_right Rplus 0 b * nth i d 0)) by ring.
    eapply Rle_trans; [apply Rabs_triang|]. rewrite Rabs_mult.
    assert (Rabs a * Rabs (nth i k' 0 - nth i k 0 - nth i d 0) <= Rabs a * e) by (apply Rmult_le_compat_l; [apply Rabs_pos|auto]). lra.
Qed.
Lemma wsum_pair n e i : (i < n)%nat -> 0 <= e -> forall b ks' ks, Forall2 (fun k' k => near n e k' k) ks' ks ->
  Rabs (wsum i b ks' - wsum i b ks) <= e * asum b.
Proof.
  intros Hi He b. unfold asum. induction b as [|a b IH]; intros ks' ks HF.
  - cbn. rewrite Rminus_diag_eq, Rabs_R0 by reflexivity. lra.
  - destruct HF as [|k' k ks' ks Hk HF]; cbn [wsum map fold_right].
    + rewrite Rminus_diag_eq, Rabs_R0 by reflexivity. apply Rmult_le_pos; auto. pose proof (Rabs_pos a). pose proof (asum_pos b). unfold asum in *. lra.
    + specialize (IH ks' ks HF). specialize (Hk i Hi).
      replace (a * nth i k' 0 + wsum i b ks' - (a * nth i k 0 + wsum i b ks)) with (a * (nth i k' 0 - nth i k 0) + (wsum i b ks' - wsum i b ks)) by ring.
      eapply Rle_trans; [apply Rabs_triang|]. rewrite Rabs_mult.
      assert (Rabs a * Rabs (nth i k' 0 - nth i k 0) <= Rabs a * e) by (apply Rmult_le_compat_l; [apply Rabs_pos|auto]). lra.
Qed.

(** ** The stages of a step *)

Lemma stages_close L T rows : 0 <= L -> 0 <= T -> exists K, 0 <= K /\ forall n m f p D t h x F, smooth_family n m L f p D -> length x = n -> Rabs h <= T ->
  0 <= F -> within n F (f p t x) -> Forall (fun k => near n (K * (1 + F) * Rabs h) k (f p t x)) (erk_stages rows (f p) t h x).
Proof.
  intros HL HT. induction rows as [|r rows (K & HK & IH)] using rev_ind.
  - exists 0. split; [lra|]. intros. constructor.
  - pose proof (asum_pos (snd r)) as PA. pose proof (Rabs_pos (fst r)) as PC.
    set (K2 := L * (Rabs (fst r) + (1 + K * T) * asum (snd r))).
    assert (PK : 0 <= K * T) by now apply Rmult_le_pos.
    assert (PK2 : 0 <= K2) by (apply Rmult_le_pos; auto; assert (0 <= (1 + K * T) * asum (snd r)) by (apply Rmult_le_pos; lra); lra).
    exists (K + K2). split; [lra|]. intros n m f p D t h x F Hsm Hx Hh HF Hw. specialize (IH n m f p D t h x F Hsm Hx Hh HF Hw).
    pose proof (Rabs_pos h) as Ph. destruct Hsm as (Hp & Hfield & _ & Hlip & _).
    rewrite stages_snoc. apply Forall_app. split.
    + eapply Forall_impl; [|exact IH]. intros k Hk. eapply near_le; [|exact Hk].
      apply Rmult_le_compat_r; auto. apply Rmult_le_compat_r; lra.
    + constructor; [|constructor].
      set (ks := erk_stages rows (f p) t h x) in *.
      assert (Lk : Forall (fun k => length k = n) ks) by (apply Forall_forall; apply erk_stages_len; auto).
      assert (Wk : Forall (within n ((1 + F) * (1 + K * T))) ks).
      { eapply Forall_impl; [|exact IH]. intros k Hk. eapply within_le; [|eapply within_near; [exact Hw|exact Hk]].
        assert (K * (1 + F) * Rabs h <= K * (1 + F) * T) by (apply Rmult_le_compat_l; [apply Rmult_le_pos; lra|auto]). lra. }
      assert (P1 : 0 <= (1 + F) * (1 + K * T)) by (apply Rmult_le_pos; lra).
      pose proof (comb_within n _ x h (snd r) ks P1 Hx Lk Wk) as N1.
      eapply near_le; [|apply (Hlip p (t + fst r * h) t (comb x h (snd r) ks) x (Rabs h * ((1 + F) * (1 + K * T) * asum (snd r))))]; auto.
      * replace (t + fst r * h - t) with (fst r * h) by ring. rewrite Rabs_mult. unfold K2.
        assert (A1 : L * (Rabs (fst r) * Rabs h) <= L * (Rabs (fst r) * Rabs h) * (1 + F)).
        { rewrite <- (Rmult_1_r (L * (Rabs (fst r) * Rabs h))) at 1. apply Rmult_le_compat_l; [|lra]. apply Rmult_le_pos; auto. now apply Rmult_le_pos. }
        assert (A2 : 0 <= K * (1 + F) * Rabs h) by (apply Rmult_le_pos; auto; apply Rmult_le_pos; lra).
        replace ((K + L * (Rabs (fst r) + (1 + K * T) * asum (snd r))) * (1 + F) * Rabs h) with
          (K * (1 + F) * Rabs h + (L * (Rabs (fst r) * Rabs h) * (1 + F) + L * (Rabs h * ((1 + F) * (1 + K * T) * asum (snd r))))) by ring.
        lra.
      * apply comb_len; auto. now apply Forall_forall.
      * apply Rmult_le_pos; auto. apply Rmult_le_pos; auto.
      * apply near_refl. apply Rmult_le_pos; auto. apply Rmult_le_pos; auto.
Qed.

Lemma stages_forall2 n m L f p D rows t h x : smooth_family n m L f p D -> length x = n -> Forall (fun k => length k = n) (erk_stages rows (f p) t h x).
Proof. intros (Hp & Hf & _) Hx. apply Forall_forall. apply erk_stages_len; auto. Qed.

(** a step is an Euler step up to h^2 *)
Lemma step_euler L T rows b : 0 <= L -> 0 <= T -> consistent rows b -> exists K, 0 <= K /\ forall n m f p D t h x F, smooth_family n m L f p D -> length x = n ->
  Rabs h <= T -> 0 <= F -> within n F (f p t x) -> near n (Rabs h * (K * (1 + F) * Rabs h)) (erk_step rows b (f p) t h x) (axpy h (f p t x) x).
Proof.
  intros HL HT (Lb & Sb). destruct (stages_close L T rows HL HT) as (K & HK & H). pose proof (asum_pos b) as PA.
  exists (K * asum b). split; [now apply Rmult_le_pos|]. intros n m f p D t h x F Hsm Hx Hh HF Hw.
  specialize (H n m f p D t h x F Hsm Hx Hh HF Hw). pose proof (Rabs_pos h) as Ph. unfold erk_step.
  eapply near_le; [|apply (comb_const n (K * (1 + F) * Rabs h))]; auto.
  - right. ring.
  - apply Rmult_le_pos; auto. apply Rmult_le_pos; lra.
  - destruct Hsm as (Hp & Hf & _). now apply Hf.
  - now apply (stages_forall2 n m L f p D).
  - rewrite erk_stages_count. exact Lb.
Qed.

(** the stage points *)
Lemma points_close L T rows : 0 <= L -> 0 <= T -> exists K, 0 <= K /\ forall n m f p D t h x F w, smooth_family n m L f p D -> length x = n -> Rabs h <= T ->
  0 <= F -> within n F (f p t x) -> near n (K * (1 + F) * asum w * Rabs h) (comb x h w (erk_stages rows (f p) t h x)) x.
Proof.
  intros HL HT. destruct (stages_close L T rows HL HT) as (K & HK & H). assert (PK : 0 <= K * T) by now apply Rmult_le_pos.
  exists (1 + K * T). split; [lra|]. intros n m f p D t h x F w Hsm Hx Hh HF Hw.
  specialize (H n m f p D t h x F Hsm Hx Hh HF Hw). pose proof (Rabs_pos h) as Ph.
  assert (P1 : 0 <= (1 + F) * (1 + K * T)) by (apply Rmult_le_pos; lra).
  eapply near_le; [|apply (comb_within n ((1 + F) * (1 + K * T)))]; auto.
  - right. ring.
  - now apply (stages_forall2 n m L f p D).
  - eapply Forall_impl; [|exact H]. intros k Hk. eapply within_le; [|eapply within_near; [exact Hw|exact Hk]].
    assert (K * (1 + F) * Rabs h <= K * (1 + F) * T) by (apply Rmult_le_compat_l; [apply Rmult_le_pos; lra|auto]). lra.
Qed.

(** ** Two steps of the forward solve *)
Lemma Forall2_snoc {A B} (P : A -> B -> Prop) l m a c : Forall2 P l m -> P a c -> Forall2 P (l ++ [a]) (m ++ [c]).
Proof. intros H1 H2. apply Forall2_app; auto. Qed.

Lemma Forall2_weak {A B} (P Q : A -> B -> Prop) l m : (forall a c, P a c -> Q a c) -> Forall2 P l m -> Forall2 Q l m.
Proof. intros H. induction 1; constructor; auto. Qed.

Lemma pair_stages L T rows F : 0 <= L -> 0 <= T -> 0 <= F -> exists K, 0 <= K /\ forall n m f p D t h x x' q E, smooth_family n m L f p D ->
  length x = n -> length x' = n -> length q = m -> Rabs h <= T -> within n F (f p t x) -> 0 <= E -> near n E x' x -> near m E q p ->
  Forall2 (fun k' k => near n (K * E) k' k) (erk_stages rows (f q) t h x') (erk_stages rows (f p) t h x) /\
  Forall2 (fun k' k => length k' = n /\ length k = n /\ near n (K * (E * (Rabs h + E))) (minus_vec k' k) (D t x (minus_vec x' x) (minus_vec q p)))
    (erk_stages rows (f q) t h x') (erk_stages rows (f p) t h x).
Proof.
  intros HL HT HF. induction rows as [|r rows (K & HK & IH)] using rev_ind.
  - exists 0. split; [lra|]. intros. split; constructor.
  - destruct (points_close L T rows HL HT) as (KP & HKP & HP).
    pose proof (asum_pos (snd r)) as PA. pose proof (Rabs_pos (fst r)) as PC.
    set (G := 1 + T * (K * asum (snd r))). assert (PG : 1 <= G) by (unfold G; assert (0 <= T * (K * asum (snd r))) by (apply Rmult_le_pos; auto; now apply Rmult_le_pos); lra).
    set (R1 := KP * (1 + F) * asum (snd r)). assert (PR1 : 0 <= R1) by (unfold R1; apply Rmult_le_pos; auto; apply Rmult_le_pos; lra).
    set (K2 := L * (G * G) + L * (K * asum (snd r)) + L * (Rabs (fst r) + R1)).
    assert (PKA : 0 <= K * asum (snd r)) by now apply Rmult_le_pos.
    assert (P1 : 0 <= L * (G * G)) by (apply Rmult_le_pos; auto; apply Rmult_le_pos; lra).
    assert (P2 : 0 <= L * (K * asum (snd r))) by now apply Rmult_le_pos.
    assert (P3 : 0 <= L * (Rabs (fst r) + R1)) by (apply Rmult_le_pos; lra).
    assert (P4 : 0 <= L * G) by (apply Rmult_le_pos; lra).
    exists (K + L * G + K2). split; [unfold K2; lra|].
    intros n m f p D t h x x' q E Hsm Hx Hx' Hq Hh Hw HE Nx Np.
    destruct (IH n m f p D t h x x' q E Hsm Hx Hx' Hq Hh Hw HE Nx Np) as (IH1 & IH2).
    pose proof (HP n m f p D t h x F (snd r) Hsm Hx Hh HF Hw) as NP.
    pose proof (stages_forall2 n m L f p D rows t h x Hsm Hx) as Lk.
    destruct Hsm as (Hp & Hfield & HDl & Hlip & Hrem & Hadd & Hbnd & Hbase).
    assert (Lk' : Forall (fun k => length k = n) (erk_stages rows (f q) t h x')) by (apply Forall_forall; apply erk_stages_len; auto).
    pose proof (Rabs_pos h) as Ph.
    set (ks := erk_stages rows (f p) t h x) in *. set (ks' := erk_stages rows (f q) t h x') in *.
    set (X := comb x h (snd r) ks) in *. set (X' := comb x' h (snd r) ks').
    assert (LX : length X = n) by (apply comb_len; auto; now apply Forall_forall).
    assert (LX' : length X' = n) by (apply comb_len; auto; now apply Forall_forall).
    assert (PE : 0 <= G * E) by (apply Rmult_le_pos; lra).
    assert (EG : E <= G * E) by (rewrite <- (Rmult_1_l E) at 1; apply Rmult_le_compat_r; auto).
    (* difference of the stage points *)
    assert (Dd : near n (Rabs h * (K * asum (snd r) * E)) (minus_vec X' X) (minus_vec x' x)).
    { intros i Hi. rewrite !nth_minus by lia. unfold X, X'. rewrite !(nth_comb n) by (auto; now apply Forall_forall).
      replace (nth i x' 0 + h * wsum i (snd r) ks' - (nth i x 0 + h * wsum i (snd r) ks) - (nth i x' 0 - nth i x 0))
        with (h * (wsum i (snd r) ks' - wsum i (snd r) ks)) by ring.
      rewrite Rabs_mult. apply Rmult_le_compat_l; auto.
      eapply Rle_trans; [apply (wsum_pair n (K * E) i Hi); [now apply Rmult_le_pos|exact IH1]|]. right. ring. }
    assert (NX : near n (G * E) X' X).
    { intros i Hi. specialize (Dd i Hi). specialize (Nx i Hi). rewrite !nth_minus in Dd by lia.
      replace (nth i X' 0 - nth i X 0) with ((nth i X' 0 - nth i X 0 - (nth i x' 0 - nth i x 0)) + (nth i x' 0 - nth i x 0)) by ring.
      eapply Rle_trans; [apply Rabs_triang|].
      assert (Rabs h * (K * asum (snd r) * E) <= T * (K * asum (snd r) * E)) by (apply Rmult_le_compat_r; auto; now apply Rmult_le_pos).
      unfold G. replace ((1 + T * (K * asum (snd r))) * E) with (T * (K * asum (snd r) * E) + E) by ring. lra. }
    rewrite !stages_snoc. split.
    + apply Forall2_snoc.
      * eapply Forall2_weak; [|exact IH1]. intros k' k Hk. eapply near_le; [|exact Hk]. apply Rmult_le_compat_r; auto. unfold K2. lra.
      * eapply near_le; [|apply (Hlip q (t + fst r * h) (t + fst r * h) X' X (G * E)); auto].
        -- rewrite Rminus_diag_eq, Rabs_R0 by reflexivity. rewrite Rplus_0_l.
           replace ((K + L * G + K2) * E) with (L * (G * E) + (K + K2) * E) by ring.
           assert (0 <= (K + K2) * E) by (apply Rmult_le_pos; auto; unfold K2; lra). lra.
        -- eapply near_le; [exact EG|exact Np].
    + apply Forall2_snoc.
      * eapply Forall2_weak; [|exact IH2]. intros k' k (A1 & A2 & Hk). split; [exact A1|]. split; [exact A2|]. eapply near_le; [|exact Hk].
        apply Rmult_le_compat_r; [apply Rmult_le_pos; lra|]. unfold K2. lra.
      * split; [now apply Hfield|]. split; [now apply Hfield|].
        assert (Np' : near m (G * E) q p) by (eapply near_le; [exact EG|exact Np]).
        pose proof (Hrem q (t + fst r * h) X' X (G * E) Hq LX' LX PE NX Np') as B1.
        set (dq := minus_vec q p) in *. assert (Ldq : length dq = m) by (apply minus_len; auto).
        set (dx := minus_vec x' x) in *. assert (Ldx : length dx = n) by (apply minus_len; auto).
        set (dX := minus_vec X' X) in *. assert (LdX : length dX = n) by (apply minus_len; auto).
        assert (B2 : near n (L * (Rabs h * (K * asum (snd r) * E))) (D (t + fst r * h) X dX dq) (D (t + fst r * h) X dx dq)).
        { intros i Hi. rewrite <- nth_minus by (rewrite !HDl; auto). rewrite <- Hadd by auto.
          assert (PB : 0 <= Rabs h * (K * asum (snd r) * E)) by (apply Rmult_le_pos; auto; now apply Rmult_le_pos).
          apply (Hbnd (t + fst r * h) X (minus_vec dX dx) (minus_vec dq dq) _ LX); auto; try (apply minus_len; auto).
          - apply within_minus; auto.
          - apply within_minus; auto. now apply near_refl. }
        assert (B3 : near n (L * (Rabs (fst r * h) + R1 * Rabs h) * E) (D (t + fst r * h) X dx dq) (D t x dx dq)).
        { replace (fst r * h) with (t + fst r * h - t) by ring. replace (t + (t + fst r * h - t)) with (t + fst r * h) by ring. apply Hbase; auto.
          - now apply Rmult_le_pos.
          - apply within_minus; auto.
          - apply within_minus; auto. }
        rewrite Rabs_mult in B3.
        eapply near_le; [|eapply near_trans; [eapply near_trans; [exact B1|exact B2]|exact B3]].
        set (a := Rabs h) in *. set (c := Rabs (fst r)) in *. set (s := asum (snd r)) in *.
        assert (PEE : 0 <= E * E) by now apply Rmult_le_pos. assert (PEa : 0 <= E * a) by now apply Rmult_le_pos.
        replace (L * (G * E * (G * E)) + L * (a * (K * s * E)) + L * (c * a + R1 * a) * E)
          with (L * (G * G) * (E * E) + (L * (K * s) + L * (c + R1)) * (E * a)) by ring.
        replace ((K + L * G + K2) * (E * (a + E))) with (K2 * (E * E) + K2 * (E * a) + (K + L * G) * (E * E) + (K + L * G) * (E * a)) by ring.
        assert (Q1 : L * (G * G) * (E * E) <= K2 * (E * E)) by (apply Rmult_le_compat_r; auto; unfold K2; fold s c; lra).
        assert (Q2 : (L * (K * s) + L * (c + R1)) * (E * a) <= K2 * (E * a)) by (apply Rmult_le_compat_r; auto; unfold K2; fold s c; lra).
        assert (Q3 : 0 <= (K + L * G) * (E * E)) by (apply Rmult_le_pos; lra). assert (Q4 : 0 <= (K + L * G) * (E * a)) by (apply Rmult_le_pos; lra).
        lra.
Qed.

(** the difference of two steps: derivative, up to E (h + E) *)
Lemma pair_step L T rows b F : 0 <= L -> 0 <= T -> 0 <= F -> consistent rows b -> exists K, 0 <= K /\ forall n m f p D t h x x' q E, smooth_family n m L f p D ->
  length x = n -> length x' = n -> length q = m -> Rabs h <= T -> within n F (f p t x) -> 0 <= E -> near n E x' x -> near m E q p ->
  near n ((1 + K * Rabs h) * E) (erk_step rows b (f q) t h x') (erk_step rows b (f p) t h x) /\
  near n (Rabs h * (K * (E * (Rabs h + E)))) (minus_vec (erk_step rows b (f q) t h x') (erk_step rows b (f p) t h x))
    (axpy h (D t x (minus_vec x' x) (minus_vec q p)) (minus_vec x' x)).
Proof.
  intros HL HT HF (Lb & Sb). destruct (pair_stages L T rows F HL HT HF) as (K & HK & H). pose proof (asum_pos b) as PA.
  exists (K * asum b). split; [now apply Rmult_le_pos|]. intros n m f p D t h x x' q E Hsm Hx Hx' Hq Hh Hw HE Nx Np.
  destruct (H n m f p D t h x x' q E Hsm Hx Hx' Hq Hh Hw HE Nx Np) as (H1 & H2). pose proof (Rabs_pos h) as Ph.
  assert (Hsm' := Hsm). destruct Hsm' as (Hp & Hfield & HDl & _). unfold erk_step.
  pose proof (erk_stages_len n rows (f p) t h x (Hfield p Hp) Hx) as Lk. pose proof (erk_stages_len n rows (f q) t h x' (Hfield q Hq) Hx') as Lk'.
  assert (Ldx : length (minus_vec x' x) = n) by (apply minus_len; auto). assert (Ldq : length (minus_vec q p) = m) by (apply minus_len; auto).
  split; intros i Hi.
  - rewrite !(nth_comb n) by auto. pose proof (wsum_pair n (K * E) i Hi ltac:(now apply Rmult_le_pos) b _ _ H1) as B. specialize (Nx i Hi).
    match goal with |- Rabs (?a + h * ?u - (?c + h * ?v)) <= _ => replace (a + h * u - (c + h * v)) with ((a - c) + h * (u - v)) by ring end.
    eapply Rle_trans; [apply Rabs_triang|]. rewrite Rabs_mult.
    match goal with |- _ + Rabs h * ?u <= _ => assert (Rabs h * u <= Rabs h * (K * E * asum b)) by (apply Rmult_le_compat_l; auto) end. lra.
  - rewrite nth_minus by (rewrite !(comb_len n); auto). rewrite !(nth_comb n) by auto. rewrite (nth_axpy n) by auto. rewrite nth_minus by lia.
    pose proof (wsum_const2 n (K * (E * (Rabs h + E))) i (D t x (minus_vec x' x) (minus_vec q p)) Hi
      ltac:(apply Rmult_le_pos; auto; apply Rmult_le_pos; lra) b _ _ ltac:(rewrite erk_stages_count; exact Lb) H2) as B.
    rewrite Sb, Rmult_1_l in B.
    match goal with |- Rabs (?a + h * ?u - (?c + h * ?v) - (?a - ?c + h * ?d)) <= _ => replace (a + h * u - (c + h * v) - (a - c + h * d)) with (h * (u - v - d)) by ring end.
    rewrite Rabs_mult. apply Rmult_le_compat_l; auto. lra.
Qed.

(** ** The adjoint step *)
Notation op := (list R -> list R -> list R).
Section Ops.
Variables (n m : nat) (f : list R -> R -> list R -> list R) (p : list R) (D : R -> list R -> list R -> list R -> list R) (t h : R) (x : list R).
Definition op_fold (rows : list (R * list R)) : list (list R) * list op :=
  fold_left (fun st r =>
    let X := comb x h (snd r) (fst st) in let T := t + fst r * h in
    (fst st ++ [f p T X], snd st ++ [fun u q => comb (D T X u q) (- h) (snd r) (map (fun G : op => G (D T X u q) (repeat 0 m)) (snd st))])) rows ([], []).
Definition ops rows : list op := snd (op_fold rows).
Lemma op_fold_fst rows : fst (op_fold rows) = erk_stages rows (f p) t h x.
Proof.
  unfold op_fold, erk_stages. 
  match goal with |- fst (fold_left ?g rows ([], [])) = fold_left ?k rows [] => assert (G : forall rows st, fst (fold_left g rows st) = fold_left k rows (fst st)) end.
  { clear rows. induction rows as [|r rows IH]; intros st; [reflexivity|]. cbn [fold_left]. now rewrite IH. }
  apply (G rows ([], [])).
Qed.
Lemma ops_snoc rows r : ops (rows ++ [r]) = let X := comb x h (snd r) (erk_stages rows (f p) t h x) in let T := t + fst r * h in
  ops rows ++ [fun u q => comb (D T X u q) (- h) (snd r) (map (fun G : op => G (D T X u q) (repeat 0 m)) (ops rows))].
Proof. unfold ops. rewrite <- op_fold_fst. unfold op_fold. rewrite fold_left_app. reflexivity. Qed.
Lemma ops_count rows : length (ops rows) = length rows.
Proof. induction rows as [|r rows IH] using rev_ind; [reflexivity|]. rewrite ops_snoc. cbv zeta. rewrite !app_length, IH. reflexivity. Qed.
End Ops.

Lemma zeros_within m E : 0 <= E -> within m E (repeat 0 m).
Proof.
  intros HE i _. replace (nth i (repeat 0 m) 0) with 0; [rewrite Rabs_R0; exact HE|].
  clear HE. revert i. induction m as [|m IH]; intros [|i]; cbn; auto.
Qed.

Lemma ops_bound L T rows F : 0 <= L -> 0 <= T -> 0 <= F -> exists K, 0 <= K /\ forall n m f p D t h x, smooth_family n m L f p D ->
  length x = n -> Rabs h <= T -> within n F (f p t x) ->
  Forall (fun G : op => forall u q E, length u = n -> length q = m -> 0 <= E -> within n E u -> within m E q ->
    length (G u q) = n /\ within n (K * E) (G u q) /\ near n (K * Rabs h * E) (G u q) (D t x u q)) (ops m f p D t h x rows).
Proof.
  intros HL HT HF. induction rows as [|r rows (K & HK & IH)] using rev_ind.
  - exists 0. split; [lra|]. intros. constructor.
  - destruct (points_close L T rows HL HT) as (KP & HKP & HP).
    pose proof (asum_pos (snd r)) as PA. pose proof (Rabs_pos (fst r)) as PC.
    set (R1 := KP * (1 + F) * asum (snd r)). assert (PR1 : 0 <= R1) by (unfold R1; apply Rmult_le_pos; auto; apply Rmult_le_pos; lra).
    set (K1 := K * L * asum (snd r)). assert (PK1 : 0 <= K1) by (unfold K1; apply Rmult_le_pos; auto; now apply Rmult_le_pos).
    assert (PTK : 0 <= T * K1) by now apply Rmult_le_pos. assert (P3 : 0 <= L * (Rabs (fst r) + R1)) by (apply Rmult_le_pos; lra).
    exists (K + L + T * K1 + K1 + L * (Rabs (fst r) + R1)). split; [lra|].
    intros n m f p D t h x Hsm Hx Hh Hw. specialize (IH n m f p D t h x Hsm Hx Hh Hw). pose proof (Rabs_pos h) as Ph.
    pose proof (HP n m f p D t h x F (snd r) Hsm Hx Hh HF Hw) as NP. fold R1 in NP.
    pose proof (stages_forall2 n m L f p D rows t h x Hsm Hx) as Lk.
    rewrite ops_snoc. cbv zeta. apply Forall_app. split.
    + eapply Forall_impl; [|exact IH]. intros G HG u q E Hu Hq HE Wu Wq. destruct (HG u q E Hu Hq HE Wu Wq) as (A1 & A2 & A3).
      split; [exact A1|]. split; [eapply within_le; [|exact A2]|eapply near_le; [|exact A3]].
      * apply Rmult_le_compat_r; lra.
      * apply Rmult_le_compat_r; auto. apply Rmult_le_compat_r; lra.
    + constructor; [|constructor]. intros u q E Hu Hq HE Wu Wq.
      destruct Hsm as (Hp & Hfield & HDl & Hlip & Hrem & Hadd & Hbnd & Hbase).
      set (ks := erk_stages rows (f p) t h x) in *. set (X := comb x h (snd r) ks) in *. set (tj := t + fst r * h).
      assert (LX : length X = n) by (apply comb_len; auto; now apply Forall_forall).
      set (d := D tj X u q). assert (Ld : length d = n) by (now apply HDl).
      assert (Wd : within n (L * E) d) by (now apply Hbnd). assert (PLE : 0 <= L * E) by now apply Rmult_le_pos.
      set (Gs := ops m f p D t h x rows) in *.
      assert (Wz : within m (L * E) (repeat 0 m)) by now apply zeros_within.
      assert (F1 : Forall (fun k => length k = n) (map (fun G : op => G d (repeat 0 m)) Gs)).
      { apply Forall_map. eapply Forall_impl; [|exact IH]. intros G HG. cbv beta. now destruct (HG d (repeat 0 m) (L * E) Ld (repeat_length _ _) PLE Wd Wz). }
      assert (F2 : Forall (within n (K * (L * E))) (map (fun G : op => G d (repeat 0 m)) Gs)).
      { apply Forall_map. eapply Forall_impl; [|exact IH]. intros G HG. cbv beta. now destruct (HG d (repeat 0 m) (L * E) Ld (repeat_length _ _) PLE Wd Wz). }
      assert (N1 : near n (Rabs h * (K1 * E)) (comb d (- h) (snd r) (map (fun G : op => G d (repeat 0 m)) Gs)) d).
      { eapply near_le; [|apply (comb_within n (K * (L * E))); auto; now apply Rmult_le_pos]. rewrite Rabs_Ropp. right. unfold K1. ring. }
      assert (PK1E : 0 <= K1 * E) by now apply Rmult_le_pos.
      split; [apply comb_len; auto; now apply Forall_forall|]. split.
      * eapply within_le; [|eapply within_near; [exact Wd|exact N1]].
        assert (Rabs h * (K1 * E) <= T * (K1 * E)) by (apply Rmult_le_compat_r; auto).
        assert (0 <= (K + K1 + L * (Rabs (fst r) + R1)) * E) by (apply Rmult_le_pos; lra). lra.
      * assert (N2 : near n (L * (Rabs (fst r * h) + R1 * Rabs h) * E) d (D t x u q)).
        { unfold d, tj. replace (fst r * h) with (t + fst r * h - t) by ring. replace (t + (t + fst r * h - t)) with (t + fst r * h) by ring.
          apply Hbase; auto. now apply Rmult_le_pos. }
        rewrite Rabs_mult in N2. eapply near_le; [|eapply near_trans; [exact N1|exact N2]].
        replace (Rabs h * (K1 * E) + L * (Rabs (fst r) * Rabs h + R1 * Rabs h) * E) with ((K1 + L * (Rabs (fst r) + R1)) * Rabs h * E) by ring.
        apply Rmult_le_compat_r; auto. apply Rmult_le_compat_r; auto. lra.
Qed.

Definition transposed_step (m : nat) f p D rows (b : list R) t h x : op := fun u q => comb u (- h) b (map (fun G : op => G u q) (ops m f p D t h x rows)).

Lemma transposed_euler L T rows b F : 0 <= L -> 0 <= T -> 0 <= F -> consistent rows b -> exists K, 0 <= K /\ forall n m f p D t h x, smooth_family n m L f p D ->
  length x = n -> Rabs h <= T -> within n F (f p t x) ->
  forall u q E, length u = n -> length q = m -> 0 <= E -> within n E u -> within m E q ->
    length (transposed_step m f p D rows b t h x u q) = n /\
    near n (Rabs h * (K * Rabs h * E)) (transposed_step m f p D rows b t h x u q) (axpy (- h) (D t x u q) u).
Proof.
  intros HL HT HF (Lb & Sb). destruct (ops_bound L T rows F HL HT HF) as (K & HK & H). pose proof (asum_pos b) as PA.
  exists (K * asum b). split; [now apply Rmult_le_pos|]. intros n m f p D t h x Hsm Hx Hh Hw u q E Hu Hq HE Wu Wq.
  specialize (H n m f p D t h x Hsm Hx Hh Hw). pose proof (Rabs_pos h) as Ph.
  destruct Hsm as (Hp & Hfield & HDl & _).
  assert (F1 : Forall (fun k => length k = n) (map (fun G : op => G u q) (ops m f p D t h x rows))).
  { apply Forall_map. eapply Forall_impl; [|exact H]. intros G HG. cbv beta. now destruct (HG u q E Hu Hq HE Wu Wq). }
  assert (F2 : Forall (fun k => near n (K * Rabs h * E) k (D t x u q)) (map (fun G : op => G u q) (ops m f p D t h x rows))).
  { apply Forall_map. eapply Forall_impl; [|exact H]. intros G HG. cbv beta. now destruct (HG u q E Hu Hq HE Wu Wq) as (_ & _ & ?). }
  split; [apply comb_len; auto; now apply Forall_forall|]. unfold transposed_step.
  eapply near_le; [|apply (comb_const n (K * Rabs h * E)); auto].
  - rewrite Rabs_Ropp. right. ring.
  - apply Rmult_le_pos; auto. now apply Rmult_le_pos.
  - rewrite map_length, ops_count. exact Lb.
Qed.
