(** * Rounded sums and Simpson integrals *)
From Coq Require Import Reals Lra Lia Permutation.
From Verif Require Import Np NpLemmas Core Ode Integrate IntegrateSpec SimpsProofs Background BgSpec Redshift RedshiftSpec Ad AdSpec Fp FpSpec FpProofs.
Local Open Scope R_scope.

Lemma vsum_perm l l' : Permutation l l' -> vsum l = vsum l'.
Proof. unfold vsum. induction 1; simpl; lra. Qed.
Lemma vsum_app l l' : vsum (l ++ l') = vsum l + vsum l'.
Proof. unfold vsum. induction l; simpl; [lra|rewrite IHl; lra]. Qed.

Section Sums.
Context (N : num R) (u : R) {RN : rounding N u}.
Let U : 0 <= u < 1 := r_u.
Lemma cst0 : cst N 0 = 0.
Proof. apply (r_int 0). lia. Qed.
Lemma pow_ge1 k : 1 <= (1 + u) ^ k.
Proof. apply pow_R1_Rle. lra. Qed.

(** the terms may carry errors of their own *)
Lemma summed_upto {I} (f' f m : I -> R) g : 1 <= g -> forall k l x, summed N k l x -> forall J, l = map f' J -> (forall i, In i J -> upto g (m i) (f' i) (f i)) ->
  upto (g * (1 + u) ^ k) (vsum (map m J)) x (vsum (map f J)).
Proof.
  intros G k l x H. induction H as [|x|k1 k2 l1 l2 l x1 x2 H1 IH1 H2 IH2 P]; intros J E B.
  - destruct J; [|discriminate]. simpl. rewrite cst0, Rmult_1_r. unfold upto. rewrite Rminus_0_r, Rabs_R0. lra.
  - destruct J as [|i [|? ?]]; try discriminate. injection E as ->. simpl. rewrite Rmult_1_r, !Rplus_0_r. apply B. left; reflexivity.
  - subst l. apply Permutation_sym in P. destruct (Permutation_map_inv _ _ P) as (J' & E & PJ). apply Permutation_sym in PJ.
    apply eq_sym, map_eq_app in E. destruct E as (J1 & J2 & -> & E1 & E2). apply Permutation_sym in PJ.
    rewrite (vsum_perm _ _ (Permutation_map m PJ)), (vsum_perm _ _ (Permutation_map f PJ)), !map_app, !vsum_app.
    assert (B1 : forall i, In i J1 -> upto g (m i) (f' i) (f i)) by (intros i Hi; apply B; eapply Permutation_in; [apply Permutation_sym; exact PJ|apply in_or_app; left; exact Hi]).
    assert (B2 : forall i, In i J2 -> upto g (m i) (f' i) (f i)) by (intros i Hi; apply B; eapply Permutation_in; [apply Permutation_sym; exact PJ|apply in_or_app; right; exact Hi]).
    specialize (IH1 J1 (eq_sym E1) B1). specialize (IH2 J2 (eq_sym E2) B2).
    replace (g * (1 + u) ^ S (Nat.max k1 k2)) with (g * (1 + u) ^ Nat.max k1 k2 * (1 + u)) by (simpl; ring).
    eapply upto_near; [apply U|apply r_add|]. apply upto_add.
    + eapply upto_grow; [|apply Rle_refl|exact IH1]. apply Rmult_le_compat_l; [lra|]. apply Rle_pow; [lra|lia].
    + eapply upto_grow; [|apply Rle_refl|exact IH2]. apply Rmult_le_compat_l; [lra|]. apply Rle_pow; [lra|lia].
Qed.
Lemma summed_close {I} (f' f : I -> R) g : 0 <= g -> forall k l x, summed N k l x -> forall J, l = map f' J -> (forall i, In i J -> close g (f' i) (f i)) ->
  close (g + INR k * loss u) x (vsum (map f J)).
Proof.
  pose proof (loss_0 u U) as L.
  intros G k l x H. induction H as [|x|k1 k2 l1 l2 l x1 x2 H1 IH1 H2 IH2 P]; intros J E B.
  - destruct J; [|discriminate]. simpl. rewrite cst0. apply close_grow with 0; [lra|]. apply close_refl. lra.
  - destruct J as [|i [|? ?]]; try discriminate. injection E as ->. simpl. rewrite Rmult_0_l, !Rplus_0_r. apply B. left; reflexivity.
  - subst l. apply Permutation_sym in P. destruct (Permutation_map_inv _ _ P) as (J' & E & PJ).
    apply eq_sym, map_eq_app in E. destruct E as (J1 & J2 & -> & E1 & E2).
    rewrite (vsum_perm _ _ (Permutation_map f PJ)), !map_app, !vsum_app.
    assert (B1 : forall i, In i J1 -> close g (f' i) (f i)) by (intros i Hi; apply B; eapply Permutation_in; [apply Permutation_sym; exact PJ|apply in_or_app; left; exact Hi]).
    assert (B2 : forall i, In i J2 -> close g (f' i) (f i)) by (intros i Hi; apply B; eapply Permutation_in; [apply Permutation_sym; exact PJ|apply in_or_app; right; exact Hi]).
    specialize (IH1 J1 (eq_sym E1) B1). specialize (IH2 J2 (eq_sym E2) B2).
    rewrite S_INR. replace (g + (INR (Nat.max k1 k2) + 1) * loss u) with (g + INR (Nat.max k1 k2) * loss u + loss u) by ring.
    eapply close_near; [apply U|apply r_add|].
    assert (INR k1 <= INR (Nat.max k1 k2)) by (apply le_INR; lia). assert (INR k2 <= INR (Nat.max k1 k2)) by (apply le_INR; lia).
    apply close_add; (eapply close_grow; [|eassumption]); nra.
Qed.

Lemma map_tab {A B} (h : A -> B) n f : map h (tab n f) = tab n (fun i => h (f i)).
Proof. unfold tab. rewrite map_map. reflexivity. Qed.
Lemma map2_tab {A B C} (h : A -> B -> C) n f g : map2 h (tab n f) (tab n g) = tab n (fun i => h (f i) (g i)).
Proof. unfold tab. generalize 0%nat. induction n; intros s; [reflexivity|]. simpl. rewrite IHn. reflexivity. Qed.
Lemma fterms_tab {A} (NN : num A) s M : (1 <= M)%nat -> fterms NN (tab (2 * M + 1) s) =
  tab M (fun i => nadd NN (nadd NN (s (2 * i)%nat) (nmul NN (cst NN 4) (s (2 * i + 1)%nat))) (s (2 * i + 2)%nat)).
Proof. intros H. unfold fterms. destruct (simps_slices s M H) as (-> & -> & ->). rewrite map_tab, !map2_tab. reflexivity. Qed.
Lemma vsum_tab n f : vsum (tab n f) = Rsum n f.
Proof.
  induction n; [reflexivity|]. unfold tab in *. rewrite seq_S, map_app, vsum_app, IHn. simpl. lra.
Qed.

(** prefactor dx / 3 *)
Lemma prefactor a b n : a < b -> (0 < n)%nat -> close (4 * loss u) (ndiv N (ndiv N (nsub N b a) (cst N (INR n))) (cst N 3)) ((b - a) / INR n / 3).
Proof.
  intros AB Hn. pose proof (loss_0 u U) as L. assert (0 < INR n) by (apply lt_0_INR; exact Hn).
  assert (C1 : close (loss u) (nsub N b a) (b - a)).
  { replace (loss u) with (0 + loss u) by ring. eapply close_near; [apply U|apply r_sub|]. apply close_refl. lra. }
  assert (C2 : close (loss u) (cst N (INR n)) (INR n)).
  { replace (loss u) with (0 + loss u) by ring. eapply close_near; [apply U|apply r_cst|]. apply close_refl. lra. }
  pose proof (close_pos _ _ _ C2 ltac:(lra)) as P2.
  rewrite (r_int (N := N) 3) by lia.
  replace (4 * loss u) with ((loss u + loss u + loss u) + 0 + loss u) by ring.
  eapply close_near; [apply U|apply r_div; lra|]. apply close_div; [lra| |apply close_refl; lra].
  eapply close_near; [apply U|apply r_div; lra|]. apply close_div; [lra|exact C1|exact C2].
Qed.
Lemma close_upto k x' x : close k x' x -> upto (exp k) x x' x.
Proof.
  intros C. pose proof (close_rel _ _ _ C). destruct C as (P & Q & _). split; [apply exp_ge1; exact P|]. rewrite (Rabs_right x) by lra. split; [lra|assumption].
Qed.
Lemma exp_lossn n : exp (INR n * loss u) = (/ (1 - u)) ^ n.
Proof.
  assert (E : exp (loss u) = / (1 - u)) by (rewrite <- (loss_exp u) by apply U; rewrite exp_Ropp, Rinv_inv; reflexivity).
  induction n; [rewrite Rmult_0_l; apply exp_0|]. rewrite S_INR, Rmult_plus_distr_r, Rmult_1_l, exp_plus, IHn, E. simpl. ring.
Qed.
Lemma up1 : 1 + u <= / (1 - u).
Proof. rewrite <- (Rmult_1_l (/ (1 - u))). apply Rmult_le_reg_r with (1 - u); [lra|]. rewrite Rmult_assoc, Rinv_l by lra. nra. Qed.

Variables (f : R -> R) (a b : R) (n k : nat) (y : list R) (s : R).
Hypothesis (AB : a < b) (Hn : (2 <= n)%nat) (En : Nat.even n = true).
Hypothesis (Ly : length y = (n + 1)%nat) (HS : fsimps N k y a b n s).
Lemma simps_rounded g : 1 <= g -> (forall i, (i <= n)%nat -> Rabs (el y i - f (node a b n i)) <= (g - 1) * Rabs (f (node a b n i))) ->
  Rabs (s - simpson f a b n) <= (g * (/ (1 - u)) ^ (k + 8) - 1) * simpson (fun x => Rabs (f x)) a b n.
Proof.
  intros G B. destruct HS as (x & Sx & ->). destruct (even_half n En) as [M ->].
  assert (EY : y = tab (2 * M + 1) (el y)) by (rewrite <- Ly; apply list_tab).
  rewrite EY in Sx. rewrite fterms_tab in Sx by lia.
  assert (UB : forall i, (i <= 2 * M)%nat -> upto g (Rabs (f (node a b (2 * M) i))) (el y i) (f (node a b (2 * M) i))).
  { intros i Hi. split; [exact G|]. split; [lra|]. apply B. exact Hi. }
  assert (T : upto (g * (1 + u) ^ 3 * (1 + u) ^ k)
     (vsum (map (fun i => Rabs (f (node a b (2 * M) (2 * i))) + 4 * Rabs (f (node a b (2 * M) (2 * i + 1))) + Rabs (f (node a b (2 * M) (2 * i + 2)))) (seq 0 M))) x
     (vsum (map (fun i => f (node a b (2 * M) (2 * i)) + 4 * f (node a b (2 * M) (2 * i + 1)) + f (node a b (2 * M) (2 * i + 2))) (seq 0 M)))).
  { eapply summed_upto; [|exact Sx|reflexivity|].
    { pose proof (pow_ge1 3). nra. }
    intros i Hi. apply in_seq in Hi. rewrite (r_int (N := N) 4) by lia.
    assert (W : upto (g * (1 + u)) (4 * Rabs (f (node a b (2 * M) (2 * i + 1)))) (nmul N 4 (el y (2 * i + 1))) (4 * f (node a b (2 * M) (2 * i + 1)))).
    { eapply upto_near; [apply U|apply r_mul|]. replace g with (1 * g) by ring. apply upto_mul; [|apply UB; lia].
      eapply upto_grow; [apply Rle_refl| |apply upto_refl]. rewrite Rabs_right; lra. }
    replace (g * (1 + u) ^ 3) with (g * (1 + u) * (1 + u) * (1 + u)) by ring.
    eapply upto_near; [apply U|apply r_add|]. apply upto_add.
    - eapply upto_near; [apply U|apply r_add|]. apply upto_add; [|exact W]. eapply upto_grow; [|apply Rle_refl|apply UB; lia]. nra.
    - eapply upto_grow; [|apply Rle_refl|apply UB; lia]. nra. }
  pose proof (close_upto _ _ _ (prefactor a b (2 * M) AB ltac:(lia))) as C.
  pose proof (upto_near _ _ _ _ _ _ (proj1 U) (r_mul (N := N) _ _) (upto_mul _ _ _ _ _ _ _ _ C T)) as F. clear C T.
  unfold simpson. replace (2 * M / 2)%nat with M by (rewrite Nat.mul_comm, Nat.div_mul; lia).
  fold (tab M (fun i => Rabs (f (node a b (2 * M) (2 * i))) + 4 * Rabs (f (node a b (2 * M) (2 * i + 1))) + Rabs (f (node a b (2 * M) (2 * i + 2))))) in F.
  fold (tab M (fun i => f (node a b (2 * M) (2 * i)) + 4 * f (node a b (2 * M) (2 * i + 1)) + f (node a b (2 * M) (2 * i + 2)))) in F.
  rewrite !vsum_tab in F. pose proof (upto_m _ _ _ _ F) as M0. destruct F as (_ & _ & F).
  eapply Rle_trans; [exact F|]. apply Rmult_le_compat_r; [exact M0|]. apply Rplus_le_compat_r.
  replace 4 with (INR 4) by (simpl; ring). rewrite exp_lossn.
  replace ((/ (1 - u)) ^ 4 * (g * (1 + u) ^ 3 * (1 + u) ^ k) * (1 + u)) with (g * ((/ (1 - u)) ^ 4 * (1 + u) ^ (k + 4))) by (rewrite (pow_add _ k 4); ring).
  replace (k + 8)%nat with (4 + (k + 4))%nat by lia. rewrite (pow_add _ 4). apply Rmult_le_compat_l; [lra|].
  apply Rmult_le_compat_l; [apply pow_le; left; apply Rinv_0_lt_compat; lra|]. apply pow_incr. pose proof up1. lra.
Qed.
Lemma simps_close g : (forall i, (i <= n)%nat -> close g (el y i) (f (node a b n i))) -> close (g + INR (k + 8) * loss u) s (simpson f a b n).
Proof.
  intros B. destruct HS as (x & Sx & ->). destruct (even_half n En) as [M ->].
  assert (EY : y = tab (2 * M + 1) (el y)) by (rewrite <- Ly; apply list_tab).
  rewrite EY in Sx. rewrite fterms_tab in Sx by lia. pose proof (loss_0 u U) as L.
  assert (G : 0 <= g) by (destruct (B 0%nat ltac:(lia)); assumption).
  assert (T : close (g + 3 * loss u + INR k * loss u) x
     (vsum (map (fun i => f (node a b (2 * M) (2 * i)) + 4 * f (node a b (2 * M) (2 * i + 1)) + f (node a b (2 * M) (2 * i + 2))) (seq 0 M)))).
  { eapply summed_close; [|exact Sx|reflexivity|]; [lra|].
    intros i Hi. apply in_seq in Hi. rewrite (r_int (N := N) 4) by lia.
    assert (W : close (g + loss u) (nmul N 4 (el y (2 * i + 1))) (4 * f (node a b (2 * M) (2 * i + 1)))).
    { eapply close_near; [apply U|apply r_mul|]. replace g with (0 + g) by ring. apply close_mul; [apply close_refl; lra|apply B; lia]. }
    replace (g + 3 * loss u) with (g + loss u + loss u + loss u) by ring.
    eapply close_near; [apply U|apply r_add|]. apply close_add.
    - eapply close_near; [apply U|apply r_add|]. apply close_add; [|exact W]. eapply close_grow; [|apply B; lia]. lra.
    - eapply close_grow; [|apply B; lia]. lra. }
  pose proof (close_near _ _ _ _ _ U (r_mul (N := N) _ _) (close_mul _ _ _ _ _ _ (prefactor a b (2 * M) AB ltac:(lia)) T)) as F. clear T.
  unfold simpson. replace (2 * M / 2)%nat with M by (rewrite Nat.mul_comm, Nat.div_mul; lia).
  fold (tab M (fun i => f (node a b (2 * M) (2 * i)) + 4 * f (node a b (2 * M) (2 * i + 1)) + f (node a b (2 * M) (2 * i + 2)))) in F.
  rewrite vsum_tab in F. eapply close_grow; [|exact F]. rewrite plus_INR. simpl. lra.
Qed.
End Sums.

Lemma sum_rounded N u : rounding N u -> forall k l x, summed N k l x -> Rabs (x - vsum l) <= ((1 + u) ^ k - 1) * vsum (map Rabs l).
Proof.
  intros RN k l x H.
  assert (X : upto (1 * (1 + u) ^ k) (vsum (map Rabs l)) x (vsum (map (fun v => v) l))).
  { eapply (summed_upto N u (fun v => v) (fun v => v) Rabs 1); [lra|exact H|rewrite map_id; reflexivity|]. intros i _. apply upto_refl. }
  rewrite map_id, Rmult_1_l in X. apply X.
Qed.
Lemma simps_rounded_code N u f a b n k y s v m g : rounding N u -> a < b -> (2 <= n)%nat -> length y = (n + 1)%nat -> fsimps N k y a b n s ->
  simps f a b n = Ok v -> simps (fun x => Rabs (f x)) a b n = Ok m -> 1 <= g ->
  (forall i, (i <= n)%nat -> Rabs (el y i - f (el (linspace a b (n + 1)) i)) <= (g - 1) * Rabs (f (el (linspace a b (n + 1)) i))) ->
  Rabs (s - v) <= (g * (/ (1 - u)) ^ (k + 8) - 1) * m.
Proof.
  intros RN AB Hn Ly HS Ev Em G B.
  destruct (Nat.even n) eqn:En; [|rewrite simps_odd in Ev; [discriminate|unfold Nat.odd; rewrite En; reflexivity]].
  rewrite simps_eq in Ev, Em by assumption. injection Ev as <-. injection Em as <-.
  eapply simps_rounded; eauto. intros i Hi. specialize (B i Hi). rewrite linspace_node in B; unfold el in B at 2 3; rewrite !nth_tab in B by lia. exact B.
Qed.
Lemma density_rounded N u d k y s z p r : rounding N u -> 0 < nz_zmax d -> nz_norm d = None ->
  (forall x, 0 <= pz_fn d x) -> 0 < nz_simps_norm d -> length y = 257%nat -> fsimps N k y 0 (nz_zmax d) 256 s -> 0 <= r < 1 ->
  (forall i, (i <= 256)%nat -> Rabs (el y i - pz_fn d (el (linspace 0 (nz_zmax d) 257) i)) <= r * pz_fn d (el (linspace 0 (nz_zmax d) 257) i)) ->
  Rabs (p - pz_fn d z) <= r * pz_fn d z ->
  Rabs (ndiv N p s - pz d z) <= ((/ (1 - r)) ^ 2 * (/ (1 - u)) ^ (k + 9) - 1) * pz d z.
Proof.
  intros RN Z NN PP NP Ly HS Hr B Bp. pose proof (r_u (N := N)) as U.
  assert (EN : nz_simps_norm d = simpson (pz_fn d) 0 (nz_zmax d) 256).
  { unfold nz_simps_norm. rewrite simps_eq by (reflexivity || lia). replace 0.0 with 0 by lra. reflexivity. }
  assert (C : close (loss r + INR (k + 8) * loss u) s (nz_simps_norm d)).
  { rewrite EN. eapply simps_close; eauto; try lia. intros i Hi. apply close_of_rel; [exact Hr|apply PP|].
    specialize (B i Hi). change 257%nat with (256 + 1)%nat in B. rewrite linspace_node in B; unfold el in B at 2 3; rewrite !nth_tab in B by lia. exact B. }
  pose proof (close_of_rel _ _ _ Hr (PP z) Bp) as C2. pose proof (close_pos _ _ _ C NP) as SP.
  pose proof (close_near _ _ _ _ _ U (r_div (N := N) p s (Rgt_not_eq _ _ SP)) (close_div _ _ _ _ _ _ NP C2 C)) as F.
  apply close_rel in F.
  assert (E : pz d z = pz_fn d z / nz_simps_norm d).
  { unfold pz, nz_call. rewrite NN. reflexivity. }
  rewrite E.
  assert (X : exp (loss r + (loss r + INR (k + 8) * loss u) + loss u) = (/ (1 - r)) ^ 2 * (/ (1 - u)) ^ (k + 9)).
  { replace (loss r + (loss r + INR (k + 8) * loss u) + loss u) with (2 * loss r + INR (k + 9) * loss u) by (rewrite !plus_INR; simpl; ring).
    rewrite exp_plus, (exp_lossn N u). f_equal.
    replace 2 with (INR 2) by (simpl; ring). assert (E1 : exp (loss r) = / (1 - r)) by (rewrite <- (loss_exp r) by apply Hr; rewrite exp_Ropp, Rinv_inv; reflexivity).
    simpl. rewrite <- E1. replace ((1 + 1) * loss r) with (loss r + loss r) by ring. rewrite exp_plus. ring. }
  rewrite X in F. exact F.
Qed.
(** the sum of the model (left to right from zero) is one of the orders *)
Lemma gsum_summed {A} (N : num A) l : summed N (length l) l (fold_right (nadd N) (cst N 0) l).
Proof.
  induction l as [|x l IH]; [constructor|]. simpl. replace (length l) with (Nat.max 0 (length l)) by lia.
  eapply (sum_node N 0 (length l) [x] l); [constructor|exact IH|reflexivity].
Qed.
