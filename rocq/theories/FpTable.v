(** * The rounded distance table *)
From Coq Require Import Reals Lra Lia.
From Verif Require Import Np NpLemmas Core Ode OdeProofs Integrate Background BgSpec BgPositive BgTables Ad AdSpec AdProofs Fp FpSpec FpProofs FpSums FpBg.
Local Open Scope R_scope.

(** entries of the scan *)
Lemma fscan {A} (N : num A) fn : forall t y0 s d,
  let r := snd (scan (frk4 N fn) (y0, s) t) in
  length r = length t /\ ((0 < length t)%nat -> nth 0 r d = snd (frk4 N fn (y0, s) (nth 0 t d))) /\
  (forall i, (S i < length t)%nat -> nth (S i) r d = snd (frk4 N fn (nth i r d, nth i t d) (nth (S i) t d))).
Proof.
  induction t as [|x t IH]; intros y0 s d; simpl; [split; [reflexivity|split; intros; lia]|].
  set (y1 := nadd N y0 _). specialize (IH y1 x d). destruct (scan (frk4 N fn) (y1, x) t) as [c2 ys] eqn:E. simpl in IH |- *. destruct IH as (L & H0 & HS).
  split; [lia|]. split; [reflexivity|]. intros [|i] Hi; [apply H0; lia|apply HS; lia].
Qed.

Section Table.
Context (N : num R) (u : R) {RN : rounding N u}.
Let U : 0 <= u < 1 := r_u.
Let l := loss u.
Let L : 0 <= l := loss_0 u U.
Variable c : cosmology.
Let g := lift_cosmo c.
Hypothesis (Pm : 0 < Omega_m c) (Pk : 0 <= Omega_k c) (Pde : 0 < Omega_de c) (Hde : de_part u c < 1).
Variables (lamin tau d : R) (n : nat) (t : list R).
Hypothesis (Hla : lamin < 0) (Hn : (2 <= n)%nat) (Lt : length t = n).
Let T := - lamin * ln 10.
Let h := T / INR (n - 1).
Hypothesis (Hh : 2 * tau < h).
Hypothesis (Ht : forall i, (i < n)%nat -> Rabs (el t i - ln (el (logspace lamin 0.0 n) i)) <= tau).
Let k := node_loss u tau h T.
Hypothesis (Hd : exponent_error u k T d c).
Let y := fodeint N (fdchioverdlna N g) (cst N 0.0) t.
Let kf := 3 * k + Esqr_loss u k d c / 2 + 6 * l.
Let ks := step_loss u tau h.

Lemma T0 : 0 < T.
Proof. unfold T. pose proof ln10_pos. apply Rmult_lt_0_compat; lra. Qed.
Lemma n0 : 0 < INR (n - 1).
Proof. apply lt_0_INR. lia. Qed.
Lemma tau0 : 0 <= tau.
Proof. pose proof (Ht 0%nat ltac:(lia)). pose proof (Rabs_pos (el t 0 - ln (el (logspace lamin 0.0 n) 0))). lra. Qed.
Lemma node_t i : (i < n)%nat -> ln (anode lamin n i) = - T + INR i * h.
Proof.
  intros Hi. unfold anode. rewrite ln_pow10. unfold h, T. pose proof n0. replace 0.0 with 0 by lra. field. lra.
Qed.
Lemma node_range i : (i < n)%nat -> - T <= ln (anode lamin n i) <= 0.
Proof.
  intros Hi. rewrite node_t by exact Hi. pose proof n0. pose proof T0. assert (0 <= INR i) by apply pos_INR. assert (INR i <= INR (n - 1)) by (apply le_INR; lia).
  unfold h. assert (0 <= INR i / INR (n - 1) <= 1).
  { split; [apply Rmult_le_pos; [assumption|left; apply Rinv_0_lt_compat; assumption]|]. apply Rmult_le_reg_r with (INR (n - 1)); [assumption|]. unfold Rdiv. rewrite Rmult_assoc, Rinv_l by lra. lra. }
  replace (INR i * (T / INR (n - 1))) with (INR i / INR (n - 1) * T) by (field; lra). nra.
Qed.
Lemma expand : expanding c.
Proof.
  intros a A0. unfold Esqr. pose proof (exp_pos (f_de c a)). pose proof (pow_lt a 3 A0). pose proof (pow_lt a 2 A0).
  pose proof (Rinv_0_lt_compat _ H0). pose proof (Rinv_0_lt_compat _ H1).
  pose proof (Rmult_lt_0_compat _ _ Pm H2). pose proof (Rmult_le_pos _ _ Pk (Rlt_le _ _ H3)). pose proof (Rmult_lt_0_compat _ _ Pde H). lra.
Qed.
Lemma y_length : length y = n.
Proof. unfold y, fodeint. rewrite <- Lt. apply (fscan N (fdchioverdlna N g) t _ _ 0). Qed.
Lemma fl_sub x : nsub N x x = 0.
Proof. apply (near_0 u). pose proof (r_sub (N := N) x x) as A. rewrite Rminus_diag_eq in A by reflexivity. exact A. Qed.
Lemma fl_mul_r x : nmul N x 0 = 0.
Proof. apply (near_0 u). pose proof (r_mul (N := N) x 0) as A. rewrite Rmult_0_r in A. exact A. Qed.
Lemma fl_mul_l x : nmul N 0 x = 0.
Proof. apply (near_0 u). pose proof (r_mul (N := N) 0 x) as A. rewrite Rmult_0_l in A. exact A. Qed.
Lemma first_node : el y 0 = 0.
Proof.
  unfold y, fodeint, el. destruct (fscan N (fdchioverdlna N g) t (cst N 0.0) (nth 0 t (cst N 0)) 0) as (_ & H0 & _). rewrite H0 by lia.
  replace 0.0 with 0 by lra. rewrite (cst0 N u). unfold frk4. cbv zeta. unfold snd at 1.
  rewrite fl_sub, fl_mul_r, fl_mul_l. apply (near_0 u). pose proof (r_add (N := N) 0 0) as A. rewrite Rplus_0_l in A. exact A.
Qed.
Lemma node_close i : (i < n)%nat -> close (kf + ks + 7 * l + INR i * l) (el y i) (Rsum i (chistep c lamin n)).
Proof.
  pose proof tau0 as TP. pose proof T0 as TT.
  assert (K0 : 0 <= kf + ks + 7 * l).
  { assert (B0 : Rabs (- T - - T) <= mid_error u tau h T).
    { rewrite Rminus_diag_eq by reflexivity. rewrite Rabs_R0. pose proof (mid_ge N u tau h T TP Hh ltac:(lra)). lra. }
    pose proof (integrand_close N u c Pm Pk Pde Hde tau h T d Hd 0 0 (- T) (- T) B0 ltac:(lra)) as (K & _).
    pose proof (ks_0 N u tau h TP Hh). pose proof L as LL. unfold l in LL. unfold kf, ks, k, l. lra. }
  induction i as [|i IH]; intros Hi.
  - rewrite first_node. simpl. rewrite Rmult_0_l. apply close_grow with 0; [lra|]. apply close_refl. lra.
  - specialize (IH ltac:(lia)). change (Rsum (Datatypes.S i) (chistep c lamin n)) with (Rsum i (chistep c lamin n) + chistep c lamin n i).
    assert (E : el y (Datatypes.S i) = snd (frk4 N (fdchioverdlna N g) (el y i, el t i) (el t (Datatypes.S i)))).
    { unfold y, fodeint, el. destruct (fscan N (fdchioverdlna N g) t (cst N 0.0) (nth 0 t (cst N 0)) 0) as (_ & _ & HS). apply HS. lia. }
    rewrite E, S_INR.
    assert (Es : chistep c lamin n i = h / 6 * (dchioverdlna c 0 (ln (anode lamin n i)) + 4 * dchioverdlna c 0 ((ln (anode lamin n i) + ln (anode lamin n (Datatypes.S i))) / 2) + dchioverdlna c 0 (ln (anode lamin n (Datatypes.S i))))).
    { unfold chistep, qstep. cbv zeta. rewrite ln_anode_step. replace (i + 1)%nat with (Datatypes.S i) by lia. unfold dchioverdlna. cbv zeta.
      replace ((0.0 - lamin) / INR (n - 1) * ln 10) with h; [reflexivity|]. unfold h, T. pose proof n0. replace 0.0 with 0 by lra. field. lra. }
    rewrite Es.
    pose proof (node_range i ltac:(lia)) as R1. pose proof (node_range (Datatypes.S i) ltac:(lia)) as R2.
    refine (step_close N u c Pm Pk Pde Hde tau h T d TP Hh Hd ltac:(lra) (INR i) _ _ _ _ _ _ (pos_INR i) _ _ _ (proj1 R1) (proj2 R2) IH).
    + specialize (Ht i ltac:(lia)). rewrite logspace_el in Ht by lia. exact Ht.
    + specialize (Ht (Datatypes.S i) ltac:(lia)). rewrite logspace_el in Ht by lia. exact Ht.
    + rewrite !node_t by lia. rewrite S_INR. ring.
Qed.
Lemma table_rounded i : (i < n)%nat ->
  Rabs (el (fchitab N g t) i - el (snd (chi_table c lamin n)) i) <= 2 * (exp (table_loss u tau h T d c n) - 1) * el (snd (chi_table c lamin n)) 0.
Proof.
  intros Hi. pose proof y_length as LY.
  assert (EL : glast N y = el y (n - 1)).
  { unfold glast. rewrite (cst0 N u). fold (lastR y). rewrite lastR_el by lia. rewrite LY. reflexivity. }
  assert (E : el (fchitab N g t) i = nsub N (el y (n - 1)) (el y i)).
  { unfold fchitab. cbv zeta. fold y. rewrite EL. unfold el at 1. rewrite (nth_map_lt _ y i 0) by lia. reflexivity. }
  rewrite E, !chi_table_el by lia. simpl (Rsum 0 _). rewrite Rminus_0_r.
  set (yl := Rsum (n - 1) (chistep c lamin n)). set (yi := Rsum i (chistep c lamin n)).
  set (K := kf + ks + 7 * l + INR n * l).
  assert (INR (n - 1) <= INR n) by (apply le_INR; lia). assert (INR i <= INR n) by (apply le_INR; lia).
  assert (C1 : close K (el y (n - 1)) yl) by (eapply close_grow; [|apply node_close; lia]; unfold K; nra).
  assert (C2 : close K (el y i) yi) by (eapply close_grow; [|apply node_close; lia]; unfold K; nra).
  assert (LE : 0 <= yi <= yl).
  { split; [apply C2|]. unfold yi, yl. destruct (Nat.eq_dec i (n - 1)) as [->|NE]; [lra|]. left. apply Rsum_lt_mono; [|lia]. intros j. apply chistep_pos; [exact expand|exact Hla|exact Hn]. }
  pose proof (upto_near _ _ _ _ _ _ (proj1 U) (r_sub (N := N) _ _) (upto_sub _ _ _ _ _ _ _ (close_upto _ _ _ C1) (close_upto _ _ _ C2))) as (_ & _ & F).
  eapply Rle_trans; [exact F|]. clear F.
  assert (G : exp K * (1 + u) <= exp (table_loss u tau h T d c n)).
  { eapply Rle_trans; [apply Rmult_le_compat_l; [left; apply exp_pos|apply (loss_up u U)]|]. fold l. rewrite <- exp_plus. apply exp_le.
    unfold table_loss. cbv zeta. fold k ks l. unfold K, kf. assert (0 <= INR n) by apply pos_INR. lra. }
  assert (G1 : 1 <= exp (table_loss u tau h T d c n)).
  { eapply Rle_trans; [|exact G]. pose proof (exp_ge1 K (proj1 C1)). nra. }
  assert ((exp K * (1 + u) - 1) * (yl + yi) <= (exp (table_loss u tau h T d c n) - 1) * (yl + yi)) by (apply Rmult_le_compat_r; lra).
  assert ((exp (table_loss u tau h T d c n) - 1) * yi <= (exp (table_loss u tau h T d c n) - 1) * yl) by (apply Rmult_le_compat_l; lra).
  lra.
Qed.
End Table.

(** at exact numbers the program is the model *)
Lemma fchitab_R c lamin n : fchitab num_R (lift_cosmo c) (map ln (logspace lamin 0.0 n)) = snd (chi_table c lamin n).
Proof. reflexivity. Qed.
