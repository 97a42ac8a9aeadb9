(** * The transfer functions over numbers with infinities and NaN *)
From Coquelicot Require Import Coquelicot.
From Verif Require Import FinRules FinBg Np NpLemmas Core Background BgSpec BgGrowth Transfer TransferProofs GradSpec Ad AdSpec AdProofs AdBg AdPower.

Section Floats.
Context {Nm : Type} {N : num Nm} {FLN : follows N}.
Section Transfers.
Variables (c : R -> cosmology) (t : R) (g : gcosmo Nm).
Hypothesis HM : fin_moves c t g.
Hypothesis HD : dense (c t).
Local Notation T f d := (fin_of f t d).

Lemma ft_sq f x : T f x -> T (fun s => f s ^ 2) (nipow N x 2).
Proof. intros Hf. apply (ft_ipow t 2); [ right; lia | exact Hf ]. Qed.
Lemma ft_cube f x : T f x -> T (fun s => f s ^ 3) (nipow N x 3).
Proof. intros Hf. apply (ft_ipow t 3); [ right; lia | exact Hf ]. Qed.
Lemma ft_four f x : T f x -> T (fun s => f s ^ 4) (nipow N x 4).
Proof. intros Hf. apply (ft_ipow t 4); [ right; lia | exact Hf ]. Qed.

(** apply the rule of the outermost operation; side conditions stay *)
Ltac tang :=
  match goal with
  | |- fin_of _ _ (cst _ _) => apply ft_cst
  | |- fin_of _ _ (nadd _ _ _) => apply ft_add; [ tang | tang ]
  | |- fin_of _ _ (nsub _ _ _) => apply ft_sub; [ tang | tang ]
  | |- fin_of _ _ (nmul _ _ _) => apply ft_mul; [ tang | tang ]
  | |- fin_of _ _ (ndiv _ _ _) => apply ft_div; [ | tang | tang ]
  | |- fin_of _ _ (nneg _ _) => apply ft_neg; tang
  | |- fin_of _ _ (nexp _ _) => apply ft_exp; tang
  | |- fin_of _ _ (nln _ _) => apply ft_ln; [ | tang ]
  | |- fin_of _ _ (nsqrt _ _) => apply ft_sqrt; [ | tang ]
  | |- fin_of _ _ (nsin _ _) => apply ft_sin; tang
  | |- fin_of _ _ (ncos _ _) => apply ft_cos; tang
  | |- fin_of _ _ (nipow _ _ 2) => apply ft_sq; tang
  | |- fin_of _ _ (nipow _ _ 3) => apply ft_cube; tang
  | |- fin_of _ _ (nipow _ _ 4) => apply ft_four; tang
  | |- fin_of _ _ (npow _ _ _) => apply ft_pow; [ | tang | tang ]
  | |- fin_of _ _ _ => eassumption
  | |- _ => idtac
  end.

Lemma rpow_gt0 x y : 0 < x -> 0 < rpow x y.
Proof. intros H. rewrite rpow_pos by exact H. apply Rpower_pos. Qed.

Let mm := fm_Omega_m c t g HM.
Let mb : T (fun s => Omega_b (c s)) (gOmega_b g) := fm_Omega_b c t g HM.
Let mh := fm_h c t g HM.
Lemma ftr_w_m : T (fun s => eh_w_m (c s)) (g_w_m N g).
Proof. unfold eh_w_m, g_w_m. tang. Qed.
Lemma ftr_w_b : T (fun s => eh_w_b (c s)) (g_w_b N g).
Proof. unfold eh_w_b, g_w_b. tang. Qed.
Lemma pos_all : 0 < Omega_m (c t) /\ 0 < eh_w_m (c t) /\ 0 < eh_w_b (c t) /\ 0 < eh_fb (c t) <= 1 /\ 0 <= eh_fc (c t) /\
  0 < eh_k_eq (c t) /\ 0 < eh_z_eq (c t) /\ 0 < eh_z_d (c t) /\ 0 < eh_R_d (c t) /\ 0 < eh_R_eq (c t) /\ 0 < eh_sh_d (c t) /\ 0 < _h (c t) /\ 0 < eh_T27sqr.
Proof.
  destruct (dense_pos _ HD) as (A1 & A2 & A3 & A4 & A5 & _ & A6 & A7). destruct (R_pos _ HD) as (B1 & B2).
  pose proof (z_d_pos _ HD). pose proof (sh_d_pos _ HD). pose proof T27_pos. destruct HD as (_ & _ & Hh). tauto.
Qed.
Let mwm := ftr_w_m.
Let mwb := ftr_w_b.
Lemma ftr_fb : T (fun s => eh_fb (c s)) (g_fb N g).
Proof. pose proof pos_all. unfold eh_fb, g_fb. tang. lra. Qed.
Lemma ftr_fc : T (fun s => eh_fc (c s)) (g_fc N g).
Proof. pose proof pos_all. unfold eh_fc, g_fc. tang. lra. Qed.
Lemma ftr_k_eq : T (fun s => eh_k_eq (c s)) (g_k_eq N g).
Proof. pose proof pos_all. unfold eh_k_eq, g_k_eq. tang; lra. Qed.
Lemma ftr_z_eq : T (fun s => eh_z_eq (c s)) (g_z_eq N g).
Proof. pose proof pos_all. unfold eh_z_eq, g_z_eq. tang. apply pow_nonzero; lra. Qed.
Lemma ftr_z_d : T (fun s => eh_z_d (c s)) (g_z_d N g).
Proof.
  pose proof pos_all as P. unfold eh_z_d, g_z_d. cbv zeta. tang; try lra.
  pose proof (rpow_gt0 (eh_w_m (c t)) 0.828 ltac:(lra)). lra.
Qed.
Let mzd := ftr_z_d.
Let mze := ftr_z_eq.
Let mke := ftr_k_eq.
Let mfb := ftr_fb.
Let mfc := ftr_fc.
Lemma ftr_R_d : T (fun s => eh_R_d (c s)) (g_R_d N g).
Proof. pose proof pos_all. unfold eh_R_d, g_R_d. tang; [ apply pow_nonzero; lra | lra ]. Qed.
Lemma ftr_R_eq : T (fun s => eh_R_eq (c s)) (g_R_eq N g).
Proof. pose proof pos_all. unfold eh_R_eq, g_R_eq. tang; [ apply pow_nonzero; lra | lra ]. Qed.
Let mrd := ftr_R_d.
Let mre := ftr_R_eq.
Lemma ftr_sh_d : T (fun s => eh_sh_d (c s)) (g_sh_d N g).
Proof.
  pose proof pos_all as P. unfold eh_sh_d, g_sh_d.
  assert (S1 : 0 < sqrt (eh_R_eq (c t))) by (apply sqrt_lt_R0; lra).
  assert (S2 : 0 < sqrt (1.0 + eh_R_d (c t))) by (apply sqrt_lt_R0; lra).
  assert (S3 : 0 < sqrt (eh_R_eq (c t) + eh_R_d (c t))) by (apply sqrt_lt_R0; lra).
  tang; try lra.
  - apply Rdiv_lt_0_compat; lra.
  - apply Rdiv_lt_0_compat; lra.
Qed.
Let msh := ftr_sh_d.
Lemma k_silk_gt0 : 0 < eh_k_silk (c t).
Proof.
  pose proof pos_all as P. unfold eh_k_silk. apply Rdiv_lt_0_compat; [ | lra ].
  pose proof (rpow_gt0 (eh_w_b (c t)) 0.52 ltac:(lra)). pose proof (rpow_gt0 (eh_w_m (c t)) 0.73 ltac:(lra)). pose proof (rpow_gt0 (10.4 * eh_w_m (c t)) (-0.95) ltac:(lra)).
  apply Rmult_lt_0_compat; [ apply Rmult_lt_0_compat; [ apply Rmult_lt_0_compat | ] | ]; lra.
Qed.
Lemma ftr_k_silk : T (fun s => eh_k_silk (c s)) (g_k_silk N g).
Proof. pose proof pos_all as P. unfold eh_k_silk, g_k_silk. tang; lra. Qed.
Lemma ftr_alpha_gamma : T (fun s => eh_alpha_gamma (c s)) (g_alpha_gamma N g).
Proof. pose proof pos_all as P. unfold eh_alpha_gamma, g_alpha_gamma. tang; lra. Qed.
Let mag := ftr_alpha_gamma.
Let mks := ftr_k_silk.

Section At.
Variables (k : R -> R) (kd : Nm).
Hypothesis Hk : T k kd.
Hypothesis Pk : 0 < k t.
Lemma ftr_gamma_eff : T (fun s => eh_gamma_eff (c s) (k s)) (g_gamma_eff N g kd).
Proof.
  unfold eh_gamma_eff, g_gamma_eff. tang. pose proof (pow2_ge_0 ((0.43 * k t * eh_sh_d (c t)) ^ 2)) as P.
  replace ((0.43 * k t * eh_sh_d (c t)) ^ 4) with (((0.43 * k t * eh_sh_d (c t)) ^ 2) ^ 2) by ring. lra.
Qed.
Let mge := ftr_gamma_eff.
Lemma ftr_eisenhu : 0 <= eh_alpha_gamma (c t) -> T (fun s => eisenhu (c s) (k s)) (geisenhu N g kd).
Proof.
  intros HA. assert (PG := gamma_eff_pos (c t) (k t) HD HA ltac:(lra)). unfold eisenhu, geisenhu. cbv zeta.
  assert (PQ : 0 < k t * (const_tcmb / 2.7) ^ 2 / eh_gamma_eff (c t) (k t)) by (apply Rdiv_lt_0_compat; [ apply Rmult_lt_0_compat; [ exact Pk | apply T27_pos ] | exact PG ]).
  assert (TQ : T (fun s => k s * (const_tcmb / 2.7) ^ 2 / eh_gamma_eff (c s) (k s)) (ndiv N (nmul N kd (cst N ((const_tcmb / 2.7) ^ 2))) (g_gamma_eff N g kd))).
  { apply ft_div; [ lra | apply ft_mul; [ exact Hk | apply ft_cst ] | exact mge ]. }
  set (q := fun s => k s * (const_tcmb / 2.7) ^ 2 / eh_gamma_eff (c s) (k s)) in *. set (qd := ndiv N (nmul N kd (cst N ((const_tcmb / 2.7) ^ 2))) (g_gamma_eff N g kd)) in *.
  change (T (fun s => ln (2.0 * exp 1.0 + 1.8 * q s) / (ln (2.0 * exp 1.0 + 1.8 * q s) + (14.2 + 731.0 / (1.0 + 62.5 * q s)) * q s * q s))
    (ndiv N (nln N (nadd N (cst N (2.0 * exp 1.0)) (nmul N (cst N 1.8) qd))) (nadd N (nln N (nadd N (cst N (2.0 * exp 1.0)) (nmul N (cst N 1.8) qd)))
      (nmul N (nmul N (nadd N (cst N 14.2) (ndiv N (cst N 731.0) (nadd N (cst N 1.0) (nmul N (cst N 62.5) qd)))) qd) qd)))).
  change (0 < q t) in PQ.
  assert (E1 := exp_pos 1.0). assert (E2 : 1 < 2.0 * exp 1.0) by (pose proof (exp_ineq1 1.0 ltac:(lra)); lra).
  clearbody q qd. assert (PL : 0 < ln (2.0 * exp 1.0 + 1.8 * q t)) by (rewrite <- ln_1; apply ln_increasing; lra).
  assert (PC : 0 < 731.0 / (1.0 + 62.5 * q t)) by (apply Rdiv_lt_0_compat; lra).
  assert (PX : 0 < (14.2 + 731.0 / (1.0 + 62.5 * q t)) * q t * q t) by (apply Rmult_lt_0_compat; [ apply Rmult_lt_0_compat | ]; lra).
  tang; lra.
Qed.

(** ** the oscillating form; fc ** b2 needs cold dark matter *)
Hypothesis Pc : 0 < _Omega_c (c t).
Lemma fc_gt0 : 0 < eh_fc (c t).
Proof. pose proof pos_all as P. unfold eh_fc. apply Rdiv_lt_0_compat; [ | lra ]. unfold Omega_m, Omega_b, Omega_c in *. lra. Qed.
Lemma ftr_T_tilde k1 k1d al ald be bed : T k1 k1d -> T al ald -> T be bed -> 0 < k1 t -> 0 < al t -> 0 < be t ->
  T (fun s => eh_T_tilde (c s) (k1 s) (al s) (be s)) (g_T_tilde N g k1d ald bed).
Proof.
  intros T1 T2 T3 P1 P2 P3. pose proof pos_all as P. unfold eh_T_tilde, g_T_tilde. cbv zeta.
  assert (TQ : T (fun s => k1 s / (13.41 * eh_k_eq (c s))) (ndiv N k1d (nmul N (cst N 13.41) (g_k_eq N g)))) by (tang; lra).
  assert (PQ : 0 < k1 t / (13.41 * eh_k_eq (c t))) by (apply Rdiv_lt_0_compat; lra).
  set (q := fun s => k1 s / (13.41 * eh_k_eq (c s))) in *. set (qd := ndiv N k1d (nmul N (cst N 13.41) (g_k_eq N g))) in *. change (0 < q t) in PQ.
  change (T (fun s => ln (exp 1.0 + 1.8 * be s * q s) / (ln (exp 1.0 + 1.8 * be s * q s) + (14.2 / al s + 386.0 / (1.0 + 69.9 * rpow (q s) 1.08)) * q s * q s))
    (ndiv N (nln N (nadd N (cst N (exp 1.0)) (nmul N (nmul N (cst N 1.8) bed) qd))) (nadd N (nln N (nadd N (cst N (exp 1.0)) (nmul N (nmul N (cst N 1.8) bed) qd)))
      (nmul N (nmul N (nadd N (ndiv N (cst N 14.2) ald) (ndiv N (cst N 386.0) (nadd N (cst N 1.0) (nmul N (cst N 69.9) (npow N qd (cst N 1.08)))))) qd) qd)))).
  clearbody q qd. assert (PB : 0 < 1.8 * be t * q t) by (apply Rmult_lt_0_compat; lra).
  assert (E2 : 1 < exp 1.0) by (pose proof (exp_ineq1 1.0 ltac:(lra)); lra).
  assert (PL : 0 < ln (exp 1.0 + 1.8 * be t * q t)) by (rewrite <- ln_1; apply ln_increasing; lra).
  assert (PW := rpow_gt0 (q t) 1.08 PQ). assert (PC : 0 < 386.0 / (1.0 + 69.9 * rpow (q t) 1.08)) by (apply Rdiv_lt_0_compat; lra).
  assert (PA : 0 < 14.2 / al t) by (apply Rdiv_lt_0_compat; lra).
  assert (PX : 0 < (14.2 / al t + 386.0 / (1.0 + 69.9 * rpow (q t) 1.08)) * q t * q t) by (apply Rmult_lt_0_compat; [ apply Rmult_lt_0_compat | ]; lra).
  tang; lra.
Qed.
Lemma a12_gt0 x y u v : 0 < x -> 0 < y -> 0 < rpow x u * (1.0 + rpow y v).
Proof. intros. pose proof (rpow_gt0 x u H). pose proof (rpow_gt0 y v H0). apply Rmult_lt_0_compat; lra. Qed.
Lemma alpha_c_gt0 : 0 < eh_alpha_c (c t).
Proof.
  pose proof pos_all as P. unfold eh_alpha_c. cbv zeta. apply Rmult_lt_0_compat; apply rpow_gt0, a12_gt0; lra.
Qed.
Lemma ftr_alpha_c : T (fun s => eh_alpha_c (c s)) (g_alpha_c N g).
Proof. pose proof pos_all as P. unfold eh_alpha_c, g_alpha_c. cbv zeta. tang; try lra; apply a12_gt0; lra. Qed.
Lemma beta_c_den : 0 < 1.0 + 0.944 / (1.0 + rpow (458.0 * eh_w_m (c t)) (-0.708)) * (rpow (eh_fc (c t)) (rpow (0.395 * eh_w_m (c t)) (-0.0266)) - 1.0).
Proof.
  pose proof pos_all as P. pose proof (rpow_gt0 (458.0 * eh_w_m (c t)) (-0.708) ltac:(lra)) as P1.
  pose proof (rpow_gt0 (eh_fc (c t)) (rpow (0.395 * eh_w_m (c t)) (-0.0266)) fc_gt0) as P2.
  set (u := rpow (458.0 * eh_w_m (c t)) (-0.708)) in *. set (v := rpow (eh_fc (c t)) _) in *. clearbody u v.
  assert (B : 0 < 0.944 / (1.0 + u) < 1).
  { split; [ apply Rdiv_lt_0_compat; lra | ]. apply (Rmult_lt_reg_r (1.0 + u)); [ lra | ]. unfold Rdiv. rewrite Rmult_assoc, Rinv_l by lra. lra. }
  set (b := 0.944 / (1.0 + u)) in *. clearbody b. assert (0 < b * v) by (apply Rmult_lt_0_compat; lra). lra.
Qed.
Lemma beta_c_gt0 : 0 < eh_beta_c (c t).
Proof. unfold eh_beta_c. cbv zeta. apply Rdiv_lt_0_compat; [ lra | exact beta_c_den ]. Qed.
Lemma ftr_beta_c : T (fun s => eh_beta_c (c s)) (g_beta_c N g).
Proof.
  pose proof pos_all as P. pose proof beta_c_den as PB. pose proof fc_gt0. unfold eh_beta_c, g_beta_c. cbv zeta. tang; try lra.
  pose proof (rpow_gt0 (458.0 * eh_w_m (c t)) (-0.708) ltac:(lra)). lra.
Qed.
Let mac := ftr_alpha_c.
Let mbc := ftr_beta_c.
Lemma ftr_Tc : T (fun s => eh_Tc (c s) (k s)) (g_Tc N g kd).
Proof.
  assert (T1 := ftr_T_tilde k kd (fun _ => 1.0) _ _ _ Hk (ft_cst t 1.0) mbc Pk ltac:(lra) beta_c_gt0).
  assert (T2 := ftr_T_tilde k kd _ _ _ _ Hk mac mbc Pk alpha_c_gt0 beta_c_gt0).
  assert (P4 : 0 <= (k t * eh_sh_d (c t) / 5.4) ^ 4).
  { replace ((k t * eh_sh_d (c t) / 5.4) ^ 4) with (((k t * eh_sh_d (c t) / 5.4) ^ 2) ^ 2) by ring. apply pow2_ge_0. }
  unfold eh_Tc, g_Tc. cbv zeta. tang; lra.
Qed.
Lemma ftr_alpha_b : T (fun s => eh_alpha_b (c s)) (g_alpha_b N g).
Proof.
  pose proof pos_all as P. unfold eh_alpha_b, g_alpha_b. cbv zeta.
  assert (PY : 0 < (1.0 + eh_z_eq (c t)) / (1.0 + eh_z_d (c t))) by (apply Rdiv_lt_0_compat; lra).
  assert (PX : 1 < sqrt (1.0 + (1.0 + eh_z_eq (c t)) / (1.0 + eh_z_d (c t)))) by (rewrite <- sqrt_1 at 1; apply sqrt_lt_1; lra).
  tang; try lra. apply Rdiv_lt_0_compat; lra.
Qed.
Lemma ftr_beta_b : T (fun s => eh_beta_b (c s)) (g_beta_b N g).
Proof. unfold eh_beta_b, g_beta_b. tang. pose proof (pow2_ge_0 (17.2 * eh_w_m (c t))). lra. Qed.
Lemma ftr_tilde_s : T (fun s => eh_tilde_s (c s) (k s)) (g_tilde_s N g kd).
Proof.
  pose proof pos_all as P. unfold eh_tilde_s, g_tilde_s. cbv zeta.
  assert (PK : 0 < k t * eh_sh_d (c t)) by (apply Rmult_lt_0_compat; lra).
  assert (PX : 0 < (8.41 * rpow (eh_w_m (c t)) 0.435 / (k t * eh_sh_d (c t))) ^ 3).
  { apply pow_lt, Rdiv_lt_0_compat; [ | exact PK ]. pose proof (rpow_gt0 (eh_w_m (c t)) 0.435 ltac:(lra)). lra. }
  tang; try lra. apply Rgt_not_eq, rpow_gt0. lra.
Qed.
Let mab := ftr_alpha_b.
Let mbb := ftr_beta_b.
Let mts := ftr_tilde_s.
Lemma ft_sinc f x : f t <> 0 -> T f x -> T (fun s => sinc (f s)) (gsinc N x).
Proof.
  intros NZ Hf. assert (NP : PI * f t <> 0) by (apply Rmult_integral_contrapositive_currified; [ apply PI_neq0 | exact NZ ]).
  unfold gsinc. rewrite (ft_vval t _ _ Hf). destruct (Req_EM_T (f t) 0) as [E | _]; [ contradiction | ].
  refine (ft_loc t (fun s => sin (PI * f s) / (PI * f s)) _ _ _ (ft_div t _ _ _ _ NP (ft_sin t _ _ (ft_mul t _ _ _ _ (ft_cst t PI) Hf)) (ft_mul t _ _ _ _ (ft_cst t PI) Hf))).
  assert (C := ft_continuous t f x Hf).
  apply (filter_imp (fun s => f s <> 0)); [ intros s Hs; unfold sinc; destruct (Req_EM_T (f s) 0); [ contradiction | reflexivity ] | ].
  apply (C (fun y => y <> 0)). apply (open_neq 0). exact NZ.
Qed.
Lemma ftr_Tb : T (fun s => eh_Tb (c s) (k s)) (g_Tb N g kd).
Proof.
  pose proof pos_all as P. assert (PK : 0 < k t * eh_sh_d (c t)) by (apply Rmult_lt_0_compat; lra).
  assert (T1 := ftr_T_tilde k kd (fun _ => 1.0) _ (fun _ => 1.0) _ Hk (ft_cst t 1.0) (ft_cst t 1.0) Pk ltac:(lra) ltac:(lra)).
  assert (PB := beta_b_pos _ HD). assert (P3 : 0 < (eh_beta_b (c t) / (k t * eh_sh_d (c t))) ^ 3) by (apply pow_lt, Rdiv_lt_0_compat; lra).
  pose proof (pow2_ge_0 (k t * eh_sh_d (c t) / 5.2)) as P2. pose proof k_silk_gt0 as PS.
  assert (PKS : 0 < k t / eh_k_silk (c t)) by (apply Rdiv_lt_0_compat; lra).
  destruct (tilde_s_bound (c t) (k t) HD Pk) as (PTS & _). pose proof PI_RGT_0 as PP.
  assert (TS : T (fun s => sinc (k s * eh_tilde_s (c s) (k s) / PI)) (gsinc N (ndiv N (nmul N kd (g_tilde_s N g kd)) (cst N PI)))).
  { apply (ft_sinc (fun s => k s * eh_tilde_s (c s) (k s) / PI)); [ | tang; lra ]. apply Rgt_not_eq, Rdiv_lt_0_compat; [ apply Rmult_lt_0_compat | ]; lra. }
  unfold eh_Tb, g_Tb. tang; lra.
Qed.
Lemma ftr_eisenhu_osc : T (fun s => eisenhu_osc (c s) (k s)) (geisenhu_osc N g kd).
Proof. assert (T1 := ftr_Tb). assert (T2 := ftr_Tc). unfold eisenhu_osc, geisenhu_osc. tang. Qed.
End At.
End Transfers.
End Floats.
