(** * Forward-mode differentiation of halofit: public statements *)
From Coq Require Import Reals Lra Lia List ZArith String.
From Coquelicot Require Import Coquelicot.
From Verif Require Import Np NpLemmas Core Ode OdeSpec OdeProofs Interp InterpProofs InterpCont Integrate IntegrateSpec SimpsProofs RombProofs Background BgSpec
  BgAlgebra BgTables BgGrowth BgPositive BgProofs BgFinal BgFinal2 BgFinal4 BgGrad Transfer TransferProofs Power PowerProofs PowerFinal RedshiftShape
  DependsSpec BgDepends AmpScale PowerArrProofs HalofitScaleSpec HalofitScale HalofitScale2 GradSpec Probes AngularCl
  Ad AdSpec AdProofs AdBg AdGrowth AdFinal AdPower AdPowerProofs AdTransfer AdPowerFinal AdProbes AdRel AdProbesProofs AdArrSpec AdProbesFinal AdHalofit AdHalofitSpec AdHalofitProofs.
Import ListNotations.
Local Open Scope R_scope.
Opaque chi_table growth_table_ODE growth_table_gamma logspace.

(** ** the table of variances decreases *)
Section Table.
Variables (c : cosmology) (a : R) (T : transfer).
Hypotheses (HN : sigmasqr_default c 8.0 T <> 0) (HT0 : T c (1 / 10000) <> 0) (HD : D c a <> 0) (HD1 : D c 1 <> 0) (HS : _sigma8 c <> 0).
Let P := fun k => linear_matter_power c k 1 T.
Let v := fun i => smoothed_variance P (D c a) (search_radius i).
Lemma table_length : List.length (hf_sigma c a T) = 256%nat.
Proof. unfold hf_sigma. now rewrite map_length, hf_logr_length. Qed.
Lemma table_el i : (i < 256)%nat -> el (hf_sigma c a T) i = v i.
Proof.
  intros Hi. unfold hf_sigma, el. rewrite (nth_map_lt _ _ _ 0 0) by (now rewrite hf_logr_length).
  change (nth i hf_logr 0) with (el hf_logr i). rewrite hf_logr_el, exp_ln by (assumption || apply radius_pos).
  rewrite simps_val by (reflexivity || lia). unfold v, smoothed_variance.
  replace 1e-4 with (1 / 10000) by lra. replace 1e4 with 10000 by lra.
  apply simpson_ext. intros j _. unfold hf_int_sigma, P. replace 1.0 with 1 by lra. replace 2.0 with 2 by lra.
  set (x := exp _). replace (- (x * search_radius i) ^ 2) with (- ((x * search_radius i) ^ 2)) by ring. reflexivity.
Qed.
Let wt := fun x => P (exp x) * exp x ^ 3 / (2 * PI ^ 2) * D c a ^ 2.
Lemma pi_pos : 0 < 2 * PI ^ 2.
Proof. pose proof PI_RGT_0. assert (0 < PI ^ 2) by (now apply pow_lt). lra. Qed.
Lemma wt_nonneg x : 0 <= wt x.
Proof.
  pose proof pi_pos. unfold wt. apply Rmult_le_pos; [ | apply pow2_ge_0 ]. apply Rmult_le_pos; [ | left; now apply Rinv_0_lt_compat ].
  apply Rmult_le_pos; [ now apply linear_nonneg | left; apply pow_lt, exp_pos ].
Qed.
Lemma wt_pos : 0 < wt (ln (1 / 10000)).
Proof.
  pose proof pi_pos. assert (0 < D c a ^ 2) by (rewrite <- Rsqr_pow2; now apply Rsqr_pos_lt). unfold wt. rewrite exp_ln by lra.
  apply Rmult_lt_0_compat; [ | lra ]. apply Rdiv_lt_0_compat; [ | lra ]. apply Rmult_lt_0_compat; [ | apply pow_lt; lra ].
  apply linear_pos; auto; lra.
Qed.
Lemma wt_combo (f : R -> R) : (forall k, 0 < k -> 0 < f k) -> 0 < simpson (fun x => wt x * f (exp x)) (ln (1 / 10000)) (ln 10000) 256.
Proof.
  intros Hf. apply (simpson_pos_one _ _ _ 256 0); [ apply range_pos | lia | reflexivity | lia | | ].
  - intros j _. apply Rmult_le_pos; [ apply wt_nonneg | left; apply Hf, exp_pos ].
  - rewrite node0. apply Rmult_lt_0_compat; [ apply wt_pos | apply Hf, exp_pos ].
Qed.
Lemma variance_form r : smoothed_variance P (D c a) r = simpson (fun x => wt x * exp (- (exp x * r) ^ 2)) (ln (1 / 10000)) (ln 10000) 256.
Proof. unfold smoothed_variance, wt. apply simpson_ext. intros j _. unfold Rdiv. ring. Qed.
Lemma variance_pos r : 0 < smoothed_variance P (D c a) r.
Proof. rewrite variance_form. apply (wt_combo (fun k => exp (- (k * r) ^ 2))). intros. apply exp_pos. Qed.
Lemma variance_lt r q : 0 < r < q -> smoothed_variance P (D c a) q < smoothed_variance P (D c a) r.
Proof.
  intros Hr. assert (Q : 0 < smoothed_variance P (D c a) r + (-1) * smoothed_variance P (D c a) q); [ | lra ].
  rewrite !variance_form, <- simpson_scal, <- simpson_plus.
  erewrite simpson_ext; [ apply (wt_combo (fun k => exp (- (k * r) ^ 2) - exp (- (k * q) ^ 2))) | ].
  - intros k Hk. assert (exp (- (k * q) ^ 2) < exp (- (k * r) ^ 2)); [ | lra ]. apply exp_increasing.
    assert ((k * r) ^ 2 < (k * q) ^ 2); [ | lra ].
    rewrite <- !Rsqr_pow2. apply Rsqr_incrst_1; [ now apply Rmult_lt_compat_l | left; apply Rmult_lt_0_compat; lra | left; apply Rmult_lt_0_compat; lra ].
  - intros j _. cbv beta. ring.
Qed.
Lemma table_decr : decr (hf_sigma c a T).
Proof.
  intros i j. rewrite table_length. intros Hij. rewrite !table_el by lia. apply variance_lt. split; [ apply radius_pos | apply radius_lt; lia ].
Qed.
(** the radius found *)
Lemma found_interp i : nearest_one v i -> exp (interp1 1.0 (hf_sigma c a T) hf_logr) = found_radius v i.
Proof.
  intros [Hi HU]. assert (NU : nearest 1.0 (hf_sigma c a T) = i).
  { apply nearest_unique; rewrite table_length; [ exact Hi | ]. intros j Hj NE. rewrite !table_el by assumption. replace 1.0 with 1 by lra. now apply HU. }
  rewrite interp1_decr_raw; [ | rewrite table_length; lia | now rewrite table_length, hf_logr_length | apply table_decr ].
  - cbv zeta. unfold near1. rewrite NU, table_length. change (256 - 2)%nat with 254%nat.
    assert (EM : (if Nat.ltb (Nat.min (Nat.max i 1) 254) 254 then Nat.min (Nat.max i 1) 254 - 1 else 254)%nat = search_cell i).
    { unfold search_cell. destruct (Nat.ltb_spec (Nat.min (Nat.max i 1) 254) 254), (Nat.ltb_spec 253 i); lia. }
    rewrite EM. assert (HM : (search_cell i + 1 < 256)%nat) by (unfold search_cell; destruct (Nat.ltb_spec 253 i); lia).
    unfold found_radius, cell, line. cbv zeta. rewrite !hf_logr_el, !table_el by lia. replace 1.0 with 1 by lra. reflexivity.
Qed.
End Table.

(** ** the same program at exact reals *)
Lemma R_simps f a b n : gsimps_value num_R f a b n = simps_value f a b n.
Proof. reflexivity. Qed.
Lemma simps_value_ext f h a b n : (forall x, f x = h x) -> simps_value f a b n = simps_value h a b n.
Proof. intros E. unfold simps_value, simps. rewrite (map_ext _ _ E). reflexivity. Qed.
Lemma pow_ten x : rpow 10 x = pow10 x.
Proof. rewrite rpow_pos by lra. reflexivity. Qed.
Section AtReals.
Variables (c : cosmology) (T : transfer) (GT : gcosmo R -> R -> R).
Hypotheses (B : built c) (ET : forall q, GT (lift_cosmo c) q = T c q).
Let g := lift_cosmo c.
Lemma R_lin k a : glinear_matter_power num_R g k a GT = linear_matter_power c k a T.
Proof. now apply power_programs. Qed.
Lemma R_growth a : gD num_R g a = D c a.
Proof. destruct (built_fresh c B). apply R_D; [ assumption | now apply built_flag ]. Qed.
Lemma R_sigma_table a : ghf_sigma num_R g a GT = hf_sigma c a T.
Proof.
  unfold ghf_sigma, hf_sigma. apply map_ext. intros lr. rewrite R_simps. apply simps_value_ext. intros x.
  unfold ghf_int_sigma, hf_int_sigma. cbv zeta. rewrite R_lin, R_growth. reflexivity.
Qed.
Lemma R_k_nl a : gk_nl num_R g a GT = k_nl c a T.
Proof. unfold gk_nl, k_nl, gR_nl, R_nl. rewrite R_sigma_table. replace (map (cst num_R) hf_logr) with hf_logr by (symmetry; apply map_id). reflexivity. Qed.
Lemma R_res a x : ghf_res num_R g a (k_nl c a T) GT x = hf_res c a T x.
Proof. unfold ghf_res, hf_res. cbv zeta. rewrite R_lin, R_growth. reflexivity. Qed.
Lemma R_params a : ghalofit_parameters num_R g a GT = halofit_parameters c a T.
Proof.
  unfold ghalofit_parameters, halofit_parameters. cbv zeta. rewrite R_k_nl, !R_simps.
  rewrite (simps_value_ext (ghf_dneff num_R g a (k_nl c a T) GT) (hf_dneff c a T)) by (intros x; unfold ghf_dneff; cbv zeta; rewrite R_res; reflexivity).
  rewrite (simps_value_ext (ghf_dC num_R g a (k_nl c a T) GT) (hf_dC c a T)) by (intros x; unfold ghf_dC; cbv zeta; rewrite R_res; reflexivity).
  reflexivity.
Qed.
Lemma halofit_program k a p : ghalofit num_R g k a GT p = halofit c k a T p.
Proof.
  unfold ghalofit, halofit. cbv zeta. rewrite R_params, R_lin. destruct (halofit_parameters c a T) as [[knl n] C].
  destruct (String.eqb p "smith2003"); [ | destruct (String.eqb p "takahashi2012"); [ | reflexivity ]];
    f_equal; unfold ghf_assemble, hf_assemble, ghf_smith, hf_smith, ghf_takahashi, hf_takahashi, ghf_f_smith, hf_f_smith, ghf_f_takahashi, hf_f_takahashi;
    cbn [ghf_a ghf_b ghf_c ghf_gamma ghf_alpha ghf_beta ghf_mu ghf_nu hf_a hf_b hf_c hf_gamma hf_alpha hf_beta hf_mu hf_nu num_R npow cst];
    rewrite ?pow_ten; reflexivity.
Qed.
End AtReals.

(** ** derivatives *)
Lemma t_simps f gf a b n : (forall x, tangent_of (fun s => f s x) 0 (gf x)) -> tangent_of (fun s => simps_value (f s) a b n) 0 (gsimps_value num_dual gf a b n).
Proof.
  intros HF. assert (HR := f_simps num_dual (fun f x => tangent_of f 0 x) tangent_respects (t_cst 0) (t_add 0) (t_mul 0) f gf a b n (fun x _ => HF x)).
  destruct (rr_cases _ _ _ HR) as [(x & y & E1 & E2 & L) | (e & E1 & E2)]; unfold gsimps_value; rewrite E1.
  - apply (t_ext 0 x); [ intros s; unfold simps_value; now rewrite E2 | exact L ].
  - apply (t_ext 0 (fun _ => 0)); [ intros s; unfold simps_value; now rewrite E2 | apply t_cst ].
Qed.
Lemma two_pi : 2.0 * PI ^ 2 <> 0.
Proof. pose proof pi_pos. lra. Qed.

(** apply the rule of the outermost operation; side conditions stay *)
Ltac tang :=
  match goal with
  | H : tangent_of _ _ ?x |- tangent_of _ _ ?x => exact H
  | |- tangent_of _ _ (cst _ _) => apply t_cst
  | |- tangent_of _ _ (nadd _ _ _) => apply t_add; [ tang | tang ]
  | |- tangent_of _ _ (nsub _ _ _) => apply t_sub; [ tang | tang ]
  | |- tangent_of _ _ (nmul _ _ _) => apply t_mul; [ tang | tang ]
  | |- tangent_of _ _ (ndiv _ _ _) => apply t_div; [ | tang | tang ]
  | |- tangent_of _ _ (nneg _ _) => apply t_neg; tang
  | |- tangent_of _ _ (nexp _ (cst _ _)) => eassumption
  | |- tangent_of _ _ (nexp _ _) => apply t_exp; tang
  | |- tangent_of _ _ (nipow _ _ 2) => apply t_sq; tang
  | |- tangent_of _ _ (nipow _ _ 3) => apply t_cube; tang
  | |- tangent_of _ _ (nipow _ _ 4) => apply t_four; tang
  | |- tangent_of _ _ (npow _ _ _) => apply t_pow; [ | tang | tang ]
  | |- tangent_of _ _ _ => eassumption
  | |- _ => idtac
  end.

Section Assemble.
Variables (k pk knl : R -> R) (kd pkd knld : dual) (co : R -> hf_coeffs) (cod : ghf_coeffs (A := dual)) (f1 f2 f3 : R -> R) (f1d f2d f3d : dual).
Hypotheses (Tk : tangent_of k 0 kd) (Tp : tangent_of pk 0 pkd) (Tn : tangent_of knl 0 knld).
Hypotheses (Ta : tangent_of (fun s => hf_a (co s)) 0 (ghf_a cod)) (Tb : tangent_of (fun s => hf_b (co s)) 0 (ghf_b cod)) (Tc : tangent_of (fun s => hf_c (co s)) 0 (ghf_c cod))
  (Tg : tangent_of (fun s => hf_gamma (co s)) 0 (ghf_gamma cod)) (Tal : tangent_of (fun s => hf_alpha (co s)) 0 (ghf_alpha cod)) (Tbe : tangent_of (fun s => hf_beta (co s)) 0 (ghf_beta cod))
  (Tmu : tangent_of (fun s => hf_mu (co s)) 0 (ghf_mu cod)) (Tnu : tangent_of (fun s => hf_nu (co s)) 0 (ghf_nu cod)).
Hypotheses (T1 : tangent_of f1 0 f1d) (T2 : tangent_of f2 0 f2d) (T3 : tangent_of f3 0 f3d).
Hypotheses (Pk : 0 < k 0) (Pp : 0 <= pk 0) (Pn : 0 < knl 0) (Pb : 0 <= hf_b (co 0)) (Pc : 0 < hf_c (co 0)) (Pm : 0 <= hf_mu (co 0)) (Pv : 0 <= hf_nu (co 0)) (P3 : 0 < f3 0).
Hypothesis NZ : 1 + hf_alpha (co 0) * (k 0 ^ 3 * pk 0 / (2.0 * PI ^ 2)) <> 0.
Lemma t_assemble : tangent_of (fun s => hf_assemble (k s) (pk s) (knl s) (co s) (f1 s, f2 s, f3 s)) 0 (ghf_assemble num_dual kd pkd knld cod (f1d, f2d, f3d)).
Proof.
  assert (Py : 0 < k 0 / knl 0) by (now apply Rdiv_lt_0_compat). assert (K3 : 0 < k 0 ^ 3) by (now apply pow_lt).
  assert (P2 := pi_pos). assert (PP : 2.0 * PI ^ 2 <> 0) by apply two_pi.
  assert (PL : 0 <= k 0 ^ 3 * pk 0 / (2.0 * PI ^ 2)).
  { replace 2.0 with 2 by lra. apply Rmult_le_pos; [ apply Rmult_le_pos; lra | left; now apply Rinv_0_lt_compat ]. }
  unfold hf_assemble, ghf_assemble. cbv zeta. tang; try exact PP; try lra.
  - assert (0 < (k 0 / knl 0) ^ 2) by (now apply pow_lt). assert (0 <= hf_mu (co 0) / (k 0 / knl 0)) by (apply Rmult_le_pos; [ assumption | left; now apply Rinv_0_lt_compat ]).
    assert (0 <= hf_nu (co 0) / (k 0 / knl 0) ^ 2) by (apply Rmult_le_pos; [ assumption | left; now apply Rinv_0_lt_compat ]). lra.
  - apply Rgt_not_eq. pose proof (rpow_gt0 (k 0 / knl 0) (f2 0) Py).
    pose proof (rpow_gt0 (hf_c (co 0) * f3 0 * (k 0 / knl 0)) (3.0 - hf_gamma (co 0)) ltac:(apply Rmult_lt_0_compat; [ now apply Rmult_lt_0_compat | exact Py ])).
    assert (0 <= hf_b (co 0) * rpow (k 0 / knl 0) (f2 0)) by (apply Rmult_le_pos; lra). lra.
  - apply Rmult_lt_0_compat; [ now apply Rmult_lt_0_compat | exact Py ].
  - apply Rgt_not_eq. now apply pow_lt.
Qed.
End Assemble.

Lemma omega_le c a : physical c -> 0 < a -> Omega_m_a c a + Omega_de_a c a <= 1.
Proof.
  intros HP Ha. pose proof (Esqr_pos c a HP Ha) as HE. pose proof HP as (Hm & Hk & Hd). pose proof (fractions_at c a Ha ltac:(lra)) as F.
  assert (0 < / a ^ 2) by (apply Rinv_0_lt_compat, pow_lt, Ha).
  assert (0 <= Omega_k c * / a ^ 2 / Esqr c a) by (apply Rmult_le_pos; [ apply Rmult_le_pos; lra | left; now apply Rinv_0_lt_compat ]). lra.
Qed.
Section Halofit.
Variables (c : cosmology) (d : direction) (T : transfer) (GT : gcosmo dual -> dual -> dual) (a : R).
Hypotheses (B : built c) (HE : expanding c) (NG : _gamma c = None) (HP : physical c) (HMo : moderate c) (HT : forall d, transfer_moves T GT c d)
  (HN : sigmasqr_default c 8.0 T <> 0) (HT0 : T c (1 / 10000) <> 0) (H8 : _sigma8 c <> 0) (Ha : table_node 128 1 <= a <= 1).
Let C := displaced c d.
Let g := dual_cosmo c d.
Local Notation N := num_dual.
Local Notation "' x" := (cst num_dual x%R) (at level 1, format "' x").
Let TD : tangent_of (fun s => D (C s) a) 0 (gD N g 'a) := leaf_D c d B HE NG HP HMo a Ha.
Lemma a_pos : 0 < a. Proof. pose proof node1_pos. lra. Qed.
Lemma D_nz : D c a <> 0.
Proof. assert (Q := leaf_D0 c d B NG HP HMo a Ha). cbv beta in Q. rewrite displaced_0 in Q by exact B. exact Q. Qed.
Lemma D1_nz : D c 1 <> 0.
Proof. assert (R1 : table_node 128 1 <= 1 <= 1) by lra. assert (Q := leaf_D0 c d B NG HP HMo 1 R1). cbv beta in Q. rewrite displaced_0 in Q by exact B. exact Q. Qed.
Lemma t_lin x : tangent_of (fun s => linear_matter_power (C s) (exp x) 1.0 T) 0 (glinear_matter_power N g (nexp N 'x) '1.0 GT).
Proof.
  assert (R1 : table_node 128 1 <= 1.0 <= 1) by lra.
  apply (linear_moves c d T GT 1.0 B HE NG HP HMo HT HN R1 (fun _ => exp x)); [ exact (t_exp 0 _ _ (t_cst 0 x)) | apply exp_pos ].
Qed.
Lemma t_int_sigma r x : tangent_of (fun s => hf_int_sigma (C s) a T r x) 0 (ghf_int_sigma N g 'a GT r x).
Proof.
  assert (TL := t_lin x). assert (TDa := TD). assert (TX := t_exp 0 _ _ (t_cst 0 x)). cbv beta in TX. unfold hf_int_sigma, ghf_int_sigma. cbv zeta.
  tang; try exact TL; try exact TX; try exact TDa. apply two_pi.
Qed.
Lemma t_table : list_moves 0 (fun s => hf_sigma (C s) a T) (ghf_sigma N g 'a GT).
Proof.
  assert (LG : List.length (ghf_sigma N g 'a GT) = 256%nat) by (unfold ghf_sigma; now rewrite map_length, hf_logr_length).
  split; [ intros s; now rewrite table_length, LG | ]. rewrite LG. intros i Hi. unfold ghf_sigma.
  rewrite (nth_map_lt _ hf_logr i 0 (0, 0)) by (now rewrite hf_logr_length).
  apply (t_ext 0 (fun s => simps_value (hf_int_sigma (C s) a T (exp (nth i hf_logr 0))) (ln 1e-4) (ln 1e4) 256)).
  - intros s. unfold el, hf_sigma. now rewrite (nth_map_lt _ hf_logr i 0 0) by (now rewrite hf_logr_length).
  - apply t_simps. intros x. apply t_int_sigma.
Qed.
Hypothesis HF : scale_found c a T.
Lemma t_R_nl : tangent_of (fun s => R_nl (C s) a T) 0 (gR_nl N g 'a GT).
Proof.
  destruct HF as (i & HI & NE). assert (LG : List.length (ghf_sigma N g 'a GT) = 256%nat) by (unfold ghf_sigma; now rewrite map_length, hf_logr_length).
  assert (TI : tangent_of (fun s => interp1 1.0 (hf_sigma (C s) a T) hf_logr) 0 (ginterp1 N '1.0 (ghf_sigma N g 'a GT) (map (cst N) hf_logr))).
  { apply (t_interp_decr 0 (fun _ => 1.0) '1.0 _ _ hf_logr (t_cst 0 1.0) t_table); rewrite ?LG, ?hf_logr_length; try lia.
    - unfold C. rewrite displaced_0 by exact B. apply table_decr; auto using D_nz, D1_nz.
    - exists i. split; [ apply HI | ]. intros j Hj NJ. unfold C. rewrite displaced_0 by exact B. rewrite !table_el by (assumption || apply HI).
      replace 1.0 with 1 by lra. now apply HI. }
  unfold R_nl, gR_nl, clip_lo, gclip_lo. apply (t_max 0 _ (fun _ => 1e-6)); [ | exact (t_exp 0 _ _ TI) | apply t_cst ].
  unfold C. rewrite displaced_0 by exact B. rewrite (found_interp c a T HN HT0 D_nz D1_nz H8 i HI). exact NE.
Qed.
Lemma R_nl_pos q : 0 < R_nl q a T.
Proof. unfold R_nl, clip_lo. pose proof (Rmax_r (exp (interp1 1.0 (hf_sigma q a T) hf_logr)) 1e-6). lra. Qed.
Lemma k_nl_pos q : 0 < k_nl q a T.
Proof. unfold k_nl. apply Rdiv_lt_0_compat; [ lra | apply R_nl_pos ]. Qed.
Lemma t_k_nl : tangent_of (fun s => k_nl (C s) a T) 0 (gk_nl N g 'a GT).
Proof. apply (t_div 0 (fun _ => 1.0)); [ apply Rgt_not_eq, R_nl_pos | apply t_cst | exact t_R_nl ]. Qed.
Lemma t_res x : tangent_of (fun s => hf_res (C s) a T x) 0 (ghf_res N g 'a (gk_nl N g 'a GT) GT x).
Proof.
  assert (TL := t_lin x). assert (TDa := TD). assert (TX := t_exp 0 _ _ (t_cst 0 x)). assert (TK := t_k_nl). cbv beta in TX. unfold hf_res, ghf_res. cbv zeta.
  tang; try exact TL; try exact TX; try exact TDa; try exact TK; [ apply two_pi | apply Rgt_not_eq, k_nl_pos ].
Qed.
Lemma t_dneff x : tangent_of (fun s => hf_dneff (C s) a T x) 0 (ghf_dneff N g 'a (gk_nl N g 'a GT) GT x).
Proof.
  assert (TR := t_res x). assert (TX := t_exp 0 _ _ (t_cst 0 x)). assert (TK := t_k_nl). cbv beta in TX. unfold hf_dneff, ghf_dneff. cbv zeta.
  tang; try exact TR; try exact TX; try exact TK. apply Rgt_not_eq, k_nl_pos.
Qed.
Lemma t_dC x : tangent_of (fun s => hf_dC (C s) a T x) 0 (ghf_dC N g 'a (gk_nl N g 'a GT) GT x).
Proof.
  assert (TR := t_res x). assert (TX := t_exp 0 _ _ (t_cst 0 x)). assert (TK := t_k_nl). cbv beta in TX. unfold hf_dC, ghf_dC. cbv zeta.
  tang; try exact TR; try exact TX; try exact TK; apply Rgt_not_eq, k_nl_pos.
Qed.
Lemma t_params : let p := fun s => halofit_parameters (C s) a T in let q := ghalofit_parameters N g 'a GT in
  tangent_of (fun s => fst (fst (p s))) 0 (fst (fst q)) /\ tangent_of (fun s => snd (fst (p s))) 0 (snd (fst q)) /\ tangent_of (fun s => snd (p s)) 0 (snd q).
Proof.
  cbv zeta. unfold halofit_parameters, ghalofit_parameters. cbv zeta. cbn [fst snd].
  assert (T0 := t_simps _ _ (ln 1e-4) (ln 1e4) 256 t_dneff). assert (T1 := t_simps _ _ (ln 1e-4) (ln 1e4) 256 t_dC).
  split; [ exact t_k_nl | split; [ apply t_sub; [ exact T0 | apply t_cst ] | apply t_add; [ apply t_sq; exact T0 | exact T1 ]]].
Qed.
Lemma t_om : tangent_of (fun s => Omega_m_a (C s) a) 0 (gOmega_m_a N g 'a).
Proof. apply (m_Omega_m_a C 0 g (displaced_moves c d) (fun _ => a) 'a (t_cst 0 a)); [ apply a_pos | ]. unfold C. rewrite displaced_0 by exact B. apply HE, a_pos. Qed.
Lemma t_ode : tangent_of (fun s => Omega_de_a (C s) a) 0 (gOmega_de_a N g 'a).
Proof. apply (m_Omega_de_a C 0 g (displaced_moves c d) (fun _ => a) 'a (t_cst 0 a)); [ apply a_pos | ]. unfold C. rewrite displaced_0 by exact B. apply HE, a_pos. Qed.
Lemma t_w : tangent_of (fun s => w (C s) a) 0 (gw N g 'a).
Proof. apply (m_w C 0 g (displaced_moves c d) (fun _ => a) 'a (t_cst 0 a)). Qed.
Lemma om_pos : 0 < Omega_m_a (C 0) a.
Proof. unfold C. rewrite displaced_0 by exact B. apply Omega_m_a_range; [ exact HP | apply a_pos ]. Qed.

Section Tangents.
Variables (n q : R -> R) (nd qd : dual).
Hypotheses (Tn : tangent_of n 0 nd) (Tq : tangent_of q 0 qd).
Lemma t_ten f x : tangent_of f 0 x -> tangent_of (fun s => pow10 (f s)) 0 (npow N '10 x).
Proof. intros Tf. apply (t_ext 0 (fun s => rpow 10 (f s))); [ intros s; apply pow_ten | ]. apply (t_pow 0 (fun _ => 10)); [ lra | apply t_cst | exact Tf ]. Qed.
End Tangents.

Lemma halofit_number p k kd : tangent_of k 0 kd -> 0 < k 0 -> formula_smooth c (k 0) a T p ->
  jvp_number (fun t => halofit (C t) (k t) a T p) (ghalofit N g kd 'a GT p).
Proof.
  intros Tk Pk HS. destruct t_params as (T1 & T2 & T3). cbv zeta in T1, T2, T3.
  assert (TL := linear_moves c d T GT a B HE NG HP HMo HT HN Ha k kd Tk Pk). cbv beta in TL. change ((a, 0) : dual) with ('a) in TL. fold C in TL. fold g in TL.
  assert (KP : 0 < fst (fst (halofit_parameters (C 0) a T))) by apply k_nl_pos.
  assert (LP : 0 <= linear_matter_power (C 0) (k 0) a T) by (unfold C; rewrite displaced_0 by exact B; now apply linear_nonneg).
  assert (TO := t_om). assert (TE := t_ode). assert (TW := t_w). assert (OP := om_pos).
  assert (E0 : C 0 = c) by (now apply displaced_0). unfold formula_smooth in HS. rewrite <- E0 in HS.
  unfold ghalofit, halofit. cbv zeta.
  destruct (ghalofit_parameters N g 'a GT) as [[knd nd] qd]. cbn [fst snd] in T1, T2, T3.
  set (pr := fun s => halofit_parameters (C s) a T) in *. change (halofit_parameters (C 0) a T) with (pr 0) in *.
  assert (TEN : forall x, 0 < pow10 x) by (intros; apply exp_pos).
  destruct HS as [[-> HA] | (-> & HO & HZ)]; cbn [String.eqb Ascii.eqb Bool.eqb].
  - set (co := fun s => hf_takahashi (snd (fst (pr s))) (snd (pr s)) (Omega_de_a (C s) a) (w (C s) a)).
    set (om := fun s => Omega_m_a (C s) a) in *.
    eexists (fun s => hf_assemble (k s) (linear_matter_power (C s) (k s) a T) (fst (fst (pr s))) (co s) (rpow (om s) (-0.0307), rpow (om s) (-0.0585), rpow (om s) 0.0743)).
    eexists. split; [ | split; [ reflexivity | ]].
    { intros s. change (halofit_parameters (C s) a T) with (pr s). unfold co, om. destruct (pr s) as [[? ?] ?]. reflexivity. }
    apply (t_assemble k (fun s => linear_matter_power (C s) (k s) a T) (fun s => fst (fst (pr s))) kd _ knd co _ (fun s => rpow (om s) (-0.0307)) (fun s => rpow (om s) (-0.0585)) (fun s => rpow (om s) 0.0743));
      try assumption; unfold co, hf_takahashi, ghf_takahashi; cbn [ghf_a ghf_b ghf_c ghf_gamma ghf_alpha ghf_beta ghf_mu ghf_nu hf_a hf_b hf_c hf_gamma hf_alpha hf_beta hf_mu hf_nu].
    all: try (apply t_ten; tang; fail). all: try (tang; try exact OP; fail). all: try (left; apply TEN). all: try apply TEN. all: try lra.
    + apply t_abs; [ exact HA | tang ].
    + now apply rpow_gt0.
    + apply Rgt_not_eq. pose proof pi_pos. assert (K3 : 0 < k 0 ^ 3) by (now apply pow_lt). assert (QA := Rabs_pos (6.0835 + 1.3373 * snd (fst (pr 0)) - 0.1959 * snd (fst (pr 0)) ^ 2 - 5.5274 * snd (pr 0))).
      assert (QB : 0 <= k 0 ^ 3 * linear_matter_power (C 0) (k 0) a T / (2.0 * PI ^ 2)).
      { replace 2.0 with 2 by lra. apply Rmult_le_pos; [ apply Rmult_le_pos; lra | left; now apply Rinv_0_lt_compat ]. }
      assert (QC := Rmult_le_pos _ _ QA QB). lra.
  - set (co := fun s => hf_smith (snd (fst (pr s))) (snd (pr s))).
    set (om := fun s => Omega_m_a (C s) a) in *. set (fr := fun s => Omega_de_a (C s) a / (1.0 - om s)).
    assert (TF : tangent_of fr 0 (ndiv N (gOmega_de_a N g 'a) (nsub N '1.0 (gOmega_m_a N g 'a)))).
    { unfold fr. tang. replace 1.0 with 1 by lra. unfold om in *. lra. }
    set (h1 := fun s => fr s * rpow (om s) (-0.0307) + (1 - fr s) * rpow (om s) (-0.0732)).
    set (h2 := fun s => fr s * rpow (om s) (-0.0585) + (1 - fr s) * rpow (om s) (-0.1423)).
    set (h3 := fun s => fr s * rpow (om s) 0.0743 + (1 - fr s) * rpow (om s) 0.0725).
    eexists (fun s => hf_assemble (k s) (linear_matter_power (C s) (k s) a T) (fst (fst (pr s))) (co s) (h1 s, h2 s, h3 s)).
    eexists. split; [ | split; [ reflexivity | ]].
    { intros s. change (halofit_parameters (C s) a T) with (pr s). unfold co, h1, h2, h3, fr, om. destruct (pr s) as [[? ?] ?]. reflexivity. }
    apply (t_assemble k (fun s => linear_matter_power (C s) (k s) a T) (fun s => fst (fst (pr s))) kd _ knd co _ h1 h2 h3);
      try assumption; unfold co, hf_smith, ghf_smith; cbn [ghf_a ghf_b ghf_c ghf_gamma ghf_alpha ghf_beta ghf_mu ghf_nu hf_a hf_b hf_c hf_gamma hf_alpha hf_beta hf_mu hf_nu].
    all: try (apply t_ten; tang; fail). all: try (unfold h1, h2, h3; tang; try exact OP; fail). all: try (left; apply TEN). all: try apply TEN. all: try lra.
    + change (0 < fr 0 * rpow (om 0) 0.0743 + (1 - fr 0) * rpow (om 0) 0.0725). pose proof (rpow_gt0 (om 0) 0.0743 OP). pose proof (rpow_gt0 (om 0) 0.0725 OP).
      assert (F0 : 0 <= fr 0 <= 1).
      { assert (RG := Omega_m_a_range (C 0) a ltac:(rewrite E0; exact HP) a_pos). assert (RS := omega_le (C 0) a ltac:(rewrite E0; exact HP) a_pos).
        unfold fr, om in *. assert (0 < 1.0 - Omega_m_a (C 0) a) by lra. split.
        - apply Rmult_le_pos; [ lra | left; now apply Rinv_0_lt_compat ].
        - apply (Rmult_le_reg_r (1.0 - Omega_m_a (C 0) a)); [ assumption | ]. unfold Rdiv. rewrite Rmult_assoc, Rinv_l by lra. lra. }
      destruct (Rle_dec (fr 0) (1 / 2)); [ assert (0 <= fr 0 * rpow (om 0) 0.0743) by (apply Rmult_le_pos; lra); assert (0 < (1 - fr 0) * rpow (om 0) 0.0725) by (apply Rmult_lt_0_compat; lra)
        | assert (0 < fr 0 * rpow (om 0) 0.0743) by (apply Rmult_lt_0_compat; lra); assert (0 <= (1 - fr 0) * rpow (om 0) 0.0725) by (apply Rmult_le_pos; lra) ]; lra.
    + replace 2.0 with 2 by lra. replace 0.3700 with 0.37 by lra. exact HZ.
Qed.
End Halofit.

(** ** public statements *)
Lemma halofit_programs c k a p T (GT : gcosmo R -> R -> R) : built c -> (forall q, GT (lift_cosmo c) q = T c q) ->
  ghalofit_parameters num_R (lift_cosmo c) a GT = halofit_parameters c a T /\ ghalofit num_R (lift_cosmo c) k a GT p = halofit c k a T p.
Proof. intros B ET. split; [ now apply R_params | now apply halofit_program ]. Qed.
Lemma halofit_scale_jvp c d T GT a : built c -> expanding c -> _gamma c = None -> physical c -> moderate c -> (forall d, transfer_moves T GT c d) ->
  sigmasqr_default c 8.0 T <> 0 -> T c (1 / 10000) <> 0 -> _sigma8 c <> 0 -> table_node 128 1 <= a <= 1 -> scale_found c a T ->
  let p := fun t => halofit_parameters (displaced c d t) a T in let q := ghalofit_parameters num_dual (dual_cosmo c d) (a, 0) GT in
  tangent_of (fun t => fst (fst (p t))) 0 (fst (fst q)) /\ tangent_of (fun t => snd (fst (p t))) 0 (snd (fst q)) /\ tangent_of (fun t => snd (p t)) 0 (snd q).
Proof. intros B HE NG HP HMo HT HN HT0 H8 Ha HF. exact (t_params c d T GT a B HE NG HP HMo HT HN HT0 H8 Ha HF). Qed.
Lemma halofit_jvp c d T GT a p k kd : built c -> expanding c -> _gamma c = None -> physical c -> moderate c -> (forall d, transfer_moves T GT c d) ->
  sigmasqr_default c 8.0 T <> 0 -> T c (1 / 10000) <> 0 -> _sigma8 c <> 0 -> table_node 128 1 <= a <= 1 -> scale_found c a T ->
  tangent_of k 0 kd -> 0 < k 0 -> formula_smooth c (k 0) a T p ->
  jvp_number (fun t => halofit (displaced c d t) (k t) a T p) (ghalofit num_dual (dual_cosmo c d) kd (a, 0) GT p).
Proof. intros B HE NG HP HMo HT HN HT0 H8 Ha HF Tk Pk HS. exact (halofit_number c d T GT a B HE NG HP HMo HT HN HT0 H8 Ha HF p k kd Tk Pk HS). Qed.
Lemma halofit_default_moves c d T GT a : built c -> expanding c -> _gamma c = None -> physical c -> moderate c -> (forall d, transfer_moves T GT c d) ->
  sigmasqr_default c 8.0 T <> 0 -> T c (1 / 10000) <> 0 -> _sigma8 c <> 0 -> table_node 128 1 <= a <= 1 -> scale_found c a T -> (forall k, formula_smooth c k a T "takahashi2012") ->
  spectrum_moves (fun c k a => nonlinear_matter_power c k a T halofit_default) (ghalofit_default num_dual GT) c d a.
Proof.
  intros B HE NG HP HMo HT HN HT0 H8 Ha HF HS k kd Tk Pk.
  destruct (halofit_jvp c d T GT a "takahashi2012" k kd B HE NG HP HMo HT HN HT0 H8 Ha HF Tk Pk (HS _)) as (f & y & E1 & E2 & TY).
  unfold ghalofit_default. rewrite E2. apply (t_ext 0 f); [ | exact TY ]. intros s. unfold nonlinear_matter_power, halofit_default. now rewrite E1.
Qed.
Lemma default_spectra_jvp c d probes ells T GT : built c -> expanding c -> _gamma c = None -> physical c -> moderate c ->
  (forall d, transfer_moves T GT c d) -> sigmasqr_default c 8.0 T <> 0 -> T c (1 / 10000) <> 0 -> _sigma8 c <> 0 ->
  shallow (concat (map bins_of probes)) -> off_clip chi c probes -> (forall l, In l ells -> - 0.5 < l) ->
  (forall b, limber_epoch probes b -> scale_found c b T /\ forall k, formula_smooth c k b T "takahashi2012") ->
  jvp_rows (fun t => angular_cl (displaced c d t) (Array1 ells) probes T halofit_default)
    (gangular_cl num_dual (dual_cosmo c d) (Array1 ells) probes (ghalofit_default num_dual GT)).
Proof.
  intros B HE NG HP HMo HT HN HT0 H8 HS HC HL HB. apply spectra_jvp; try assumption. intros b Hb. destruct (HB b Hb).
  apply halofit_default_moves; try assumption. now apply (limber_range probes).
Qed.
(** amplitudes at which the search has no clear answer are finitely many *)
Lemma scale_found_generic Oc Ob h ns Ok_ w0 wa gam a T : let C := fun s => make_cosmology Oc Ob h ns s Ok_ w0 wa gam in
  (forall s k, T (C s) k = T (C 1) k) -> sigmasqr_default (C 1) 8.0 T <> 0 -> T (C 1) (1 / 10000) <> 0 -> D (C 1) a <> 0 -> D (C 1) 1 <> 0 ->
  exists L : list R, forall s, 0 < s -> ~ In s L -> scale_found (C s) a T.
Proof.
  intros C HT HN HT0 HD HD1. set (P := fun k => linear_matter_power (C 1) k 1 T). set (u := fun i => smoothed_variance P (D (C 1) a) (search_radius i)).
  assert (SC : forall s i, smoothed_variance (fun k => linear_matter_power (C s) k 1 T) (D (C s) a) (search_radius i) = s ^ 2 * u i).
  { intros s i. unfold u, smoothed_variance. rewrite <- simpson_scal. apply simpson_ext. intros j _.
    assert (R1 : forall s, reachable (C s)) by (intros q; exists (C q), []; split; [ split; reflexivity | reflexivity ]).
    assert (SS : same_but_sigma8 (C 1) (C s)) by (repeat split).
    rewrite <- (same_D (C 1) (C s) a (R1 1) (R1 s) (sigma8_background _ _ SS)).
    pose proof (sigma8_linear (C 1) (C s) T (exp (node (ln (1 / 10000)) (ln 10000) 256 j)) 1 (R1 1) (R1 s) SS (fun k => eq_sym (HT s k))) as E.
    cbn [_sigma8 C make_cosmology] in E. replace (1 ^ 2) with 1 in E by ring. rewrite Rmult_1_r in E. rewrite E. unfold P, Rdiv. ring. }
  assert (S1 : _sigma8 (C 1) <> 0) by (cbn [_sigma8 C make_cosmology]; lra).
  assert (UP : forall i, 0 < u i) by (intros i; now apply variance_pos).
  assert (UL : forall i j, (i < j)%nat -> u j < u i) by (intros i j Hij; apply variance_lt; auto; split; [ apply radius_pos | now apply radius_lt ]).
  set (x := fun m => ln (search_radius m)).
  set (L1 := map (fun p : nat * nat => sqrt (2 / (u (fst p) + u (snd p)))) (list_prod (seq 0 256) (seq 0 256))).
  set (L2 := map (fun m => sqrt ((x (m + 1)%nat - x m) / ((x (m + 1)%nat - x m) * u m + (ln 1e-6 - x m) * (u (m + 1)%nat - u m)))) (seq 0 256)).
  exists (L1 ++ L2)%list. intros s Ps NI. assert (N1 : ~ In s L1) by (intros Q; apply NI, in_or_app; now left). assert (N2 : ~ In s L2) by (intros Q; apply NI, in_or_app; now right).
  assert (P2 : 0 < s ^ 2) by (now apply pow_lt).
  (* no two table entries are equally far from 1 *)
  assert (TIE : forall i j, (i < 256)%nat -> (j < 256)%nat -> i <> j -> Rabs (1 - s ^ 2 * u i) <> Rabs (1 - s ^ 2 * u j)).
  { intros i j Hi Hj NE E. apply N1. apply in_map_iff. exists (i, j). cbn [fst snd]. split; [ | apply in_prod; apply in_seq; lia ].
    assert (u i <> u j) by (assert (i < j \/ j < i)%nat as [K | K] by lia; apply UL in K; lra).
    assert (Q : s ^ 2 * (u i + u j) = 2).
    { assert (E' : Rsqr (1 - s ^ 2 * u i) = Rsqr (1 - s ^ 2 * u j)) by (rewrite (Rsqr_abs (1 - s ^ 2 * u i)), E, <- Rsqr_abs; reflexivity). unfold Rsqr in E'.
      assert (F : s ^ 2 * (u j - u i) * (2 - s ^ 2 * (u i + u j)) = 0) by (replace (s ^ 2 * (u j - u i) * (2 - s ^ 2 * (u i + u j))) with ((1 - s ^ 2 * u i) * (1 - s ^ 2 * u i) - (1 - s ^ 2 * u j) * (1 - s ^ 2 * u j)) by ring; lra).
      apply Rmult_integral in F. destruct F as [F | F]; [ | lra ]. apply Rmult_integral in F. destruct F; lra. }
    pose proof (UP i). pose proof (UP j). replace (2 / (u i + u j)) with (s ^ 2) by (rewrite <- Q; field; lra). rewrite sqrt_pow2; lra. }
  (* a strictly nearest entry *)
  assert (MIN : forall n, (n <= 256)%nat -> (1 <= n)%nat -> exists i, (i < n)%nat /\ forall j, (j < n)%nat -> j <> i -> Rabs (1 - s ^ 2 * u i) < Rabs (1 - s ^ 2 * u j)).
  { induction n as [ | n IH]; intros Hn H1; [ lia | ]. destruct n as [ | n]; [ exists 0%nat; split; [ lia | intros; lia ] | ].
    destruct (IH ltac:(lia) ltac:(lia)) as (i & Hi & HU). destruct (Rlt_dec (Rabs (1 - s ^ 2 * u i)) (Rabs (1 - s ^ 2 * u (S n)))) as [Q | Q].
    - exists i. split; [ lia | ]. intros j Hj NE. destruct (Nat.eq_dec j (S n)) as [-> | ]; [ exact Q | apply HU; lia ].
    - pose proof (TIE i (S n) ltac:(lia) ltac:(lia) ltac:(lia)) as NT. exists (S n). split; [ lia | ]. intros j Hj NE. destruct (Nat.eq_dec j i) as [-> | NJ]; [ lra | ]. pose proof (HU j ltac:(lia) NJ). lra. }
  destruct (MIN 256%nat ltac:(lia) ltac:(lia)) as (i & Hi & HU). exists i. split.
  - split; [ exact Hi | ]. intros j Hj NE. rewrite !SC. now apply HU.
  - unfold found_radius. cbv zeta. rewrite !SC. set (m := search_cell i). fold (x m) (x (m + 1)%nat).
    assert (HM : (m < 256)%nat) by (unfold m, search_cell; destruct (Nat.ltb_spec 253 i); lia).
    intros E. apply N2. apply in_map_iff. exists m. split; [ | apply in_seq; lia ].
    assert (UM : u (m + 1)%nat < u m) by (apply UL; lia). assert (XM : x m < x (m + 1)%nat) by (unfold x; apply ln_increasing; [ apply radius_pos | apply radius_lt; lia ]).
    assert (F : x m + (x (m + 1)%nat - x m) / (s ^ 2 * u (m + 1)%nat - s ^ 2 * u m) * (1 - s ^ 2 * u m) = ln 1e-6) by (rewrite <- E; symmetry; apply ln_exp).
    set (dx := x (m + 1)%nat - x m) in *. set (du := u (m + 1)%nat - u m) in *.
    assert (NS : s ^ 2 * u (m + 1)%nat - s ^ 2 * u m = s ^ 2 * du) by (unfold du; ring). rewrite NS in F.
    assert (G : s ^ 2 * (dx * u m + (ln 1e-6 - x m) * du) = dx).
    { assert (F' : dx / (s ^ 2 * du) * (1 - s ^ 2 * u m) = ln 1e-6 - x m) by lra. rewrite <- F'. unfold du. field. split; lra. }
    assert (DN : dx * u m + (ln 1e-6 - x m) * du <> 0) by (intros Z; rewrite Z in G; unfold dx in G; lra).
    replace (dx / (dx * u m + (ln 1e-6 - x m) * du)) with (s ^ 2) by (rewrite <- G at 1; field; exact DN). rewrite sqrt_pow2; lra.
Qed.
