(** * Without baryons the Eisenstein-Hu transfer functions are NaN *)
From Coquelicot Require Import Coquelicot.
From Verif Require Import SparseX HalofitX AdNan AdNanSpec AdNanProofs AdNanFinal FinOps.
From Verif Require Import Np NpLemmas Core Background BgSpec Transfer TransferProofs TransferMono Power GradSpec Ad AdSpec AdProofs AdPower AdTransfer FinSpec.
Local Open Scope R_scope.

Definition fst_fin (x : xdual) (a : R) : Prop := fst x = Fin a.
Definition nanv (x : xdual) : Prop := fst x = NaN.
Local Notation N := num_x.
Lemma v_cst a : fst_fin (cst N a) a. Proof. reflexivity. Qed.
Lemma v_add x y a b : fst_fin x a -> fst_fin y b -> fst_fin (nadd N x y) (a + b). Proof. unfold fst_fin. cbn [nadd num_x fst]. now intros -> ->. Qed.
Lemma v_mul x y a b : fst_fin x a -> fst_fin y b -> fst_fin (nmul N x y) (a * b). Proof. unfold fst_fin. cbn [nmul num_x fst]. now intros -> ->. Qed.
Lemma v_div x y a b : b <> 0 -> fst_fin x a -> fst_fin y b -> fst_fin (ndiv N x y) (a / b). Proof. unfold fst_fin. cbn [ndiv num_x fst]. intros HB -> ->. now apply xdiv_fin. Qed.
Lemma v_pow x y a b : 0 < a \/ a = 0 /\ 0 <= b -> fst_fin x a -> fst_fin y b -> fst_fin (npow N x y) (rpow a b).
Proof. unfold fst_fin. cbn [npow num_x fst]. intros HB -> ->. now apply xpow_fin. Qed.
Lemma v_sqrt x a : 0 <= a -> fst_fin x a -> fst_fin (nsqrt N x) (sqrt a).
Proof. unfold fst_fin. cbn [nsqrt num_x fst]. intros HB ->. cbn [xsqrt]. destruct (Rlt_dec a 0); [ lra | reflexivity ]. Qed.
Lemma v_ln x a : 0 < a -> fst_fin x a -> fst_fin (nln N x) (ln a).
Proof. unfold fst_fin. cbn [nln num_x fst]. intros HB ->. now apply xlog_pos. Qed.
(** NaN spreads *)
Lemma n_add_l x y : nanv x -> nanv (nadd N x y). Proof. unfold nanv. cbn [nadd num_x fst]. now intros ->. Qed.
Lemma n_add_r x y : nanv y -> nanv (nadd N x y). Proof. unfold nanv. cbn [nadd num_x fst]. intros ->. apply xadd_nan. Qed.
Lemma n_mul_l x y : nanv x -> nanv (nmul N x y). Proof. unfold nanv. cbn [nmul num_x fst]. now intros ->. Qed.
Lemma n_mul_r x y : nanv y -> nanv (nmul N x y). Proof. unfold nanv. cbn [nmul num_x fst]. intros ->. apply xmul_nan. Qed.
Lemma n_div_l x y : nanv x -> nanv (ndiv N x y). Proof. unfold nanv. cbn [ndiv num_x fst]. intros ->. apply xdiv_nan. Qed.
Lemma n_div_r x y : nanv y -> nanv (ndiv N x y). Proof. unfold nanv. cbn [ndiv num_x fst]. intros ->. now destruct (fst x). Qed.
Lemma n_ipow x p : nanv x -> nanv (nipow N x (Zpos p)).
Proof. unfold nanv. cbn [nipow num_x fst]. intros ->. cbn [xipow]. destruct (Pos2Nat.is_succ p) as [n ->]. cbn [xpow_nat]. reflexivity. Qed.
Lemma n_ln x : nanv x -> nanv (nln N x). Proof. unfold nanv. cbn [nln num_x fst]. now intros ->. Qed.

Section NoBaryons.
Variables (g : gcosmo xdual) (oc h : R).
Hypotheses (Fb : fst (gOmega_b g) = Fin 0) (Fc : fst (gOmega_c g) = Fin oc) (Fh : fst (gh g) = Fin h) (Pc : 0 < oc) (Ph : 0 < h).
Lemma T27_gt : 0 < eh_T27sqr. Proof. apply T27_pos. Qed.
Lemma v_wm : fst_fin (g_w_m N g) ((0 + oc) * h ^ 2).
Proof. unfold g_w_m. apply v_mul; [ now apply v_add | ]. unfold fst_fin. cbn [nipow num_x fst]. rewrite Fh, xipow_fin by (right; lia). reflexivity. Qed.
Lemma v_wb : fst_fin (g_w_b N g) 0.
Proof. unfold g_w_b. replace 0 with (0 * h ^ 2) by ring. apply v_mul; [ exact Fb | ]. unfold fst_fin. cbn [nipow num_x fst]. rewrite Fh, xipow_fin by (right; lia). reflexivity. Qed.
Lemma wm_gt : 0 < (0 + oc) * h ^ 2. Proof. apply Rmult_lt_0_compat; [ lra | now apply pow_lt ]. Qed.
Lemma v_zd : exists z, 0 < z /\ fst_fin (g_z_d N g) z.
Proof.
  assert (P := wm_gt). assert (V := v_wm). assert (B := v_wb). set (m := (0 + oc) * h ^ 2) in *. assert (PR : forall y, 0 < rpow m y) by (intros y; now apply rpow_gt0).
  assert (PW : forall y, fst_fin (npow N (g_w_m N g) (cst N y)) (rpow m y)) by (intros y; apply v_pow; [ now left | exact V | apply v_cst ]).
  unfold g_z_d. cbv zeta.
  exists (1291.0 * rpow m 0.251 / (1.0 + 0.659 * rpow m 0.828) * (1.0 + 0.313 * rpow m (-0.419) * (1.0 + 0.607 * rpow m 0.674) * rpow 0 (0.238 * rpow m 0.223))).
  assert (Q1 := PR 0.251). assert (Q2 := PR 0.828). assert (Q3 := PR 0.223). assert (D1 : 0 < 1.0 + 0.659 * rpow m 0.828) by lra. split.
  - assert (Z : rpow 0 (0.238 * rpow m 0.223) = 0) by (unfold rpow at 1; destruct (Req_EM_T 0 0); [ | easy ]; destruct (Req_EM_T (0.238 * rpow m 0.223) 0); [ lra | reflexivity ]).
    rewrite Z, Rmult_0_r, Rplus_0_r. apply Rmult_lt_0_compat; [ apply Rdiv_lt_0_compat; lra | lra ].
  - apply v_mul; [ apply v_div; [ lra | apply v_mul; [ apply v_cst | apply PW ] | apply v_add; [ apply v_cst | apply v_mul; [ apply v_cst | apply PW ]]] | ].
    apply v_add; [ apply v_cst | ]. apply v_mul.
    + apply v_mul; [ apply v_mul; [ apply v_cst | apply PW ] | apply v_add; [ apply v_cst | apply v_mul; [ apply v_cst | apply PW ]]].
    + apply v_pow; [ right; split; [ reflexivity | lra ] | exact B | apply v_mul; [ apply v_cst | apply PW ]].
Qed.
Lemma ratio_0 z Z : z <> 0 -> fst_fin Z z -> fst_fin (nmul N (ndiv N (nmul N (cst N 31.5) (g_w_b N g)) (cst N (eh_T27sqr ^ 2))) (ndiv N (cst N 1.0e3) Z)) 0.
Proof.
  intros HZ VZ. assert (P := T27_gt). assert (P2 : 0 < eh_T27sqr ^ 2) by (now apply pow_lt). replace 0 with (31.5 * 0 / eh_T27sqr ^ 2 * (1.0e3 / z)) by (unfold Rdiv; ring).
  apply v_mul; [ apply v_div; [ lra | apply v_mul; [ apply v_cst | apply v_wb ] | apply v_cst ] | apply v_div; [ exact HZ | apply v_cst | exact VZ ]].
Qed.
Lemma v_Rd : fst_fin (g_R_d N g) 0.
Proof. destruct v_zd as (z & Hz & V). apply (ratio_0 z); [ lra | exact V ]. Qed.
Lemma v_Req : fst_fin (g_R_eq N g) 0.
Proof.
  assert (P := T27_gt). assert (P2 : 0 < eh_T27sqr ^ 2) by (now apply pow_lt). apply (ratio_0 (2.50e4 * ((0 + oc) * h ^ 2) / eh_T27sqr ^ 2)).
  - apply Rgt_not_eq. apply Rdiv_lt_0_compat; [ | exact P2 ]. pose proof wm_gt. lra.
  - unfold g_z_eq. apply v_div; [ lra | apply v_mul; [ apply v_cst | apply v_wm ] | apply v_cst ].
Qed.
Lemma n_sh : nanv (g_sh_d N g).
Proof.
  assert (P := T27_gt). assert (PM := wm_gt). set (m := (0 + oc) * h ^ 2) in *.
  assert (KP : 0 < 7.46e-2 * m / eh_T27sqr / h) by (repeat apply Rdiv_lt_0_compat; lra).
  assert (K : fst_fin (g_k_eq N g) (7.46e-2 * m / eh_T27sqr / h)) by (unfold g_k_eq; apply v_div; [ lra | apply v_div; [ lra | apply v_mul; [ apply v_cst | apply v_wm ] | apply v_cst ] | exact Fh ]).
  set (ke := 7.46e-2 * m / eh_T27sqr / h) in *.
  assert (E1 : fst_fin (ndiv N (cst N 2.0) (nmul N (cst N 3.0) (g_k_eq N g))) (2.0 / (3.0 * ke))) by (apply v_div; [ lra | apply v_cst | apply v_mul; [ apply v_cst | exact K ]]).
  assert (E2 : fst (ndiv N (cst N 6.0) (g_R_eq N g)) = PInf).
  { cbn [ndiv num_x fst cst]. rewrite v_Req. cbn [xdiv]. destruct (Req_EM_T 0 0); [ | easy ]. destruct (Req_EM_T 6.0 0); [ lra | ]. rewrite sgn_pos by lra. apply inf_1. }
  assert (E3 : fst_fin (nln N (ndiv N (nadd N (nsqrt N (nadd N (cst N 1.0) (g_R_d N g))) (nsqrt N (nadd N (g_R_eq N g) (g_R_d N g)))) (nadd N (cst N 1.0) (nsqrt N (g_R_eq N g))))) 0).
  { assert (V : fst_fin (ndiv N (nadd N (nsqrt N (nadd N (cst N 1.0) (g_R_d N g))) (nsqrt N (nadd N (g_R_eq N g) (g_R_d N g)))) (nadd N (cst N 1.0) (nsqrt N (g_R_eq N g)))) 1).
    { replace 1 with ((sqrt (1.0 + 0) + sqrt (0 + 0)) / (1.0 + sqrt 0)).
      - apply v_div; [ rewrite sqrt_0; lra | apply v_add; [ apply v_sqrt; [ lra | apply v_add; [ apply v_cst | apply v_Rd ]] | apply v_sqrt; [ lra | apply v_add; [ apply v_Req | apply v_Rd ]]] | ].
        apply v_add; [ apply v_cst | apply v_sqrt; [ lra | apply v_Req ]].
      - replace (1.0 + 0) with 1 by lra. rewrite Rplus_0_r, sqrt_0, sqrt_1. lra. }
    replace 0 with (ln 1) by apply ln_1. apply v_ln; [ lra | exact V ]. }
  unfold nanv, g_sh_d.
  match goal with |- fst (nmul N (nmul N ?u (nsqrt N ?v)) ?w) = NaN => assert (X1 : fst u = Fin (2.0 / (3.0 * ke))) by exact E1; assert (X2 : fst v = PInf) by exact E2; assert (X3 : fst w = Fin 0) by exact E3; change (xmul (xmul (fst u) (xsqrt (fst v))) (fst w) = NaN) end.
  rewrite X1, X2, X3. cbn [xsqrt]. assert (KQ : 0 < 2.0 / (3.0 * ke)) by (apply Rdiv_lt_0_compat; lra).
  assert (M1 : xmul (Fin (2.0 / (3.0 * ke))) PInf = PInf) by (cbn [xmul xsgR]; rewrite sgn_pos by exact KQ; rewrite Rmult_1_r; apply inf_1).
  rewrite M1. cbn [xmul xsgR]. assert (SG : Rsgn 0 = 0) by (destruct (sgn_cases 0) as [[_ Q] | [Q _]]; [ exact Q | easy ]). rewrite SG, Rmult_0_r. apply inf_0.
Qed.
Lemma nan_eisenhu k : nanv (geisenhu N g k).
Proof.
  assert (G : nanv (g_gamma_eff N g k)).
  { unfold g_gamma_eff. apply n_mul_r, n_add_r, n_div_r, n_add_r. apply n_ipow, n_mul_r, n_sh. }
  unfold geisenhu. cbv zeta. apply n_div_r, n_add_l, n_ln, n_add_r, n_mul_r, n_div_r, G.
Qed.
Lemma nan_osc k : nanv (geisenhu_osc N g k).
Proof. unfold geisenhu_osc, g_Tc. cbv zeta. apply n_add_r, n_mul_r, n_add_l, n_mul_l, n_div_r, n_add_r, n_ipow, n_div_l, n_mul_r, n_sh. Qed.
End NoBaryons.
(** public statements *)
Lemma no_baryons g k : finite (gOmega_c g) -> finite (gh g) -> fst (gOmega_b g) = Fin 0 -> 0 < x_val (gOmega_c g) -> 0 < x_val (gh g) ->
  fst (geisenhu num_x g k) = NaN /\ fst (geisenhu_osc num_x g k) = NaN.
Proof.
  intros [[oc Hc] _] [[h Hh] _] Fb Pc Ph. unfold x_val in Pc, Ph. rewrite Hc in Pc. rewrite Hh in Ph. split; [ exact (nan_eisenhu g oc h Fb Hc Hh Pc Ph k) | exact (nan_osc g oc h Fb Hc Hh Pc Ph k) ].
Qed.
Lemma no_baryons_power g k a : finite (gOmega_c g) -> finite (gh g) -> fst (gOmega_b g) = Fin 0 -> 0 < x_val (gOmega_c g) -> 0 < x_val (gh g) ->
  fst (glinear_matter_power num_x g k a (geisenhu num_x)) = NaN /\ fst (glinear_matter_power num_x g k a (geisenhu_osc num_x)) = NaN.
Proof.
  intros H1 H2 H3 H4 H5. destruct (no_baryons g k H1 H2 H3 H4 H5) as [E1 E2].
  unfold glinear_matter_power. cbv zeta. split; apply n_mul_l, n_mul_l, n_mul_r, n_ipow; assumption.
Qed.
