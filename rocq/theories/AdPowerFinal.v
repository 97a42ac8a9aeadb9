(** * Forward-mode differentiation of the transfer functions and the linear power spectrum: public statements *)
From Coquelicot Require Import Coquelicot.
From Verif Require Import Np NpLemmas Core Ode OdeSpec OdeProofs Interp InterpProofs Integrate IntegrateSpec RombProofs Background BgSpec BgAlgebra BgTables
  BgGrowth BgPositive BgProofs BgFinal BgFinal2 BgFinal4 BgGrad Transfer TransferProofs TransferMono Power PowerProofs ExPower GradSpec
  Ad AdSpec AdProofs AdBg AdGrowth AdFinal AdPower AdPowerProofs AdTransfer.
Opaque chi_table growth_table_ODE growth_table_gamma logspace.

Lemma differentiates_tangent F G c d a da : built c -> differentiates F G c d a da -> tangent_of (fun t => F (displaced c d t) (a + t * da)) 0 (G (dual_cosmo c d) (a, da)).
Proof. intros B [E Df]. split; [ | exact Df ]. rewrite E, displaced_0 by exact B. cbv beta; now rewrite line_0. Qed.
Lemma differentiates2_intro F G c d k dk a da : built c ->
  tangent_of (fun t => F (displaced c d t) (k + t * dk) (a + t * da)) 0 (G (dual_cosmo c d) (k, dk) (a, da)) -> differentiates2 F G c d k dk a da.
Proof. intros B [E Df]. split; [ | exact Df ]. rewrite E, displaced_0 by exact B. cbv beta; now rewrite !line_0. Qed.

(** ** transfer functions *)
Lemma eisenhu_jvp c : built c -> dense c -> 0 <= eh_alpha_gamma c -> transfer_jvp eisenhu (geisenhu num_dual) c.
Proof.
  intros B HD HA d k dk Pk. apply differentiates_intro; [ exact B | ].
  apply (tr_eisenhu _ _ _ (displaced_moves c d)); cbv beta; rewrite ?displaced_0, ?line_0 by exact B; try assumption. apply line_tangent.
Qed.
Lemma eisenhu_osc_jvp c : built c -> dense c -> 0 < _Omega_c c -> transfer_jvp eisenhu_osc (geisenhu_osc num_dual) c.
Proof.
  intros B HD HC d k dk Pk. apply differentiates_intro; [ exact B | ].
  apply (tr_eisenhu_osc _ _ _ (displaced_moves c d)); cbv beta; rewrite ?displaced_0, ?line_0 by exact B; try assumption. apply line_tangent.
Qed.

(** ** growth held fixed at a = 1 *)
Lemma nonzero_near c d : built c -> expanding c -> growing c -> locally 0 (fun s => growth_nonzero (displaced c d s)).
Proof.
  intros B HE HG. destruct (m_gtab _ _ _ (displaced_moves c d) (E0 c d HE) (growing0 c d B HG)) as (gt & MG & LG & _).
  assert (M127 := proj2 MG 127%nat ltac:(lia)). assert (NZ := growing_nonzero c B HG).
  destruct (_gamma c) as [v | ] eqn:Ev.
  - apply filter_forall. intros s F. exfalso. cbn [_gamma_growth displaced make_cosmology] in F. rewrite Ev in F. discriminate.
  - apply (filter_imp (fun s => 0 < el (gtab_of (displaced c d s)) 127)); [ | apply (t_gt 0 _ _ 0 M127); rewrite displaced_0, gtab_last by assumption; lra ].
    intros s Hs F E0'. unfold gtab_of in Hs. rewrite F in Hs.
    destruct (ODE_table_el (displaced c d s) (-3) 128 ltac:(lia)) as (_ & _ & _ & G & _). rewrite G in Hs by lia. change (128 - 1)%nat with 127%nat in Hs.
    rewrite E0' in Hs. unfold Rdiv in Hs. rewrite Rmult_0_l in Hs. lra.
Qed.
Lemma growth_tangent c d a da : built c -> expanding c -> growing c -> growth_smooth D c a da ->
  tangent_of (fun s => D (displaced c d s) (a + s * da)) 0 (gD num_dual (dual_cosmo c d) (a, da)).
Proof.
  intros B HE HG [(Pa & HD & HO) | (-> & ->)].
  - apply differentiates_tangent; [ exact B | ]. now apply growths_jvp.
  - rewrite D_today by assumption. replace (0 * last_slope (D c) 128 / 2) with 0 by (unfold Rdiv; ring).
    refine (t_loc 0 (fun _ => 1) _ _ _ (t_cst 0 1)). apply (filter_imp (fun s => growth_nonzero (displaced c d s))); [ | now apply nonzero_near ].
    intros s Hs. rewrite Rmult_0_r, Rplus_0_r. symmetry. apply growth_normalised; [ | exact Hs ]. apply fresh_reachable. split; reflexivity.
Qed.

(** ** sigma and the power spectrum *)
Section Spectrum.
Variables (c : cosmology) (d : direction) (T : transfer) (GT : gcosmo dual -> dual -> dual).
Hypotheses (B : built c) (HT : transfer_jvp T GT c).
Let M := displaced_moves c d.
Lemma transfer_tangent k dk : 0 < k -> tangent_of (fun s => T (displaced c d s) (k + s * dk)) 0 (GT (dual_cosmo c d) (k, dk)).
Proof. intros Pk. apply differentiates_tangent; [ exact B | now apply HT ]. Qed.
Lemma primordial_tangent k kd : tangent_of k 0 kd -> 0 < k 0 -> tangent_of (fun s => primordial_matter_power (displaced c d s) (k s)) 0 (gprimordial num_dual (dual_cosmo c d) kd).
Proof. intros Tk Pk. exact (t_pow 0 _ _ _ _ Pk Tk (m_n_s _ _ _ M)). Qed.
Lemma int_sigma_tangent Rr x : 0 < Rr -> tangent_of (fun s => int_sigma (displaced c d s) Rr T x) 0 (gint_sigma num_dual (dual_cosmo c d) Rr GT x).
Proof.
  intros PR. pose proof (exp_pos x) as PE. unfold int_sigma, gint_sigma. cbv zeta.
  assert (TK := t_exp 0 _ _ (t_cst 0 x)). assert (EK : nexp num_dual (cst num_dual x) = (exp x, 0)) by (cbn [nexp cst num_dual fst snd]; f_equal; ring).
  assert (TT : tangent_of (fun s => T (displaced c d s) (exp x)) 0 (GT (dual_cosmo c d) (nexp num_dual (cst num_dual x)))).
  { rewrite EK. refine (t_ext 0 _ _ _ _ (transfer_tangent (exp x) 0 PE)). intros s. cbv beta. f_equal. ring. }
  assert (TP := primordial_tangent (fun _ => exp x) _ TK PE). assert (TX := t_mul 0 _ _ _ _ TK (t_cst 0 Rr)).
  assert (PX : 0 < exp x * Rr) by (now apply Rmult_lt_0_compat).
  assert (NX : exp x * Rr * (exp x * Rr) * (exp x * Rr) <> 0) by (apply Rgt_not_eq; repeat apply Rmult_lt_0_compat; assumption).
  assert (TW := t_div 0 _ _ _ _ NX (t_mul 0 _ _ _ _ (t_cst 0 3.0) (t_sub 0 _ _ _ _ (t_sin 0 _ _ TX) (t_mul 0 _ _ _ _ TX (t_cos 0 _ _ TX)))) (t_mul 0 _ _ _ _ (t_mul 0 _ _ _ _ TX TX) TX)).
  exact (t_mul 0 _ _ _ _ (t_mul 0 _ _ _ _ TK (t_sq 0 _ _ (t_mul 0 _ _ _ _ TK TW))) (t_mul 0 _ _ _ _ (t_sq 0 _ _ TT) TP)).
Qed.
Lemma sigmasqr_tangent Rr kmin kmax : 0 < Rr -> tangent_of (fun s => sigmasqr (displaced c d s) Rr T kmin kmax) 0 (gsigmasqr num_dual (dual_cosmo c d) Rr GT kmin kmax).
Proof.
  intros PR. unfold sigmasqr, gsigmasqr. apply t_mul; [ apply t_cst | ]. apply (t_romb 0 (fun s => int_sigma (displaced c d s) Rr T)).
  intros x. now apply int_sigma_tangent.
Qed.
Hypotheses (HE : expanding c) (HG : growing c) (NS : sigmasqr_default c 8.0 T <> 0).
Lemma linear_tangent k dk a da : 0 < k -> growth_smooth D c a da ->
  tangent_of (fun s => linear_matter_power (displaced c d s) (k + s * dk) (a + s * da) T) 0 (glinear_matter_power num_dual (dual_cosmo c d) (k, dk) (a, da) GT).
Proof.
  intros Pk Ha. assert (TG := growth_tangent c d a da B HE HG Ha). assert (TT := transfer_tangent k dk Pk).
  assert (TP := primordial_tangent (fun s => k + s * dk) _ (line_tangent k dk) ltac:(cbv beta; rewrite line_0; exact Pk)).
  assert (TS := sigmasqr_tangent 8.0 0.0001 1000.0 ltac:(lra)). unfold linear_matter_power, glinear_matter_power. cbv zeta.
  apply t_mul; [ exact (t_mul 0 _ _ _ _ (t_mul 0 _ _ _ _ TP (t_sq 0 _ _ TT)) (t_sq 0 _ _ TG)) | ].
  apply t_div; [ | exact (t_sq 0 _ _ (m_sigma8 _ _ _ M)) | exact TS ]. rewrite displaced_0 by exact B. exact NS.
Qed.
End Spectrum.

(** ** public statements *)
Lemma sigma_jvp c d T GT Rr kmin kmax : built c -> transfer_jvp T GT c -> 0 < Rr ->
  fst (gsigmasqr num_dual (dual_cosmo c d) Rr GT kmin kmax) = sigmasqr c Rr T kmin kmax /\
  is_derive (fun t => sigmasqr (displaced c d t) Rr T kmin kmax) 0 (snd (gsigmasqr num_dual (dual_cosmo c d) Rr GT kmin kmax)).
Proof.
  intros B HT PR. destruct (sigmasqr_tangent c d T GT B HT Rr kmin kmax PR) as [E Df]. split; [ | exact Df ]. rewrite E, displaced_0 by exact B. reflexivity.
Qed.
Lemma power_jvp c d T GT k dk a da : built c -> expanding c -> growing c -> transfer_jvp T GT c -> sigmasqr_default c 8.0 T <> 0 ->
  0 < k -> growth_smooth D c a da ->
  differentiates2 (fun c k a => linear_matter_power c k a T) (fun g k a => glinear_matter_power num_dual g k a GT) c d k dk a da.
Proof. intros B HE HG HT NS Pk Ha. apply differentiates2_intro; [ exact B | ]. now apply linear_tangent. Qed.
Lemma power_programs c k a : built c ->
  (forall q, geisenhu num_R (lift_cosmo c) q = eisenhu c q) /\ (forall q, geisenhu_osc num_R (lift_cosmo c) q = eisenhu_osc c q) /\
  forall T (GT : gcosmo R -> R -> R), (forall q, GT (lift_cosmo c) q = T c q) -> glinear_matter_power num_R (lift_cosmo c) k a GT = linear_matter_power c k a T.
Proof.
  intros B. split; [ intros; apply R_eisenhu | split; [ intros; apply R_eisenhu_osc | ]]. intros T GT E.
  destruct (built_fresh c B) as [_ F2]. pose proof (built_flag c B) as F3.
  unfold glinear_matter_power, linear_matter_power. cbv zeta. rewrite (R_sigmasqr c T GT) by exact E. rewrite E, R_D by assumption. reflexivity.
Qed.
(** the default growth factor is inside (0, 1) at all tabulated epochs *)
Lemma growth_interior c a : built c -> _gamma c = None -> physical c -> moderate c -> table_node 128 1 <= a < 1 -> 0 < D c a < 1.
Proof.
  intros B EG HP HMo Ha. assert (Rc : reachable c) by (apply fresh_reachable, built_fresh, B). assert (FG : _gamma_growth c = false) by (rewrite (built_flag c B), EG; reflexivity).
  destruct (ode_growth_properties c Rc FG HP HMo) as (NZ & MO & P & I). destruct (P 1%nat ltac:(lia)) as [P1 _]. split; [ pose proof (MO _ _ (proj1 Ha)); lra | ].
  assert (EV : forall q, D c q = D_of c q) by (intros q; apply D_value, inv_fresh; exact (built_fresh c B)).
  assert (D1 : D c 1 = 1) by (apply growth_normalised; assumption).
  assert (GN : forall i, (1 <= i < 128)%nat -> D c (table_node 128 i) = el (gtab_of c) i).
  { intros i Hi. rewrite EV. apply D_node; [ exact Hi | ].
    pose proof (ode_positive c (-3) 128 HP HMo ltac:(lra) ltac:(lia) default_step) as POS.
    unfold gtab_of. rewrite FG. destruct (ODE_table_el c (-3) 128 ltac:(lia)) as (_ & _ & _ & G & _). rewrite G by lia. change (128 - 1)%nat with 127%nat.
    destruct (POS i ltac:(lia)) as (Q1 & _). destruct (POS 127%nat ltac:(lia)) as (Q2 & _).
    split; [ left; now apply Rdiv_lt_0_compat | ]. apply (Rmult_le_reg_r (fst (nth 127 (ode_y c (-3) 128) (0, 0)))); [ exact Q2 | ].
    unfold Rdiv. rewrite Rmult_assoc, Rinv_l, Rmult_1_l, Rmult_1_r by lra.
    clear - POS Hi. assert (H : forall m, (i + m < 128)%nat -> fst (nth i (ode_y c (-3) 128) (0, 0)) <= fst (nth (i + m) (ode_y c (-3) 128) (0, 0))).
    { induction m as [ | m IH]; intros Hm; [ rewrite Nat.add_0_r; lra | ]. specialize (IH ltac:(lia)). destruct (POS (i + m)%nat ltac:(lia)) as (_ & _ & Lt).
      specialize (Lt ltac:(lia)). replace (i + S m)%nat with (i + m + 1)%nat by lia. lra. }
    specialize (H (127 - i)%nat ltac:(lia)). now replace (i + (127 - i))%nat with 127%nat in H by lia. }
  destruct (Rle_dec a (table_node 128 126)) as [L | L].
  - pose proof (MO _ _ L). specialize (I 126%nat ltac:(lia) ltac:(lia)). change (126 + 1)%nat with 127%nat in I. rewrite node_last, D1 in I. lra.
  - assert (HX : table_node 128 126 < a < 1) by lra. rewrite EV. unfold D_of.
    assert (LX : length atab128 = 128%nat) by apply length_logspace.
    rewrite interp1_above; rewrite ?LX; [ | lia | apply gtab_length | apply atab128_incr | change (128 - 2)%nat with 126%nat; rewrite logspace_el, anode_table by lia; lra ].
    change (128 - 2)%nat with 126%nat. unfold cell, line. change (126 + 1)%nat with 127%nat. rewrite !logspace_el, !anode_table by lia. rewrite node_last, gtab_last by exact NZ.
    rewrite <- (GN 126%nat) by lia. specialize (I 126%nat ltac:(lia) ltac:(lia)). change (126 + 1)%nat with 127%nat in I. rewrite node_last, D1 in I.
    set (u := D c (table_node 128 126)) in *. set (x := table_node 128 126) in *.
    assert (V : u + (1 - u) / (1 - x) * (a - x) < 1).
    { assert (E : u + (1 - u) / (1 - x) * (a - x) = 1 - (1 - u) * ((1 - a) / (1 - x))) by (field; lra). rewrite E.
      assert (0 < (1 - u) * ((1 - a) / (1 - x))) by (apply Rmult_lt_0_compat; [ lra | apply Rdiv_lt_0_compat; lra ]). lra. }
    set (v := u + (1 - u) / (1 - x) * (a - x)) in *. unfold clip. assert (Rmax v 0.0 < 1) by (apply Rmax_lub_lt; lra). rewrite Rmin_left; lra.
Qed.

Lemma ex_C121 : built Planck15 /\ expanding Planck15 /\ growing Planck15 /\ transfer_jvp eisenhu (geisenhu num_dual) Planck15 /\
  transfer_jvp eisenhu_osc (geisenhu_osc num_dual) Planck15 /\ sigmasqr_default Planck15 8.0 eisenhu <> 0 /\
  growth_smooth D Planck15 1 0 /\ growth_smooth D Planck15 0.5 0 /\ growth_smooth D Planck15 ((table_node 128 126 + 1) / 2) 1.
Proof.
  destruct planck_ok as (Rc & HP & HMo & HE & FG). destruct ex_planck_alpha as [PD PA].
  assert (L1 : table_node 128 1 <= 0.5).
  { rewrite <- anode_table. unfold anode. apply (Rle_trans _ (pow10 (-2))).
    - unfold pow10. apply Rlt_le, exp_increasing. assert (0 < ln 10) by (rewrite <- ln_1; apply ln_increasing; lra). apply Rmult_lt_compat_r; [ lra | ].
      replace (INR 1) with 1 by reflexivity. replace (INR (128 - 1)) with 127 by (rewrite INR_IZR_INZ; reflexivity). lra.
    - unfold pow10. replace (-2 * ln 10) with (- (ln 10 + ln 10)) by ring. rewrite exp_Ropp, exp_plus, exp_ln by lra. lra. }
  assert (Hx := node_lt 128 126 ltac:(lia) ltac:(lia)). assert (P0 : 0 < table_node 128 126) by (rewrite <- anode_table; apply anode_pos).
  assert (LE : forall i, (i <= 126)%nat -> table_node 128 i <= table_node 128 126).
  { intros i Hi. rewrite <- !anode_table, <- !logspace_el by lia. apply incr_le; [ apply logspace_incr; [ lra | lia ] | rewrite length_logspace; lia ]. }
  split; [ exact planck_built | split; [ exact HE | split; [ exact (conj HP HMo) | ]]].
  split; [ now apply eisenhu_jvp; [ exact planck_built | .. ] | ].
  split; [ apply eisenhu_osc_jvp; [ exact planck_built | exact PD | unfold Planck15, make_cosmology; cbn [_Omega_c]; lra ] | ].
  split; [ apply ex_power_planck | ]. split; [ right; split; reflexivity | ].
  split; [ left; split; [ lra | ]; split; [ apply growth_interior; [ exact planck_built | reflexivity | exact HP | exact HMo | lra ] | now left ] | ].
  left. split; [ lra | ]. split; [ apply growth_interior; [ exact planck_built | reflexivity | exact HP | exact HMo | ] | ].
  - specialize (LE 1%nat ltac:(lia)). lra.
  - right. intros i Hi E. specialize (LE i ltac:(lia)). lra.
Qed.
