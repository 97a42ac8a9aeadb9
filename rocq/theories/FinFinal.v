(** * Gradients without infinities and NaN: public statements *)
From Coquelicot Require Import Coquelicot.
From Coq Require Import String.
From Verif Require Import SparseX HalofitX AdNan AdNanSpec AdNanProofs AdNanFinal FinRules FinOps FinBg FinGrowth FinTransfer FinPower FinHalofit FinNz FinSurvey FinGeneric.
From Verif Require Import Np NpLemmas Core Ode OdeSpec OdeProofs Interp InterpProofs InterpCont Integrate IntegrateSpec RombProofs Background BgSpec BgAlgebra BgTables
  BgGrowth BgPositive BgProofs BgFinal BgFinal2 BgFinal4 BgGrad Transfer TransferProofs TransferMono Power PowerProofs ExPower Redshift RedshiftProofs Bias Probes AngularCl GradSpec
  Ad AdSpec AdProofs AdBg AdFinal AdPower AdPowerFinal AdHalofit AdHalofitSpec AdProbes AdRel AdProbesProofs AdProbesFinal AdArrSpec AdNuis AdNuisProofs AdNuisSpec AdNuisNz AdNuisFinal FinSpec FinProbes.
Import ListNotations.
Local Open Scope R_scope.
Opaque chi_table growth_table_ODE growth_table_gamma logspace.

Lemma finite_background g a ad : finite_cosmo g -> expanding (cosmo_at 0 g) -> carries a ad -> 0 < a 0 ->
  carries (fun t => H (cosmo_at t g) (a t)) (gH num_x g ad) /\ carries (fun t => Omega_m_a (cosmo_at t g) (a t)) (gOmega_m_a num_x g ad) /\
  carries (fun t => Omega_de_a (cosmo_at t g) (a t)) (gOmega_de_a num_x g ad) /\ carries (fun t => w (cosmo_at t g) (a t)) (gw num_x g ad) /\
  carries (fun t => dchioverda (cosmo_at t g) (a t)) (gdchioverda num_x g ad).
Proof.
  intros HF HE Ta Pa. rewrite carries_fin in Ta. rewrite !carries_fin. exact (fl_all_background (FLN := floats_x) g a ad HF HE Ta Pa).
Qed.
Lemma finite_distances g a ad : finite_cosmo g -> expanding (cosmo_at 0 g) -> carries a ad -> 0 < a 0 < 1 -> off_table 256 a ->
  carries (fun t => chi (cosmo_at t g) (a t)) (gchi num_x g ad) /\
  (x_val (gOmega_k g) <> 0 \/ x_val (gOmega_k g) = 0 /\ x_tan (gOmega_k g) = 0 -> carries (fun t => f_k (cosmo_at t g) (a t)) (gf_k num_x g ad)).
Proof.
  intros HF HE Ta Pa HO. rewrite carries_fin in Ta. rewrite !carries_fin. exact (fl_all_distances (FLN := floats_x) g a ad HF HE Ta Pa HO).
Qed.
Lemma finite_growth g a ad : finite_cosmo g -> expanding (cosmo_at 0 g) -> growing (cosmo_at 0 g) -> carries a ad -> 0 < a 0 -> off_table 128 a ->
  (0 < D (cosmo_at 0 g) (a 0) < 1 -> carries (fun t => D (cosmo_at t g) (a t)) (gD num_x g ad)) /\
  carries (fun t => f_growth (cosmo_at t g) (a t)) (gf num_x g ad).
Proof.
  intros HF HE HG Ta Pa HO. rewrite carries_fin in Ta. rewrite !carries_fin. exact (fl_all_growth (FLN := floats_x) g a ad HF HE HG Ta Pa HO).
Qed.
Lemma finite_transfers g : finite_cosmo g -> dense (cosmo_at 0 g) ->
  (0 <= eh_alpha_gamma (cosmo_at 0 g) -> transfer_carried eisenhu (geisenhu num_x) g) /\
  (0 < _Omega_c (cosmo_at 0 g) -> transfer_carried eisenhu_osc (geisenhu_osc num_x) g).
Proof.
  intros HF HD. destruct (fl_all_transfers (FLN := floats_x) g HF HD) as [H1 H2]. split; intros HA k kd Tk Pk; rewrite carries_fin in *; [ exact (H1 HA k kd Tk Pk) | exact (H2 HA k kd Tk Pk) ].
Qed.
Lemma carried_transfer T GT g : transfer_carried T GT g -> ftransfer T GT (fun t => cosmo_at t g) g.
Proof. intros H k kd Tk Pk. apply carries_fin. apply H; [ now apply carries_fin | exact Pk ]. Qed.
Lemma finite_linear g T GT a : finite_cosmo g -> expanding (cosmo_at 0 g) -> _gamma (cosmo_at 0 g) = None -> physical (cosmo_at 0 g) -> moderate (cosmo_at 0 g) ->
  transfer_carried T GT g -> sigmasqr_default (cosmo_at 0 g) 8.0 T <> 0 -> table_node 128 1 <= a <= 1 ->
  spectrum_carried (fun c k a => linear_matter_power c k a T) (fun g k a => glinear_matter_power num_x g k a GT) g a.
Proof.
  intros HF HE NG HP HMo HT HN Ha k kd Tk Pk. rewrite carries_fin in *. exact (fl_all_linear (FLN := floats_x) g T GT a HF HE NG HP HMo (carried_transfer _ _ _ HT) HN Ha k kd Tk Pk).
Qed.
Lemma finite_halofit g T GT a p k kd : finite_cosmo g -> expanding (cosmo_at 0 g) -> _gamma (cosmo_at 0 g) = None -> physical (cosmo_at 0 g) -> moderate (cosmo_at 0 g) ->
  transfer_carried T GT g -> sigmasqr_default (cosmo_at 0 g) 8.0 T <> 0 -> T (cosmo_at 0 g) (1 / 10000) <> 0 -> _sigma8 (cosmo_at 0 g) <> 0 ->
  table_node 128 1 <= a <= 1 -> scale_found (cosmo_at 0 g) a T -> carries k kd -> 0 < k 0 -> formula_smooth (cosmo_at 0 g) (k 0) a T p ->
  number_carried (fun t => halofit (cosmo_at t g) (k t) a T p) (ghalofit num_x g kd (AdNanSpec.still a) GT p).
Proof.
  intros HF HE NG HP HMo HT HN HT0 H8 Ha HS Tk Pk HP'. rewrite carries_fin in Tk. apply number_of.
  exact (fl_all_halofit (FLN := floats_x) g T GT a p k kd HF HE NG HP HMo (carried_transfer _ _ _ HT) HN HT0 H8 Ha HS Tk Pk HP').
Qed.
Lemma finite_kernel g (p : gprobe xdual) z ell : let v := read_probe fst (plain_probe p) in
  finite_cosmo g -> finite_probe p -> expanding (cosmo_at 0 g) -> _gamma (cosmo_at 0 g) = None -> physical (cosmo_at 0 g) -> moderate (cosmo_at 0 g) ->
  (forall q, In q z -> tabulated q) -> shallow (bins_of v) -> (forall q a, In q z -> source_epoch (lensing_bins v) q a -> chi (cosmo_at 0 g) a <> 1) ->
  probe_smooth (lenses z) [v] (plain_probe p) ->
  rows_carried (fun t => kernel (read_probe (moving t) p) (cosmo_at t g) z ell) (hkernel num_x p g z ell).
Proof.
  intros v HF FP HE NG HP HMo HZ HS HC HN. apply carried_rows. exact (fl_all_kernel (FLN := floats_x) g p z ell HF FP HE NG HP HMo HZ HS HC HN).
Qed.
Lemma finite_spectra g (S : list (gprobe xdual)) ells T GT : let V := values (map plain_probe S) in
  finite_cosmo g -> (forall p, In p S -> finite_probe p) -> expanding (cosmo_at 0 g) -> _gamma (cosmo_at 0 g) = None -> physical (cosmo_at 0 g) -> moderate (cosmo_at 0 g) ->
  transfer_carried T GT g -> sigmasqr_default (cosmo_at 0 g) 8.0 T <> 0 ->
  shallow (concat (map bins_of V)) -> off_clip chi (cosmo_at 0 g) V -> survey_smooth (map plain_probe S) -> (forall l, In l ells -> - 0.5 < l) ->
  rows_carried (fun t => angular_cl (cosmo_at t g) (Array1 ells) (probes_at t S) T linear)
    (hangular_cl num_x g (Array1 ells) S (fun g k a => glinear_matter_power num_x g k a GT)).
Proof.
  intros V HF FP HE NG HP HMo HT HN HS HC HM HL. apply carried_rows. exact (fl_all_spectra (FLN := floats_x) g S ells T GT HF FP HE NG HP HMo (carried_transfer _ _ _ HT) HN HS HC HM HL).
Qed.
Lemma finite_default_spectra g (S : list (gprobe xdual)) ells T GT : let V := values (map plain_probe S) in
  finite_cosmo g -> (forall p, In p S -> finite_probe p) -> expanding (cosmo_at 0 g) -> _gamma (cosmo_at 0 g) = None -> physical (cosmo_at 0 g) -> moderate (cosmo_at 0 g) ->
  transfer_carried T GT g -> sigmasqr_default (cosmo_at 0 g) 8.0 T <> 0 -> T (cosmo_at 0 g) (1 / 10000) <> 0 -> _sigma8 (cosmo_at 0 g) <> 0 ->
  shallow (concat (map bins_of V)) -> off_clip chi (cosmo_at 0 g) V -> survey_smooth (map plain_probe S) -> (forall l, In l ells -> - 0.5 < l) ->
  (forall b, limber_epoch V b -> scale_found (cosmo_at 0 g) b T /\ forall k, formula_smooth (cosmo_at 0 g) k b T "takahashi2012") ->
  rows_carried (fun t => angular_cl (cosmo_at t g) (Array1 ells) (probes_at t S) T halofit_default) (hangular_cl num_x g (Array1 ells) S (ghalofit_default num_x GT)).
Proof.
  intros V HF FP HE NG HP HMo HT HN HT0 H8 HS HC HM HL HB. apply carried_rows.
  exact (fl_all_default_spectra (FLN := floats_x) g S ells T GT HF FP HE NG HP HMo (carried_transfer _ _ _ HT) HN HT0 H8 HS HC HM HL HB).
Qed.
