(** * C146: second derivatives *)
From Coq Require Import Reals List String.
From Coquelicot Require Import Coquelicot.
From Verif Require Import Np Core Sparse SparseSpec Likelihood LikelihoodSpec Interp Integrate Background BgSpec BgTables BgPositive BgFinal4 BgGrad Transfer Power Redshift Bias Probes ProbesSpec AngularCl CovSpec ExCov ExLikelihood GradSpec ContFinal
  Ad AdSpec AdPower AdHalofit AdHalofitSpec AdProbes AdArrSpec AdLike AdLikeSpec AdSurvey ExAdProbes ExAdHalofit AdJacSpec AdJac ExJac AdBack AdBackSpec AdOver AdOverSpec JetSpec JetFinal JetMain ExJet.
Import ListNotations.
Local Open Scope R_scope.
(** forward over reverse mode, and forward over forward mode *)
Local Notation NB := (num_back_over num_dual).
Local Notation NO := (num_over num_dual).
(** the epoch does not move, or is not a node of the table *)
Local Notation off_table n a := ((forall t, a t = a 0) \/ forall i, (2 <= i <= n - 2)%nat -> a 0 <> table_node n i).


(** C146  jax.jacfwd(jax.jacfwd(f)) holds the second derivatives of background, distances, growth, transfer functions, power spectra and angular spectra *)
Theorem C146_background : forall c d a ad,
  built c -> expanding c -> bends a ad -> 0 < a 0 -> let C := displaced c d in let g := twice_cosmo c d d in
  bends (fun t => H (C t) (a t)) (gH NO g ad) /\ bends (fun t => Omega_m_a (C t) (a t)) (gOmega_m_a NO g ad) /\
  bends (fun t => Omega_de_a (C t) (a t)) (gOmega_de_a NO g ad) /\ bends (fun t => w (C t) (a t)) (gw NO g ad) /\ bends (fun t => dchioverda (C t) (a t)) (gdchioverda NO g ad).
Proof. exact second_background. Qed.
Print Assumptions C146_background.
Theorem C146_distances : forall c d a ad,
  built c -> expanding c -> bends a ad -> 0 < a 0 < 1 -> off_table 256 a ->
  bends (fun t => chi (displaced c d t) (a t)) (gchi NO (twice_cosmo c d d) ad) /\
  (_Omega_k c <> 0 \/ _Omega_k c = 0 /\ dOmega_k d = 0 -> bends (fun t => f_k (displaced c d t) (a t)) (gf_k NO (twice_cosmo c d d) ad)).
Proof. exact second_distances. Qed.
Print Assumptions C146_distances.
Theorem C146_growth : forall c d a ad,
  built c -> expanding c -> growing c -> bends a ad -> 0 < a 0 -> off_table 128 a ->
  (0 < D c (a 0) < 1 -> bends (fun t => D (displaced c d t) (a t)) (gD NO (twice_cosmo c d d) ad)) /\
  bends (fun t => f_growth (displaced c d t) (a t)) (gf NO (twice_cosmo c d d) ad).
Proof. exact second_growth. Qed.
Print Assumptions C146_growth.
Theorem C146_power : forall c d osc a,
  built c -> expanding c -> _gamma c = None -> physical c -> moderate c -> transfer_smooth osc c -> sigmasqr_default c 8.0 (eh osc) <> 0 -> table_node 128 1 <= a <= 1 ->
  forall k kd, bends k kd -> 0 < k 0 ->
  bends (fun t => eh osc (displaced c d t) (k t)) (geh NO osc (twice_cosmo c d d) kd) /\
  bends (fun t => linear_matter_power (displaced c d t) (k t) a (eh osc)) (glinear_matter_power NO (twice_cosmo c d d) kd (cst NO a) (geh NO osc)) /\
  forall p, eh osc c (1 / 10000) <> 0 -> _sigma8 c <> 0 -> scale_found c a (eh osc) -> formula_smooth c (k 0) a (eh osc) p ->
    bends_res (fun t => halofit (displaced c d t) (k t) a (eh osc) p) (ghalofit NO (twice_cosmo c d d) kd (cst NO a) (geh NO osc) p).
Proof. exact second_power. Qed.
Print Assumptions C146_power.
Theorem C146_spectra : forall c nl osc probes ells d,
  built c -> expanding c -> _gamma c = None -> physical c -> moderate c -> transfer_smooth osc c -> sigmasqr_default c 8.0 (eh osc) <> 0 ->
  (nl = true -> eh osc c (1 / 10000) <> 0 /\ _sigma8 c <> 0 /\ forall b, limber_epoch probes b -> scale_found c b (eh osc) /\ forall k, formula_smooth c k b (eh osc) "takahashi2012") ->
  shallow (concat (map bins_of probes)) -> off_clip chi c probes -> (forall l, In l ells -> - 0.5 < l) ->
  bends_rows (fun t => angular_cl (displaced c d t) (Array1 ells) probes (eh osc) (model_nl nl)) (gangular_cl NO (twice_cosmo c d d) (Array1 ells) probes (gmodel NO nl osc)).
Proof. exact main_spectra. Qed.
Print Assumptions C146_spectra.

(** jax.hessian of the notebook's likelihood, at any data, is the second derivative of the likelihood with its covariance held fixed; it is symmetric, and its mixed entries are the mixed derivatives *)
Theorem C146_hessian : forall la c nl osc probes ells f_sky mu a n s data d,
  built c -> expanding c -> _gamma c = None -> physical c -> moderate c -> transfer_smooth osc c -> sigmasqr_default c 8.0 (eh osc) <> 0 ->
  (nl = true -> eh osc c (1 / 10000) <> 0 /\ _sigma8 c <> 0 /\ forall b, limber_epoch probes b -> scale_found c b (eh osc) /\ forall k, formula_smooth c k b (eh osc) "takahashi2012") ->
  shallow (concat (map bins_of probes)) -> off_clip chi c probes -> (forall l, In l ells -> - 0.5 < l) ->
  gaussian_cl_covariance_and_mean c (Array1 ells) probes (eh osc) (model_nl nl) f_sky true = Ok (mu, A3 a a n s) -> length data = length mu ->
  exists y f, gnotebook_likelihood NB la (hessian_cosmo c d) ells probes (gmodel NB nl osc) f_sky data = Ok y /\
    (forall t, frozen_likelihood la c (displaced c d t) ells probes (eh osc) (model_nl nl) f_sky data = Ok (f t)) /\
    fst (fst y) = f 0 /\ locally 0 (fun t => ex_derive f t) /\ is_derive f 0 (gradient_along y d) /\ is_derive (Derive f) 0 (hessian_along y d).
Proof. exact main_hessian. Qed.
Print Assumptions C146_hessian.
Theorem C146_mixed : forall la c nl osc probes ells f_sky mu a n s data d e,
  built c -> expanding c -> _gamma c = None -> physical c -> moderate c -> transfer_smooth osc c -> sigmasqr_default c 8.0 (eh osc) <> 0 ->
  (nl = true -> eh osc c (1 / 10000) <> 0 /\ _sigma8 c <> 0 /\ forall b, limber_epoch probes b -> scale_found c b (eh osc) /\ forall k, formula_smooth c k b (eh osc) "takahashi2012") ->
  shallow (concat (map bins_of probes)) -> off_clip chi c probes -> (forall l, In l ells -> - 0.5 < l) ->
  gaussian_cl_covariance_and_mean c (Array1 ells) probes (eh osc) (model_nl nl) f_sky true = Ok (mu, A3 a a n s) -> length data = length mu ->
  exists yd ye ys, gnotebook_likelihood NB la (hessian_cosmo c d) ells probes (gmodel NB nl osc) f_sky data = Ok yd /\
    gnotebook_likelihood NB la (hessian_cosmo c e) ells probes (gmodel NB nl osc) f_sky data = Ok ye /\ gnotebook_likelihood NB la (hessian_cosmo c (dsum d e)) ells probes (gmodel NB nl osc) f_sky data = Ok ys /\
    hessian_along yd e = hessian_along ye d /\ hessian_along ys (dsum d e) = hessian_along yd d + 2 * hessian_along yd e + hessian_along ye e.
Proof. exact main_mixed. Qed.
Print Assumptions C146_mixed.
Theorem C146_program : forall la c ells probes T nl f_sky data,
  frozen_likelihood la c c ells probes T nl f_sky data = notebook_likelihood la c ells probes T nl f_sky data.
Proof. exact frozen_here. Qed.
Print Assumptions C146_program.
Example C146_case_epochs : let a := (table_node 256 254 + 1) / 2 in let b := (table_node 128 126 + 1) / 2 in
  built Planck15 /\ expanding Planck15 /\ growing Planck15 /\
  bends (fun t => a + t * 1) ((a, 1), (1, 0)) /\ 0 < a + 0 * 1 < 1 /\ (forall i, (2 <= i <= 256 - 2)%nat -> a + 0 * 1 <> table_node 256 i) /\
  bends (fun t => b + t * 1) ((b, 1), (1, 0)) /\ 0 < b + 0 * 1 /\ (forall i, (2 <= i <= 128 - 2)%nat -> b + 0 * 1 <> table_node 128 i) /\ 0 < D Planck15 (b + 0 * 1) < 1.
Proof. exact ex_epochs. Qed.
Example C146_case : let c := planck_s faint in built c /\ expanding c /\ _gamma c = None /\ physical c /\ moderate c /\ transfer_smooth false c /\ sigmasqr_default c 8.0 (eh false) <> 0 /\
  (eh false c (1 / 10000) <> 0 /\ _sigma8 c <> 0 /\ forall b, limber_epoch ex_survey b -> scale_found c b (eh false) /\ forall k, formula_smooth c k b (eh false) "takahashi2012") /\
  shallow (concat (map bins_of ex_survey)) /\ off_clip chi c ex_survey /\ (forall l, In l ell3 -> - 0.5 < l) /\
  exists mu s, gaussian_cl_covariance_and_mean c (Array1 ell3) ex_survey (eh false) (model_nl true) 0.25 true = Ok (mu, A3 6 6 3 s).
Proof. exact ex_C146. Qed.
