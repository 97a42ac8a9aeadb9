(** * Second derivatives of spectra and likelihood: public statements *)
From Coquelicot Require Import Coquelicot.
From Coq Require Import String.
From Verif Require Import Np NpLemmas Core Sparse SparseSpec Likelihood LikelihoodSpec Interp Integrate Background BgSpec BgTables BgPositive BgFinal4 BgGrad Transfer Power Redshift Bias Probes ProbesSpec AngularCl GradSpec
  Ad AdSpec AdPower AdHalofit AdHalofitSpec AdProbes AdArrSpec AdLike AdLikeSpec AdSurvey AdJacSpec AdJac AdBack AdBackSpec AdOver AdOverSpec JetSpec JetFinal.
Import ListNotations.
Local Open Scope R_scope.
Local Notation NO := (num_over num_dual).
Local Notation NB := (num_back_over num_dual).

Lemma main_spectra c nl osc probes ells d :
  built c -> expanding c -> _gamma c = None -> physical c -> moderate c -> transfer_smooth osc c -> sigmasqr_default c 8.0 (eh osc) <> 0 ->
  (nl = true -> eh osc c (1 / 10000) <> 0 /\ _sigma8 c <> 0 /\ forall b, limber_epoch probes b -> scale_found c b (eh osc) /\ forall k, formula_smooth c k b (eh osc) "takahashi2012") ->
  shallow (concat (map bins_of probes)) -> off_clip chi c probes -> (forall l, In l ells -> - 0.5 < l) ->
  bends_rows (fun t => angular_cl (displaced c d t) (Array1 ells) probes (eh osc) (model_nl nl)) (gangular_cl NO (twice_cosmo c d d) (Array1 ells) probes (gmodel NO nl osc)).
Proof. intros. now apply second_spectra. Qed.
Lemma main_hessian la c nl osc probes ells f_sky mu a n s data d :
  built c -> expanding c -> _gamma c = None -> physical c -> moderate c -> transfer_smooth osc c -> sigmasqr_default c 8.0 (eh osc) <> 0 ->
  (nl = true -> eh osc c (1 / 10000) <> 0 /\ _sigma8 c <> 0 /\ forall b, limber_epoch probes b -> scale_found c b (eh osc) /\ forall k, formula_smooth c k b (eh osc) "takahashi2012") ->
  shallow (concat (map bins_of probes)) -> off_clip chi c probes -> (forall l, In l ells -> - 0.5 < l) ->
  gaussian_cl_covariance_and_mean c (Array1 ells) probes (eh osc) (model_nl nl) f_sky true = Ok (mu, A3 a a n s) -> length data = length mu ->
  exists y f, gnotebook_likelihood NB la (hessian_cosmo c d) ells probes (gmodel NB nl osc) f_sky data = Ok y /\
    (forall t, frozen_likelihood la c (displaced c d t) ells probes (eh osc) (model_nl nl) f_sky data = Ok (f t)) /\
    fst (fst y) = f 0 /\ locally 0 (fun t => ex_derive f t) /\ is_derive f 0 (gradient_along y d) /\ is_derive (Derive f) 0 (hessian_along y d).
Proof. intros. eapply second_likelihood; eassumption. Qed.
Lemma main_mixed la c nl osc probes ells f_sky mu a n s data d e :
  built c -> expanding c -> _gamma c = None -> physical c -> moderate c -> transfer_smooth osc c -> sigmasqr_default c 8.0 (eh osc) <> 0 ->
  (nl = true -> eh osc c (1 / 10000) <> 0 /\ _sigma8 c <> 0 /\ forall b, limber_epoch probes b -> scale_found c b (eh osc) /\ forall k, formula_smooth c k b (eh osc) "takahashi2012") ->
  shallow (concat (map bins_of probes)) -> off_clip chi c probes -> (forall l, In l ells -> - 0.5 < l) ->
  gaussian_cl_covariance_and_mean c (Array1 ells) probes (eh osc) (model_nl nl) f_sky true = Ok (mu, A3 a a n s) -> length data = length mu ->
  exists yd ye ys, gnotebook_likelihood NB la (hessian_cosmo c d) ells probes (gmodel NB nl osc) f_sky data = Ok yd /\
    gnotebook_likelihood NB la (hessian_cosmo c e) ells probes (gmodel NB nl osc) f_sky data = Ok ye /\ gnotebook_likelihood NB la (hessian_cosmo c (dsum d e)) ells probes (gmodel NB nl osc) f_sky data = Ok ys /\
    hessian_along yd e = hessian_along ye d /\ hessian_along ys (dsum d e) = hessian_along yd d + 2 * hessian_along yd e + hessian_along ye e.
Proof. intros. eapply second_mixed; eassumption. Qed.
