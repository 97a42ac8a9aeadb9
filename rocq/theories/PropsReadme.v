(** * C130: the Fisher matrix of README.md *)
From Coq Require Import Reals List String.
From Coquelicot Require Import Coquelicot.
From Verif Require Import Np Core Sparse SparseSpec Likelihood LikelihoodSpec ExLikelihood Integrate IntegrateSpec Interp Background BgSpec Transfer Power Redshift Probes ProbesSpec AngularCl CovSpec AclSpec DependsSpec GradSpec FisherSpec ContFinal AdSpec AdLike ReadmeSpec Readme ExReadme.
Local Open Scope R_scope.


(** C130  minus the Hessian of the likelihood of README.md is not the Fisher matrix; the full statement, -h = normal_information n P dm dC, fails by the sum in the partial theorem (log-determinant of the wrong sign, and data equal to the mean instead of an average over data) *)
Theorem C130_amplitude_partial : forall la c p T ells f_sky N,
  linalg_ok la -> built c -> _gamma c = None -> _sigma8 c <> 0 -> (forall d, same_but_sigma8 c d -> forall k, T c k = T d k) -> sigmasqr_default c 8.0 T <> 0 ->
  probe_ok p -> length (bins_of p) = 1%nat -> (forall d, In d (bins_of p) -> 0 <= nz_zmax d) -> noise p = Ok [N] -> 0 < N ->
  (2 <= length ells)%nat -> (forall l, (l < length ells)%nat -> 0 < knox_norm ells f_sky l) -> let n := length ells in
  exists mean cov P dm dC,
    (forall t, gaussian_cl_covariance_and_mean (displaced c sigma8_only t) (Array1 ells) [p] T linear f_sky false = Ok (mean t, A2 n n (cov t))) /\
    is_inverse n (cov 0) P /\ (forall i, (i < n)%nat -> is_derive (fun t => el (mean t) i) 0 (dm i)) /\
    (forall i j, (i < n)%nat -> (j < n)%nat -> is_derive (fun t => el2 (cov t) i j) 0 (dC i j)) /\
    forall include_logdet, exists f f1 h,
      (forall t, survey_likelihood la (displaced c sigma8_only t) ells [p] T linear f_sky false (mean 0) include_logdet "inverse" = Ok (f t)) /\
      (forall t, is_derive f t (f1 t)) /\ is_derive f1 0 h /\
      let x l := el (mean 0) l / (el (mean 0) l + N) in
      (include_logdet = false -> - h = bilin n P dm dm) /\
      (include_logdet = true ->
         - h = normal_information n P dm dC - Rsum n (fun l => (4 * x l ^ 2 + 2 * x l) / _sigma8 c ^ 2) /\
         - h = Rsum n (fun l => (2 * knox_norm ells f_sky l * x l ^ 2 + 4 * x l ^ 2 - 2 * x l) / _sigma8 c ^ 2)).
Proof. exact c_readme. Qed.
Print Assumptions C130_amplitude_partial.
Theorem C130_fisher_refuted : forall la,
  linalg_ok la -> exists c p ells f_sky mean cov P dm dC f f1 h, let n := length ells in
  built c /\ probe_ok p /\
  (forall t, gaussian_cl_covariance_and_mean (displaced c sigma8_only t) (Array1 ells) [p] eisenhu linear f_sky false = Ok (mean t, A2 n n (cov t))) /\
  is_inverse n (cov 0) P /\ (forall i, (i < n)%nat -> is_derive (fun t => el (mean t) i) 0 (dm i)) /\
  (forall i j, (i < n)%nat -> (j < n)%nat -> is_derive (fun t => el2 (cov t) i j) 0 (dC i j)) /\
  (forall t, survey_likelihood la (displaced c sigma8_only t) ells [p] eisenhu linear f_sky false (mean 0) true "inverse" = Ok (f t)) /\
  (forall t, is_derive f t (f1 t)) /\ is_derive f1 0 h /\ - h < 0 < normal_information n P dm dC.
Proof. exact readme_refuted. Qed.
Print Assumptions C130_fisher_refuted.
Example C130_case : built c0 /\ _gamma c0 = None /\ _sigma8 c0 <> 0 /\ (forall d, same_but_sigma8 c0 d -> forall k, eisenhu c0 k = eisenhu d k) /\ sigmasqr_default c0 8.0 eisenhu <> 0 /\ probe_ok (counts few) /\ length (bins_of (counts few)) = 1%nat /\ (forall d, In d (bins_of (counts few)) -> 0 <= nz_zmax d) /\ noise (counts few) = Ok [shot] /\ 0 < shot /\ (2 <= length ell2)%nat /\ (forall l, (l < length ell2)%nat -> 0 < knox_norm ell2 0.25 l).
Proof. exact ex_C130. Qed.
Example C130_case_oracles : exists la, linalg_ok la.
Proof. exact (ex_intro _ la_mx la_mx_ok). Qed.
