(** * Property theorems C11-C14: jax_cosmo/likelihood.py *)
From Verif Require Import Np Sparse SparseSpec DetSpec Likelihood LikelihoodSpec LikelihoodProofs ExLikelihood.

(** C11 *)
Theorem C11_representation_independent : forall la, linalg_ok la ->
  forall a n s D data mu include_logdet method, wf3 a a n s -> (0 < a)%nat -> (0 < n)%nat ->
  denotes a a n s D -> trailing_invertible a n s -> wf1 (a * n) data -> wf1 (a * n) mu ->
  exists v, gaussian_log_likelihood la data mu (A3 a a n s) include_logdet method = Ok v /\
            gaussian_log_likelihood la data mu (A2 (a * n) (a * n) D) include_logdet "inverse" = Ok v.
Proof. exact sparse_eq_dense. Qed.
Print Assumptions C11_representation_independent.
Example C11_case : (exists la, linalg_ok la) /\ wf3 2 2 1 [[[2]; [1]]; [[1]; [3]]] /\
  trailing_invertible 2 1 [[[2]; [1]]; [[1]; [3]]] /\
  denotes 2 2 1 [[[2]; [1]]; [[1]; [3]]] [[2; 1]; [1; 3]] /\ wf1 (2 * 1) [5; 7].
Proof. exact ex_C11. Qed.

(** C12 *)
Theorem C12_cholesky_eq_inverse : forall la, linalg_ok la ->
  forall n C data mu include_logdet, wf2 n n C -> symmetric n C -> pos_def n C -> wf1 n data -> wf1 n mu ->
  exists v, gaussian_log_likelihood la data mu (A2 n n C) include_logdet "cholesky" = Ok v /\
            gaussian_log_likelihood la data mu (A2 n n C) include_logdet "inverse" = Ok v.
Proof. exact cholesky_eq_inverse. Qed.
Print Assumptions C12_cholesky_eq_inverse.
Theorem C12_unknown_method_rejected : forall la data mu n m C include_logdet method,
  method <> "inverse"%string -> method <> "cholesky"%string ->
  gaussian_log_likelihood la data mu (A2 n m C) include_logdet method = Err NotImplementedError.
Proof. exact unknown_method_dense. Qed.
Print Assumptions C12_unknown_method_rejected.
Theorem C12_method_ignored_sparse : forall la data mu a b n s include_logdet m1 m2,
  gaussian_log_likelihood la data mu (A3 a b n s) include_logdet m1 =
  gaussian_log_likelihood la data mu (A3 a b n s) include_logdet m2.
Proof. exact method_ignored_sparse. Qed.
Print Assumptions C12_method_ignored_sparse.
Example C12_case : (exists la, linalg_ok la) /\ wf2 2 2 [[2; 1]; [1; 3]] /\ symmetric 2 [[2; 1]; [1; 3]] /\
  pos_def 2 [[2; 1]; [1; 3]] /\ wf1 2 [5; 7] /\ "lu"%string <> "inverse"%string /\ "lu"%string <> "cholesky"%string.
Proof. exact ex_C12. Qed.

(** C13 *)
Theorem C13_value : forall la, linalg_ok la -> forall n C P data mu,
  wf2 n n C -> is_inverse n C P -> wf1 n data -> wf1 n mu ->
  gaussian_log_likelihood la data mu (A2 n n C) false "inverse" = Ok (- (1/2) * chi2 n P data mu).
Proof. exact no_logdet_value. Qed.
Print Assumptions C13_value.
Theorem C13_value_sparse : forall la, linalg_ok la -> forall a n s D P data mu method,
  wf3 a a n s -> (0 < a)%nat -> (0 < n)%nat -> denotes a a n s D -> trailing_invertible a n s ->
  is_inverse (a * n) D P -> wf1 (a * n) data -> wf1 (a * n) mu ->
  gaussian_log_likelihood la data mu (A3 a a n s) false method = Ok (- (1/2) * chi2 (a * n) P data mu).
Proof. exact no_logdet_value_sparse. Qed.
Print Assumptions C13_value_sparse.
Theorem C13_symmetric : forall la, linalg_ok la -> forall n C data mu include_logdet,
  wf2 n n C -> invertible n C -> wf1 n data -> wf1 n mu ->
  gaussian_log_likelihood la data mu (A2 n n C) include_logdet "inverse" =
  gaussian_log_likelihood la mu data (A2 n n C) include_logdet "inverse".
Proof. exact no_logdet_swap. Qed.
Print Assumptions C13_symmetric.
Theorem C13_maximum_at_mean : forall la, linalg_ok la -> forall n C data mu,
  wf2 n n C -> pos_def n C -> wf1 n data -> wf1 n mu ->
  exists v, gaussian_log_likelihood la data mu (A2 n n C) false "inverse" = Ok v /\ v <= 0 /\ (v = 0 <-> data = mu).
Proof. exact no_logdet_max. Qed.
Print Assumptions C13_maximum_at_mean.
Example C13_case : (exists la, linalg_ok la) /\ wf2 2 2 [[2; 1]; [1; 3]] /\ symmetric 2 [[2; 1]; [1; 3]] /\
  pos_def 2 [[2; 1]; [1; 3]] /\ wf1 2 [5; 7] /\ "lu"%string <> "inverse"%string /\ "lu"%string <> "cholesky"%string.
Proof. exact ex_C12. Qed.

(** C14: the log-determinant enters with the wrong sign (likelihood.py 61) *)
Theorem C14_log_density_refuted : forall la, linalg_ok la -> exists n C P data mu v,
  wf2 n n C /\ symmetric n C /\ pos_def n C /\ is_inverse n C P /\ wf1 n data /\ wf1 n mu /\
  gaussian_log_likelihood la data mu (A2 n n C) true "inverse" = Ok v /\ v <> log_density n C P data mu.
Proof. exact logdet_refuted. Qed.
Print Assumptions C14_log_density_refuted.
(** by how much: the result exceeds the log density by log det C, for every positive definite covariance *)
Theorem C14_error_is_logdet : forall la, linalg_ok la -> forall n C P data mu v,
  wf2 n n C -> pos_def n C -> is_inverse n C P -> wf1 n data -> wf1 n mu ->
  gaussian_log_likelihood la data mu (A2 n n C) true "inverse" = Ok v ->
  v - log_density n C P data mu = ln (det_of n C).
Proof. exact logdet_error. Qed.
Print Assumptions C14_error_is_logdet.
Theorem C14_actual_value : forall la, linalg_ok la -> forall n C P data mu,
  wf2 n n C -> pos_def n C -> is_inverse n C P -> wf1 n data -> wf1 n mu ->
  0 < det_of n C /\
  gaussian_log_likelihood la data mu (A2 n n C) true "inverse" = Ok (- (1/2) * (chi2 n P data mu - ln (det_of n C))).
Proof. exact logdet_value. Qed.
Print Assumptions C14_actual_value.
Example C14_case : wf2 1 1 [[2]] /\ pos_def 1 [[2]] /\ is_inverse 1 [[2]] [[/ 2]].
Proof. exact (conj (wf2_1 2) (conj (pos_def_1 2 Rlt_0_2) (is_inverse_1 2 (Rgt_not_eq _ _ Rlt_0_2)))). Qed.
