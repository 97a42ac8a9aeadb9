(** * Property theorems C99-C105: changes of the data vector, precision matrices, shapes of redshift distributions, power spectra on arrays *)
From Verif Require Import Np NpLemmas Core Interp Integrate Background BgSpec Transfer Power PowerArr PowerArrSpec PowerArrProofs Redshift RedshiftSpec RedshiftShape
  Sparse SparseSpec DetSpec MxBridge Likelihood LikelihoodSpec ExLikelihood LawsSpec LikelihoodLaws SparsePrec ExLaws.


(** C99  linear changes of variables and reorderings of the data vector *)
Theorem C99_linear_change : forall la, linalg_ok la ->
  forall n A C C' data data' mu mu' il,
  wf2 n n C -> invertible n C -> invertible n A -> is_congruence n A C C' ->
  wf1 n data -> wf1 n mu -> is_matvec n n A data data' -> is_matvec n n A mu mu' ->
  exists v, gaussian_log_likelihood la data mu (A2 n n C) il "inverse" = Ok v /\
    gaussian_log_likelihood la data' mu' (A2 n n C') il "inverse" = Ok (if il then v + ln (Rabs (det_of n A)) else v).
Proof. exact linear_change. Qed.
Print Assumptions C99_linear_change.
Theorem C99_reorder : forall la, linalg_ok la ->
  forall n p C C' data data' mu mu' il,
  permutes n p -> wf2 n n C -> invertible n C -> reordered2 n p C C' ->
  wf1 n data -> wf1 n mu -> reordered1 n p data data' -> reordered1 n p mu mu' ->
  exists v, gaussian_log_likelihood la data mu (A2 n n C) il "inverse" = Ok v /\ gaussian_log_likelihood la data' mu' (A2 n n C') il "inverse" = Ok v.
Proof. exact reorder. Qed.
Print Assumptions C99_reorder.
Example C99_case : linalg_ok la_mx /\ wf2 2 2 [[2; 1]; [1; 3]] /\ invertible 2 [[2; 1]; [1; 3]] /\ invertible 2 [[1; 1]; [0; 2]] /\
  is_congruence 2 [[1; 1]; [0; 2]] [[2; 1]; [1; 3]] [[7; 8]; [8; 12]] /\ is_matvec 2 2 [[1; 1]; [0; 2]] [5; 7] [12; 14] /\ is_matvec 2 2 [[1; 1]; [0; 2]] [1; 0] [1; 0] /\
  permutes 2 (fun i => 1 - i)%nat /\ reordered2 2 (fun i => 1 - i)%nat [[2; 1]; [1; 3]] [[3; 1]; [1; 2]] /\ reordered1 2 (fun i => 1 - i)%nat [5; 7] [7; 5].
Proof. exact ex_C99. Qed.


(** C100  the log likelihood of a sparse covariance is the sum over the multipoles *)
Theorem C100_multipoles : forall la, linalg_ok la ->
  forall a n s data mu il method,
  wf3 a a n s -> (0 < a)%nat -> (0 < n)%nat -> trailing_invertible a n s ->
  wf1 (a * n) data -> wf1 (a * n) mu ->
  exists v, gaussian_log_likelihood la data mu (A3 a a n s) il method = Ok (Rsum n v) /\
    forall k m dk mk, (k < n)%nat -> is_slice a a k s m -> at_multipole a n k data dk -> at_multipole a n k mu mk ->
      gaussian_log_likelihood la dk mk (A2 a a m) il "inverse" = Ok (v k).
Proof. exact multipoles_add. Qed.
Print Assumptions C100_multipoles.
Example C100_case : linalg_ok la_mx /\ wf3 2 2 2 cov2 /\ trailing_invertible 2 2 cov2 /\ wf1 (2 * 2) [1; 2; 3; 4] /\ wf1 (2 * 2) [0; 1; 0; 1] /\
  is_slice 2 2 1 cov2 [[1; 0]; [0; 5]] /\ at_multipole 2 2 1 [1; 2; 3; 4] [2; 4] /\ at_multipole 2 2 1 [0; 1; 0; 1] [1; 1].
Proof. exact ex_C100. Qed.


(** C101  the precision matrix *)
Theorem C101_precision : forall linv a n s D,
  linv_ok linv -> wf3 a a n s -> (0 < a)%nat -> (0 < n)%nat -> denotes a a n s D ->
  symmetric (a * n) D -> pos_def (a * n) D ->
  exists t DT ld, inv linv (A3 a a n s) = Ok (A3 a a n t) /\ to_dense (A3 a a n t) = Ok (A2 (a * n) (a * n) DT) /\
    symmetric (a * n) DT /\ pos_def (a * n) DT /\
    slogdet linv (A3 a a n s) = Ok (1, ld) /\ slogdet linv (A3 a a n t) = Ok (1, - ld).
Proof. exact precision. Qed.
Print Assumptions C101_precision.
Example C101_case : linv_ok linv_mx /\ wf3 2 2 2 cov2 /\ denotes 2 2 2 cov2 cov2_dense /\ symmetric (2 * 2) cov2_dense /\ pos_def (2 * 2) cov2_dense.
Proof. exact ex_C101. Qed.


(** C102  shape of the Smail distribution *)
Theorem C102_density : forall a b z0 g zm,
  0 < a -> 0 < b -> 0 < z0 -> 0 < zm ->
  let d := nz_new (Smail a b z0) g zm in
  (forall z, 0 <= z -> 0 <= pz d z) /\ (forall z, 0 < z -> 0 < pz d z) /\ simps (pz d) 0 zm 256 = Ok 1.
Proof. exact smail_density. Qed.
Print Assumptions C102_density.
Theorem C102_peak : forall a b z0 g zm,
  0 < a -> 0 < b -> 0 < z0 -> 0 < zm ->
  forall z, 0 <= z -> z <> z0 * Rpower (a / b) (/ b) ->
  pz (nz_new (Smail a b z0) g zm) z < pz (nz_new (Smail a b z0) g zm) (z0 * Rpower (a / b) (/ b)).
Proof. exact smail_peaks. Qed.
Print Assumptions C102_peak.
Theorem C102_shifted_peak : forall a b z0 g zm b' g' zm' z,
  0 < a -> 0 < b -> 0 < z0 -> 0 < zm' -> b' < zm' ->
  z <> z0 * Rpower (a / b) (/ b) + b' ->
  pz (nz_new (Shift (nz_new (Smail a b z0) g zm) b') g' zm') z <
  pz (nz_new (Shift (nz_new (Smail a b z0) g zm) b') g' zm') (z0 * Rpower (a / b) (/ b) + b').
Proof. exact shifted_peak. Qed.
Print Assumptions C102_shifted_peak.
Example C102_case : let d := nz_new (Smail 2 2 (1 / 2)) 20 4 in simps (pz d) 0 4 256 = Ok 1 /\ 0 < pz d (1 / 2) /\ pz d 1 < pz d (1 / 2) /\
  let e := nz_new (Shift d (1 / 10)) 20 4 in pz e (1 / 2) < pz e (1 / 2 + 1 / 10).
Proof. exact ex_C102. Qed.


(** C103  full statement: for all biases b1 and b2 shifting by b1 and then by b2 is shifting by b1 + b2.  False: the clip at *)

(** redshift zero of the inner shift discards the part of the distribution moved below zero.  True for an inner bias >= 0. *)
Theorem C103_shift_compose_partial : forall p b1 b2 g1 zm1 g zm z,
  0 <= b1 ->
  pz (nz_new (Shift (nz_new (Shift p b1) g1 zm1) b2) g zm) z = pz (nz_new (Shift p (b1 + b2)) g zm) z.
Proof. exact shift_compose. Qed.
Print Assumptions C103_shift_compose_partial.
Theorem C103_shift_refuted : exists p b1 b2 g1 zm1 g zm z, nz_reachable p /\ is_delta p = false /\ 0 < zm /\ 0 <= z /\
  pz (nz_new (Shift (nz_new (Shift p b1) g1 zm1) b2) g zm) z <> pz (nz_new (Shift p (b1 + b2)) g zm) z.
Proof. exact shift_not_compose. Qed.
Print Assumptions C103_shift_refuted.
Example C103_case : let d := nz_new (Smail 2 2 (1 / 2)) 20 4 in forall z,
  pz (nz_new (Shift (nz_new (Shift d (1 / 20)) 20 4) (1 / 10)) 20 4) z = pz (nz_new (Shift d (1 / 20 + 1 / 10)) 20 4) z.
Proof. exact ex_C103. Qed.


(** C104  full statement: a shifted source plane is a normalised distribution.  False: systematic_shift does not inherit the *)

(** special case of delta_nz, and the quadrature nodes miss the plane, so the normalisation is zero. *)
Theorem C104_normalisation_refuted : exists z0 b g zm, 0 < z0 /\ 0 < z0 + b < zm /\
  simps (pz_fn (nz_new (Shift (nz_new (Delta z0) g zm) b) g zm)) 0 zm 256 = Ok 0.
Proof. exact shifted_delta_example. Qed.
Print Assumptions C104_normalisation_refuted.
Theorem C104_lost_partial : forall z0 b g0 zm0 g zm,
  0 < z0 -> 0 < zm -> (forall i, (i <= 256)%nat -> z0 + b <> INR i * (zm / 256)) ->
  simps (pz_fn (nz_new (Shift (nz_new (Delta z0) g0 zm0) b) g zm)) 0 zm 256 = Ok 0.
Proof. exact shifted_delta. Qed.
Print Assumptions C104_lost_partial.
Example C104_case : 0 < 1 /\ 0 < 10 /\ forall i, (i <= 256)%nat -> 1 + 1 / 10 <> INR i * (10 / 256).
Proof. exact (conj Rlt_0_1 (conj (IZR_lt 0 10 eq_refl) shifted_delta_nodes)). Qed.


(** C105  arrays of wavenumbers and scale factors *)
Theorem C105_linear : forall c T, reachable c ->
  forall k a n,
  broadcasts k a n ->
  linear_matter_power_nd c k a T = Ok (values n (fun i => linear_matter_power c (elem k i) (elem a i) T)).
Proof. exact linear_arr. Qed.
Print Assumptions C105_linear.
Theorem C105_halofit : forall c T, reachable c ->
  forall k a n p,
  broadcasts k a n -> known p ->
  exists v, (forall i, (i < n)%nat -> halofit c (elem k i) (elem a i) T p = Ok (v i)) /\ halofit_nd c k a T p = Ok (values n v).
Proof. exact halofit_arr. Qed.
Print Assumptions C105_halofit.
Theorem C105_linear_mismatch : forall c T, reachable c ->
  forall l m,
  length l <> length m -> length l <> 1%nat -> length m <> 1%nat ->
  linear_matter_power_nd c (Array1 l) (Array1 m) T = Err TypeError.
Proof. exact linear_mismatch. Qed.
Print Assumptions C105_linear_mismatch.
Theorem C105_halofit_mismatch : forall c T, reachable c ->
  forall l m p,
  length l <> length m -> length l <> 1%nat -> length m <> 1%nat ->
  halofit_nd c (Array1 l) (Array1 m) T p = Err TypeError.
Proof. exact halofit_mismatch. Qed.
Print Assumptions C105_halofit_mismatch.
Theorem C105_unknown_prescription : forall c T, reachable c ->
  forall k a n p,
  broadcasts k a n -> p <> "smith2003"%string -> p <> "takahashi2012"%string ->
  halofit_nd c k a T p = Err NotImplementedError.
Proof. exact halofit_unknown. Qed.
Print Assumptions C105_unknown_prescription.
Example C105_case : reachable Planck15 /\ broadcasts (Array1 [0.1; 1; 10]) (Scalar 0.5) 3 /\ broadcasts (Scalar 0.1) (Array1 [0.5; 1]) 2 /\ broadcasts (Scalar 0.1) (Scalar 1) 1 /\
  halofit_nd Planck15 (Array1 [0.1; 1]) (Scalar 0.5) eisenhu "takahashi2012" = Ok (Array1 [halofit_default Planck15 0.1 0.5 eisenhu; halofit_default Planck15 1 0.5 eisenhu]) /\
  linear_matter_power_nd Planck15 (Scalar 0.1) (Array1 [1]) eisenhu = Ok (Scalar (linear_matter_power Planck15 0.1 1 eisenhu)).
Proof. exact ex_C105. Qed.
