(** * Property theorems C15-C23: spectra ordering, noise and covariance of jax_cosmo/angular_cl.py *)
From Verif Require Import Np Interp Redshift Bias Probes Sparse SparseSpec AngularCl CovSpec CovProofs CovPsd CovFinal ExCov.

(** C15 *)
Theorem C15_ordering : forall probes,
  (forall i j, In (i, j) (get_cl_ordering probes) <-> (i <= j /\ j < n_bins probes)%nat) /\
  NoDup (get_cl_ordering probes) /\ increasing lex_lt (get_cl_ordering probes) /\
  (2 * length (get_cl_ordering probes) = n_bins probes * (n_bins probes + 1))%nat.
Proof. exact ordering_spec. Qed.
Print Assumptions C15_ordering.
Example C15_case : get_cl_ordering probes3 = [(0,0); (0,1); (0,2); (1,1); (1,2); (2,2)]%nat.
Proof. exact ex_C15. Qed.

(** C16: block number s*N+t belongs to the row spectrum s = (i,j) and the column spectrum t = (m,k) *)
Theorem C16_blocks : forall probes, exists bl, get_cov_blocks_ordering probes = Ok bl /\
  let ord := get_cl_ordering probes in
  length bl = (length ord * length ord)%nat /\
  forall s t i j m k, nth_error ord s = Some (i, j) -> nth_error ord t = Some (m, k) ->
  exists x y z w, nth_error bl (s * length ord + t) = Some (x, y, z, w) /\
    names ord x i m /\ names ord y j k /\ names ord z i k /\ names ord w j m.
Proof. exact cov_blocks_spec. Qed.
Print Assumptions C16_blocks.
Example C16_case : exists bl, get_cov_blocks_ordering probes2 = Ok bl /\ nth_error bl (1 * 3 + 2) = Some (1, 2, 1, 2)%nat.
Proof. exact ex_C16. Qed.

(** C17 *)
Theorem C17_noise : forall probes n_ell, noise_total probes ->
  exists rows, noise_cl n_ell probes = Ok rows /\ length rows = length (get_cl_ordering probes) /\
  forall s i j, nth_error (get_cl_ordering probes) s = Some (i, j) ->
  exists p k v, tracer probes i = Some (p, k) /\ noise p = Ok v /\
    nth_error rows s = Some (repeat (if Nat.eqb i j then el v k else 0) n_ell).
Proof. exact noise_cl_spec. Qed.
Print Assumptions C17_noise.
Example C17_case : noise_total probes3 /\ tracer probes3 2 = Some (nc_ex, 0%nat) /\ tracer probes3 1 = Some (wl_ex, 1%nat).
Proof. exact ex_C17. Qed.

(** C18: both representations, entry by entry *)
Theorem C18_knox : forall ell probes sig noi f_sky S, cov_input ell probes sig noi ->
  spectra_of (get_cl_ordering probes) (madd sig noi) S ->
  (forall l, (l < length ell)%nat -> knox_norm ell f_sky l <> 0) ->
  let ord := get_cl_ordering probes in let N := length ord in let n := length ell in
  exists s3 m2,
    gaussian_cl_covariance (Array1 ell) probes sig noi f_sky true = Ok (A3 N N n s3) /\ wf3 N N n s3 /\
    gaussian_cl_covariance (Array1 ell) probes sig noi f_sky false = Ok (A2 (n * N) (n * N) m2) /\
    wf2 (n * N) (n * N) m2 /\
    forall s t i j m k l l', nth_error ord s = Some (i, j) -> nth_error ord t = Some (m, k) ->
      (l < n)%nat -> (l' < n)%nat ->
      el3 s3 s t l = knox S ell f_sky i j m k l /\
      el2 m2 (s * n + l) (t * n + l') = if Nat.eqb l l' then knox S ell f_sky i j m k l else 0.
Proof. exact covariance_knox. Qed.
Print Assumptions C18_knox.
Example C18_case : cov_input ell3 probes2 sig3 noi3 /\
  spectra_of (get_cl_ordering probes2) (madd sig3 noi3) S3 /\
  (forall l, (l < length ell3)%nat -> knox_norm ell3 0.25 l <> 0) /\
  knox S3 ell3 0.25 0 1 1 1 0 = 7 * 1 * 2 / (21 * 10 * 0.25).
Proof. exact ex_C18. Qed.

(** C19 (hypotheses met by C18_case) *)
Theorem C19_sparse_is_dense : forall ell probes sig noi f_sky, cov_input ell probes sig noi ->
  (forall l, (l < length ell)%nat -> knox_norm ell f_sky l <> 0) ->
  exists s d, gaussian_cl_covariance (Array1 ell) probes sig noi f_sky true = Ok s /\
              gaussian_cl_covariance (Array1 ell) probes sig noi f_sky false = Ok d /\
              to_dense s = Ok d.
Proof. exact covariance_sparse_dense. Qed.
Print Assumptions C19_sparse_is_dense.
Example C19_case : cov_input ell3 probes2 sig3 noi3 /\ forall l, (l < length ell3)%nat -> knox_norm ell3 0.25 l <> 0.
Proof. exact (conj (proj1 ex_C18) (proj1 (proj2 (proj2 ex_C18)))). Qed.

(** C20 (hypotheses met by C18_case) *)
Theorem C20_symmetric : forall ell probes sig noi f_sky, cov_input ell probes sig noi ->
  (forall l, (l < length ell)%nat -> knox_norm ell f_sky l <> 0) ->
  let N := length (get_cl_ordering probes) in let n := length ell in
  exists s3 m2,
    gaussian_cl_covariance (Array1 ell) probes sig noi f_sky true = Ok (A3 N N n s3) /\
    (forall s t l, (s < N)%nat -> (t < N)%nat -> (l < n)%nat -> el3 s3 s t l = el3 s3 t s l) /\
    gaussian_cl_covariance (Array1 ell) probes sig noi f_sky false = Ok (A2 (n * N) (n * N) m2) /\
    symmetric (n * N) m2.
Proof. exact covariance_symmetric. Qed.
Print Assumptions C20_symmetric.
Example C20_case : cov_input ell3 probes2 sig3 noi3 /\ forall l, (l < length ell3)%nat -> knox_norm ell3 0.25 l <> 0.
Proof. exact (conj (proj1 ex_C18) (proj1 (proj2 (proj2 ex_C18)))). Qed.

(** C21 *)
Theorem C21_psd : forall ell probes sig noi f_sky S, cov_input ell probes sig noi ->
  spectra_of (get_cl_ordering probes) (madd sig noi) S ->
  (forall l, (l < length ell)%nat -> 0 < knox_norm ell f_sky l) ->
  (forall l, (l < length ell)%nat -> symf (n_bins probes) (fun i j => S i j l)) ->
  (forall l, (l < length ell)%nat -> psdf (n_bins probes) (fun i j => S i j l)) ->
  exists d m, gaussian_cl_covariance (Array1 ell) probes sig noi f_sky false = Ok (A2 d d m) /\ psd d m.
Proof. exact covariance_psd. Qed.
Print Assumptions C21_psd.
Theorem C21_pd : forall ell probes sig noi f_sky S, cov_input ell probes sig noi ->
  spectra_of (get_cl_ordering probes) (madd sig noi) S ->
  (forall l, (l < length ell)%nat -> 0 < knox_norm ell f_sky l) ->
  (forall l, (l < length ell)%nat -> symf (n_bins probes) (fun i j => S i j l)) ->
  (forall l, (l < length ell)%nat -> pdf (n_bins probes) (fun i j => S i j l)) ->
  exists d m, gaussian_cl_covariance (Array1 ell) probes sig noi f_sky false = Ok (A2 d d m) /\ pos_def d m.
Proof. exact covariance_pd. Qed.
Print Assumptions C21_pd.
Example C21_case : cov_input ell3 probes2 sig3 noi3 /\ spectra_of (get_cl_ordering probes2) (madd sig3 noi3) S3 /\
  (forall l, (l < length ell3)%nat -> 0 < knox_norm ell3 0.25 l) /\
  (forall l, (l < length ell3)%nat -> pdf (n_bins probes2) (fun i j => S3 i j l)).
Proof. exact ex_C21. Qed.

(** C22 is false: np.gradient needs two samples.  Full statement: every length-one multipole input returns a
    covariance; in fact none does. *)
Theorem C22_single_multipole_refuted : exists ell probes sig noi f_sky sparse,
  wf2 (length (get_cl_ordering probes)) (length (atleast_1d ell)) sig /\
  wf2 (length (get_cl_ordering probes)) (length (atleast_1d ell)) noi /\ length (atleast_1d ell) = 1%nat /\
  0 < f_sky /\ ~ exists cov, gaussian_cl_covariance ell probes sig noi f_sky sparse = Ok cov.
Proof. exact C22_witness. Qed.
Print Assumptions C22_single_multipole_refuted.
Theorem C22_always_rejected : forall ell l probes sig noi f_sky sparse, ell = Scalar l \/ ell = Array1 [l] ->
  gaussian_cl_covariance ell probes sig noi f_sky sparse = Err ValueError.
Proof. exact covariance_one_multipole. Qed.
Print Assumptions C22_always_rejected.
Example C22_case : forall sparse, gaussian_cl_covariance (Array1 [100]) probes2 [[3]; [1]; [2]] [[1]; [0]; [1]] 0.25 sparse = Err ValueError.
Proof. exact (fun sparse => covariance_one_multipole (Array1 [100]) 100 probes2 _ _ 0.25 sparse (or_intror eq_refl)). Qed.

(** C23 (hypotheses met by C18_case) *)
Theorem C23_f_sky : forall ell probes sig noi f_sky t, cov_input ell probes sig noi -> t <> 0 ->
  (forall l, (l < length ell)%nat -> knox_norm ell f_sky l <> 0) ->
  let N := length (get_cl_ordering probes) in let n := length ell in
  exists s3 s3',
    gaussian_cl_covariance (Array1 ell) probes sig noi f_sky true = Ok (A3 N N n s3) /\
    gaussian_cl_covariance (Array1 ell) probes sig noi (t * f_sky) true = Ok (A3 N N n s3') /\
    forall s u l, (s < N)%nat -> (u < N)%nat -> (l < n)%nat -> el3 s3' s u l = el3 s3 s u l / t.
Proof. exact covariance_fsky. Qed.
Print Assumptions C23_f_sky.
Example C23_case : cov_input ell3 probes2 sig3 noi3 /\ forall l, (l < length ell3)%nat -> knox_norm ell3 0.25 l <> 0.
Proof. exact (conj (proj1 ex_C18) (proj1 (proj2 (proj2 ex_C18)))). Qed.
