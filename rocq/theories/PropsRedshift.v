(** * Property theorems C27, C28 (core.py) and C35, C71-C73 (redshift.py) *)
From Coquelicot Require Import Coquelicot.
From Verif Require Import Np Core BgSpec CoreProofs Integrate IntegrateSpec Redshift RedshiftSpec RedshiftProofs ExRedshift.

(** C27: [cosmo_jit] is tree_unflatten after tree_flatten *)
Theorem C27_roundtrip : forall c, _gamma_growth c = false -> exists d, cosmo_jit c = Ok d /\
  _Omega_c d = _Omega_c c /\ _Omega_b d = _Omega_b c /\ _h d = _h c /\ _n_s d = _n_s c /\ _sigma8 d = _sigma8 c /\
  _Omega_k d = _Omega_k c /\ _w0 d = _w0 c /\ _wa d = _wa c /\ _gamma d = None /\ _gamma_growth d = false /\ fresh d.
Proof. exact jit_without_gamma. Qed.
Print Assumptions C27_roundtrip.
Theorem C27_idempotent : forall c d, cosmo_jit c = Ok d -> cosmo_jit d = Ok d.
Proof. exact jit_twice. Qed.
Print Assumptions C27_idempotent.
Example C27_case : _gamma_growth Planck15 = false /\ cosmo_jit Planck15 = Ok Planck15.
Proof. exact (conj eq_refl eq_refl). Qed.

(** C28: false; the unflattening of a cosmology with gamma always raises *)
Theorem C28_gamma_refuted : exists Oc Ob h ns s8 Ok_ w0 wa g,
  let c := make_cosmology Oc Ob h ns s8 Ok_ w0 wa (Some g) in
  cosmo_jit c <> Ok c /\ cosmo_jit c = Err AttributeError.
Proof. exact jit_gamma_lost. Qed.
Print Assumptions C28_gamma_refuted.
Theorem C28_gamma_always_raises : forall c g, _gamma c = Some g -> _gamma_growth c = true -> cosmo_jit c = Err AttributeError.
Proof. exact jit_with_gamma. Qed.
Print Assumptions C28_gamma_always_raises.
Example C28_case : let c := make_cosmology 0.25 0.05 0.7 0.96 0.8 0 (-1) 0 (Some 0.55) in _gamma c = Some 0.55 /\ _gamma_growth c = true.
Proof. exact (conj eq_refl eq_refl). Qed.

(** C35 *)
Theorem C35_history : forall f g zm hist z,
  fst (nz_call (nz_after hist (nz_new f g zm)) z) = map (nz_density (nz_new f g zm)) z.
Proof. exact nz_history. Qed.
Print Assumptions C35_history.
Theorem C35_densities : forall g zm z,
  (forall a b z0, 0 < z -> 0 < z0 -> pz_fn (nz_new (Smail a b z0) g zm) z = Rpower z a * exp (- Rpower (z / z0) b)) /\
  (forall z0, pz_fn (nz_new (Delta z0) g zm) z = if Req_EM_T z z0 then 1 else 0) /\
  (forall zcat wt bw, 0 < bw -> length wt = length zcat -> pz_fn (nz_new (Kde zcat wt bw) g zm) z =
     Rsum (length zcat) (fun i => el wt i * gaussian (el zcat i) bw z) / Rsum (length zcat) (el wt)) /\
  (forall p b, pz_fn (nz_new (Shift p b) g zm) z = pz_fn p (Rmax (z - b) 0)).
Proof. exact densities. Qed.
Print Assumptions C35_densities.
Example C35_case : fst (nz_call (nz_after [[1]; [2; 3]] (nz_new ex_smail 20 2)) [1/2; 1]) =
  map (nz_density (nz_new ex_smail 20 2)) [1/2; 1].
Proof. exact (nz_history ex_smail 20 2 [[1]; [2; 3]] [1/2; 1]). Qed.

(** C71 *)
Theorem C71_normalised : forall d, nz_reachable d -> is_delta d = false -> simpson (pz_fn d) 0 (nz_zmax d) 256 <> 0 ->
  simps (pz d) 0 (nz_zmax d) 256 = Ok 1.
Proof. exact nz_normalised. Qed.
Print Assumptions C71_normalised.
Example C71_case : let d := nz_new ex_smail 20 2 in
  nz_reachable d /\ is_delta d = false /\ simpson (pz_fn d) 0 (nz_zmax d) 256 <> 0.
Proof. exact ex_smail_ok. Qed.

(** C72 *)
Theorem C72_positive : forall zcat wt bw g zm, 0 < bw -> length wt = length zcat -> zcat <> [] -> 0 < zm ->
  (forall i, (i < length wt)%nat -> 0 < el wt i) ->
  let d := nz_new (Kde zcat wt bw) g zm in
  (forall z, 0 < pz_fn d z) /\ (forall z, pz_fn d z <= / (bw * sqrt (2 * PI))) /\ (forall z, 0 < pz d z).
Proof. exact kde_positive. Qed.
Print Assumptions C72_positive.
Theorem C72_mean : forall zcat wt bw g zm z, 0 < bw -> length wt = length zcat ->
  pz_fn (nz_new (Kde zcat wt bw) g zm) z =
  Rsum (length zcat) (fun i => el wt i * gaussian (el zcat i) bw z) / Rsum (length zcat) (el wt).
Proof. exact kde_mean. Qed.
Print Assumptions C72_mean.
Theorem C72_scale : forall zcat wt bw g zm k z, 0 < bw -> length wt = length zcat -> k <> 0 -> Rsum (length zcat) (el wt) <> 0 ->
  pz_fn (nz_new (Kde zcat (vscale k wt) bw) g zm) z = pz_fn (nz_new (Kde zcat wt bw) g zm) z /\
  pz (nz_new (Kde zcat (vscale k wt) bw) g zm) z = pz (nz_new (Kde zcat wt bw) g zm) z.
Proof. exact kde_scale. Qed.
Print Assumptions C72_scale.
Example C72_case : 0 < 0.1 /\ length [1; 2; 1/2] = length [0.3; 0.7; 0.9] /\ (forall i, (i < length [1; 2; 1/2])%nat -> 0 < el [1; 2; 1/2] i) /\
  Rsum 3 (el [1; 2; 1/2]) <> 0.
Proof. exact ex_kde_ok. Qed.

(** C73 *)
Theorem C73_shift : forall p b g zm z, nz_reachable p -> is_delta p = false ->
  pz (nz_new (Shift p b) g zm) z = pz_fn p (Rmax (z - b) 0) / simpson (fun t => pz_fn p (Rmax (t - b) 0)) 0 zm 256 /\
  (0 <= zm -> nz_zmax p = zm -> b = 0 -> 0 <= z -> pz (nz_new (Shift p b) g zm) z = pz p z).
Proof. exact shift_translates. Qed.
Print Assumptions C73_shift.
Example C73_case : nz_reachable (nz_new ex_smail 20 2) /\ is_delta (nz_new ex_smail 20 2) = false /\ nz_zmax (nz_new ex_smail 20 2) = 2.
Proof. exact ex_shift_ok. Qed.
