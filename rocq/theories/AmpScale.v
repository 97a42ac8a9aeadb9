(** * How angular spectra scale with the amplitudes that enter them *)
From Coquelicot Require Import Coquelicot.
From Verif Require Import Np NpLemmas Core Integrate IntegrateSpec SimpsProofs RombProofs Interp Background BgSpec DependsSpec BgDepends Transfer Power Redshift RedshiftSpec Bias Probes ProbesSpec
  AngularCl CovSpec CovProofs AclSpec AclProofs Forecast.
Opaque chi_table growth_table_ODE growth_table_gamma logspace.

(** rows of angular_cl as [spectrum] *)
Lemma rows_spectrum c ells probes T nl rows s i j l : reachable c -> _gamma_growth c = false -> probes_ok probes ->
  angular_cl c (Array1 ells) probes T nl = Ok rows -> nth_error (get_cl_ordering probes) s = Some (i, j) -> (l < length ells)%nat ->
  el2 rows s l = spectrum c T nl probes i j (el ells l).
Proof.
  intros Hr Hg Hok E Hs Hl. destruct (angular_pairs c ells probes T nl Hr Hg Hok) as (rows' & E' & _ & V). rewrite E in E'. injection E' as <-.
  destruct (V s i j l Hs Hl) as (p & k & q & m & Ep & Eq & ->). unfold spectrum, survey_kernel. now rewrite Ep, Eq.
Qed.

(** ** the power spectrum enters linearly *)
Lemma power_scaling c ells probes T nl nl' s rows rows' : reachable c -> _gamma_growth c = false -> probes_ok probes ->
  (forall k a, nl' c k a T = s * nl c k a T) ->
  angular_cl c (Array1 ells) probes T nl = Ok rows -> angular_cl c (Array1 ells) probes T nl' = Ok rows' ->
  forall r l, (r < length (get_cl_ordering probes))%nat -> (l < length ells)%nat -> el2 rows' r l = s * el2 rows r l.
Proof.
  intros Hr Hg Hok HN E E' r l Hrr Hl. destruct (nth_error (get_cl_ordering probes) r) as [[i j] | ] eqn:Hs; [ | apply nth_error_None in Hs; lia ].
  rewrite (rows_spectrum _ _ _ _ _ _ _ _ _ _ Hr Hg Hok E Hs Hl), (rows_spectrum _ _ _ _ _ _ _ _ _ _ Hr Hg Hok E' Hs Hl).
  unfold spectrum, limber, Rdiv. rewrite <- Rmult_assoc. f_equal. rewrite <- simpson_scal. apply simpson_ext. intros q _.
  unfold limber_weight. rewrite HN. unfold Rdiv. ring.
Qed.

(** ** the kernels enter bilinearly *)
Lemma kernel_scaling c ells ps qs T nl rows rows' (f : nat -> R) : reachable c -> _gamma_growth c = false -> probes_ok ps -> probes_ok qs ->
  n_bins qs = n_bins ps -> survey_zmax qs = survey_zmax ps ->
  (forall i ell z, (i < n_bins ps)%nat -> survey_kernel qs i c ell z = f i * survey_kernel ps i c ell z) ->
  angular_cl c (Array1 ells) ps T nl = Ok rows -> angular_cl c (Array1 ells) qs T nl = Ok rows' ->
  forall r i j l, nth_error (get_cl_ordering ps) r = Some (i, j) -> (l < length ells)%nat -> el2 rows' r l = f i * f j * el2 rows r l.
Proof.
  intros Hr Hg Hok Hok' HB HZ HK E E' r i j l Hs Hl. assert (EO : get_cl_ordering qs = get_cl_ordering ps) by (unfold get_cl_ordering; now rewrite !total_tracers_bins, HB).
  pose proof Hs as Hs'. rewrite <- EO in Hs'. rewrite (rows_spectrum _ _ _ _ _ _ _ _ _ _ Hr Hg Hok E Hs Hl), (rows_spectrum _ _ _ _ _ _ _ _ _ _ Hr Hg Hok' E' Hs' Hl).
  destruct (ordering_bound ps i j (nth_error_In _ _ Hs)) as [Hi Hj].
  unfold spectrum, limber. rewrite HZ. unfold Rdiv. rewrite <- (Rmult_assoc (f i * f j)). f_equal. rewrite <- simpson_scal. apply simpson_ext. intros q _.
  rewrite !HK by assumption. ring.
Qed.

(** position of the bins of one probe in a list of probes *)
Definition bin_factor (ps : list probe) (n : nat) (s : R) (i : nat) : R :=
  if (Nat.leb (n_bins ps) i && Nat.ltb i (n_bins ps + n))%bool then s else 1.

Lemma swap_zmax ps p p' qs : bins_of p' = bins_of p -> survey_zmax (ps ++ p' :: qs) = survey_zmax (ps ++ p :: qs).
Proof. intros E. unfold survey_zmax. rewrite !map_app. simpl. now rewrite E. Qed.
Lemma swap_bins ps p p' qs : bins_of p' = bins_of p -> n_bins (ps ++ p' :: qs) = n_bins (ps ++ p :: qs).
Proof. intros E. rewrite !n_bins_app. f_equal. unfold n_bins. simpl. now rewrite !app_length, E. Qed.
Lemma swap_kernel ps p p' qs s c : bins_of p' = bins_of p ->
  (forall k ell z, (k < length (bins_of p))%nat -> tracer_kernel p' k c ell z = s * tracer_kernel p k c ell z) ->
  forall i ell z, survey_kernel (ps ++ p' :: qs) i c ell z = bin_factor ps (length (bins_of p)) s i * survey_kernel (ps ++ p :: qs) i c ell z.
Proof.
  intros EB HK. induction ps as [ | q ps IH]; intros i ell z.
  - unfold survey_kernel, bin_factor. simpl app. unfold n_bins. simpl. rewrite EB. destruct (Nat.ltb_spec i (length (bins_of p))); simpl; [ now apply HK | ].
    rewrite Rmult_1_l. reflexivity.
  - unfold survey_kernel in *. simpl. destruct (Nat.ltb_spec i (length (bins_of q))) as [Hi | Hi].
    + unfold bin_factor. replace (Nat.leb (n_bins (q :: ps)) i) with false; [ simpl; ring | ]. symmetry. apply Nat.leb_gt. unfold n_bins. simpl. rewrite app_length. lia.
    + rewrite IH. f_equal. unfold bin_factor, n_bins. simpl. rewrite app_length.
      set (a := length (bins_of q)) in *. set (b := length (concat (map bins_of ps))).
      destruct (Nat.leb_spec b (i - a)), (Nat.leb_spec (a + b) i); try lia; simpl; try reflexivity.
      destruct (Nat.ltb_spec (i - a) (b + length (bins_of p))), (Nat.ltb_spec i (a + b + length (bins_of p))); try lia; reflexivity.
Qed.

(** constant galaxy bias *)
Lemma bias_scaling c ells ps qs bins b s T nl rows rows' : reachable c -> _gamma_growth c = false ->
  probes_ok (ps ++ PNC (NC bins (OneBias (constant_linear_bias b))) :: qs) ->
  angular_cl c (Array1 ells) (ps ++ PNC (NC bins (OneBias (constant_linear_bias b))) :: qs) T nl = Ok rows ->
  angular_cl c (Array1 ells) (ps ++ PNC (NC bins (OneBias (constant_linear_bias (s * b)))) :: qs) T nl = Ok rows' ->
  forall r i j l, nth_error (get_cl_ordering (ps ++ PNC (NC bins (OneBias (constant_linear_bias b))) :: qs)) r = Some (i, j) -> (l < length ells)%nat ->
    el2 rows' r l = bin_factor ps (length bins) s i * bin_factor ps (length bins) s j * el2 rows r l.
Proof.
  intros Hr Hg Hok E E'. set (p := PNC (NC bins (OneBias (constant_linear_bias b)))) in *. set (p' := PNC (NC bins (OneBias (constant_linear_bias (s * b))))) in *.
  assert (EB : bins_of p' = bins_of p) by reflexivity.
  assert (Hok' : probes_ok (ps ++ p' :: qs)).
  { destruct Hok as [_ H]. split; [ destruct ps; discriminate | ]. intros q Hq. apply in_app_or in Hq. destruct Hq as [Hq | [<- | Hq]].
    - apply H, in_or_app. now left.
    - assert (HP : In p (ps ++ p :: qs)) by (apply in_or_app; right; now left). exact (H p HP).
    - apply H, in_or_app. right. now right. }
  apply (kernel_scaling c ells (ps ++ p :: qs) (ps ++ p' :: qs) T nl rows rows' (bin_factor ps (length bins) s) Hr Hg Hok Hok' (swap_bins ps p p' qs EB) (swap_zmax ps p p' qs EB)); [ | exact E | exact E' ].
  intros i ell z _. apply (swap_kernel ps p p' qs s c EB). intros k e y _. unfold tracer_kernel, clustering, p', p. simpl. ring.
Qed.

(** multiplicative shear calibration, one value for all bins *)
Lemma shear_scaling c ells ps qs bins m m' ia se s T nl rows rows' : reachable c -> _gamma_growth c = false -> 1 + m' = s * (1 + m) ->
  probes_ok (ps ++ PWL (WL bins (MScalar m) ia se) :: qs) ->
  angular_cl c (Array1 ells) (ps ++ PWL (WL bins (MScalar m) ia se) :: qs) T nl = Ok rows ->
  angular_cl c (Array1 ells) (ps ++ PWL (WL bins (MScalar m') ia se) :: qs) T nl = Ok rows' ->
  forall r i j l, nth_error (get_cl_ordering (ps ++ PWL (WL bins (MScalar m) ia se) :: qs)) r = Some (i, j) -> (l < length ells)%nat ->
    el2 rows' r l = bin_factor ps (length bins) s i * bin_factor ps (length bins) s j * el2 rows r l.
Proof.
  intros Hr Hg HM Hok E E'. set (p := PWL (WL bins (MScalar m) ia se)) in *. set (p' := PWL (WL bins (MScalar m') ia se)) in *.
  assert (EB : bins_of p' = bins_of p) by reflexivity.
  assert (Hok' : probes_ok (ps ++ p' :: qs)).
  { destruct Hok as [_ H]. split; [ destruct ps; discriminate | ]. intros q Hq. apply in_app_or in Hq. destruct Hq as [Hq | [<- | Hq]].
    - apply H, in_or_app. now left.
    - assert (HP : In p (ps ++ p :: qs)) by (apply in_or_app; right; now left). exact (H p HP).
    - apply H, in_or_app. right. now right. }
  apply (kernel_scaling c ells (ps ++ p :: qs) (ps ++ p' :: qs) T nl rows rows' (bin_factor ps (length bins) s) Hr Hg Hok Hok' (swap_bins ps p p' qs EB) (swap_zmax ps p p' qs EB)); [ | exact E | exact E' ].
  intros i ell z _. apply (swap_kernel ps p p' qs s c EB). intros k e y _. unfold tracer_kernel, p', p. simpl. rewrite HM. ring.
Qed.

(** ** sigma8 *)
Lemma sigma8_background c d : same_but_sigma8 c d -> same_background c d.
Proof. intros (A & B & _ & _ & K & W & Wa & G & F). repeat split; congruence. Qed.
Lemma sigma8_linear c d T k a : reachable c -> reachable d -> same_but_sigma8 c d -> (forall k, T c k = T d k) ->
  linear_matter_power d k a T * _sigma8 c ^ 2 = linear_matter_power c k a T * _sigma8 d ^ 2.
Proof.
  intros Hc Hd HS HT. unfold linear_matter_power. rewrite <- (same_D c d a Hc Hd (sigma8_background c d HS)), <- HT.
  destruct HS as (_ & _ & _ & N & _).
  replace (sigmasqr_default d 8.0 T) with (sigmasqr_default c 8.0 T).
  2:{ unfold sigmasqr_default, sigmasqr. f_equal. replace (int_sigma d 8.0 T) with (int_sigma c 8.0 T); [ reflexivity | ].
      apply FunctionalExtensionality.functional_extensionality. intros x. unfold int_sigma, primordial_matter_power. now rewrite HT, N. }
  unfold primordial_matter_power. rewrite N. generalize (sigmasqr_default c 8.0 T). intros u. unfold Rdiv. ring.
Qed.
Lemma same_kernel c d p k ell z : reachable c -> reachable d -> same_background c d -> tracer_kernel p k c ell z = tracer_kernel p k d ell z.
Proof.
  intros Hc Hd HS.
  assert (CH : forall z, dist c z = dist d z) by (intros; unfold dist; now apply same_chi).
  assert (BI : forall b z, bias_at b c z = bias_at b d z) by (intros [ | | ] y; simpl; try reflexivity; now rewrite (same_D c d _ Hc Hd HS)).
  assert (CL : forall b dd z, clustering c dd b z = clustering d dd b z) by (intros; unfold clustering; now rewrite BI, (same_H c d _ HS)).
  destruct p as [q | q]; simpl.
  - f_equal. f_equal.
    + unfold lensing. rewrite (same_Omega_m c d HS), CH. f_equal. f_equal. unfold efficiency, distance_ratio.
      destruct (nz_fam (nth_nz (wl_bins q) k)); try (now rewrite !CH); apply simpson_ext; intros; now rewrite !CH.
    + destruct (wl_ia q) as [b | ]; [ | reflexivity ]. unfold alignment. now rewrite (same_Omega_m c d HS), (same_D c d _ Hc Hd HS), CL.
  - apply CL.
Qed.
Lemma sigma8_scaling c d ells probes T rows rows' : reachable c -> reachable d -> same_but_sigma8 c d -> (forall k, T c k = T d k) ->
  _gamma_growth c = false -> probes_ok probes ->
  angular_cl c (Array1 ells) probes T linear = Ok rows -> angular_cl d (Array1 ells) probes T linear = Ok rows' ->
  forall r l, (r < length (get_cl_ordering probes))%nat -> (l < length ells)%nat -> el2 rows' r l * _sigma8 c ^ 2 = el2 rows r l * _sigma8 d ^ 2.
Proof.
  intros Hc Hd HS HT Hg Hok E E' r l Hr Hl. pose proof (sigma8_background c d HS) as HB.
  assert (Hg' : _gamma_growth d = false) by (destruct HB as (_ & _ & _ & _ & _ & G); congruence).
  destruct (nth_error (get_cl_ordering probes) r) as [[i j] | ] eqn:Hs; [ | apply nth_error_None in Hs; lia ].
  rewrite (rows_spectrum _ _ _ _ _ _ _ _ _ _ Hc Hg Hok E Hs Hl), (rows_spectrum _ _ _ _ _ _ _ _ _ _ Hd Hg' Hok E' Hs Hl).
  unfold spectrum, limber. unfold Rdiv. rewrite !(Rmult_assoc (simpson _ _ _ _)), (Rmult_comm (/ _)), (Rmult_comm (/ _) (_sigma8 d ^ 2)), <- !Rmult_assoc. f_equal.
  rewrite !(Rmult_comm (simpson _ _ _ _)), <- !simpson_scal. apply simpson_ext. intros q _. set (a := node _ _ _ _).
  assert (SK : forall i z, survey_kernel probes i d (el ells l) z = survey_kernel probes i c (el ells l) z).
  { intros u z. unfold survey_kernel. destruct (tracer probes u) as [[p k] | ]; [ symmetry; now apply same_kernel | reflexivity ]. }
  rewrite !SK. unfold limber_weight. rewrite <- (same_chi c d a Hc Hd HB), <- (same_Esqr c d a HB). unfold linear.
  pose proof (sigma8_linear c d T ((el ells l + 1 / 2) / Rmax (chi c a) 1) a Hc Hd HS HT) as L.
  match goal with |- _ * (?x * ?e / ?f * ?g * ?h) = _ * (?y * _ / _ * _ * _) => transitivity (x * _sigma8 c ^ 2 * (e / f * g * h)); [ unfold Rdiv; ring | ]; rewrite L; unfold Rdiv; ring end.
Qed.

(** the transfer functions do not depend on sigma8 *)
Lemma eisenhu_depends c d k : _Omega_c c = _Omega_c d -> _Omega_b c = _Omega_b d -> _h c = _h d -> eisenhu c k = eisenhu d k.
Proof. destruct c, d; simpl; intros -> -> ->. reflexivity. Qed.
Lemma eisenhu_osc_depends c d k : _Omega_c c = _Omega_c d -> _Omega_b c = _Omega_b d -> _h c = _h d -> eisenhu_osc c k = eisenhu_osc d k.
Proof. destruct c, d; simpl; intros -> -> ->. reflexivity. Qed.
