(** * The forecast likelihood: covariance and mean of angular_cl.py fed into likelihood.py *)
From Coquelicot Require Import Coquelicot.
From Verif Require Import Np NpLemmas Core Interp Background BgSpec Transfer Power Redshift Bias Probes ProbesSpec Sparse SparseSpec SparseProofs DetSpec DetProofs2 Likelihood LikelihoodSpec LikelihoodProofs ExLikelihood
  AngularCl CovSpec CovProofs CovPsd CovFinal AclSpec AclProofs AclFinal Forecast.
Opaque chi_table growth_table_ODE growth_table_gamma logspace.

Lemma forecast_likelihood la c ells probes T nl f_sky : linalg_ok la ->
  reachable c -> _gamma_growth c = false -> probes_ok probes -> noise_positive probes ->
  (forall p d, In p probes -> In d (bins_of p) -> 0 <= nz_zmax d) ->
  (forall l a, (l < length ells)%nat -> 1 / (1 + survey_zmax probes) <= a <= 1 -> 0 <= nl c ((el ells l + 1 / 2) / Rmax (chi c a) 1) a T) ->
  (2 <= length ells)%nat -> (forall l, (l < length ells)%nat -> 0 < knox_norm ells f_sky l) ->
  exists mean sp de,
    gaussian_cl_covariance_and_mean c (Array1 ells) probes T nl f_sky true = Ok (mean, sp) /\
    gaussian_cl_covariance_and_mean c (Array1 ells) probes T nl f_sky false = Ok (mean, de) /\
    forall data include_logdet method, length data = length mean -> exists v,
      gaussian_log_likelihood la data mean sp include_logdet method = Ok v /\
      gaussian_log_likelihood la data mean de include_logdet "inverse" = Ok v /\
      gaussian_log_likelihood la data mean de include_logdet "cholesky" = Ok v /\
      (include_logdet = false -> v <= 0 /\ (v = 0 <-> data = mean)).
Proof.
  intros HLA Hr Hg Hok HN HZ HP HL HK.
  assert (HT : noise_total probes) by (intros p Hp; destruct (HN p Hp) as (v & A & B & _); eauto).
  destruct (mean_and_covariance c ells probes T nl f_sky Hr Hg Hok HT HL ltac:(intros l Hl; pose proof (HK l Hl); lra)) as (sig & noi & mean & s3 & m2 & E1 & E2 & E3 & E4 & E5 & E6 & _ & _).
  destruct (covariance_end_to_end c ells probes T nl f_sky Hr Hg Hok HN HZ HP HL HK) as (mean' & d & m & F1 & F2 & F3 & F4).
  rewrite E4 in F1. injection F1 as <- Ed _ <-. subst d.
  destruct (mean_layout c ells probes T nl f_sky true Hr Hg Hok HT HL) as (sig' & noi' & mn & cov & G1 & G2 & CI & G3 & G4 & _).
  rewrite E1 in G1. injection G1 as <-. rewrite E2 in G2. injection G2 as <-. rewrite E3 in G3. injection G3 as <- <-.
  destruct (spectra_exist probes (madd sig noi)) as [S HS].
  destruct (covariance_main ells probes sig noi f_sky S CI HS) as (s3' & m2' & K1 & KW & K2 & K3 & _).
  rewrite G4 in K1. injection K1 as <-.
  destruct (mean_layout c ells probes T nl f_sky false Hr Hg Hok HT HL) as (sg & nn & mn & cov & L1 & L2 & _ & L3 & L4 & _).
  rewrite E1 in L1. injection L1 as <-. rewrite E2 in L2. injection L2 as <-. rewrite E4 in L3. injection L3 as _ <-. rewrite L4 in K2. injection K2 as <-.
  set (N := length (get_cl_ordering probes)) in *. set (n := length ells) in *.
  assert (N0 : (0 < N)%nat).
  { destruct Hok as [Hne Hall]. destruct probes as [ | p ps]; [ congruence | ]. destruct (Hall p ltac:(now left)) as [Hb _].
    assert (B : (0 < n_bins (p :: ps))%nat) by (unfold n_bins; simpl; rewrite app_length; destruct (bins_of p); [ congruence | simpl; lia ]).
    pose proof (proj2 (proj2 (proj2 (ordering_spec (p :: ps))))). fold N in H. nia. }
  assert (DN : denotes N N n s3 m2) by (subst m2; now apply dense_of_denotes).
  assert (W2 : wf2 (n * N) (n * N) m2) by (rewrite Nat.mul_comm; apply DN).
  exists mean, (A3 N N n s3), (A2 (n * N) (n * N) m2). split; [ exact E3 | split; [ exact E4 | ]].
  intros data ld method HD. rewrite E6 in HD.
  assert (TI : trailing_invertible N n s3) by (refine (pos_def_trailing _ _ DN _); [ exact KW | unfold n; lia | rewrite Nat.mul_comm; exact F4 ]).
  assert (WD : wf1 (N * n) data) by (unfold wf1; lia). assert (WM : wf1 (N * n) mean) by (unfold wf1; lia).
  destruct (sparse_eq_dense la HLA N n s3 m2 data mean ld method KW N0 ltac:(lia) DN TI WD WM) as (v & V1 & V2).
  rewrite (Nat.mul_comm N n) in V2, WD, WM.
  destruct (cholesky_eq_inverse la HLA (n * N) m2 data mean ld W2 F3 F4 WD WM) as (v' & V3 & V4).
  rewrite V2 in V4. injection V4 as <-. exists v. split; [ exact V1 | split; [ exact V2 | split; [ exact V3 | ]]].
  intros ->. destruct (no_logdet_max la HLA (n * N) m2 data mean W2 F4 WD WM) as (v' & V5 & V6). rewrite V2 in V5. injection V5 as <-. exact V6.
Qed.

(** ** larger covariance, smaller chi^2 *)
Lemma inverse_antitone n C C' P P' x : symmetric n C -> psd n C -> is_inverse n C P -> is_inverse n C' P' ->
  (forall y, quad n C y <= quad n C' y) -> quad n P' x <= quad n P x.
Proof.
  intros HS HP [_ [HI _]] [_ [HI' _]] HC.
  pose (y := fun i => Rsum n (fun j => el2 P' i j * x j)). pose (z := fun i => Rsum n (fun j => el2 P i j * x j)).
  assert (MV : forall D Q w, (forall i j, (i < n)%nat -> (j < n)%nat -> Rsum n (fun l => el2 D i l * el2 Q l j) = if Nat.eqb i j then 1 else 0) ->
     forall i, (i < n)%nat -> Rsum n (fun l => el2 D i l * Rsum n (fun j => el2 Q l j * w j)) = w i).
  { intros D Q w HDQ i Hi. rewrite (Rsum_ext _ _ (fun l => Rsum n (fun j => el2 D i l * el2 Q l j * w j))).
    2:{ intros l Hl. rewrite <- Rsum_scal. apply Rsum_ext; intros; ring. }
    rewrite Rsum_swap. rewrite (Rsum_ext _ _ (fun j => if Nat.eqb i j then w j else 0)).
    2:{ intros j Hj. rewrite Rsum_scal_r, HDQ by assumption. destruct (Nat.eqb i j); ring. }
    now rewrite Rsum_delta_r. }
  assert (QX : forall Q w, quad n Q w = Rsum n (fun i => w i * Rsum n (fun j => el2 Q i j * w j))).
  { intros Q w. unfold quad. apply Rsum_ext; intros i _. rewrite <- Rsum_scal. apply Rsum_ext; intros; ring. }
  assert (E1 : quad n P' x = Rsum n (fun i => x i * y i)) by apply QX.
  assert (E2 : quad n P x = Rsum n (fun i => x i * z i)) by apply QX.
  assert (E3 : quad n C' y = Rsum n (fun i => x i * y i)).
  { rewrite QX. apply Rsum_ext; intros i Hi. unfold y at 2. rewrite (MV C' P' x HI' i Hi). ring. }
  assert (CZ : forall i, (i < n)%nat -> Rsum n (fun j => el2 C i j * z j) = x i) by (intros i Hi; unfold z; now apply MV).
  assert (E4 : quad n C (fun i => y i - z i) = quad n C y - 2 * Rsum n (fun i => x i * y i) + Rsum n (fun i => x i * z i)).
  { transitivity (quad n C y - Rsum n (fun i => y i * Rsum n (fun j => el2 C i j * z j)) - Rsum n (fun i => y i * Rsum n (fun j => el2 C j i * z j)) + Rsum n (fun i => z i * Rsum n (fun j => el2 C i j * z j))).
    - assert (SW : Rsum n (fun i => y i * Rsum n (fun j => el2 C j i * z j)) = Rsum n (fun i => Rsum n (fun j => z i * el2 C i j * y j))).
      { rewrite Rsum_swap. apply Rsum_ext; intros i Hi. rewrite <- Rsum_scal. apply Rsum_ext; intros; ring. }
      rewrite SW. unfold quad. rewrite <- !Rsum_minus, <- Rsum_plus. apply Rsum_ext; intros i Hi.
      rewrite <- !Rsum_scal. rewrite <- !Rsum_minus, <- Rsum_plus. apply Rsum_ext; intros j Hj. ring.
    - rewrite (Rsum_ext n (fun i => y i * Rsum n (fun j => el2 C i j * z j)) (fun i => x i * y i)) by (intros i Hi; rewrite CZ by assumption; ring).
      rewrite (Rsum_ext n (fun i => y i * Rsum n (fun j => el2 C j i * z j)) (fun i => x i * y i)).
      2:{ intros i Hi. rewrite (Rsum_ext _ _ (fun j => el2 C i j * z j)) by (intros j Hj; rewrite (HS j i) by assumption; reflexivity). rewrite CZ by assumption. ring. }
      rewrite (Rsum_ext n (fun i => z i * Rsum n (fun j => el2 C i j * z j)) (fun i => x i * z i)) by (intros i Hi; rewrite CZ by assumption; ring).
      ring. }
  pose proof (HP (fun i => y i - z i)) as P0. rewrite E4 in P0. pose proof (HC y) as L. rewrite E3 in L. rewrite E1, E2. lra.
Qed.

(** for the same data and model vector, more noise never makes the data less likely *)
Lemma more_noise_likelihood la ell ps qs sig noi noi' f_sky S data mu : linalg_ok la ->
  n_bins qs = n_bins ps -> noise_total ps -> noise_total qs -> (forall i, (i < n_bins ps)%nat -> 0 < tracer_noise ps i <= tracer_noise qs i) ->
  (2 <= length ell)%nat -> wf2 (length (get_cl_ordering ps)) (length ell) sig -> spectra_of (get_cl_ordering ps) sig S ->
  (forall l, (l < length ell)%nat -> psdf (n_bins ps) (fun i j => S i j l)) ->
  (forall l, (l < length ell)%nat -> 0 < knox_norm ell f_sky l) ->
  noise_cl (length ell) ps = Ok noi -> noise_cl (length ell) qs = Ok noi' ->
  length data = (length ell * length (get_cl_ordering ps))%nat -> length mu = length data ->
  exists C C' v v', gaussian_cl_covariance (Array1 ell) ps sig noi f_sky false = Ok C /\ gaussian_cl_covariance (Array1 ell) qs sig noi' f_sky false = Ok C' /\
    gaussian_log_likelihood la data mu C false "inverse" = Ok v /\ gaussian_log_likelihood la data mu C' false "inverse" = Ok v' /\ v <= v'.
Proof.
  intros HLA HB HT HT' HN HL W HS0 HP HK E E' LD LM.
  destruct (more_noise ell ps qs sig noi noi' f_sky S HB HT HT' ltac:(intros i Hi; pose proof (HN i Hi); lra) HL W HS0 HP HK E E') as (d & m & m' & E1 & E2 & Q).
  assert (EO : get_cl_ordering qs = get_cl_ordering ps) by (unfold get_cl_ordering; now rewrite !total_tracers_bins, HB).
  assert (G : forall rs rn v, n_bins rs = n_bins ps -> noise_total rs -> noise_cl (length ell) rs = Ok rn -> (forall i, (i < n_bins ps)%nat -> 0 < tracer_noise rs i) ->
     gaussian_cl_covariance (Array1 ell) rs sig rn f_sky false = Ok (A2 d d v) -> d = (length ell * length (get_cl_ordering ps))%nat /\ wf2 d d v /\ symmetric d v /\ pos_def d v).
  { intros rs rn v HBr HTr Er HNr Ev.
    assert (EOr : get_cl_ordering rs = get_cl_ordering ps) by (unfold get_cl_ordering; now rewrite !total_tracers_bins, HBr).
    assert (Wr : wf2 (length (get_cl_ordering rs)) (length ell) sig) by (now rewrite EOr). assert (HSr : spectra_of (get_cl_ordering rs) sig S) by (now rewrite EOr).
    assert (CI : cov_input ell rs sig rn) by (split; [ exact HL | split; [ exact Wr | now apply noise_rows_wf ]]).
    destruct (spectra_exist rs (madd sig rn)) as [A HA].
    assert (SY : forall l, (l < length ell)%nat -> symf (n_bins rs) (fun i j => A i j l)) by (intros l _ a b Ha Hb; now apply (spectra_sym rs (madd sig rn) A)).
    assert (PD : forall l, (l < length ell)%nat -> pdf (n_bins rs) (fun i j => A i j l)).
    { intros l Hl x (i & Hi & Hx). rewrite (Gram.quadf_ext (n_bins rs) _ x (fun i j => S i j l + if Nat.eqb i j then tracer_noise rs i else 0) x).
      2:{ intros a b Ha Hb. exact (observed_split rs _ sig rn A S HTr Er Wr HA HSr a b l Ha Hb Hl). } 2:{ intros; reflexivity. }
      rewrite quadf_plus_diag. rewrite HBr in *. pose proof (HP l Hl x). assert (0 < Rsum (n_bins ps) (fun i => tracer_noise rs i * (x i * x i))); [ | lra ].
      apply Rsum_pos_ex.
      - intros u Hu. apply Rmult_le_pos; [ left; now apply HNr | nra ].
      - exists i. split; [ exact Hi | ]. apply Rmult_lt_0_compat; [ now apply HNr | ]. now apply Rsqr_pos_lt. }
    destruct (covariance_pd ell rs sig rn f_sky A CI HA HK SY PD) as (d' & v' & EM & PM). rewrite Ev in EM. injection EM as Ed1 _ Ev1. subst d' v'.
    destruct (covariance_symmetric ell rs sig rn f_sky CI ltac:(intros l Hl; pose proof (HK l Hl); lra)) as (s3 & m2 & _ & _ & EM2 & SM). rewrite Ev in EM2. injection EM2 as Ed _ Em. rewrite <- Em in SM. rewrite <- Ed in SM. rewrite EOr in Ed.
    destruct (covariance_knox ell rs sig rn f_sky A CI HA ltac:(intros l Hl; pose proof (HK l Hl); lra)) as (x3 & x2 & _ & _ & EX & WX & _). rewrite Ev in EX. injection EX as Ed' _ Ex. rewrite <- Ex, <- Ed' in WX. split; [ exact Ed | ]. auto. }
  destruct (G ps noi m eq_refl HT E ltac:(intros i Hi; pose proof (HN i Hi); lra) E1) as (Ed & W1 & S1 & P1).
  destruct (G qs noi' m' HB HT' E' ltac:(intros i Hi; pose proof (HN i Hi); lra) E2) as (_ & W2 & S2 & P2).
  destruct (pos_def_invertible P1) as [Pm Im]. destruct (pos_def_invertible P2) as [Pm' Im'].
  assert (WD : wf1 d data) by (unfold wf1; lia). assert (WM : wf1 d mu) by (unfold wf1; lia).
  exists (A2 d d m), (A2 d d m'), (- (1 / 2) * chi2 d Pm data mu), (- (1 / 2) * chi2 d Pm' data mu).
  split; [ exact E1 | split; [ exact E2 | split; [ now apply no_logdet_value | split; [ now apply no_logdet_value | ]]]].
  assert (chi2 d Pm' data mu <= chi2 d Pm data mu); [ | lra ]. unfold chi2. apply (inverse_antitone d m m' Pm Pm'); auto.
  intros y. destruct (Gram.vec_zero_dec d y) as [Hy | Hy]; [ left; now apply P1 | ].
  unfold quad. apply Req_le. symmetry. apply Rsum_0_ext. intros i Hi. apply Rsum_0_ext. intros j Hj. rewrite (Hy i Hi). ring.
Qed.
