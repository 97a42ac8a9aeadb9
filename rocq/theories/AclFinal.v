(** * Final forms for angular_cl, and the end-to-end covariance *)
From Coq Require Import Permutation.
From Coquelicot Require Import Coquelicot.
From Verif Require Import Np NpLemmas Core Integrate IntegrateSpec SimpsProofs Interp Background BgSpec BgTables BgPositive BgGrowth BgProofs BgFinal BgFinal2
  BgFinal4 Transfer Power PowerSpec PowerProofs TransferProofs PowerFinal Redshift RedshiftSpec RedshiftProofs Bias Probes ProbesSpec ProbesProofs ProbesFinal Sparse SparseSpec AngularCl CovSpec CovProofs CovPsd CovFinal
  AclSpec AclProofs.
Opaque chi_table growth_table_ODE growth_table_gamma logspace.

Lemma rows_spectra c ells probes T nl rows S : reachable c -> _gamma_growth c = false -> probes_ok probes ->
  angular_cl c (Array1 ells) probes T nl = Ok rows -> spectra_of (get_cl_ordering probes) rows S ->
  forall i j l, (i < n_bins probes)%nat -> (j < n_bins probes)%nat -> (l < length ells)%nat ->
  S i j l = spectrum c T nl probes i j (el ells l).
Proof.
  intros Hr Hg Hok E HS i j l Hi Hj Hl. rewrite angular_rows in E by assumption. injection E as <-.
  assert (G : forall a b, (a <= b)%nat -> (b < n_bins probes)%nat -> S a b l = spectrum c T nl probes a b (el ells l) /\ S b a l = spectrum c T nl probes a b (el ells l)).
  { intros a b Hab Hb. destruct (In_nth_error _ _ (proj2 (proj1 (ordering_spec probes) a b) (conj Hab Hb))) as [s Hs].
    destruct (HS s a b l Hs) as [-> ->]. unfold el2.
    assert (Ls : (s < length (get_cl_ordering probes))%nat) by (apply nth_error_Some; congruence).
    rewrite nth_map_lt with (d := (0, 0)%nat) by exact Ls. rewrite (nth_of_nth_error _ _ _ (0, 0)%nat Hs). simpl fst; simpl snd.
    rewrite nth_map_lt with (d := 0) by exact Hl. split; reflexivity. }
  destruct (Nat.le_ge_cases i j) as [H | H]; [ now apply G | ].
  rewrite (proj2 (G j i H Hi)). unfold spectrum. apply limber_sym.
Qed.
Lemma survey_zmax_ok probes : probes_ok probes -> (forall p d, In p probes -> In d (bins_of p) -> 0 <= nz_zmax d) -> 0 <= survey_zmax probes.
Proof.
  intros [H1 H2] HZ. unfold survey_zmax. destruct (list_max_spec (map (fun p => zmax_of (bins_of p)) probes)) as [A _]; [ destruct probes; [ congruence | discriminate ] | ].
  apply in_map_iff in A. destruct A as (p & <- & Hp). unfold zmax_of.
  destruct (list_max_spec (map nz_zmax (bins_of p))) as [B _]; [ destruct (H2 p Hp) as [X _]; destruct (bins_of p); [ congruence | discriminate ] | ].
  apply in_map_iff in B. destruct B as (d & <- & Hd). now apply (HZ p).
Qed.
Lemma angular_psd c ells probes T nl rows S : reachable c -> _gamma_growth c = false -> probes_ok probes ->
  (forall p d, In p probes -> In d (bins_of p) -> 0 <= nz_zmax d) ->
  (forall l a, (l < length ells)%nat -> 1 / (1 + survey_zmax probes) <= a <= 1 -> 0 <= nl c ((el ells l + 1 / 2) / Rmax (chi c a) 1) a T) ->
  angular_cl c (Array1 ells) probes T nl = Ok rows -> spectra_of (get_cl_ordering probes) rows S ->
  forall l, (l < length ells)%nat ->
  psdf (n_bins probes) (fun i j => S i j l) /\
  forall i j, (i < n_bins probes)%nat -> (j < n_bins probes)%nat -> 0 <= S i i l /\ S i j l ^ 2 <= S i i l * S j j l.
Proof.
  intros Hr Hg Hok HZ HP E HS l Hl. pose proof (rows_spectra c ells probes T nl rows S Hr Hg Hok E HS) as V.
  assert (P : psdf (n_bins probes) (fun i j => S i j l)).
  { intros x. pose proof (survey_zmax_ok probes Hok HZ) as Z. pose proof (spectra_psd c T nl probes (el ells l) (n_bins probes) ltac:(lra) Z (fun a Ha => HP l a Hl Ha) x) as Q.
    eapply Rle_trans; [ exact Q | ]. right. unfold quadf. apply Rsum_ext. intros i Hi. apply Rsum_ext. intros j Hj. now rewrite V. }
  split; [ exact P | ]. intros i j Hi Hj. apply (psd_cauchy (n_bins probes) (fun i j => S i j l)); try assumption.
  intros a b Ha Hb. now apply (spectra_sym probes rows S).
Qed.
(** the default non-linear model satisfies the positivity hypothesis *)
Lemma halofit_default_nonneg c T ell a : sigmasqr_default c 8.0 T <> 0 -> 0 <= ell -> 0 <= halofit_default c ((ell + 1 / 2) / Rmax (chi c a) 1) a T.
Proof.
  intros HS He. unfold halofit_default. destruct (takahashi_pos c ((ell + 1 / 2) / Rmax (chi c a) 1) a T) as (p & -> & Hp).
  - apply Rdiv_lt_0_compat; [ lra | ]. eapply Rlt_le_trans; [ | apply Rmax_r ]. lra.
  - now apply linear_nonneg.
  - lra.
Qed.
Lemma angular_psd_default c ells probes T rows S : reachable c -> _gamma_growth c = false -> probes_ok probes ->
  (forall p d, In p probes -> In d (bins_of p) -> 0 <= nz_zmax d) -> sigmasqr_default c 8.0 T <> 0 -> (forall l, (l < length ells)%nat -> 0 <= el ells l) ->
  angular_cl c (Array1 ells) probes T halofit_default = Ok rows -> spectra_of (get_cl_ordering probes) rows S ->
  forall l, (l < length ells)%nat ->
  psdf (n_bins probes) (fun i j => S i j l) /\
  forall i j, (i < n_bins probes)%nat -> (j < n_bins probes)%nat -> 0 <= S i i l /\ S i j l ^ 2 <= S i i l * S j j l.
Proof.
  intros Hr Hg Hok HZ HS HL. apply angular_psd; try assumption. intros l a Hl _. apply halofit_default_nonneg; [ assumption | now apply HL ].
Qed.

(** ** C26 *)
Lemma noise_rows_wf probes n_ell rows : noise_total probes -> noise_cl n_ell probes = Ok rows -> wf2 (length (get_cl_ordering probes)) n_ell rows.
Proof.
  intros HT E. unfold noise_cl in E. destruct (mapM noise probes); [ | discriminate ]. cbn [bind] in E. injection E as <-.
  split; [ apply map_length | ]. intros row Hrow. apply in_map_iff in Hrow. destruct Hrow as ([i j] & <- & _). apply repeat_length.
Qed.
Lemma mean_layout c ells probes T nl f_sky sparse : reachable c -> _gamma_growth c = false -> probes_ok probes -> noise_total probes ->
  (2 <= length ells)%nat ->
  let ord := get_cl_ordering probes in let n := length ells in
  exists sig noi mean cov,
    angular_cl c (Array1 ells) probes T nl = Ok sig /\ noise_cl n probes = Ok noi /\ cov_input ells probes sig noi /\
    gaussian_cl_covariance_and_mean c (Array1 ells) probes T nl f_sky sparse = Ok (mean, cov) /\
    gaussian_cl_covariance (Array1 ells) probes sig noi f_sky sparse = Ok cov /\
    length mean = (length ord * n)%nat /\
    forall s l, (s < length ord)%nat -> (l < n)%nat -> el mean (s * n + l) = el2 sig s l.
Proof.
  intros Hr Hg Hok HT HL ord n.
  destruct (angular_pairs c ells probes T nl Hr Hg Hok) as (sig & E1 & W1 & _).
  destruct (noise_cl_spec probes n HT) as (noi & E2 & _).
  pose proof (noise_rows_wf probes n noi HT E2) as W2.
  assert (CI : cov_input ells probes sig noi) by (split; [ exact HL | split; [ exact W1 | exact W2 ]]).
  destruct (spectra_exist probes (madd sig noi)) as [S HS].
  assert (EC : exists cov, gaussian_cl_covariance (Array1 ells) probes sig noi f_sky sparse = Ok cov).
  { destruct (covariance_main ells probes sig noi f_sky S CI HS) as (s3 & m2 & H1 & _ & H2 & _). destruct sparse; eauto. }
  destruct EC as [cov EC]. exists sig, noi, (concat sig), cov. split; [ exact E1 | split; [ exact E2 | split; [ exact CI | split ]]].
  - unfold gaussian_cl_covariance_and_mean. simpl atleast_1d. rewrite E1. cbn [bind]. fold n. rewrite E2. cbn [bind]. rewrite EC. reflexivity.
  - split; [ exact EC | ]. destruct W1 as [W1a W1b]. split.
    + rewrite (length_concat_const n) by exact W1b. now rewrite W1a.
    + intros s l Hs Hl. unfold el. rewrite (nth_concat_jk n) by (exact W1b || (rewrite W1a; exact Hs) || exact Hl). reflexivity.
Qed.

(** ** end-to-end positive definiteness *)
Lemma quadf_plus_diag n S (d : nat -> R) x : quadf n (fun i j => S i j + if Nat.eqb i j then d i else 0) x = quadf n S x + Rsum n (fun i => d i * (x i * x i)).
Proof.
  unfold quadf. rewrite <- Rsum_plus. apply Rsum_ext. intros i Hi.
  rewrite (Rsum_ext _ _ (fun j => x i * S i j * x j + if Nat.eqb i j then d i * (x i * x j) else 0)) by (intros j _; destruct (Nat.eqb i j); ring).
  rewrite Rsum_plus. f_equal. now rewrite (Rsum_delta_r n i (fun j => d i * (x i * x j))).
Qed.
Lemma Rsum_pos_ex n f : (forall i, (i < n)%nat -> 0 <= f i) -> (exists i, (i < n)%nat /\ 0 < f i) -> 0 < Rsum n f.
Proof.
  intros H0 (i & Hi & Hp). induction n as [ | n IH]; [ lia | ]. change (Rsum (S n) f) with (Rsum n f + f n).
  destruct (Nat.eq_dec i n) as [-> | Hn].
  - assert (0 <= Rsum n f) by (apply Rsum_nonneg; intros; apply H0; lia). lra.
  - assert (0 < Rsum n f) by (apply IH; [ intros; apply H0; lia | lia ]). pose proof (H0 n ltac:(lia)). lra.
Qed.

Lemma covariance_end_to_end c ells probes T nl f_sky : reachable c -> _gamma_growth c = false -> probes_ok probes -> noise_positive probes ->
  (forall p d, In p probes -> In d (bins_of p) -> 0 <= nz_zmax d) ->
  (forall l a, (l < length ells)%nat -> 1 / (1 + survey_zmax probes) <= a <= 1 -> 0 <= nl c ((el ells l + 1 / 2) / Rmax (chi c a) 1) a T) ->
  (2 <= length ells)%nat -> (forall l, (l < length ells)%nat -> 0 < knox_norm ells f_sky l) ->
  exists mean d m, gaussian_cl_covariance_and_mean c (Array1 ells) probes T nl f_sky false = Ok (mean, A2 d d m) /\
    length mean = d /\ symmetric d m /\ pos_def d m.
Proof.
  intros Hr Hg Hok HN HZ HP HL HK.
  assert (HT : noise_total probes) by (intros p Hp; destruct (HN p Hp) as (v & A & B & _); eauto).
  destruct (mean_layout c ells probes T nl f_sky false Hr Hg Hok HT HL) as (sig & noi & mean & cov & E1 & E2 & CI & E3 & E4 & E5 & E6).
  destruct (spectra_exist probes (madd sig noi)) as [S HS].
  destruct (spectra_exist probes sig) as [S0 HS0].
  destruct (noise_cl_spec probes (length ells) HT) as (noi' & F2 & _ & VN). rewrite E2 in F2. injection F2 as <-.
  pose (nv := fun i => match tracer probes i with Some (p, k) => match noise p with Ok v => el v k | Err _ => 0 end | None => 0 end).
  assert (NP : forall i, (i < n_bins probes)%nat -> 0 < nv i).
  { intros i Hi. destruct (tracer_total probes i Hi) as (p & k & Ep & HI & Hk). unfold nv. rewrite Ep.
    destruct (HN p HI) as (v & Ev & Lv & Pv). rewrite Ev. apply Pv. lia. }
  assert (VS : forall a b l, (a <= b)%nat -> (b < n_bins probes)%nat -> (l < length ells)%nat ->
     S a b l = S0 a b l + (if Nat.eqb a b then nv a else 0) /\ S b a l = S0 b a l + (if Nat.eqb b a then nv b else 0)).
  { intros a b l Hab Hb Hl. destruct (In_nth_error _ _ (proj2 (proj1 (ordering_spec probes) a b) (conj Hab Hb))) as [s Hs].
    destruct (HS s a b l Hs) as [-> ->]. destruct (HS0 s a b l Hs) as [-> ->].
    destruct CI as (_ & W1 & W2). assert (Ls : (s < length (get_cl_ordering probes))%nat) by (apply nth_error_Some; congruence).
    rewrite (el2_madd _ _ sig noi s l W1 W2 Ls). destruct (VN s a b Hs) as (p & k & v & Ep & Ev & Er).
    assert (EE : el2 noi s l = if Nat.eqb a b then nv a else 0).
    { unfold el2. rewrite (nth_of_nth_error _ _ _ [] Er). assert (R : forall (q : R) n, (l < n)%nat -> nth l (repeat q n) 0 = q) by (intros q n; revert l Hl; clear; induction l; intros _ Hn; destruct n; simpl in *; try lia; [ reflexivity | ]; clear IHl; revert n Hn; induction l; intros [ | n] Hn; simpl in *; try lia; auto; apply IHl; lia).
      rewrite R by exact Hl. unfold nv. rewrite Ep, Ev. reflexivity. }
    rewrite EE. split; [ reflexivity | ]. rewrite (Nat.eqb_sym b a). destruct (Nat.eqb_spec a b); [ now subst | reflexivity ]. }
  assert (PD : forall l, (l < length ells)%nat -> pdf (n_bins probes) (fun i j => S i j l)).
  { intros l Hl x (i & Hi & Hx).
    destruct (angular_psd c ells probes T nl sig S0 Hr Hg Hok HZ HP E1 HS0 l Hl) as [P0 _]. specialize (P0 x).
    replace (quadf (n_bins probes) (fun i j => S i j l) x) with (quadf (n_bins probes) (fun i j => S0 i j l + if Nat.eqb i j then nv i else 0) x).
    - rewrite quadf_plus_diag. assert (0 < Rsum (n_bins probes) (fun i => nv i * (x i * x i))); [ | lra ].
      apply Rsum_pos_ex.
      + intros u Hu. apply Rmult_le_pos; [ left; now apply NP | nra ].
      + exists i. split; [ exact Hi | ]. apply Rmult_lt_0_compat; [ now apply NP | ]. assert (0 < Rsqr (x i)) by now apply Rsqr_pos_lt. exact H.
    - unfold quadf. apply Rsum_ext. intros u Hu. apply Rsum_ext. intros v Hv. f_equal. f_equal.
      destruct (Nat.le_ge_cases u v) as [H | H]; [ now destruct (VS u v l H Hv Hl) | now destruct (VS v u l H Hu Hl) ]. }
  assert (SY : forall l, (l < length ells)%nat -> symf (n_bins probes) (fun i j => S i j l)).
  { intros l _ a b Ha Hb. now apply (spectra_sym probes (madd sig noi) S). }
  destruct (covariance_pd ells probes sig noi f_sky S CI HS HK SY PD) as (d & m & EM & PM).
  destruct (covariance_symmetric ells probes sig noi f_sky CI ltac:(intros l Hl; pose proof (HK l Hl); lra)) as (s3 & m2 & _ & _ & EM2 & SM).
  rewrite E4 in EM. injection EM as ->. rewrite E4 in EM2. injection EM2 as Ed _ Em. rewrite <- Em in SM. clear Em m2. rewrite <- Ed in SM.
  exists mean, d, m. split; [ exact E3 | split; [ | split; [ exact SM | exact PM ]]].
  rewrite E5, Ed. lia.
Qed.

Lemma mean_and_covariance c ells probes T nl f_sky : reachable c -> _gamma_growth c = false -> probes_ok probes -> noise_total probes ->
  (2 <= length ells)%nat -> (forall l, (l < length ells)%nat -> knox_norm ells f_sky l <> 0) ->
  let ord := get_cl_ordering probes in let N := length ord in let n := length ells in
  exists sig noi mean s3 m2,
    angular_cl c (Array1 ells) probes T nl = Ok sig /\ noise_cl n probes = Ok noi /\
    gaussian_cl_covariance_and_mean c (Array1 ells) probes T nl f_sky true = Ok (mean, A3 N N n s3) /\
    gaussian_cl_covariance_and_mean c (Array1 ells) probes T nl f_sky false = Ok (mean, A2 (n * N) (n * N) m2) /\
    to_dense (A3 N N n s3) = Ok (A2 (n * N) (n * N) m2) /\
    length mean = (n * N)%nat /\
    (forall s l, (s < N)%nat -> (l < n)%nat -> el mean (s * n + l) = el2 sig s l) /\
    forall S, spectra_of ord (madd sig noi) S ->
    forall s t i j m k l l', nth_error ord s = Some (i, j) -> nth_error ord t = Some (m, k) -> (l < n)%nat -> (l' < n)%nat ->
      el2 m2 (s * n + l) (t * n + l') = if Nat.eqb l l' then knox S ells f_sky i j m k l else 0.
Proof.
  intros Hr Hg Hok HT HL HK ord N n.
  destruct (mean_layout c ells probes T nl f_sky true Hr Hg Hok HT HL) as (sig & noi & mean & cov & E1 & E2 & CI & E3 & E4 & E5 & E6).
  destruct (mean_layout c ells probes T nl f_sky false Hr Hg Hok HT HL) as (sig' & noi' & mean' & cov' & F1 & F2 & _ & F3 & F4 & F5 & F6).
  rewrite E1 in F1. injection F1 as <-. rewrite E2 in F2. injection F2 as <-.
  destruct (spectra_exist probes (madd sig noi)) as [S HS].
  destruct (covariance_knox ells probes sig noi f_sky S CI HS HK) as (s3 & m2 & G1 & _ & G2 & _ & _).
  fold ord N n in G1, G2, F4. rewrite E4 in G1. injection G1 as ->. rewrite F4 in G2. injection G2 as ->.
  destruct (covariance_sparse_dense ells probes sig noi f_sky CI HK) as (s & d & K1 & K2 & K3).
  rewrite E4 in K1. injection K1 as <-. rewrite F4 in K2. injection K2 as <-.
  assert (EM : mean' = mean).
  { apply nth_ext with (d := 0) (d' := 0); [ fold ord n in E5, F5; congruence | ]. intros q Hq. fold n in F5, E6, F6. fold ord in F5, E6, F6. fold N in F5, E6, F6.
    rewrite F5 in Hq. assert (n <> 0)%nat by (unfold n; lia).
    rewrite (Nat.div_mod q n) by assumption. rewrite (Nat.mul_comm n (q / n)).
    assert (q / n < N)%nat by (apply Nat.div_lt_upper_bound; [ assumption | lia ]). pose proof (Nat.mod_upper_bound q n ltac:(assumption)).
    change (el mean' (q / n * n + q mod n) = el mean (q / n * n + q mod n)). rewrite E6, F6 by assumption. reflexivity. }
  subst mean'.
  exists sig, noi, mean, s3, m2. split; [ exact E1 | split; [ exact E2 | split; [ exact E3 | split; [ exact F3 | split; [ exact K3 | split; [ | split; [ exact E6 | ]]]]]]].
  - rewrite E5. fold n ord N. lia.
  - intros S' HS' s t i j m k l l' Hs Ht Hl Hl'.
    destruct (covariance_knox ells probes sig noi f_sky S' CI HS' HK) as (s3' & m2' & _ & _ & G2' & _ & V).
    fold ord N n in G2'. rewrite F4 in G2'. injection G2' as <-. now apply (V s t i j m k l l').
Qed.

(** the mean is not signal plus noise: they differ in every auto-spectrum *)
Lemma mean_lacks_noise c ells probes T nl f_sky sparse mean cov : reachable c -> _gamma_growth c = false -> probes_ok probes -> noise_positive probes ->
  (2 <= length ells)%nat -> gaussian_cl_covariance_and_mean c (Array1 ells) probes T nl f_sky sparse = Ok (mean, cov) ->
  exists sig noi, angular_cl c (Array1 ells) probes T nl = Ok sig /\ noise_cl (length ells) probes = Ok noi /\
  forall s i l, nth_error (get_cl_ordering probes) s = Some (i, i) -> (l < length ells)%nat ->
    el mean (s * length ells + l) < el2 sig s l + el2 noi s l.
Proof.
  intros Hr Hg Hok HN HL E.
  assert (HT : noise_total probes) by (intros p Hp; destruct (HN p Hp) as (v & A & B & _); eauto).
  destruct (mean_layout c ells probes T nl f_sky sparse Hr Hg Hok HT HL) as (sig & noi & mean' & cov' & E1 & E2 & CI & E3 & _ & _ & E6).
  rewrite E in E3. injection E3 as <- <-. exists sig, noi. split; [ exact E1 | split; [ exact E2 | ]].
  intros s i l Hs Hl. rewrite E6; [ | apply nth_error_Some; congruence | exact Hl ].
  destruct (noise_cl_spec probes (length ells) HT) as (noi' & F2 & _ & VN). rewrite E2 in F2. injection F2 as <-.
  destruct (VN s i i Hs) as (p & k & v & Ep & Ev & Er). rewrite Nat.eqb_refl in Er.
  destruct (tracer_total probes i) as (p' & k' & Ep' & HI & Hk). { apply (ordering_bound probes i i). eapply nth_error_In. exact Hs. }
  rewrite Ep in Ep'. injection Ep' as <- <-. destruct (HN p HI) as (v' & Ev' & Lv & Pv). rewrite Ev in Ev'. injection Ev' as <-.
  assert (el2 noi s l = el v k). { unfold el2. rewrite (nth_of_nth_error _ _ _ [] Er). eapply (repeat_spec (length ells)). apply nth_In. now rewrite repeat_length. }
  rewrite H. pose proof (Pv k ltac:(lia)). lra.
Qed.
(** positive noise follows from positive densities and non-zero shape noise *)
Lemma noise_positive_suff probes : (forall p, In p probes -> (forall d, In d (bins_of p) -> 0 < nz_gals d) /\
    match p with PWL q => sigma_fits (length (wl_bins q)) (wl_sigma_e q) /\ forall k, (k < length (wl_bins q))%nat -> sigma_for (wl_sigma_e q) k <> 0 | PNC _ => True end) ->
  noise_positive probes.
Proof.
  intros HP p Hp. destruct (HP p Hp) as [HG HS]. destruct (noise_values p) as (v & E & L & V).
  - destruct p; [ apply HS | exact I ].
  - exists v. split; [ exact E | split; [ exact L | ]]. intros k Hk. rewrite L in Hk. destruct (V k Hk) as [_ V2]. apply V2.
    + apply HG. unfold nth_nz. apply nth_In. exact Hk.
    + destruct p; [ now apply HS | exact I ].
Qed.
