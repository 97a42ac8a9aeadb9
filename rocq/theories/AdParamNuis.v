(** * Programs over numbers treat all types of numbers alike: moving surveys (AdNuis.v, AdNuisLike.v) *)
From Coq Require Import String.
From Verif Require Import Np Core Ode Interp Integrate Background Transfer Power Redshift Bias Sparse Likelihood Probes AngularCl Ad AdPower AdProbes AdHalofit AdLike AdBack AdParam AdParamCl AdNuis AdNuisLike AdNuisBack.

Section Programs.
Context {A B : Type} (N : num A) (M : num B) (r : A -> B -> Prop) (HR : num_rel r N M).
Context {I : Type} (f : I -> A) (g : I -> B) (FG : forall i, r (f i) (g i)).
Local Notation V := (Forall2 r).
Local Notation W := (Forall2 (Forall2 r)).
Local Notation X := (Forall2 (Forall2 (Forall2 r))).
Ltac op := first [ assumption | apply FG | match goal with
  | |- r (cst N _) _ => apply (nr_cst r N M HR)
  | |- r (nadd N _ _) _ => apply (nr_add r N M HR)
  | |- r (nsub N _ _) _ => apply (nr_sub r N M HR)
  | |- r (nmul N _ _) _ => apply (nr_mul r N M HR)
  | |- r (ndiv N _ _) _ => apply (nr_div r N M HR)
  | |- r (nneg N _) _ => apply (nr_neg r N M HR)
  | |- r (nexp N _) _ => apply (nr_exp r N M HR)
  | |- r (npow N _ _) _ => apply (nr_pow r N M HR)
  | |- r (nipow N _ _) _ => apply (nr_ipow r N M HR)
  | |- r (nabs N _) _ => apply (nr_abs r N M HR)
  | |- r (nln N _) _ => apply (nr_ln r N M HR)
  | |- r (gclip_lo N _ _) _ => apply (p_clip_lo N M r HR)
  end ].
Lemma w_params l : V (map f l) (map g l). Proof. apply f2_mapc. exact FG. Qed.
Lemma w_zmax d : gnz_zmax (nz_map f d) = gnz_zmax (nz_map g d). Proof. now destruct d. Qed.
Lemma w_delta d : gis_delta (nz_map f d) = gis_delta (nz_map g d). Proof. now destruct d as [[ | | | ] ? ?]. Qed.
Lemma w_zmaxs ds : map gnz_zmax (map (nz_map f) ds) = map gnz_zmax (map (nz_map g) ds). Proof. rewrite !map_map. apply map_ext, w_zmax. Qed.
Fixpoint w_pz_fn (d : gnz I) : forall z z', r z z' -> r (hpz_fn N (nz_map f d) z) (hpz_fn M (nz_map g d) z')
with w_fam_pz (fam : gfam I) : forall z z', r z z' -> r (hfam_pz N (fam_map f fam) z) (hfam_pz M (fam_map g fam) z').
Proof.
  - destruct d as [fam ga zm]. exact (w_fam_pz fam).
  - destruct fam as [a b z0 | z0 | zc w bw | p b]; intros z z' Hz; cbn [fam_map hfam_pz].
    + repeat op.
    + rewrite (nr_val r N M HR _ _ Hz), (nr_val r N M HR _ _ (FG z0)). op.
    + op; apply (p_sum N M r HR); [ | apply w_params ]. apply (p_vmul N M r HR); [ | apply w_params ]. apply (f2_map r); [ | apply w_params ]. intros x y Hx. unfold hkde_kernel. repeat op.
    + apply w_pz_fn. repeat op.
Qed.
Lemma w_norm d : r (hnz_norm N (nz_map f d)) (hnz_norm M (nz_map g d)).
Proof.
  unfold hnz_norm. rewrite w_delta, w_zmax. destruct (gis_delta (nz_map g d)); [ op | ].
  assert (K : res_rel r (gsimps N (fun q => hpz_fn N (nz_map f d) (cst N q)) 0.0 (gnz_zmax (nz_map g d)) 256) (gsimps M (fun q => hpz_fn M (nz_map g d) (cst M q)) 0.0 (gnz_zmax (nz_map g d)) 256))
    by (apply (p_simps N M r HR); intros x; apply w_pz_fn; op).
  destruct (gsimps N _ _ _ _), (gsimps M _ _ _ _); try contradiction; cbn [res_rel] in K; op.
Qed.
Lemma w_pz d z : r (hpz N (nz_map f d) z) (hpz M (nz_map g d) z).
Proof. unfold hpz. op; [ apply w_pz_fn; op | apply w_norm ]. Qed.
Lemma w_gals d : r (hgals N (nz_map f d)) (hgals M (nz_map g d)). Proof. unfold hgals. destruct d. cbn [nz_map gnz_gals]. repeat op. Qed.
Lemma w_bins p : gbins_of (probe_map f p) = map (nz_map f) (gbins_of p). Proof. now destruct p. Qed.
Lemma w_noise p : res_rel V (hnoise N (probe_map f p)) (hnoise M (probe_map g p)).
Proof.
  assert (K : forall l, V (map (hgals N) (map (nz_map f) l)) (map (hgals M) (map (nz_map g) l))) by (intros l; rewrite !map_map; apply f2_mapc, w_gals).
  destruct p as [p | p]; cbn [probe_map hnoise gwl_bins gwl_sigma_e gnc_bins].
  - destruct (gwl_sigma_e p) as [s | ss]; [ cbn [res_rel]; apply (f2_map r); [ intros; repeat op | apply K ] | ].
    apply (rel_bcast eq r r); [ | now apply f2_same | apply K ]. intros x y u v <- Hu. repeat op.
  - cbn [res_rel]. rewrite !map_map. apply f2_mapc. intros d. op; [ op | apply w_gals ].
Qed.
Section Cosmo.
Variables (c : gcosmo A) (c' : gcosmo B) (HC : cosmo_rel r c c').
Ltac go := repeat first [ apply (p_chi N M r HR c c' HC) | apply (p_D N M r HR c c' HC) | apply (p_H N M r HR c c' HC) | apply (p_Omega_m N M r HR c c' HC) | apply (p_dchioverda N M r HR c c' HC) | apply w_pz | op ].
Lemma w_bias bi z : r (hbias_at N (bias_map f bi) c z) (hbias_at M (bias_map g bi) c' z).
Proof. destruct bi; cbn [bias_map hbias_at]; go. Qed.
Lemma w_wl_extended zmax d z : r (hwl_extended N c zmax (nz_map f d) z) (hwl_extended M c' zmax (nz_map g d) z).
Proof.
  unfold hwl_extended.
  assert (K : res_rel r (gsimps N (hwl_integrand N c (nz_map f d) z) z zmax 256) (gsimps M (hwl_integrand M c' (nz_map g d) z) z zmax 256)) by (apply (p_simps N M r HR); intros x; unfold hwl_integrand; go).
  destruct (gsimps N (hwl_integrand N c (nz_map f d) z) z zmax 256), (gsimps M (hwl_integrand M c' (nz_map g d) z) z zmax 256); try contradiction; cbn [res_rel] in K; go.
Qed.
Lemma w_z0 d : r (hdelta_z0 N (nz_map f d)) (hdelta_z0 M (nz_map g d)). Proof. destruct d as [[ | | | ] ? ?]; cbn; op. Qed.
Lemma w_wl_delta d z : r (hwl_delta N c (nz_map f d) z) (hwl_delta M c' (nz_map g d) z).
Proof. unfold hwl_delta, hz2a. cbv zeta. pose proof (w_z0 d). go. Qed.
Lemma idx_maps (test : gnz A -> bool) (test' : gnz B -> bool) ds : (forall d, test (nz_map f d) = test' (nz_map g d)) -> idx_where test (map (nz_map f) ds) = idx_where test' (map (nz_map g) ds).
Proof.
  intros HT. unfold idx_where. rewrite !map_length. generalize 0%nat. induction ds as [ | x l IH]; intros k; [ reflexivity | ].
  cbn [length seq combine map filter fst snd]. rewrite HT. destruct (test' (nz_map g x)); cbn [map fst]; now rewrite IH.
Qed.
Lemma w_pz_default z : r (hpz N (gnz_default N) z) (hpz M (gnz_default M) z).
Proof.
  change (r (ndiv N (cst N (if Req_EM_T (val N (cst N z)) (val N (cst N 0)) then 1.0 else 0)) (cst N 1.0)) (ndiv M (cst M (if Req_EM_T (val M (cst M z)) (val M (cst M 0)) then 1.0 else 0)) (cst M 1.0))).
  rewrite (nr_val r N M HR _ _ (nr_cst r N M HR z)), (nr_val r N M HR _ _ (nr_cst r N M HR 0)). repeat op.
Qed.
Lemma w_ext_default zmax q : r (hwl_extended N c zmax (gnz_default N) q) (hwl_extended M c' zmax (gnz_default M) q).
Proof.
  unfold hwl_extended.
  assert (K : res_rel r (gsimps N (hwl_integrand N c (gnz_default N) q) q zmax 256) (gsimps M (hwl_integrand M c' (gnz_default M) q) q zmax 256)).
  { apply (p_simps N M r HR). intros x. unfold hwl_integrand. pose proof (w_pz_default x). go. }
  destruct (gsimps N (hwl_integrand N c (gnz_default N) q) q zmax 256), (gsimps M (hwl_integrand M c' (gnz_default M) q) q zmax 256); try contradiction; cbn [res_rel] in K; go.
Qed.
Lemma w_nth_ext zmax ds i q : r (hwl_extended N c zmax (nth_gnz N (map (nz_map f) ds) i) q) (hwl_extended M c' zmax (nth_gnz M (map (nz_map g) ds) i) q).
Proof. unfold nth_gnz. revert i. induction ds as [ | d ds IH]; intros [ | i]; cbn [map nth]; [ exact (w_ext_default zmax q) | exact (w_ext_default zmax q) | exact (w_wl_extended zmax d q) | exact (IH i) ]. Qed.
Lemma w_delta_default q : r (hwl_delta N c (gnz_default N) q) (hwl_delta M c' (gnz_default M) q).
Proof. unfold hwl_delta, hz2a. cbv zeta. cbn [hdelta_z0 gnz_default gnz_fam]. go. Qed.
Lemma w_nth_delta ds i q : r (hwl_delta N c (nth_gnz N (map (nz_map f) ds) i) q) (hwl_delta M c' (nth_gnz M (map (nz_map g) ds) i) q).
Proof. unfold nth_gnz. revert i. induction ds as [ | d ds IH]; intros [ | i]; cbn [map nth]; [ exact (w_delta_default q) | exact (w_delta_default q) | exact (w_wl_delta d q) | exact (IH i) ]. Qed.
Lemma w_lensing ds z ell : res_rel W (hweak_lensing_kernel N c (map (nz_map f) ds) z ell) (hweak_lensing_kernel M c' (map (nz_map g) ds) z ell).
Proof.
  unfold hweak_lensing_kernel. pose proof (q_jit r c c' HC) as J. unfold gcosmo_jit in *. destruct (ggamma c), (ggamma c'); try contradiction; [ reflexivity | ]. cbn [bind].
  rewrite w_zmaxs, (idx_maps gis_delta gis_delta ds w_delta), (idx_maps (fun d => negb (gis_delta d)) (fun d => negb (gis_delta d)) ds (fun d => f_equal negb (w_delta d))).
  apply rel_bindc. intros zmax. cbv zeta. cbn [res_rel]. apply (q_rows_scale N M r HR); [ go | ]. apply f2_mapc. intros i.
  apply (f2_nth V); [ constructor | ]. apply f2_app; apply f2_mapc; intros j; apply f2_mapc; intros q; [ apply w_nth_ext | apply w_nth_delta ].
Qed.
Lemma w_times_bias ba z m m' : W m m' -> res_rel W (htimes_bias N c (bias_arg_map f ba) z m) (htimes_bias M c' (bias_arg_map g ba) z m').
Proof.
  intros K. destruct ba as [b | bs]; cbn [bias_arg_map htimes_bias].
  - cbn [res_rel]. apply (f2_map V); [ | exact K ]. intros. apply (p_vmul N M r HR); [ assumption | apply f2_mapc; intros q; apply w_bias ].
  - destruct bs as [ | b bs]; [ reflexivity | ]. set (l := b :: bs). cbn [map l]. apply (rel_bcast V V V); [ intros; now apply (p_vmul N M r HR) | exact K | ].
    constructor; [ apply f2_mapc; intros q; apply w_bias | ]. rewrite !map_map. apply f2_mapc. intros q. apply f2_mapc. intros q'. apply w_bias.
Qed.
Lemma w_exists ds : existsb gis_delta (map (nz_map f) ds) = existsb gis_delta (map (nz_map g) ds).
Proof. induction ds as [ | d ds IH]; [ reflexivity | ]. cbn [map existsb]. now rewrite w_delta, IH. Qed.
Lemma w_clustering ds ba z : res_rel W (hclustering_rows N c (map (nz_map f) ds) (bias_arg_map f ba) z) (hclustering_rows M c' (map (nz_map g) ds) (bias_arg_map g ba) z).
Proof.
  unfold hclustering_rows. rewrite w_exists. destruct (existsb gis_delta _); [ reflexivity | ]. destruct ds as [ | p ds]; [ reflexivity | ]. cbv zeta.
  cbn [map]. apply (rel_bind W).
  - apply w_times_bias. constructor; [ apply f2_mapc; intros q; go | ]. rewrite !map_map. apply f2_mapc. intros d. apply f2_mapc. intros q. go.
  - intros m m' K. cbn [res_rel]. apply (f2_map V); [ | exact K ]. intros. apply (p_vmul N M r HR); [ assumption | ]. apply f2_mapc. intros q. go.
Qed.
Lemma w_density ds ba z ell : res_rel W (hdensity_kernel N c (map (nz_map f) ds) (bias_arg_map f ba) z ell) (hdensity_kernel M c' (map (nz_map g) ds) (bias_arg_map g ba) z ell).
Proof.
  unfold hdensity_kernel. pose proof (q_jit r c c' HC) as J. unfold gcosmo_jit in *. destruct (ggamma c), (ggamma c'); try contradiction; [ reflexivity | ]. cbn [bind].
  apply (rel_bind W); [ apply w_clustering | ]. intros m m' K. cbn [res_rel]. apply (q_rows_scale N M r HR); [ op | exact K ].
Qed.
Lemma w_nla ds ba z ell : res_rel W (hnla_kernel N c (map (nz_map f) ds) (bias_arg_map f ba) z ell) (hnla_kernel M c' (map (nz_map g) ds) (bias_arg_map g ba) z ell).
Proof.
  unfold hnla_kernel. pose proof (q_jit r c c' HC) as J. unfold gcosmo_jit in *. destruct (ggamma c), (ggamma c'); try contradiction; [ reflexivity | ]. cbn [bind].
  apply (rel_bind W); [ apply w_clustering | ]. intros m m' K. cbv zeta. cbn [res_rel]. apply (f2_map V); [ | exact K ]. intros. apply (p_vscale N M r HR); [ op | ].
  apply (p_vmul N M r HR); [ assumption | ]. apply f2_mapc. intros q. go.
Qed.
Lemma w_apply_m m k k' : W k k' -> res_rel W (happly_m N (m_map f m) k) (happly_m M (m_map g m) k').
Proof.
  intros K. destruct m as [mi | ms]; cbn [m_map happly_m]; [ cbn [res_rel]; apply (q_rows_scale N M r HR); [ repeat op | exact K ] | ]. destruct ms as [ | mi ms]; [ reflexivity | ]. cbn [map].
  apply (rel_bcast V r V); [ | exact K | constructor; [ apply FG | apply w_params ] ]. intros x y u v Hx Hu. apply (p_vscale N M r HR); [ repeat op | exact Hx ].
Qed.
Lemma w_kernel p z ell : res_rel W (hkernel N (probe_map f p) c z ell) (hkernel M (probe_map g p) c' z ell).
Proof.
  destruct p as [q | q]; cbn [probe_map hkernel]; [ | apply w_density ]. unfold hwl_kernel. cbn [gwl_bins gwl_ia gwl_m]. apply (rel_bind W); [ apply w_lensing | ]. intros k k' K.
  apply (rel_bind W); [ | intros; now apply w_apply_m ]. destruct (gwl_ia q) as [b | ]; cbn [option_map]; [ | exact K ].
  apply (rel_bind W); [ apply w_nla | ]. intros k2 k2' K2. apply (rel_bcast V V V); [ | exact K | exact K2 ]. intros. now apply (p_vadd N M r HR).
Qed.
Variables (P : gspectrum A) (P' : gspectrum B) (HP : spectrum_rel r c c' P P').
Lemma w_integrand S ell a : res_rel W (hcl_integrand N c (map (probe_map f) S) P ell a) (hcl_integrand M c' (map (probe_map g) S) P' ell a).
Proof.
  unfold hcl_integrand. cbv zeta.
  assert (EO : hcl_ordering (map (probe_map f) S) = hcl_ordering (map (probe_map g) S)).
  { unfold hcl_ordering. f_equal. f_equal. rewrite !map_map. apply map_ext. intros [p | p]; cbn; now rewrite !map_length. }
  rewrite EO.
  assert (KC : V (map (fun q => gchi N c (cst N q)) a) (map (fun q => gchi M c' (cst M q)) a)) by (apply f2_mapc; intros q; go).
  set (ch := map (fun q => gchi N c (cst N q)) a) in *. set (ch' := map (fun q => gchi M c' (cst M q)) a) in *.
  apply (rel_bind X). { clear EO. induction S as [ | p S IH]; cbn [map mapM]; [ constructor | ]. apply (rel_bind W); [ apply w_kernel | ]. intros u u' Hu. apply (rel_bind X); [ exact IH | ]. intros v v' Hv. cbn [res_rel]. now constructor. }
  intros ks ks' K. cbn [res_rel]. apply f2_tab. intros q. apply (f2_map V).
  { intros x y Hx. apply f2_nth; [ op | exact Hx ]. }
  apply (f2_map V).
  - intros x y Hx. repeat first [ apply (p_vdiv N M r HR) | apply (p_vmul N M r HR) ]; try assumption.
    + apply (f2_map2 r eq).
      * intros u v w w' Hu <-. apply HP; [ exact Hu | op ].
      * apply (f2_map r); [ | exact KC ]. intros; go.
      * now apply f2_same.
    + apply f2_mapc. intros u. go.
    + apply (f2_map r); [ | exact KC ]. intros; go.
  - apply f2_mapc. intros ij. apply (p_vmul N M r HR); (apply (f2_nth V); [ constructor | now apply f2_concat ]).
Qed.
Lemma w_ordering S : hcl_ordering (map (probe_map f) S) = hcl_ordering (map (probe_map g) S).
Proof. unfold hcl_ordering. f_equal. f_equal. rewrite !map_map. apply map_ext. intros [p | p]; cbn; now rewrite !map_length. Qed.
Lemma w_zs S : mapM (fun p => pymax (map gnz_zmax (gbins_of p))) (map (probe_map f) S) = mapM (fun p => pymax (map gnz_zmax (gbins_of p))) (map (probe_map g) S).
Proof.
  induction S as [ | p S IH]; [ reflexivity | ]. cbn [map mapM]. rewrite IH. f_equal. destruct p; cbn [probe_map gbins_of gwl_bins gnc_bins]; now rewrite w_zmaxs.
Qed.
Lemma w_angular ell S : res_rel W (hangular_cl N c ell (map (probe_map f) S) P) (hangular_cl M c' ell (map (probe_map g) S) P').
Proof.
  unfold hangular_cl. rewrite w_ordering, w_zs. apply rel_bindc. intros zs. apply rel_bindc. intros zm. destruct ell as [l | ells]; [ reflexivity | ].
  apply (rel_bind W).
  - apply rel_mapM. intros l. unfold hcl_one. rewrite w_ordering. apply (rel_bind V); [ apply (q_simps_rows N M r HR); intros q; apply w_integrand | ]. intros v v' K. cbn [res_rel].
    apply (f2_map r); [ | exact K ]. intros; go.
  - intros m m' K. cbn [res_rel]. apply f2_stack1; [ op | exact K ].
Qed.
End Cosmo.
Lemma w_noise_cl n S : res_rel W (hnoise_cl N n (map (probe_map f) S)) (hnoise_cl M n (map (probe_map g) S)).
Proof.
  unfold hnoise_cl. rewrite w_ordering. apply (rel_bind W).
  - induction S as [ | p S IH]; cbn [map mapM]; [ constructor | ]. apply (rel_bind V); [ apply w_noise | ]. intros u u' Hu. apply (rel_bind W); [ exact IH | ]. intros v v' Hv. cbn [res_rel]. now constructor.
  - intros ns ns' K. cbv zeta. cbn [res_rel]. apply f2_mapc. intros ij. apply f2_repeat. repeat op. apply f2_nth; [ op | now apply f2_concat ].
Qed.
Section Likelihood.
Variables (ga : glinalg A) (gb : glinalg B) (HL : linalg_rel r ga gb).
Lemma w_covariance ell S sig sig' noi noi' f_sky sparse : W sig sig' -> W noi noi' ->
  res_rel (arr_rel r) (hgaussian_cl_covariance N ell (map (probe_map f) S) sig noi f_sky sparse) (hgaussian_cl_covariance M ell (map (probe_map g) S) sig' noi' f_sky sparse).
Proof.
  intros HS HN. unfold hgaussian_cl_covariance. cbv zeta. rewrite w_ordering.
  assert (KO : W (map2 (gvadd N) sig noi) (map2 (gvadd M) sig' noi')) by (apply (f2_map2 V V); [ intros; now apply (p_vadd N M r HR) | exact HS | exact HN ]).
  set (o := map2 (gvadd N) sig _) in *. set (o' := map2 (gvadd M) sig' _) in *. rewrite (f2_len V _ _ KO).
  apply rel_bindc. intros norm. apply rel_bindc. intros blocks.
  assert (KR : W (map (gcov_row N o norm) blocks) (map (gcov_row M o' norm) blocks)).
  { apply f2_mapc. intros [[[x y] z] w]. unfold gcov_row. apply (p_vdiv N M r HR); [ | now apply (p_cst_list N M r HR) ].
    apply (p_vadd N M r HR); apply (p_vmul N M r HR); apply (f2_nth V); auto. }
  rewrite (f2_len V _ _ KR). destruct (negb _); [ reflexivity | ]. destruct sparse; cbn [res_rel arr_rel]; repeat (split; [ reflexivity | ]).
  - now apply f2_chunk.
  - apply f2_concat. apply (f2_map X).
    + intros x y Hx. unfold ghstack. apply f2_tab. intros i. apply f2_concat. apply (f2_map W); [ | exact Hx ]. intros. apply (f2_nth V); auto.
    + apply f2_chunk. apply (f2_map V); [ | exact KR ]. intros x y Hx. apply f2_mapc. intros q. apply (p_vmul N M r HR); [ exact Hx | now apply (p_cst_list N M r HR) ].
Qed.
Lemma w_survey c c' ell S P P' f_sky sparse data il method : cosmo_rel r c c' -> spectrum_rel r c c' P P' ->
  res_rel r (hsurvey_likelihood N ga c ell (map (probe_map f) S) P f_sky sparse data il method) (hsurvey_likelihood M gb c' ell (map (probe_map g) S) P' f_sky sparse data il method).
Proof.
  intros HC HP. unfold hsurvey_likelihood. apply (rel_bind (pair_rel V (arr_rel r))).
  - unfold hgaussian_cl_covariance_and_mean. apply (rel_bind W); [ now apply w_angular | ]. intros m m' Hm. apply (rel_bind W); [ apply w_noise_cl | ]. intros noi noi' Hn.
    apply (rel_bind (arr_rel r)); [ now apply w_covariance | ]. intros C C' HCC. cbn [res_rel]. split; cbn [fst snd]; [ now apply f2_concat | exact HCC ].
  - intros [mu C] [mu' C'] [K1 K2]. cbn [fst snd] in *. now apply (q_likelihood N M r HR ga gb HL).
Qed.
End Likelihood.
End Programs.
