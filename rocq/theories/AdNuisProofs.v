(** * Kernels and Limber spectra: the programs of AdNuis.v follow curves of cosmologies and of probes *)
From Verif Require Import Np NpLemmas Core Interp Integrate Background Transfer Power Redshift RedshiftProofs Bias Probes AngularCl GradSpec Ad AdPower AdProbes AdRel AdProbesProofs AdNuis.

(** ** reading parameters changes no structure *)
Section ReadLemmas.
Context {A : Type} (v : A -> R).
Fixpoint read_jit (d : gnz A) : nz_jit (read_nz v d) = read_nz v d
with read_fam_jit (f : gfam A) : fam_jit (read_fam v f) = read_fam v f.
Proof.
  - destruct d as [f g zm]. cbn [read_nz]. unfold nz_new at 1. cbn [nz_jit]. now rewrite read_fam_jit.
  - destruct f as [a b z0 | z0 | zc w bw | p b]; cbn [read_fam fam_jit]; try reflexivity. now rewrite read_jit.
Qed.
Lemma read_zmax d : nz_zmax (read_nz v d) = gnz_zmax d. Proof. now destruct d. Qed.
Lemma read_gals d : nz_gals (read_nz v d) = v (gnz_gals d). Proof. now destruct d. Qed.
Lemma read_delta d : is_delta (read_nz v d) = gis_delta d. Proof. now destruct d as [[ | | | ] ? ?]. Qed.
Lemma read_z0 N d : gis_delta d = true -> delta_z0 (read_nz v d) = v (hdelta_z0 (N : num A) d). Proof. now destruct d as [[ | | | ] ? ?]. Qed.
Lemma map_jit l : map nz_jit (map (read_nz v) l) = map (read_nz v) l.
Proof. rewrite map_map. apply map_ext. apply read_jit. Qed.
Lemma map_zmax l : map nz_zmax (map (read_nz v) l) = map gnz_zmax l.
Proof. rewrite map_map. apply map_ext. apply read_zmax. Qed.
Lemma idx_map {X Y} (f : X -> Y) (test : Y -> bool) (test' : X -> bool) l : (forall x, test (f x) = test' x) -> idx_where test (map f l) = idx_where test' l.
Proof.
  intros HT. unfold idx_where. rewrite map_length. generalize 0%nat. induction l as [ | x l IH]; intros k; [ reflexivity | ].
  cbn [length seq combine map filter fst snd]. rewrite HT. destruct (test' x); cbn [map fst]; now rewrite IH.
Qed.
Lemma idx_del l : idx_where is_delta (map (read_nz v) l) = idx_where gis_delta l. Proof. apply idx_map, read_delta. Qed.
Lemma idx_ext l : idx_where (fun d => negb (is_delta d)) (map (read_nz v) l) = idx_where (fun d => negb (gis_delta d)) l.
Proof. apply idx_map. intros d. now rewrite read_delta. Qed.
Lemma idx_lt {X} (test : X -> bool) l i : In i (idx_where test l) -> (i < length l)%nat.
Proof.
  unfold idx_where. rewrite in_map_iff. intros ((j & x) & <- & H). apply filter_In in H. destruct H as [H _]. apply in_combine_l in H. apply in_seq in H. cbn [fst]. lia.
Qed.
Lemma read_nth N l i : (i < length l)%nat -> nth_nz (map (read_nz v) l) i = read_nz v (nth_gnz (N : num A) l i).
Proof. intros Hi. unfold nth_nz, nth_gnz. rewrite (nth_indep _ _ (read_nz v (gnz_default N))) by now rewrite map_length. apply map_nth. Qed.
Lemma read_bins p : bins_of (read_probe v p) = map (read_nz v) (gbins_of p). Proof. now destruct p. Qed.
Lemma read_ordering probes : get_cl_ordering (map (read_probe v) probes) = hcl_ordering probes.
Proof.
  unfold get_cl_ordering, hcl_ordering, total_tracers. f_equal. f_equal. rewrite map_map. apply map_ext. intros p. unfold n_tracers. now rewrite read_bins, map_length.
Qed.
Lemma mapM_map {X Y Z} (f : X -> Y) (g : Y -> res Z) l : mapM g (map f l) = mapM (fun x => g (f x)) l.
Proof. induction l as [ | x l IH]; [ reflexivity | ]. cbn [map mapM]. now rewrite IH. Qed.
Lemma mapM_ext' {X Y} (f g : X -> res Y) l : (forall x, f x = g x) -> mapM f l = mapM g l.
Proof. intros E. induction l as [ | x l IH]; [ reflexivity | ]. cbn [mapM]. now rewrite E, IH. Qed.
Lemma read_zmaxs probes : mapM probe_zmax (map (read_probe v) probes) = mapM (fun p => pymax (map gnz_zmax (gbins_of p))) probes.
Proof. rewrite mapM_map. apply mapM_ext'. intros p. unfold probe_zmax. now rewrite read_bins, map_zmax. Qed.
Lemma existsb_delta l : existsb is_delta (map (read_nz v) l) = existsb gis_delta l.
Proof. induction l as [ | d l IH]; [ reflexivity | ]. cbn [map existsb]. now rewrite read_delta, IH. Qed.
End ReadLemmas.

Section Follow.
Context {A : Type} (N : num A) (rel : (R -> R) -> A -> Prop) (lf : R -> A -> R) (fine : A -> Prop).
Hypotheses (r_resp : respects rel) (r_cst : forall x, rel (fun _ => x) (cst N x)) (r_leaf : forall x, fine x -> rel (fun s => lf s x) x)
  (r_add : forall f h x y, rel f x -> rel h y -> rel (fun s => f s + h s) (nadd N x y))
  (r_mul : forall f h x y, rel f x -> rel h y -> rel (fun s => f s * h s) (nmul N x y))
  (r_div : forall f h x y, h 0 <> 0 -> rel f x -> rel h y -> rel (fun s => f s / h s) (ndiv N x y)).
Variables (C : R -> cosmology) (g : gcosmo A).
Hypotheses (h_jit : forall s, cosmo_jit (C s) = Ok (C s)) (h_gjit : gcosmo_jit g = Ok g).
Hypothesis l_Om : rel (fun s => Omega_m (C s)) (gOmega_m N g).
Local Notation "' x" := (cst N x%R) (at level 1, format "' x").
Local Notation vrel := (lr rel).
Local Notation mrel := (lr (lr rel)).
Local Notation rd := (fun s => read_nz (lf s)).
Let f_vadd := f_vadd N rel r_add.
Let f_vmul := f_vmul N rel r_mul.
Let f_vscale := f_vscale N rel r_mul.
Let f_simps := f_simps N rel r_resp r_cst r_add r_mul.

(** ** kernels at redshifts z *)
Variable z : list R.
Variable src : R -> Prop.
Variable seen : gnz A -> R -> Prop.
Variable plane : gnz A -> Prop.
Hypotheses (l_chi : forall q, In q z -> rel (fun s => chi (C s) (z2a q)) (gchi N g '(z2a q)))
  (l_dif : forall q a, In q z -> src a -> rel (fun s => clip_lo (chi (C s) a - chi (C s) (z2a q)) 0) (gclip_lo N (nsub N (gchi N g 'a) (gchi N g '(z2a q))) 0))
  (l_clip : forall a, src a -> rel (fun s => clip_lo (chi (C s) a) 1.0) (gclip_lo N (gchi N g 'a) 1.0))
  (l_pz : forall d q, seen d q -> rel (fun s => pz (read_nz (lf s) d) q) (hpz N d q))
  (l_pdif : forall d q, plane d -> In q z -> rel (fun s => clip_lo (chi (C s) (z2a (lf s (hdelta_z0 N d))) - chi (C s) (z2a q)) 0)
    (gclip_lo N (nsub N (gchi N g (hz2a N (hdelta_z0 N d))) (gchi N g '(z2a q))) 0))
  (l_pclip : forall d q, plane d -> In q z -> rel (fun s => clip_lo (chi (C s) (z2a (lf s (hdelta_z0 N d)))) 1.0) (gclip_lo N (gchi N g (hz2a N (hdelta_z0 N d))) 1.0))
  (l_D : forall q, In q z -> rel (fun s => D (C s) (z2a q)) (gD N g '(z2a q)))
  (l_D0 : forall q, In q z -> D (C 0) (z2a q) <> 0)
  (l_H : forall q, In q z -> rel (fun s => H (C s) (z2a q)) (gH N g '(z2a q))).
Variable fair : gbias A -> Prop.
Hypothesis l_ia : forall am eta z0 q, In q z -> fair (gdes_y1_ia_bias am eta z0) ->
  rel (fun s => rpow ((1.0 + q) / (1.0 + lf s z0)) (lf s eta)) (npow N (ndiv N '(1.0 + q) (nadd N '1.0 z0)) eta).
Hypothesis l_fair : forall b, fair b -> match b with gconstant_linear_bias b => fine b | ginverse_growth_linear_bias b => fine b | gdes_y1_ia_bias am _ _ => fine am end.
Lemma e_efficiency d q z' : In q z -> src (z2a z') -> seen d z' -> rel (fun s => wl_integrand (C s) (rd s d) q z') (hwl_integrand N g d q z').
Proof.
  intros Hq Hs Hd. unfold wl_integrand, hwl_integrand. apply r_div; [ apply clip1_pos | | now apply l_clip ].
  apply r_mul; [ now apply l_pz | now apply l_dif ].
Qed.
Lemma e_extended zmax d q : In q z -> (forall z', In z' (linspace q zmax 257) -> src (z2a z') /\ seen d z') ->
  rel (fun s => wl_extended (C s) zmax (rd s d) q) (hwl_extended N g zmax d q).
Proof.
  intros Hq Hs. unfold wl_extended, hwl_extended. apply r_mul; [ apply (r_mul _ (fun _ => 1.0 + q)); [ | apply r_cst ] | now apply l_chi ].
  assert (HR := f_simps (fun s => wl_integrand (C s) (rd s d) q) (hwl_integrand N g d q) q zmax 256 (fun z' Hz => e_efficiency d q z' Hq (proj1 (Hs z' Hz)) (proj2 (Hs z' Hz)))).
  destruct (rr_cases _ _ _ HR) as [(x & y & Ey & E & P) | (e & Ee & E)]; [ rewrite Ey; apply (r_resp x); [ intros s; now rewrite E | exact P ] | rewrite Ee; apply (r_resp (fun _ => 0)); [ intros s; now rewrite E | apply r_cst ] ].
Qed.
Lemma e_delta d q : In q z -> gis_delta d = true -> plane d -> rel (fun s => wl_delta (C s) (rd s d) q) (hwl_delta N g d q).
Proof.
  intros Hq Id Hs. unfold wl_delta, hwl_delta. cbv zeta. apply r_mul; [ apply (r_mul _ (fun _ => 1.0 + q)); [ | apply r_cst ] | now apply l_chi ].
  apply r_div; [ apply clip1_pos | | ].
  - apply (r_resp (fun s => clip_lo (chi (C s) (z2a (lf s (hdelta_z0 N d))) - chi (C s) (z2a q)) 0)); [ intros s; now rewrite (read_z0 (lf s) N d Id) | now apply l_pdif ].
  - apply (r_resp (fun s => clip_lo (chi (C s) (z2a (lf s (hdelta_z0 N d)))) 1.0)); [ intros s; now rewrite (read_z0 (lf s) N d Id) | now apply (l_pclip d q) ].
Qed.
Definition lensing_ok (pzs : list (gnz A)) : Prop :=
  (forall d zm q z', In d pzs -> gis_delta d = false -> pymax (map gnz_zmax pzs) = Ok zm -> In q z -> In z' (linspace q zm 257) -> src (z2a z') /\ seen d z') /\
  (forall d, In d pzs -> gis_delta d = true -> plane d).
Lemma e_weak_lensing pzs ell : lensing_ok pzs ->
  rr mrel (fun s => weak_lensing_kernel (C s) (map (rd s) pzs) z ell) (hweak_lensing_kernel N g pzs z ell).
Proof.
  intros [HS HP]. unfold hweak_lensing_kernel. rewrite h_gjit. cbn [bind].
  set (ext := idx_where (fun d => negb (gis_delta d)) pzs). set (del := idx_where gis_delta pzs).
  apply (rr_respects _ (fun s => bind (pymax (map gnz_zmax pzs)) (fun zmax =>
    Ok (map (vscale (3.0 * const_H0 ^ 2 * Omega_m (C s) / 2.0 / const_c * ell_factor ell))
      (map (fun i => nth i (map (fun i => map (wl_extended (C s) zmax (rd s (nth_gnz N pzs i))) z) ext ++
        map (fun i => map (wl_delta (C s) (rd s (nth_gnz N pzs i))) z) del)%list [])
        (argsort (ext ++ del)%list))))));
    [ intros s; unfold weak_lensing_kernel; rewrite h_jit; cbn [bind]; cbv zeta; rewrite map_jit, map_zmax, idx_ext, idx_del; fold ext del | ].
  { destruct (pymax (map gnz_zmax pzs)) as [zm | e]; [ | reflexivity ]. cbn [bind].
    assert (E1 : map (fun i => map (wl_extended (C s) zm (nth_nz (map (rd s) pzs) i)) z) ext = map (fun i => map (wl_extended (C s) zm (rd s (nth_gnz N pzs i))) z) ext).
    { apply map_ext_in. intros i Hi. now rewrite (read_nth (lf s) N) by now apply (idx_lt _ _ _ Hi). }
    assert (E2 : map (fun i => map (wl_delta (C s) (nth_nz (map (rd s) pzs) i)) z) del = map (fun i => map (wl_delta (C s) (rd s (nth_gnz N pzs i))) z) del).
    { apply map_ext_in. intros i Hi. now rewrite (read_nth (lf s) N) by now apply (idx_lt _ _ _ Hi). }
    rewrite E1, E2. reflexivity. }
  apply (rr_bindc mrel). intros zmax Ez. cbv zeta.
  apply rr_ok'. apply (lr_map vrel vrel (fun s => vscale (3.0 * const_H0 ^ 2 * Omega_m (C s) / 2.0 / const_c * ell_factor ell))).
  - intros u v. apply f_vscale. apply (r_mul _ (fun _ => ell_factor ell)); [ | apply r_cst ].
    apply (r_div _ (fun _ => const_c)); [ unfold const_c; lra | | apply r_cst ]. apply (r_div _ (fun _ => 2.0)); [ lra | | apply r_cst ].
    apply (r_mul (fun _ => 3.0 * const_H0 ^ 2)); [ apply r_cst | exact l_Om ].
  - apply lr_mapc. intros i _. apply (lr_nth vrel); [ apply lr_respects | apply lr_nil' | ].
    apply lr_app; apply (lr_mapc vrel); intros j Hj; apply (lr_mapc rel); intros q Hq.
    + destruct (idx_where_in (fun d => negb (gis_delta d)) pzs (gnz_default N) j Hj) as [H1 H2]. fold (nth_gnz N pzs j) in H1, H2.
      apply e_extended; [ exact Hq | ]. intros z' Hz. apply (HS _ zmax q z' H1); try assumption. now destruct (gis_delta (nth_gnz N pzs j)).
    + destruct (idx_where_in gis_delta pzs (gnz_default N) j Hj) as [H1 H2]. fold (nth_gnz N pzs j) in H1, H2.
      apply e_delta; [ exact Hq | exact H2 | ]. now apply HP.
Qed.
Lemma e_bias b q : In q z -> fair b -> rel (fun s => bias_at (read_bias (lf s) b) (C s) q) (hbias_at N b g q).
Proof.
  intros Hq Hb. assert (LF := l_fair b Hb). destruct b as [b | b | am eta z0]; cbn [read_bias bias_at hbias_at].
  - apply (r_mul _ (fun _ => 1)); [ now apply r_leaf | apply r_cst ].
  - apply r_div; [ now apply l_D0 | now apply r_leaf | now apply l_D ].
  - apply r_mul; [ now apply r_leaf | now apply (l_ia am) ].
Qed.
Definition fair_arg (ba : gbias_arg A) : Prop := match ba with GOneBias b => fair b | GBiasList bs => forall b, In b bs -> fair b end.
Lemma e_times_bias ba f x : fair_arg ba -> mrel f x -> rr mrel (fun s => times_bias (C s) (read_bias_arg (lf s) ba) z (f s)) (htimes_bias N g ba z x).
Proof.
  intros HB Hf. destruct ba as [b | [ | b bs]]; cbn [read_bias_arg map times_bias htimes_bias fair_arg] in *; [ | apply rr_err' | ].
  - apply rr_ok'. apply (lr_map vrel vrel (fun s row => vmul row (map (bias_at (read_bias (lf s) b) (C s)) z))); [ | exact Hf ].
    intros u v Hu. apply f_vmul; [ exact Hu | ]. apply (lr_mapc rel). intros q Hq. now apply e_bias.
  - apply (rr_bcast vrel vrel vrel vmul (gvmul N)); [ intros; now apply f_vmul | exact Hf | ].
    apply (lr_respects vrel (fun s => map (fun b0 => map (bias_at (read_bias (lf s) b0) (C s)) z) (b :: bs))); [ intros s; cbn [map]; now rewrite map_map | ].
    apply (lr_mapc vrel (fun s b0 => map (bias_at (read_bias (lf s) b0) (C s)) z) (fun b0 => map (hbias_at N b0 g) z) (b :: bs)). intros b' Hb'. apply (lr_mapc rel). intros q Hq. apply e_bias; auto.
Qed.
Definition bins_ok (pzs : list (gnz A)) : Prop := forall d q, In d pzs -> gis_delta d = false -> In q z -> seen d q.
Lemma no_delta pzs : existsb gis_delta pzs = false -> forall d, In d pzs -> @gis_delta A d = false.
Proof. intros E d Hd. destruct (gis_delta d) eqn:G; [ | reflexivity ]. assert (X : existsb gis_delta pzs = true) by (apply existsb_exists; now exists d). congruence. Qed.
Lemma e_clustering pzs ba : bins_ok pzs -> fair_arg ba -> rr mrel (fun s => clustering_rows (C s) (map (rd s) pzs) (read_bias_arg (lf s) ba) z) (hclustering_rows N g pzs ba z).
Proof.
  intros HB HF. unfold hclustering_rows. destruct (existsb gis_delta pzs) eqn:ED.
  { apply (rr_respects _ (fun _ => Err NotImplementedError)); [ intros s; unfold clustering_rows; now rewrite existsb_delta, ED | apply rr_err' ]. }
  assert (ND := no_delta pzs ED). destruct pzs as [ | d pzs].
  { apply (rr_respects _ (fun _ => Err ValueError)); [ intros s; reflexivity | apply rr_err' ]. }
  apply (rr_respects _ (fun s => bind (times_bias (C s) (read_bias_arg (lf s) ba) z (map (fun d => map (pz (rd s d)) z) (d :: pzs)))
    (fun rows => Ok (map (fun row => vmul row (map (fun q => H (C s) (z2a q)) z)) rows)))).
  { intros s. unfold clustering_rows. rewrite existsb_delta, ED. cbn [map]. now rewrite map_map. }
  apply (rr_bind mrel mrel _ _ (fun s rows => Ok (map (fun row => vmul row (map (fun q => H (C s) (z2a q)) z)) rows))).
  - apply (e_times_bias ba (fun s => map (fun d0 => map (pz (rd s d0)) z) (d :: pzs)) _ HF). apply (lr_mapc vrel (fun s d0 => map (pz (rd s d0)) z)). intros d0 Hd0. apply (lr_mapc rel (fun s => pz (rd s d0))). intros q Hq. apply l_pz, HB; auto.
  - intros x y Hx. apply rr_ok'. apply (lr_map vrel vrel (fun s row => vmul row (map (fun q => H (C s) (z2a q)) z))); [ | exact Hx ].
    intros u v Hu. apply f_vmul; [ exact Hu | ]. apply (lr_mapc rel (fun s q => H (C s) (z2a q))). intros q Hq. now apply l_H.
Qed.
Lemma e_density pzs ba ell : bins_ok pzs -> fair_arg ba -> rr mrel (fun s => density_kernel (C s) (map (rd s) pzs) (read_bias_arg (lf s) ba) z ell) (hdensity_kernel N g pzs ba z ell).
Proof.
  intros HB HF. unfold hdensity_kernel. rewrite h_gjit. cbn [bind].
  apply (rr_respects _ (fun s => bind (clustering_rows (C s) (map (rd s) pzs) (read_bias_arg (lf s) ba) z) (fun rows => Ok (map (vscale (1.0 * 1.0)) rows)))); [ intros s; unfold density_kernel; now rewrite h_jit, map_jit | ].
  apply (rr_bind mrel mrel); [ now apply e_clustering | ]. intros x y Hx. apply rr_ok'. apply (lr_map vrel vrel (fun _ => vscale (1.0 * 1.0))); [ | exact Hx ].
  intros u v. apply (f_vscale (fun _ => 1.0 * 1.0)). apply r_cst.
Qed.
Lemma e_nla pzs ba ell : bins_ok pzs -> fair_arg ba -> rr mrel (fun s => nla_kernel (C s) (map (rd s) pzs) (read_bias_arg (lf s) ba) z ell) (hnla_kernel N g pzs ba z ell).
Proof.
  intros HB HF. unfold hnla_kernel. rewrite h_gjit. cbn [bind].
  apply (rr_respects _ (fun s => bind (clustering_rows (C s) (map (rd s) pzs) (read_bias_arg (lf s) ba) z) (fun rows =>
    Ok (map (fun row => vscale (1.0 * ell_factor ell) (vmul row (map (fun q => - (5e-14 * const_rhocrit) * Omega_m (C s) / D (C s) (z2a q)) z))) rows)))); [ intros s; unfold nla_kernel; now rewrite h_jit, map_jit | ].
  apply (rr_bind mrel mrel _ _ (fun s rows => Ok (map (fun row => vscale (1.0 * ell_factor ell) (vmul row (map (fun q => - (5e-14 * const_rhocrit) * Omega_m (C s) / D (C s) (z2a q)) z))) rows))); [ now apply e_clustering | ].
  intros x y Hx. cbv zeta. apply rr_ok'.
  apply (lr_map vrel vrel (fun s row => vscale (1.0 * ell_factor ell) (vmul row (map (fun q => - (5e-14 * const_rhocrit) * Omega_m (C s) / D (C s) (z2a q)) z)))); [ | exact Hx ].
  intros u v Hu. apply (f_vscale (fun _ => 1.0 * ell_factor ell)); [ apply r_cst | ]. apply f_vmul; [ exact Hu | ].
  apply (lr_mapc rel (fun s q => - (5e-14 * const_rhocrit) * Omega_m (C s) / D (C s) (z2a q))). intros q Hq. apply r_div; [ now apply l_D0 | | now apply l_D ].
  apply (r_mul (fun _ => - (5e-14 * const_rhocrit))); [ apply r_cst | exact l_Om ].
Qed.
Lemma lr_leaf l : (forall x, In x l -> fine x) -> lr rel (fun s => map (lf s) l) l.
Proof. induction l as [ | x l IH]; intros HF; [ apply lr_nil' | ]. cbn [map]. apply lr_cons'; [ apply r_leaf, HF; now left | apply IH; intros y Hy; apply HF; now right ]. Qed.
Definition fine_m (m : gm_arg A) : Prop := match m with GMScalar x => fine x | GMList l => forall x, In x l -> fine x end.
Lemma e_apply_m m f x : fine_m m -> mrel f x -> rr mrel (fun s => apply_m (read_m (lf s) m) (f s)) (happly_m N m x).
Proof.
  intros HM Hf. destruct m as [mi | [ | mi ms]]; cbn [read_m map apply_m happly_m fine_m] in *; [ | apply rr_err' | ].
  - apply rr_ok'. apply (lr_map vrel vrel (fun s => vscale (1.0 + lf s mi))); [ | exact Hf ]. intros u v. apply (f_vscale (fun s => 1.0 + lf s mi)). apply (r_add (fun _ => 1.0)); [ apply r_cst | now apply r_leaf ].
  - apply (rr_bcast vrel rel vrel (fun row mj => vscale (1.0 + mj) row) _ f x (fun s => map (lf s) (mi :: ms))); [ | exact Hf | now apply lr_leaf ].
    intros u v mj mk Hu Hm. apply (f_vscale (fun s => 1.0 + mj s)); [ apply (r_add (fun _ => 1.0)); [ apply r_cst | exact Hm ] | exact Hu ].
Qed.
Definition gprobe_ok (p : gprobe A) : Prop :=
  match p with
  | GPWL q => lensing_ok (gwl_bins q) /\ fine_m (gwl_m q) /\ match gwl_ia q with None => True | Some b => bins_ok (gwl_bins q) /\ fair_arg b end
  | GPNC q => bins_ok (gnc_bins q) /\ fair_arg (gnc_bias q)
  end.
Lemma e_kernel p ell : gprobe_ok p -> rr mrel (fun s => kernel (read_probe (lf s) p) (C s) z ell) (hkernel N p g z ell).
Proof.
  intros HS. destruct p as [p | p]; cbn [read_probe kernel hkernel gprobe_ok] in *; [ | unfold nc_kernel; cbn [nc_bins nc_bias]; now apply e_density ].
  destruct HS as (HL & HM & HI). unfold wl_kernel, hwl_kernel. cbn [wl_bins wl_ia wl_m].
  apply (rr_bind mrel mrel _ _ (fun s k => bind (match option_map (read_bias_arg (lf s)) (gwl_ia p) with None => Ok k | Some b => bind (nla_kernel (C s) (map (rd s) (gwl_bins p)) b z ell) (fun k2 => madd_rows k k2) end)
    (fun k0 => apply_m (read_m (lf s) (gwl_m p)) k0))); [ now apply e_weak_lensing | ].
  intros x y Hx. apply (rr_bind mrel mrel _ _ (fun s => apply_m (read_m (lf s) (gwl_m p)))); [ | intros; now apply e_apply_m ].
  destruct (gwl_ia p) as [b | ]; cbn [option_map]; [ | now apply rr_ok' ].
  apply (rr_bind mrel mrel _ _ (fun s k2 => madd_rows (x s) k2)); [ now apply e_nla | ]. intros x2 y2 H2. unfold madd_rows.
  apply (rr_bcast vrel vrel vrel vadd (gvadd N)); [ intros; now apply f_vadd | exact Hx | exact H2 ].
Qed.
End Follow.

(** ** spectra *)
Section Spectra.
Context {A : Type} (N : num A) (rel : (R -> R) -> A -> Prop) (lf : R -> A -> R) (fine : A -> Prop).
Hypotheses (r_resp : respects rel) (r_cst : forall x, rel (fun _ => x) (cst N x)) (r_leaf : forall x, fine x -> rel (fun s => lf s x) x)
  (r_add : forall f h x y, rel f x -> rel h y -> rel (fun s => f s + h s) (nadd N x y))
  (r_mul : forall f h x y, rel f x -> rel h y -> rel (fun s => f s * h s) (nmul N x y))
  (r_div : forall f h x y, h 0 <> 0 -> rel f x -> rel h y -> rel (fun s => f s / h s) (ndiv N x y)).
Variables (C : R -> cosmology) (g : gcosmo A).
Hypotheses (h_jit : forall s, cosmo_jit (C s) = Ok (C s)) (h_gjit : gcosmo_jit g = Ok g).
Hypothesis l_Om : rel (fun s => Omega_m (C s)) (gOmega_m N g).
Local Notation "' x" := (cst N x%R) (at level 1, format "' x").
Variables (probes : list (gprobe A)) (T : transfer) (nl : nonlinear) (P : gspectrum (A := A)).
Local Notation PS := (fun s => map (read_probe (lf s)) probes).
(** [lim]: Limber nodes, [src]: source nodes, [seen]: where a bin is evaluated, [plane]: delta bins *)
Variables (lim src : R -> Prop) (seen : gnz A -> R -> Prop) (plane : gnz A -> Prop) (fair : gbias A -> Prop).
Hypotheses (l_chi : forall a, lim a -> rel (fun s => chi (C s) a) (gchi N g 'a))
  (l_dif : forall b a, lim b -> src a -> rel (fun s => clip_lo (chi (C s) a - chi (C s) b) 0) (gclip_lo N (nsub N (gchi N g 'a) (gchi N g 'b)) 0))
  (l_clip : forall a, lim a \/ src a -> rel (fun s => clip_lo (chi (C s) a) 1.0) (gclip_lo N (gchi N g 'a) 1.0))
  (l_clip2 : forall a, lim a -> rel (fun s => clip_lo (chi (C s) a ^ 2) 1.0) (gclip_lo N (nipow N (gchi N g 'a) 2) 1.0))
  (l_pz : forall d q, seen d q -> rel (fun s => pz (read_nz (lf s) d) q) (hpz N d q))
  (l_pdif : forall d b, plane d -> lim b -> rel (fun s => clip_lo (chi (C s) (z2a (lf s (hdelta_z0 N d))) - chi (C s) b) 0)
    (gclip_lo N (nsub N (gchi N g (hz2a N (hdelta_z0 N d))) (gchi N g 'b)) 0))
  (l_pclip : forall d b, plane d -> lim b -> rel (fun s => clip_lo (chi (C s) (z2a (lf s (hdelta_z0 N d)))) 1.0) (gclip_lo N (gchi N g (hz2a N (hdelta_z0 N d))) 1.0))
  (l_D : forall a, lim a -> rel (fun s => D (C s) a) (gD N g 'a))
  (l_D0 : forall a, lim a -> D (C 0) a <> 0)
  (l_H : forall a, lim a -> rel (fun s => H (C s) a) (gH N g 'a))
  (l_dchi : forall a, lim a -> rel (fun s => dchioverda (C s) a) (gdchioverda N g 'a))
  (l_ia : forall am eta z0 b, lim b -> fair (gdes_y1_ia_bias am eta z0) ->
    rel (fun s => rpow ((1.0 + a2z b) / (1.0 + lf s z0)) (lf s eta)) (npow N (ndiv N '(1.0 + a2z b) (nadd N '1.0 z0)) eta))
  (l_fair : forall b, fair b -> match b with gconstant_linear_bias b => fine b | ginverse_growth_linear_bias b => fine b | gdes_y1_ia_bias am _ _ => fine am end).
Section One.
Variable ell : R.
Hypothesis l_pk : forall a, lim a -> rel (fun s => nonlinear_matter_power (C s) ((ell + 0.5) / clip_lo (chi (C s) a) 1.0) a T nl)
  (P g (ndiv N '(ell + 0.5) (gclip_lo N (gchi N g 'a) 1.0)) 'a).
Lemma e_integrand a : (forall x, In x a -> lim x /\ x <> 0) -> (forall p, In p probes -> gprobe_ok fine (map a2z a) src seen plane fair p) ->
  rr (lr (lr rel)) (fun s => cl_integrand (C s) (PS s) T nl ell a) (hcl_integrand N g probes P ell a).
Proof.
  intros HA HP. assert (HL : forall x, In x a -> lim x) by (intros x Hx; now apply HA).
  assert (HZ : forall q, In q (map a2z a) -> lim (z2a q) /\ exists b, lim b /\ q = a2z b).
  { intros q Hq. apply in_map_iff in Hq. destruct Hq as (x & <- & Hx). destruct (HA x Hx). split; [ now rewrite z2a_a2z | now exists x ]. }
  unfold hcl_integrand. cbv zeta.
  assert (HPK : lr rel (fun s => map2 (fun kk aa => nonlinear_matter_power (C s) kk aa T nl) (map (fun x => (ell + 0.5) / clip_lo x 1.0) (map (chi (C s)) a)) a)
    (map2 (fun kk aa => P g kk 'aa) (map (fun x => ndiv N '(ell + 0.5) (gclip_lo N x 1.0)) (map (fun q => gchi N g 'q) a)) a)).
  { clear HP HZ HA. induction a as [ | x a' IH]; [ apply lr_nil' | ]. cbn [map map2]. apply lr_cons'; [ apply l_pk, HL; now left | ]. apply IH. intros y Hy. apply HL. now right. }
  apply (rr_respects _ (fun s => bind (mapM (fun p => kernel (read_probe (lf s) p) (C s) (map a2z a) ell) probes) (fun ks => Ok (tab (length a) (fun q => map (fun row => el row q)
    (map (fun row => vdiv (vmul (vmul (map2 (fun kk aa => nonlinear_matter_power (C s) kk aa T nl) (map (fun x => (ell + 0.5) / clip_lo x 1.0) (map (chi (C s)) a)) a) row)
       (map (fun aa => dchioverda (C s) aa) a)) (map (fun x => clip_lo (x ^ 2) 1.0) (map (chi (C s)) a)))
       (map (fun ij => vmul (nth (fst ij) (vstack ks) []) (nth (snd ij) (vstack ks) [])) (hcl_ordering probes)))))))).
  { intros s. unfold cl_integrand. cbv zeta. now rewrite read_ordering, mapM_map. }
  apply (rr_bind (lr (lr (lr rel))) (lr (lr rel)) _ _ (fun s ks => Ok (tab (length a) (fun q => map (fun row => el row q)
    (map (fun row => vdiv (vmul (vmul (map2 (fun kk aa => nonlinear_matter_power (C s) kk aa T nl) (map (fun x => (ell + 0.5) / clip_lo x 1.0) (map (chi (C s)) a)) a) row)
       (map (fun aa => dchioverda (C s) aa) a)) (map (fun x => clip_lo (x ^ 2) 1.0) (map (chi (C s)) a)))
       (map (fun ij => vmul (nth (fst ij) (vstack ks) []) (nth (snd ij) (vstack ks) [])) (hcl_ordering probes))))))).
  - apply (rr_mapM (lr (lr rel)) (fun s p => kernel (read_probe (lf s) p) (C s) (map a2z a) ell)). intros p Hp.
    apply (e_kernel N rel lf fine r_resp r_cst r_leaf r_add r_mul r_div C g h_jit h_gjit l_Om (map a2z a) src seen plane) with (fair := fair); [ .. | now apply HP ].
    + intros q Hq. apply l_chi, HZ, Hq.
    + intros q a' Hq Ha'. apply l_dif; [ apply HZ, Hq | exact Ha' ].
    + intros a' Ha'. apply l_clip. now right.
    + exact l_pz.
    + intros d q Hd Hq. apply l_pdif; [ exact Hd | apply HZ, Hq ].
    + intros d q Hd Hq. apply (l_pclip d (z2a q)); [ exact Hd | apply HZ, Hq ].
    + intros q Hq. apply l_D, HZ, Hq.
    + intros q Hq. apply l_D0, HZ, Hq.
    + intros q Hq. apply l_H, HZ, Hq.
    + intros am eta z0 q Hq Hf. destruct (HZ q Hq) as (_ & b & Hb & ->). now apply (l_ia am).
    + exact l_fair.
  - intros ks gks HK. apply rr_ok'. apply lr_tab. intros q _.
    apply (lr_map (lr rel) rel (fun _ row => el row q) (fun row => nth q row '0)); [ intros u v Hu; apply (lr_nth rel u v 0 '0 q r_resp (r_cst 0) Hu) | ].
    apply (lr_map (lr rel) (lr rel) (fun s row => vdiv (vmul (vmul (map2 (fun kk aa => nonlinear_matter_power (C s) kk aa T nl) (map (fun x => (ell + 0.5) / clip_lo x 1.0) (map (chi (C s)) a)) a) row)
       (map (fun aa => dchioverda (C s) aa) a)) (map (fun x => clip_lo (x ^ 2) 1.0) (map (chi (C s)) a)))).
    + intros u v Hu. apply (f_div_clip N rel r_div C g lim l_clip2); [ exact HL | ].
      apply (f_vmul N rel r_mul); [ apply (f_vmul N rel r_mul); [ exact HPK | exact Hu ] | ]. apply (lr_mapc rel (fun s aa => dchioverda (C s) aa)). intros x Hx. now apply l_dchi, HL.
    + apply (lr_mapc (lr rel) (fun s ij => vmul (nth (fst ij) (vstack (ks s)) []) (nth (snd ij) (vstack (ks s)) []))). intros ij _.
      assert (HC := lr_concat (lr rel) ks gks HK).
      apply (f_vmul N rel r_mul); apply (lr_nth (lr rel)); try apply lr_respects; try apply lr_nil'; exact HC.
Qed.
Lemma e_cl_one zmax : (forall x, In x (limber_nodes zmax) -> lim x /\ x <> 0) -> (forall p, In p probes -> gprobe_ok fine (map a2z (limber_nodes zmax)) src seen plane fair p) ->
  rr (lr rel) (fun s => cl_one (C s) (PS s) T nl zmax ell) (hcl_one N g probes P zmax ell).
Proof.
  intros HA HP. unfold hcl_one.
  apply (rr_respects _ (fun s => bind (simps_rows (length (hcl_ordering probes)) (cl_integrand (C s) (PS s) T nl ell) (z2a zmax) 1.0 512) (fun v => Ok (map (fun x => x / const_c ^ 2) v)))).
  { intros s. unfold cl_one. now rewrite read_ordering. }
  apply (rr_bind (lr rel) (lr rel) _ _ (fun _ v => Ok (map (fun x => x / const_c ^ 2) v))).
  - apply (f_simps_rows N rel r_cst r_add r_mul _ (fun s => cl_integrand (C s) (PS s) T nl ell)). change (512 + 1)%nat with 513%nat. now apply e_integrand.
  - intros u v Hu. apply rr_ok'. apply (lr_map rel rel (fun _ x => x / const_c ^ 2)); [ | exact Hu ]. intros x y Hx. apply (r_div x (fun _ => const_c ^ 2)); [ unfold const_c; lra | exact Hx | apply r_cst ].
Qed.
End One.
Lemma e_angular_cl ell : (forall ells l, ell = Array1 ells -> In l ells -> forall a, lim a -> rel (fun s => nonlinear_matter_power (C s) ((l + 0.5) / clip_lo (chi (C s) a) 1.0) a T nl)
    (P g (ndiv N '(l + 0.5) (gclip_lo N (gchi N g 'a) 1.0)) 'a)) ->
  (forall zs zmax, mapM (fun p => pymax (map gnz_zmax (gbins_of p))) probes = Ok zs -> pymax zs = Ok zmax ->
    (forall x, In x (limber_nodes zmax) -> lim x /\ x <> 0) /\ (forall p, In p probes -> gprobe_ok fine (map a2z (limber_nodes zmax)) src seen plane fair p)) ->
  rr (lr (lr rel)) (fun s => angular_cl (C s) ell (PS s) T nl) (hangular_cl N g ell probes P).
Proof.
  intros HK HZ. unfold hangular_cl.
  apply (rr_respects _ (fun s => bind (mapM (fun p => pymax (map gnz_zmax (gbins_of p))) probes) (fun zs => bind (pymax zs) (fun zmax =>
    match ell with Scalar _ => Err ValueError | Array1 ells => bind (mapM (cl_one (C s) (PS s) T nl zmax) ells) (fun cols => Ok (stack1 0 (length (hcl_ordering probes)) cols)) end)))).
  { intros s. unfold angular_cl. now rewrite read_ordering, read_zmaxs. }
  apply (rr_bindc (lr (lr rel))). intros zs Ezs. apply (rr_bindc (lr (lr rel))). intros zmax Ez.
  destruct (HZ zs zmax Ezs Ez) as [HA HP]. destruct ell as [l | ells]; [ apply rr_err' | ].
  apply (rr_bind (lr (lr rel)) (lr (lr rel)) _ _ (fun _ cols => Ok (stack1 0 (length (hcl_ordering probes)) cols))).
  - apply (rr_mapM (lr rel) (fun s => cl_one (C s) (PS s) T nl zmax)). intros l Hl. apply e_cl_one; [ | exact HA | exact HP ]. intros a. now apply (HK ells l eq_refl Hl).
  - intros u v Hu. apply rr_ok'. apply (lr_stack1 rel); [ exact r_resp | apply r_cst | exact Hu ].
Qed.
End Spectra.
