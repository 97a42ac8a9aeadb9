(** * Programs over numbers treat all types of numbers alike: kernels, spectra, covariance, likelihood *)
From Coq Require Import String.
From Verif Require Import Np Core Ode Interp Integrate Background Transfer Power Redshift Bias Sparse Likelihood Probes AngularCl Ad AdPower AdProbes AdHalofit AdLike AdParam.

Section Programs.
Context {A B : Type} (N : num A) (M : num B) (r : A -> B -> Prop) (HR : num_rel r N M).
Local Notation V := (Forall2 r).
Local Notation W := (Forall2 (Forall2 r)).
Local Notation X := (Forall2 (Forall2 (Forall2 r))).
Ltac op := first [ assumption | match goal with
  | |- r (cst N _) _ => apply (nr_cst r N M HR)
  | |- r (nadd N _ _) _ => apply (nr_add r N M HR)
  | |- r (nsub N _ _) _ => apply (nr_sub r N M HR)
  | |- r (nmul N _ _) _ => apply (nr_mul r N M HR)
  | |- r (ndiv N _ _) _ => apply (nr_div r N M HR)
  | |- r (nipow N _ _) _ => apply (nr_ipow r N M HR)
  | |- r (nabs N _) _ => apply (nr_abs r N M HR)
  | |- r (nln N _) _ => apply (nr_ln r N M HR)
  | |- r (gclip_lo N _ _) _ => apply (p_clip_lo N M r HR)
  end ].
Lemma q_jit c c' : cosmo_rel r c c' -> res_rel (cosmo_rel r) (gcosmo_jit c) (gcosmo_jit c').
Proof. intros HC. unfold gcosmo_jit. pose proof (cr_gamma r c c' HC) as HG. destruct (ggamma c), (ggamma c'); try contradiction; [ reflexivity | exact HC ]. Qed.
Lemma q_rows_scale x x' m m' : r x x' -> W m m' -> W (map (gvscale N x) m) (map (gvscale M x') m').
Proof. intros. apply (f2_map V); [ | assumption ]. intros. now apply (p_vscale N M r HR). Qed.
Lemma q_simps_rows nc f f' a b n : (forall l, res_rel W (f l) (f' l)) -> res_rel V (gsimps_rows N nc f a b n) (gsimps_rows M nc f' a b n).
Proof.
  intros HF. unfold gsimps_rows. destruct (Nat.eqb (n mod 2) 1); [ reflexivity | ]. cbv zeta. apply (rel_bind W); [ apply HF | ]. intros y y' K. cbn [res_rel].
  assert (HA : forall u u' v v', W u u' -> W v v' -> W (map2 (gvadd N) u v) (map2 (gvadd M) u' v')) by (intros; apply (f2_map2 V V); try assumption; intros; now apply (p_vadd N M r HR)).
  apply (p_vscale N M r HR); [ op | ]. apply (f2_fold V V).
  - intros. now apply (p_vadd N M r HR).
  - apply f2_repeat. op.
  - repeat first [ apply HA | apply f2_odds | apply f2_evens | apply f2_removelast | apply f2_skipn | exact K ].
    apply q_rows_scale; [ op | ]. now apply f2_odds.
Qed.
Section Cosmo.
Variables (c : gcosmo A) (c' : gcosmo B) (HC : cosmo_rel r c c').
Ltac go := repeat first [ apply (p_chi N M r HR c c' HC) | apply (p_D N M r HR c c' HC) | apply (p_H N M r HR c c' HC) | apply (p_Omega_m N M r HR c c' HC) | apply (p_dchioverda N M r HR c c' HC) | op ].
Lemma q_bias bi z : r (gbias_at N bi c z) (gbias_at M bi c' z).
Proof. destruct bi; cbn [gbias_at]; go. Qed.
Lemma q_biases bi z : V (map (gbias_at N bi c) z) (map (gbias_at M bi c') z).
Proof. apply f2_mapc. apply q_bias. Qed.
Lemma q_wl_extended zmax d z : r (gwl_extended N c zmax d z) (gwl_extended M c' zmax d z).
Proof.
  unfold gwl_extended.
  assert (K : res_rel r (gsimps N (gwl_integrand N c d z) z zmax 256) (gsimps M (gwl_integrand M c' d z) z zmax 256)) by (apply (p_simps N M r HR); intros x; unfold gwl_integrand; go).
  destruct (gsimps N (gwl_integrand N c d z) z zmax 256), (gsimps M (gwl_integrand M c' d z) z zmax 256); try contradiction; cbn [res_rel] in K; go.
Qed.
Lemma q_wl_delta d z : r (gwl_delta N c d z) (gwl_delta M c' d z).
Proof. unfold gwl_delta. cbv zeta. go. Qed.
Lemma q_lensing pzs z ell : res_rel W (gweak_lensing_kernel N c pzs z ell) (gweak_lensing_kernel M c' pzs z ell).
Proof.
  unfold gweak_lensing_kernel. pose proof (q_jit c c' HC) as J. unfold gcosmo_jit in *. destruct (ggamma c), (ggamma c'); try contradiction; [ reflexivity | ]. cbn [bind].
  apply rel_bindc. intros zmax. cbv zeta. cbn [res_rel]. apply q_rows_scale; [ go | ]. apply f2_mapc. intros i.
  apply (f2_nth V); [ constructor | ]. apply f2_app; apply f2_mapc; intros j; apply f2_mapc; intros q; [ apply q_wl_extended | apply q_wl_delta ].
Qed.
Lemma q_times_bias ba z m m' : W m m' -> res_rel W (gtimes_bias N c ba z m) (gtimes_bias M c' ba z m').
Proof.
  intros K. unfold gtimes_bias. destruct ba as [b | bs]; [ cbn [res_rel] | destruct bs as [ | b bs]; [ reflexivity | ] ].
  - apply (f2_map V); [ | exact K ]. intros. apply (p_vmul N M r HR); [ assumption | apply q_biases ].
  - apply (rel_bcast V V V); [ intros; now apply (p_vmul N M r HR) | exact K | apply f2_mapc; intros q; apply q_biases ].
Qed.
Lemma q_clustering pzs ba z : res_rel W (gclustering_rows N c pzs ba z) (gclustering_rows M c' pzs ba z).
Proof.
  unfold gclustering_rows. destruct (existsb is_delta pzs); [ reflexivity | ]. destruct pzs as [ | p pzs]; [ reflexivity | ]. cbv zeta.
  apply (rel_bind W).
  - apply q_times_bias. apply f2_mapc. intros d. apply f2_mapc. intros q. op.
  - intros m m' K. cbn [res_rel]. apply (f2_map V); [ | exact K ]. intros. apply (p_vmul N M r HR); [ assumption | ]. apply f2_mapc. intros q. go.
Qed.
Lemma q_density pzs ba z ell : res_rel W (gdensity_kernel N c pzs ba z ell) (gdensity_kernel M c' pzs ba z ell).
Proof.
  unfold gdensity_kernel. pose proof (q_jit c c' HC) as J. unfold gcosmo_jit in *. destruct (ggamma c), (ggamma c'); try contradiction; [ reflexivity | ]. cbn [bind].
  apply (rel_bind W); [ apply q_clustering | ]. intros m m' K. cbn [res_rel]. apply q_rows_scale; [ op | exact K ].
Qed.
Lemma q_nla pzs ba z ell : res_rel W (gnla_kernel N c pzs ba z ell) (gnla_kernel M c' pzs ba z ell).
Proof.
  unfold gnla_kernel. pose proof (q_jit c c' HC) as J. unfold gcosmo_jit in *. destruct (ggamma c), (ggamma c'); try contradiction; [ reflexivity | ]. cbn [bind].
  apply (rel_bind W); [ apply q_clustering | ]. intros m m' K. cbv zeta. cbn [res_rel]. apply (f2_map V); [ | exact K ]. intros. apply (p_vscale N M r HR); [ op | ].
  apply (p_vmul N M r HR); [ assumption | ]. apply f2_mapc. intros q. go.
Qed.
Lemma q_apply_m m k k' : W k k' -> res_rel W (gapply_m N m k) (gapply_m M m k').
Proof.
  intros K. unfold gapply_m. destruct m as [mi | ms]; [ cbn [res_rel]; apply q_rows_scale; [ op | exact K ] | ]. destruct ms as [ | mi ms]; [ reflexivity | ].
  apply (rel_bcast V eq V); [ | exact K | now apply f2_same ]. intros x y u v Hx <-. apply (p_vscale N M r HR); [ op | exact Hx ].
Qed.
Lemma q_kernel p z ell : res_rel W (gkernel N p c z ell) (gkernel M p c' z ell).
Proof.
  destruct p as [q | q]; cbn [gkernel]; [ | apply q_density ]. unfold gwl_kernel. apply (rel_bind W); [ apply q_lensing | ]. intros k k' K.
  apply (rel_bind W); [ | intros; now apply q_apply_m ]. destruct (wl_ia q) as [b | ]; [ | exact K ].
  apply (rel_bind W); [ apply q_nla | ]. intros k2 k2' K2. apply (rel_bcast V V V); [ | exact K | exact K2 ]. intros. now apply (p_vadd N M r HR).
Qed.
Variables (P : gspectrum A) (P' : gspectrum B) (HP : spectrum_rel r c c' P P').
Lemma q_integrand probes ell a : res_rel W (gcl_integrand N c probes P ell a) (gcl_integrand M c' probes P' ell a).
Proof.
  unfold gcl_integrand. cbv zeta.
  assert (KC : V (map (fun q => gchi N c (cst N q)) a) (map (fun q => gchi M c' (cst M q)) a)) by (apply f2_mapc; intros q; go).
  set (ch := map (fun q => gchi N c (cst N q)) a) in *. set (ch' := map (fun q => gchi M c' (cst M q)) a) in *.
  apply (rel_bind X). { apply rel_mapM. intros q. apply q_kernel. }
  intros ks ks' K. cbn [res_rel]. apply f2_tab. intros q. apply (f2_map V).
  { intros x y Hx. apply f2_nth; [ op | exact Hx ]. }
  apply (f2_map V).
  - intros x y Hx. repeat first [ apply (p_vdiv N M r HR) | apply (p_vmul N M r HR) ]; try assumption.
    + apply (f2_map2 r eq).
      * intros u v w w' Hu <-. apply HP; [ exact Hu | op ].
      * apply (f2_map r); [ | exact KC ]. intros; go.
      * now apply f2_same.
    + apply f2_mapc. intros u. go.
    + apply (f2_map r); [ | exact KC ]. intros; go.
  - apply f2_mapc. intros ij. apply (p_vmul N M r HR); (apply (f2_nth V); [ constructor | now apply f2_concat ]).
Qed.
Lemma q_angular ell probes : res_rel W (gangular_cl N c ell probes P) (gangular_cl M c' ell probes P').
Proof.
  unfold gangular_cl. apply rel_bindc. intros zs. apply rel_bindc. intros zm. destruct ell as [l | ells]; [ reflexivity | ].
  apply (rel_bind W).
  - apply rel_mapM. intros l. unfold gcl_one. apply (rel_bind V); [ apply q_simps_rows; intros q; apply q_integrand | ]. intros v v' K. cbn [res_rel].
    apply (f2_map r); [ | exact K ]. intros; go.
  - intros m m' K. cbn [res_rel]. apply f2_stack1; [ op | exact K ].
Qed.
End Cosmo.

Section Likelihood.
Variables (ga : glinalg A) (gb : glinalg B) (HL : linalg_rel r ga gb).
Lemma q_el2 m m' i j : W m m' -> r (gel2 N m i j) (gel2 M m' i j).
Proof. intros. unfold gel2. apply f2_nth; [ op | ]. apply (f2_nth V); [ constructor | assumption ]. Qed.
Lemma q_el3 s s' i j k : X s s' -> r (gel3 N s i j k) (gel3 M s' i j k).
Proof. intros. unfold gel3. apply f2_nth; [ op | ]. apply (f2_nth V); [ constructor | ]. apply (f2_nth W); [ constructor | assumption ]. Qed.
Lemma q_vsub u u' v v' : V u u' -> V v v' -> V (gvsub N u v) (gvsub M u' v').
Proof. intros. apply (f2_map2 r r); try assumption. intros; op; assumption. Qed.
Lemma q_vdot u u' v v' : V u u' -> V v v' -> r (gvdot N u v) (gvdot M u' v').
Proof. intros. unfold gvdot. apply (p_sum N M r HR). now apply (p_vmul N M r HR). Qed.
Lemma q_sum0 n m m' : W m m' -> V (gsum0 N n m) (gsum0 M n m').
Proof. intros. apply (f2_fold V V); [ intros; now apply (p_vadd N M r HR) | apply f2_repeat; op | assumption ]. Qed.
Lemma q_sdv b n s s' v v' : X s s' -> V v v' -> V (gsparse_dot_vec N b n s v) (gsparse_dot_vec M b n s' v').
Proof.
  intros HS Hv. unfold gsparse_dot_vec. apply f2_concat. apply (f2_map W); [ | exact HS ]. intros x y Hx. apply q_sum0.
  apply (f2_map2 V V); [ intros; now apply (p_vmul N M r HR) | exact Hx | now apply f2_chunk ].
Qed.
Lemma q_dot3 x x' y y' z z' : arr_rel r x x' -> arr_rel r y y' -> arr_rel r z z' -> res_rel (arr_rel r) (gdot3 N x y z) (gdot3 M x' y' z').
Proof.
  destruct x, x'; cbn [arr_rel]; try contradiction; intros Hx; try (now destruct y, y'; cbn [arr_rel gdot3]; try contradiction).
  destruct y, y'; cbn [arr_rel]; try contradiction; intros Hy; try reflexivity. destruct z, z'; cbn [arr_rel]; try contradiction; intros Hz; try reflexivity.
  destruct Hx as (<- & <- & Hx), Hy as (<- & <- & <- & Hy), Hz as (<- & <- & Hz). cbn [gdot3].
  destruct (negb _ || negb _)%bool; [ reflexivity | ]. cbn [res_rel arr_rel]. repeat (split; [ reflexivity | ]).
  unfold gdense_dot_sparse_dot_dense. apply (f2_map V); [ | exact Hx ]. intros u u' Hu. apply f2_tab. intros j. apply q_vdot; [ exact Hu | ]. apply q_sdv; [ exact Hy | ].
  unfold gcol. apply (f2_map V); [ | exact Hz ]. intros w w' Hw. apply f2_nth; [ op | exact Hw ].
Qed.
Lemma q_inv_data a n s s' : X s s' -> X (ginv_data N ga a n s) (ginv_data M gb a n s').
Proof.
  intros HS. unfold ginv_data. cbv zeta. do 3 (apply f2_tab; intros ?). apply q_el2. apply (f2_nth W); [ constructor | ].
  apply f2_tab. intros k. apply (lr_inv r ga gb HL). unfold gslice. do 2 (apply f2_tab; intros ?). now apply q_el3.
Qed.
Lemma q_inv x x' : arr_rel r x x' -> res_rel (arr_rel r) (ginv N ga x) (ginv M gb x').
Proof.
  destruct x, x'; cbn [arr_rel]; try contradiction; intros Hx; try reflexivity. destruct Hx as (<- & <- & <- & Hx). cbn [ginv]. destruct (negb _); [ reflexivity | ].
  cbn [res_rel arr_rel]. repeat (split; [ reflexivity | ]). now apply q_inv_data.
Qed.
Lemma q_sub3 a b e f s s' : X s s' -> X (gsub3 a b e f s) (gsub3 a b e f s').
Proof. intros HS. unfold gsub3. apply (f2_map W); [ intros; now apply f2_firstn, f2_skipn | now apply f2_firstn, f2_skipn ]. Qed.
Lemma q_sds a b n d s s' u u' : X s s' -> X u u' -> X (gsds N a b n d s u) (gsds M a b n d s' u').
Proof.
  intros HS HU. unfold gsds. apply (f2_stack1 V); [ constructor | ]. apply f2_tab. intros j. apply (f2_map W); [ | exact HS ]. intros x y Hx. apply q_sum0.
  do 2 (apply f2_tab; intros ?). op; apply q_el2; [ exact Hx | ]. apply (f2_map W); [ | exact HU ]. intros. apply (f2_nth V); [ constructor | assumption ].
Qed.
Lemma q_nthv (m : list (list A)) (m' : list (list B)) i : W m m' -> V (nth i m []) (nth i m' []).
Proof. intros. apply (f2_nth V); [ constructor | assumption ]. Qed.
Lemma q_nthw (s : list (list (list A))) (s' : list (list (list B))) i : X s s' -> W (nth i s []) (nth i s' []).
Proof. intros. apply (f2_nth W); [ constructor | assumption ]. Qed.
Lemma q_block s s' k m p : X s s' -> V (gblock N ga s k m p) (gblock M gb s' k m p).
Proof.
  intros HS. unfold gblock. cbv zeta. apply q_vsub; apply q_nthv, q_nthw; [ assumption | ].
  repeat first [ apply q_sds | apply q_sub3 | apply q_inv_data | assumption ].
Qed.
Lemma q_logabs v v' : V v v' -> r (glogabs N v) (glogabs M v').
Proof. intros. apply (p_sum N M r HR). apply (f2_map r); [ | assumption ]. intros; repeat op. Qed.
Lemma q_slogdet x x' : arr_rel r x x' -> res_rel r (gslogdet N ga x) (gslogdet M gb x').
Proof.
  destruct x, x'; cbn [arr_rel]; try contradiction; intros Hx; try reflexivity. destruct Hx as (<- & <- & <- & Hx). cbn [gslogdet]. destruct (negb _); [ reflexivity | ].
  cbn [res_rel]. apply (f2_foldl r).
  - intros. op; [ assumption | ]. now apply q_logabs, q_block.
  - apply q_logabs. apply (f2_nth V); [ constructor | ]. apply (f2_nth W); [ constructor | exact Hx ].
Qed.
Lemma q_mv m m' v v' : W m m' -> V v v' -> V (gmv N m v) (gmv M m' v').
Proof. intros. apply (f2_map V); [ intros; now apply q_vdot | assumption ]. Qed.
Lemma q_is_sparse x x' : arr_rel r x x' -> gis_sparse x = gis_sparse x'.
Proof. destruct x, x'; cbn [arr_rel]; try contradiction; intros; subst; reflexivity. Qed.
Lemma q_likelihood data mu mu' C C' il method : V mu mu' -> arr_rel r C C' ->
  res_rel r (ggaussian_log_likelihood N ga data mu C il method) (ggaussian_log_likelihood M gb data mu' C' il method).
Proof.
  intros Hm HC. unfold ggaussian_log_likelihood. cbv zeta.
  assert (HRr : V (gvsub N mu (map (cst N) data)) (gvsub M mu' (map (cst M) data))) by (apply q_vsub; [ exact Hm | now apply (p_cst_list N M r HR) ]).
  set (u := gvsub N mu (map (cst N) data)) in *. set (u' := gvsub M mu' (map (cst M) data)) in *. rewrite (f2_len r _ _ HRr), (q_is_sparse C C' HC).
  apply (rel_bind r).
  - destruct (gis_sparse C').
    + apply (rel_bind (arr_rel r)); [ now apply q_inv | ]. intros Ci Ci' HI.
      apply (rel_bind (arr_rel r)).
      { apply q_dot3; [ cbn [arr_rel]; repeat (split; [ reflexivity | ]); auto | exact HI | cbn [arr_rel]; repeat (split; [ reflexivity | ]) ].
        apply (f2_map r); [ | exact HRr ]. intros; auto. }
      intros x x' Hx. destruct x, x'; cbn [arr_rel] in Hx; try contradiction; try reflexivity. cbn [res_rel]. now apply q_el2.
    + destruct C, C'; cbn [arr_rel] in HC; try contradiction; try (destruct (String.eqb method "inverse"), (String.eqb method "cholesky"); reflexivity).
      destruct HC as (<- & <- & HC). destruct (String.eqb method "inverse"); [ | destruct (String.eqb method "cholesky"); [ | reflexivity ]]; (destruct (negb _); [ reflexivity | ]; destruct (negb _); [ reflexivity | ]); cbn [res_rel].
      * apply q_vdot; [ exact HRr | ]. apply q_mv; [ now apply (lr_inv r ga gb HL) | exact HRr ].
      * apply q_vdot; [ exact HRr | ]. now apply (lr_cho r ga gb HL).
  - intros x x' Hx. destruct (negb il); [ cbn [res_rel]; repeat op | ]. apply (rel_bind r).
    + destruct (gis_sparse C'); [ now apply q_slogdet | ]. destruct C, C'; cbn [arr_rel] in HC; try contradiction; try reflexivity. destruct HC as (<- & <- & HC). cbn [res_rel]. now apply (lr_logdet r ga gb HL).
    + intros y y' Hy. cbn [res_rel]. repeat op.
Qed.
Lemma q_covariance ell probes sig sig' noi f_sky sparse : W sig sig' ->
  res_rel (arr_rel r) (ggaussian_cl_covariance N ell probes sig noi f_sky sparse) (ggaussian_cl_covariance M ell probes sig' noi f_sky sparse).
Proof.
  intros HS. unfold ggaussian_cl_covariance. cbv zeta.
  assert (KO : W (map2 (gvadd N) sig (map (map (cst N)) noi)) (map2 (gvadd M) sig' (map (map (cst M)) noi))).
  { apply (f2_map2 V V); [ intros; now apply (p_vadd N M r HR) | exact HS | apply f2_mapc; intros q; now apply (p_cst_list N M r HR) ]. }
  set (o := map2 (gvadd N) sig _) in *. set (o' := map2 (gvadd M) sig' _) in *. rewrite (f2_len V _ _ KO).
  apply rel_bindc. intros norm. apply rel_bindc. intros blocks.
  assert (KR : W (map (gcov_row N o norm) blocks) (map (gcov_row M o' norm) blocks)).
  { apply f2_mapc. intros [[[x y] z] w]. unfold gcov_row. apply (p_vdiv N M r HR); [ | now apply (p_cst_list N M r HR) ].
    apply (p_vadd N M r HR); apply (p_vmul N M r HR); apply (f2_nth V); auto. }
  rewrite (f2_len V _ _ KR). destruct (negb _); [ reflexivity | ]. destruct sparse; cbn [res_rel arr_rel]; repeat (split; [ reflexivity | ]).
  - now apply f2_chunk.
  - apply f2_concat. apply (f2_map X).
    + intros x y Hx. unfold ghstack. apply f2_tab. intros i. apply f2_concat. apply (f2_map W); [ | exact Hx ]. intros. apply (f2_nth V); auto.
    + apply f2_chunk. apply (f2_map V); [ | exact KR ]. intros x y Hx. apply f2_mapc. intros q. apply (p_vmul N M r HR); [ exact Hx | now apply (p_cst_list N M r HR) ].
Qed.
Lemma q_survey c c' ell probes P P' f_sky sparse data il method : cosmo_rel r c c' -> spectrum_rel r c c' P P' ->
  res_rel r (gsurvey_likelihood N ga c ell probes P f_sky sparse data il method) (gsurvey_likelihood M gb c' ell probes P' f_sky sparse data il method).
Proof.
  intros HC HP. unfold gsurvey_likelihood. apply (rel_bind (pair_rel V (arr_rel r))).
  - unfold ggaussian_cl_covariance_and_mean. apply (rel_bind W); [ now apply q_angular | ]. intros m m' Hm. apply rel_bindc. intros noi.
    apply (rel_bind (arr_rel r)); [ now apply q_covariance | ]. intros C C' HCC. cbn [res_rel]. split; cbn [fst snd]; [ now apply f2_concat | exact HCC ].
  - intros [mu C] [mu' C'] [K1 K2]. cbn [fst snd] in *. now apply q_likelihood.
Qed.
End Likelihood.
End Programs.
