(** * Forward-mode differentiation with respect to redshift distributions, biases and calibrations

    redshift.py, bias.py, probes.py and angular_cl.py once more, over an arbitrary type of numbers: unlike in AdProbes.v the
    traceable parameters of the probes are such numbers, next to those of the cosmology.  zmax, bw and sigma_e are
    configuration, not traced.  The objects are built inside the differentiated function or by tree_unflatten, so no
    normalisation is cached (AdProbes.v and Redshift.v).  lax.pow: x ** y at x = 0 has the tangent of its formula with log 1
    for log 0, the [ln 0 = 0] of [num_dual]; 0 ** y is infinite for y < 0, so programs that form it are not covered (the
    theorems keep exponents at 1 or above; AdNan.v has numbers with infinities). *)
From Verif Require Import Np Core Interp Integrate Background Transfer Power Redshift Bias Probes AngularCl GradSpec Ad AdPower AdProbes.

(** redshift.py 16-21, 62-146: class with parameters, gals_per_arcmin2, config["zmax"] *)
Inductive gnz (A : Type) :=
  | GNz (f : gfam A) (gals_per_arcmin2 : A) (zmax : R)
with gfam (A : Type) :=
  | GSmail (a b z0 : A)
  | GDelta (z0 : A)
  | GKde (zcat weights : list A) (bw : R)
  | GShift (parent : gnz A) (bias : A).
Arguments GNz {A}. Arguments GSmail {A}. Arguments GDelta {A}. Arguments GKde {A}. Arguments GShift {A}.
Definition gnz_fam {A} (d : gnz A) := match d with GNz f _ _ => f end.
Definition gnz_gals {A} (d : gnz A) := match d with GNz _ g _ => g end.
Definition gnz_zmax {A} (d : gnz A) := match d with GNz _ _ z => z end.
Definition gis_delta {A} (d : gnz A) : bool := match gnz_fam d with GDelta _ => true | _ => false end.

(** bias.py 11-58 *)
Inductive gbias (A : Type) :=
  | gconstant_linear_bias (b : A)
  | ginverse_growth_linear_bias (b : A)
  | gdes_y1_ia_bias (am eta z0 : A).
Arguments gconstant_linear_bias {A}. Arguments ginverse_growth_linear_bias {A}. Arguments gdes_y1_ia_bias {A}.
(** probes.py 91-95, 116-120, 207-209 *)
Inductive gbias_arg (A : Type) := GOneBias (b : gbias A) | GBiasList (bs : list (gbias A)).
Inductive gm_arg (A : Type) := GMScalar (m : A) | GMList (ms : list A).
Arguments GOneBias {A}. Arguments GBiasList {A}. Arguments GMScalar {A}. Arguments GMList {A}.
(** probes.py 134-170, 228-244 *)
Record gwl_probe (A : Type) := GWL { gwl_bins : list (gnz A); gwl_m : gm_arg A; gwl_ia : option (gbias_arg A); gwl_sigma_e : sigma_arg }.
Record gnc_probe (A : Type) := GNC { gnc_bins : list (gnz A); gnc_bias : gbias_arg A }.
Arguments GWL {A}. Arguments gwl_bins {A}. Arguments gwl_m {A}. Arguments gwl_ia {A}. Arguments gwl_sigma_e {A}.
Arguments GNC {A}. Arguments gnc_bins {A}. Arguments gnc_bias {A}.
Inductive gprobe (A : Type) := GPWL (p : gwl_probe A) | GPNC (p : gnc_probe A).
Arguments GPWL {A}. Arguments GPNC {A}.
Definition gbins_of {A} (p : gprobe A) : list (gnz A) := match p with GPWL q => gwl_bins q | GPNC q => gnc_bins q end.

Section Programs.
Context {A : Type} (N : num A).
Local Infix "+" := (nadd N) : ad_scope.
Local Infix "-" := (nsub N) : ad_scope.
Local Infix "*" := (nmul N) : ad_scope.
Local Infix "/" := (ndiv N) : ad_scope.
Local Notation "- x" := (nneg N x) : ad_scope.
Local Notation "x ^ z" := (nipow N x z) : ad_scope.
Local Notation "' x" := (cst N x%R) (at level 1, format "' x") : ad_scope.
Local Open Scope ad_scope.

(** redshift.py 118-122; bw is a python float *)
Definition hkde_kernel (bw : R) (X x : A) : A :=
  '(1.0 / sqrt (2 * PI) / bw) * nexp N (- ((X - x) ^ 2) / '(bw ^ 2 * 2.0)).
(** redshift.py 76-78, 94-96, 124-131, 144-146 *)
Fixpoint hpz_fn (d : gnz A) (z : A) : A := match d with GNz f _ _ => hfam_pz f z end
with hfam_pz (f : gfam A) (z : A) : A :=
  match f with
  | GSmail a b z0 => npow N z a * nexp N (- npow N (z / z0) b)
  | GDelta z0 => '(if Req_EM_T (val N z) (val N z0) then 1.0 else 0)
  | GKde zcat wt bw => gsum N (gvmul N (map (fun X => hkde_kernel bw X z) zcat) wt) / gsum N wt
  | GShift parent b => hpz_fn parent (gclip_lo N (z - b) 0)
  end.
(** redshift.py 28-32, 89-92 *)
Definition hnz_norm (d : gnz A) : A :=
  if gis_delta d then '1.0 else match gsimps N (fun q => hpz_fn d 'q) 0.0 (gnz_zmax d) 256 with Ok v => v | Err _ => '0 end.
Definition hpz (d : gnz A) (z : R) : A := hpz_fn d 'z / hnz_norm d.

(** bias.py 21-23, 38-40, 56-58 *)
Definition hbias_at (bi : gbias A) (c : gcosmo A) (z : R) : A :=
  match bi with
  | gconstant_linear_bias b => b * '1
  | ginverse_growth_linear_bias b => b / gD N c '(z2a z)
  | gdes_y1_ia_bias am eta z0 => am * npow N ('(1.0 + z) / ('1.0 + z0)) eta
  end.

(** probes.py 46-66; utils.py 4-6 for the scale factor of a delta source *)
Definition hdelta_z0 (d : gnz A) : A := match gnz_fam d with GDelta z0 => z0 | _ => '0 end.
Definition hz2a (z : A) : A := '1.0 / ('1.0 + z).
Definition hwl_integrand (c : gcosmo A) (d : gnz A) (z z' : R) : A :=
  hpz d z' * gclip_lo N (gchi N c '(z2a z') - gchi N c '(z2a z)) 0 / gclip_lo N (gchi N c '(z2a z')) 1.0.
Definition hwl_extended (c : gcosmo A) (zmax : R) (d : gnz A) (z : R) : A :=
  match gsimps N (hwl_integrand c d z) z zmax 256 with Ok v => v | Err _ => '0 end * '(1.0 + z) * gchi N c '(z2a z).
Definition hwl_delta (c : gcosmo A) (d : gnz A) (z : R) : A :=
  let z' := hdelta_z0 d in
  gclip_lo N (gchi N c (hz2a z') - gchi N c '(z2a z)) 0 / gclip_lo N (gchi N c (hz2a z')) 1.0 * '(1.0 + z) * gchi N c '(z2a z).
(** probes.py 18-76 *)
Definition gnz_default : gnz A := GNz (GDelta '0) '0 0.
Definition nth_gnz (l : list (gnz A)) (i : nat) : gnz A := nth i l gnz_default.
Definition hweak_lensing_kernel (cosmo : gcosmo A) (pzs : list (gnz A)) (z : list R) (ell : R) : res (list (list A)) :=
  bind (gcosmo_jit cosmo) (fun c =>
  bind (pymax (map gnz_zmax pzs)) (fun zmax =>
  let ext := idx_where (fun d => negb (gis_delta d)) pzs in
  let del := idx_where gis_delta pzs in
  let perm := (ext ++ del)%list in
  let inv := argsort perm in
  let radial := (map (fun i => map (hwl_extended c zmax (nth_gnz pzs i)) z) ext
                 ++ map (fun i => map (hwl_delta c (nth_gnz pzs i)) z) del)%list in
  let radial := map (fun i => nth i radial []) inv in
  let constant_factor := '(3.0 * const_H0 ^ 2) * gOmega_m N c / '2.0 / 'const_c in
  Ok (map (gvscale N (constant_factor * '(ell_factor ell))) radial))).

(** probes.py 79-131 *)
Definition htimes_bias (c : gcosmo A) (ba : gbias_arg A) (z : list R) (dndz : list (list A)) : res (list (list A)) :=
  match ba with
  | GOneBias b => Ok (map (fun row => gvmul N row (map (hbias_at b c) z)) dndz)
  | GBiasList bs =>
      match bs with
      | [] => Err ValueError
      | _ => bcast (gvmul N) dndz (map (fun b => map (hbias_at b c) z) bs)
      end
  end.
Definition hclustering_rows (c : gcosmo A) (pzs : list (gnz A)) (ba : gbias_arg A) (z : list R) : res (list (list A)) :=
  if existsb gis_delta pzs then Err NotImplementedError
  else match pzs with
       | [] => Err ValueError
       | _ =>
           let dndz := map (fun d => map (hpz d) z) pzs in
           bind (htimes_bias c ba z dndz) (fun rows =>
           Ok (map (fun row => gvmul N row (map (fun q => gH N c '(z2a q)) z)) rows))
       end.
Definition hdensity_kernel (cosmo : gcosmo A) (pzs : list (gnz A)) (ba : gbias_arg A) (z : list R) (ell : R) : res (list (list A)) :=
  bind (gcosmo_jit cosmo) (fun c =>
  bind (hclustering_rows c pzs ba z) (fun rows => Ok (map (gvscale N '(1.0 * 1.0)) rows))).
Definition hnla_kernel (cosmo : gcosmo A) (pzs : list (gnz A)) (ba : gbias_arg A) (z : list R) (ell : R) : res (list (list A)) :=
  bind (gcosmo_jit cosmo) (fun c =>
  bind (hclustering_rows c pzs ba z) (fun rows =>
  let amp := map (fun q => '(Ropp (5e-14 * const_rhocrit)) * gOmega_m N c / gD N c '(z2a q)) z in
  Ok (map (fun row => gvscale N '(1.0 * ell_factor ell) (gvmul N row amp)) rows))).

(** probes.py 190-210, 262-274 *)
Definition happly_m (m : gm_arg A) (rows : list (list A)) : res (list (list A)) :=
  match m with
  | GMScalar mi => Ok (map (gvscale N ('1.0 + mi)) rows)
  | GMList [] => Err ValueError
  | GMList ms => bcast (fun row mi => gvscale N ('1.0 + mi) row) rows ms
  end.
Definition hwl_kernel (p : gwl_probe A) (c : gcosmo A) (z : list R) (ell : R) : res (list (list A)) :=
  bind (hweak_lensing_kernel c (gwl_bins p) z ell) (fun k =>
  bind (match gwl_ia p with
        | None => Ok k
        | Some b => bind (hnla_kernel c (gwl_bins p) b z ell) (fun k2 => bcast (gvadd N) k k2)
        end) (fun k => happly_m (gwl_m p) k)).
Definition hkernel (p : gprobe A) (c : gcosmo A) (z : list R) (ell : R) : res (list (list A)) :=
  match p with GPWL q => hwl_kernel q c z ell | GPNC q => hdensity_kernel c (gnc_bins q) (gnc_bias q) z ell end.

(** angular_cl.py 18-28, 70-101 *)
Definition hcl_ordering (probes : list (gprobe A)) : list (nat * nat) := cl_ordering (list_sum (map (fun p => length (gbins_of p)) probes)).
Definition hcl_integrand (c : gcosmo A) (probes : list (gprobe A)) (P : gspectrum (A := A)) (ell : R) (a : list R) : res (list (list A)) :=
  let chis := map (fun q => gchi N c 'q) a in
  let k := map (fun x => '(ell + 0.5) / gclip_lo N x 1.0) chis in
  let pk := map2 (fun kk aa => P c kk 'aa) k a in
  bind (mapM (fun p => hkernel p c (map a2z a) ell) probes) (fun ks =>
  let kernels := concat ks in
  let comb := map (fun ij => gvmul N (nth (fst ij) kernels []) (nth (snd ij) kernels [])) (hcl_ordering probes) in
  let wt := map (fun aa => gdchioverda N c 'aa) a in
  let cl2 := map (fun x => gclip_lo N (x ^ 2) 1.0) chis in
  let result := map (fun row => gvdiv N (gvmul N (gvmul N pk row) wt) cl2) comb in
  Ok (tab (length a) (fun q => map (fun row => nth q row '0) result))).
Definition hcl_one (c : gcosmo A) (probes : list (gprobe A)) (P : gspectrum (A := A)) (zmax ell : R) : res (list A) :=
  bind (gsimps_rows N (length (hcl_ordering probes)) (hcl_integrand c probes P ell) (z2a zmax) 1.0 512) (fun v =>
  Ok (map (fun x => x / '(const_c ^ 2)) v)).
Definition hangular_cl (c : gcosmo A) (ell : array_like) (probes : list (gprobe A)) (P : gspectrum (A := A)) : res (list (list A)) :=
  bind (mapM (fun p => pymax (map gnz_zmax (gbins_of p))) probes) (fun zs =>
  bind (pymax zs) (fun zmax =>
  match ell with
  | Scalar _ => Err ValueError
  | Array1 ells =>
      bind (mapM (hcl_one c probes P zmax) ells) (fun cols =>
      Ok (stack1 '0 (length (hcl_ordering probes)) cols))
  end)).
End Programs.

(** the objects whose parameters are read off those of [d] by [v] *)
Section Read.
Context {A : Type} (v : A -> R).
Fixpoint read_nz (d : gnz A) : nz := match d with GNz f g zm => nz_new (read_fam f) (v g) zm end
with read_fam (f : gfam A) : nz_family :=
  match f with
  | GSmail a b z0 => Smail (v a) (v b) (v z0)
  | GDelta z0 => Delta (v z0)
  | GKde zcat wt bw => Kde (map v zcat) (map v wt) bw
  | GShift p b => Shift (read_nz p) (v b)
  end.
Definition read_bias (b : gbias A) : bias :=
  match b with
  | gconstant_linear_bias b => constant_linear_bias (v b)
  | ginverse_growth_linear_bias b => inverse_growth_linear_bias (v b)
  | gdes_y1_ia_bias am eta z0 => des_y1_ia_bias (v am) (v eta) (v z0)
  end.
Definition read_bias_arg (b : gbias_arg A) : bias_arg := match b with GOneBias b => OneBias (read_bias b) | GBiasList bs => BiasList (map read_bias bs) end.
Definition read_m (m : gm_arg A) : m_arg := match m with GMScalar m => MScalar (v m) | GMList ms => MList (map v ms) end.
Definition read_probe (p : gprobe A) : probe :=
  match p with
  | GPWL q => PWL (WL (map read_nz (gwl_bins q)) (read_m (gwl_m q)) (option_map read_bias_arg (gwl_ia q)) (gwl_sigma_e q))
  | GPNC q => PNC (NC (map read_nz (gnc_bins q)) (read_bias_arg (gnc_bias q)))
  end.
End Read.
