(** * Forward-mode differentiation of probes.py and angular_cl.py

    Differentiation with respect to the cosmology; redshift distributions, biases and multipoles are constants.  Arrays and
    exceptions as in Probes.v and AngularCl.v. *)
From Verif Require Import Np Core Interp Integrate Background Transfer Power Redshift Bias Probes AngularCl GradSpec Ad AdPower.

Section Programs.
Context {A : Type} (N : num A).
Local Infix "+" := (nadd N) : ad_scope.
Local Infix "-" := (nsub N) : ad_scope.
Local Infix "*" := (nmul N) : ad_scope.
Local Infix "/" := (ndiv N) : ad_scope.
Local Notation "x ^ z" := (nipow N x z) : ad_scope.
Local Notation "' x" := (cst N x%R) (at level 1, format "' x") : ad_scope.
Local Open Scope ad_scope.

Definition gvadd (u v : list A) : list A := map2 (nadd N) u v.
Definition gvmul (u v : list A) : list A := map2 (nmul N) u v.
Definition gvdiv (u v : list A) : list A := map2 (ndiv N) u v.
Definition gvscale (x : A) (v : list A) : list A := map (nmul N x) v.
(** integrate.py 163-200 *)
Definition gsimps (f : R -> A) (a b : R) (n : nat) : res A :=
  if Nat.eqb (n mod 2) 1 then Err ValueError
  else
    let dx := ((b - a) / INR n)%R in
    let y := map f (linspace a b (n + 1)) in
    Ok ('(dx / 3) * gsum N (gvadd (gvadd (evens (removelast y)) (gvscale '4 (odds y))) (evens (skipn 2 y)))).
Definition gsimps_rows (nc : nat) (f : list R -> res (list (list A))) (a b : R) (n : nat) : res (list A) :=
  if Nat.eqb (n mod 2) 1 then Err ValueError
  else
    let dx := ((b - a) / INR n)%R in
    bind (f (linspace a b (n + 1))) (fun y =>
    Ok (gvscale '(dx / 3)
         (fold_right gvadd (repeat '0 nc) (map2 gvadd (map2 gvadd (evens (removelast y)) (map (gvscale '4) (odds y))) (evens (skipn 2 y)))))).

(** core.py 75-97: what a jit-compiled function receives *)
Definition gcosmo_jit (c : gcosmo A) : res (gcosmo A) := match ggamma c with Some _ => Err AttributeError | None => Ok c end.

(** bias.py 21-23, 38-40, 56-58 *)
Definition gbias_at (bi : bias) (c : gcosmo A) (z : R) : A :=
  match bi with
  | constant_linear_bias b => 'b * '1
  | inverse_growth_linear_bias b => 'b / gD N c '(z2a z)
  | des_y1_ia_bias am eta z0 => '(am * rpow ((1.0 + z) / (1.0 + z0)) eta)
  end.

(** probes.py 46-66 *)
Definition gclip_lo (x : A) (lo : R) : A := nmax N x 'lo.
Definition gwl_integrand (c : gcosmo A) (d : nz) (z z' : R) : A :=
  '(pz d z') * gclip_lo (gchi N c '(z2a z') - gchi N c '(z2a z)) 0 / gclip_lo (gchi N c '(z2a z')) 1.0.
Definition gwl_extended (c : gcosmo A) (zmax : R) (d : nz) (z : R) : A :=
  match gsimps (gwl_integrand c d z) z zmax 256 with Ok v => v | Err _ => '0 end * '(1.0 + z) * gchi N c '(z2a z).
Definition gwl_delta (c : gcosmo A) (d : nz) (z : R) : A :=
  let z' := delta_z0 d in
  gclip_lo (gchi N c '(z2a z') - gchi N c '(z2a z)) 0 / gclip_lo (gchi N c '(z2a z')) 1.0 * '(1.0 + z) * gchi N c '(z2a z).
(** probes.py 18-76 *)
Definition gweak_lensing_kernel (cosmo : gcosmo A) (pzs0 : list nz) (z : list R) (ell : R) : res (list (list A)) :=
  bind (gcosmo_jit cosmo) (fun c =>
  let pzs := map nz_jit pzs0 in
  bind (pymax (map nz_zmax pzs)) (fun zmax =>
  let ext := idx_where (fun d => negb (is_delta d)) pzs in
  let del := idx_where is_delta pzs in
  let perm := (ext ++ del)%list in
  let inv := argsort perm in
  let radial := (map (fun i => map (gwl_extended c zmax (nth_nz pzs i)) z) ext
                 ++ map (fun i => map (gwl_delta c (nth_nz pzs i)) z) del)%list in
  let radial := map (fun i => nth i radial []) inv in
  let constant_factor := '(3.0 * const_H0 ^ 2) * gOmega_m N c / '2.0 / 'const_c in
  Ok (map (gvscale (constant_factor * '(ell_factor ell))) radial))).

(** probes.py 79-131 *)
Definition gtimes_bias (c : gcosmo A) (ba : bias_arg) (z : list R) (dndz : list (list A)) : res (list (list A)) :=
  match ba with
  | OneBias b => Ok (map (fun row => gvmul row (map (gbias_at b c) z)) dndz)
  | BiasList bs =>
      match bs with
      | [] => Err ValueError
      | _ => bcast gvmul dndz (map (fun b => map (gbias_at b c) z) bs)
      end
  end.
Definition gclustering_rows (c : gcosmo A) (pzs : list nz) (ba : bias_arg) (z : list R) : res (list (list A)) :=
  if existsb is_delta pzs then Err NotImplementedError
  else match pzs with
       | [] => Err ValueError
       | _ =>
           let dndz := map (fun d => map (fun q => '(pz d q)) z) pzs in
           bind (gtimes_bias c ba z dndz) (fun rows =>
           Ok (map (fun row => gvmul row (map (fun q => gH N c '(z2a q)) z)) rows))
       end.
Definition gdensity_kernel (cosmo : gcosmo A) (pzs0 : list nz) (ba : bias_arg) (z : list R) (ell : R) : res (list (list A)) :=
  bind (gcosmo_jit cosmo) (fun c =>
  bind (gclustering_rows c (map nz_jit pzs0) ba z) (fun rows => Ok (map (gvscale '(1.0 * 1.0)) rows))).
Definition gnla_kernel (cosmo : gcosmo A) (pzs0 : list nz) (ba : bias_arg) (z : list R) (ell : R) : res (list (list A)) :=
  bind (gcosmo_jit cosmo) (fun c =>
  bind (gclustering_rows c (map nz_jit pzs0) ba z) (fun rows =>
  let amp := map (fun q => '(- (5e-14 * const_rhocrit)) * gOmega_m N c / gD N c '(z2a q)) z in
  Ok (map (fun row => gvscale '(1.0 * ell_factor ell) (gvmul row amp)) rows))).

(** probes.py 190-210, 262-274 *)
Definition gapply_m (m : m_arg) (rows : list (list A)) : res (list (list A)) :=
  match m with
  | MScalar mi => Ok (map (gvscale '(1.0 + mi)) rows)
  | MList [] => Err ValueError
  | MList ms => bcast (fun row mi => gvscale '(1.0 + mi) row) rows ms
  end.
Definition gwl_kernel (p : wl_probe) (c : gcosmo A) (z : list R) (ell : R) : res (list (list A)) :=
  bind (gweak_lensing_kernel c (wl_bins p) z ell) (fun k =>
  bind (match wl_ia p with
        | None => Ok k
        | Some b => bind (gnla_kernel c (wl_bins p) b z ell) (fun k2 => bcast gvadd k k2)
        end) (fun k => gapply_m (wl_m p) k)).
Definition gkernel (p : probe) (c : gcosmo A) (z : list R) (ell : R) : res (list (list A)) :=
  match p with PWL q => gwl_kernel q c z ell | PNC q => gdensity_kernel c (nc_bins q) (nc_bias q) z ell end.

(** angular_cl.py 70-101; [P] is the power spectrum, nonlinear_fn with its transfer function *)
Definition gspectrum := gcosmo A -> A -> A -> A.
Definition gcl_integrand (c : gcosmo A) (probes : list probe) (P : gspectrum) (ell : R) (a : list R) : res (list (list A)) :=
  let chis := map (fun q => gchi N c 'q) a in
  let k := map (fun x => '(ell + 0.5) / gclip_lo x 1.0) chis in
  let pk := map2 (fun kk aa => P c kk 'aa) k a in
  bind (mapM (fun p => gkernel p c (map a2z a) ell) probes) (fun ks =>
  let kernels := concat ks in
  let comb := map (fun ij => gvmul (nth (fst ij) kernels []) (nth (snd ij) kernels [])) (get_cl_ordering probes) in
  let wt := map (fun aa => gdchioverda N c 'aa) a in
  let cl2 := map (fun x => gclip_lo (x ^ 2) 1.0) chis in
  let result := map (fun row => gvdiv (gvmul (gvmul pk row) wt) cl2) comb in
  Ok (tab (length a) (fun q => map (fun row => nth q row '0) result))).
Definition gcl_one (c : gcosmo A) (probes : list probe) (P : gspectrum) (zmax ell : R) : res (list A) :=
  bind (gsimps_rows (length (get_cl_ordering probes)) (gcl_integrand c probes P ell) (z2a zmax) 1.0 512) (fun v =>
  Ok (map (fun x => x / '(const_c ^ 2)) v)).
Definition gangular_cl (c : gcosmo A) (ell : array_like) (probes : list probe) (P : gspectrum) : res (list (list A)) :=
  bind (mapM probe_zmax probes) (fun zs =>
  bind (pymax zs) (fun zmax =>
  match ell with
  | Scalar _ => Err ValueError
  | Array1 ells =>
      bind (mapM (gcl_one c probes P zmax) ells) (fun cols =>
      Ok (stack1 '0 (length (get_cl_ordering probes)) cols))
  end)).
End Programs.
