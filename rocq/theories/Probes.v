(** * Model of jax_cosmo/probes.py

    Kernels take the array z and return one row per bin.  Rows are pointwise in z. *)
From Verif Require Import Np Core Integrate Background Redshift Bias.

(** broadcasting of two arrays along their first axis: equal lengths, or one of them of length one *)
Definition bcast {A B C} (f : A -> B -> C) (u : list A) (v : list B) : res (list C) :=
  if Nat.eqb (length u) (length v) then Ok (map2 f u v)
  else match u, v with
       | _, [y] => Ok (map (fun x => f x y) u)
       | [x], _ => Ok (map (fun y => f x y) v)
       | _, _ => Err TypeError
       end.

(** a bias argument: one object or a list of objects (probes.py 91-95, 116-120) *)
Inductive bias_arg := OneBias (b : bias) | BiasList (bs : list bias).
(** a multiplicative bias: one value or a list (probes.py 207-209) *)
Inductive m_arg := MScalar (m : R) | MList (ms : list R).
(** sigma_e: one value or a list (probes.py 221-224) *)
Inductive sigma_arg := SScalar (s : R) | SList (ss : list R).

(** np.argsort of an integer array (stable): positions in order of increasing value *)
Fixpoint insert_by (p : nat * nat) (l : list (nat * nat)) : list (nat * nat) :=
  match l with
  | [] => [p]
  | q :: l' => if Nat.leb (fst p) (fst q) then p :: q :: l' else q :: insert_by p l'
  end.
Definition argsort (l : list nat) : list nat :=
  map snd (fold_right insert_by [] (combine l (seq 0 (length l)))).

(** indices i of a list satisfying a test: [i for i, x in enumerate(l) if test(x)] *)
Definition idx_where {A} (test : A -> bool) (l : list A) : list nat :=
  map fst (filter (fun p => test (snd p)) (combine (seq 0 (length l)) l)).

Definition nz_default : nz := Nz (Delta 0) 0 0 None.
Definition nth_nz (l : list nz) (i : nat) : nz := nth i l nz_default.
(** pz.params[0] of a delta_nz *)
Definition delta_z0 (d : nz) : R := match nz_fam d with Delta z0 => z0 | _ => 0 end.

(** probes.py 75 and 130 *)
Definition ell_factor (ell : R) : R := sqrt ((ell - 1) * ell * (ell + 1) * (ell + 2)) / (ell + 0.5) ^ 2.

(** probes.py 46-53: lensing efficiency of an extended bin at z *)
Definition wl_integrand (c : cosmology) (d : nz) (z z' : R) : R :=
  pz d z' * clip_lo (chi c (z2a z') - chi c (z2a z)) 0 / clip_lo (chi c (z2a z')) 1.0.
Definition wl_extended (c : cosmology) (zmax : R) (d : nz) (z : R) : R :=
  match simps (wl_integrand c d z) z zmax 256 with Ok v => v | Err _ => 0 end * (1.0 + z) * chi c (z2a z).
(** probes.py 57-66: efficiency of a delta bin *)
Definition wl_delta (c : cosmology) (d : nz) (z : R) : R :=
  let z' := delta_z0 d in
  clip_lo (chi c (z2a z') - chi c (z2a z)) 0 / clip_lo (chi c (z2a z')) 1.0 * (1.0 + z) * chi c (z2a z).

(** probes.py 18-76 (weak_lensing_kernel).  @jit: cosmo and pzs go through flatten/unflatten first.  max([]) is a
    ValueError, as is np.concatenate([]) *)
Definition weak_lensing_kernel (cosmo : cosmology) (pzs0 : list nz) (z : list R) (ell : R) : res (list (list R)) :=
  bind (cosmo_jit cosmo) (fun c =>
  let pzs := map nz_jit pzs0 in
  bind (pymax (map nz_zmax pzs)) (fun zmax =>
  let ext := idx_where (fun d => negb (is_delta d)) pzs in
  let del := idx_where is_delta pzs in
  let perm := (ext ++ del)%list in
  let inv := argsort perm in
  let radial := (map (fun i => map (wl_extended c zmax (nth_nz pzs i)) z) ext
                 ++ map (fun i => map (wl_delta c (nth_nz pzs i)) z) del)%list in
  let radial := map (fun i => nth i radial []) inv in
  let constant_factor := 3.0 * const_H0 ^ 2 * Omega_m c / 2.0 / const_c in
  Ok (map (vscale (constant_factor * ell_factor ell)) radial))).

(** probes.py 91-95 / 116-120: rows dndz * b *)
Definition times_bias (c : cosmology) (ba : bias_arg) (z : list R) (dndz : list (list R)) : res (list (list R)) :=
  match ba with
  | OneBias b => Ok (map (fun row => vmul row (map (bias_at b c) z)) dndz)
  | BiasList bs =>
      match bs with
      | [] => Err ValueError                                   (* np.stack([]) *)
      | _ => bcast vmul dndz (map (fun b => map (bias_at b c) z) bs)
      end
  end.

(** probes.py 84-96 / 109-121: the part common to density_kernel and nla_kernel *)
Definition clustering_rows (c : cosmology) (pzs : list nz) (ba : bias_arg) (z : list R) : res (list (list R)) :=
  if existsb is_delta pzs then Err NotImplementedError
  else match pzs with
       | [] => Err ValueError                                  (* np.stack([]) *)
       | _ =>
           let dndz := map (fun d => map (pz d) z) pzs in
           bind (times_bias c ba z dndz) (fun rows =>
           Ok (map (fun row => vmul row (map (fun q => H c (z2a q)) z)) rows))
       end.

(** probes.py 79-101 (density_kernel, @jit); the constant and ell factors are 1 *)
Definition density_kernel (cosmo : cosmology) (pzs0 : list nz) (ba : bias_arg) (z : list R) (ell : R)
  : res (list (list R)) :=
  bind (cosmo_jit cosmo) (fun c =>
  bind (clustering_rows c (map nz_jit pzs0) ba z) (fun rows => Ok (map (vscale (1.0 * 1.0)) rows))).

(** probes.py 104-131 (nla_kernel, @jit) *)
Definition nla_kernel (cosmo : cosmology) (pzs0 : list nz) (ba : bias_arg) (z : list R) (ell : R)
  : res (list (list R)) :=
  bind (cosmo_jit cosmo) (fun c =>
  bind (clustering_rows c (map nz_jit pzs0) ba z) (fun rows =>
  let amp := map (fun q => - (5e-14 * const_rhocrit) * Omega_m c / D c (z2a q)) z in
  Ok (map (fun row => vscale (1.0 * ell_factor ell) (vmul row amp)) rows))).

(** probes.py 134-170: a WeakLensing object: redshift bins, multiplicative bias, optional IA bias, sigma_e *)
Record wl_probe := WL { wl_bins : list nz; wl_m : m_arg; wl_ia : option bias_arg; wl_sigma_e : sigma_arg }.
(** probes.py 228-244: a NumberCounts object; has_rsd is stored and never read *)
Record nc_probe := NC { nc_bins : list nz; nc_bias : bias_arg }.

Definition madd_rows (r1 r2 : list (list R)) : res (list (list R)) := bcast vadd r1 r2.

(** probes.py 207-209 *)
Definition apply_m (m : m_arg) (rows : list (list R)) : res (list (list R)) :=
  match m with
  | MScalar mi => Ok (map (vscale (1.0 + mi)) rows)
  | MList [] => Err ValueError                                 (* np.stack([]) *)
  | MList ms => bcast (fun row mi => vscale (1.0 + mi) row) rows ms
  end.

(** probes.py 190-210 (WeakLensing.kernel) *)
Definition wl_kernel (p : wl_probe) (c : cosmology) (z : list R) (ell : R) : res (list (list R)) :=
  bind (weak_lensing_kernel c (wl_bins p) z ell) (fun k =>
  bind (match wl_ia p with
        | None => Ok k
        | Some b => bind (nla_kernel c (wl_bins p) b z ell) (fun k2 => madd_rows k k2)
        end) (fun k => apply_m (wl_m p) k)).

(** probes.py 212-225 (WeakLensing.noise) *)
Definition wl_noise (p : wl_probe) : res (list R) :=
  let ngals := map gals_per_steradian (wl_bins p) in
  match wl_sigma_e p with
  | SScalar s => Ok (map (fun g => s ^ 2 / g) ngals)
  | SList ss => bcast (fun s g => s ^ 2 / g) ss ngals
  end.

(** probes.py 262-274 (NumberCounts.kernel), 276-283 (noise) *)
Definition nc_kernel (p : nc_probe) (c : cosmology) (z : list R) (ell : R) : res (list (list R)) :=
  density_kernel c (nc_bins p) (nc_bias p) z ell.
Definition nc_noise (p : nc_probe) : list R := map (fun d => 1.0 / gals_per_steradian d) (nc_bins p).

(** a probe of either class *)
Inductive probe := PWL (p : wl_probe) | PNC (p : nc_probe).
Definition bins_of (p : probe) : list nz := match p with PWL q => wl_bins q | PNC q => nc_bins q end.
(** probes.py 172-179, 255-260 (n_tracers) and 181-188, 246-253 (zmax) *)
Definition n_tracers (p : probe) : nat := length (bins_of p).
Definition probe_zmax (p : probe) : res R := pymax (map nz_zmax (bins_of p)).
Definition kernel (p : probe) (c : cosmology) (z : list R) (ell : R) : res (list (list R)) :=
  match p with PWL q => wl_kernel q c z ell | PNC q => nc_kernel q c z ell end.
Definition noise (p : probe) : res (list R) := match p with PWL q => wl_noise q | PNC q => Ok (nc_noise q) end.
