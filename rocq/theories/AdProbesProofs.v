(** * Kernels and Limber spectra: the generic programs follow curves of cosmologies *)
From Verif Require Import Np NpLemmas Core Interp Integrate Background Transfer Power Redshift Bias Probes AngularCl GradSpec Ad AdPower AdProbes AdRel.

(** scale factors at which a tabulated function is queried: the Limber nodes, the nodes of the lensing efficiency and the
    delta sources *)
Definition limber_nodes (zmax : R) : list R := linspace (z2a zmax) 1.0 513.
Definition source_nodes (pzs : list nz) (z : R) (a : R) : Prop :=
  (exists zm z', pymax (map nz_zmax (map nz_jit pzs)) = Ok zm /\ In z' (linspace z zm 257) /\ a = z2a z') \/
  (exists d, In d (map nz_jit pzs) /\ is_delta d = true /\ a = z2a (delta_z0 d)).

Section Follow.
Context {A : Type} (N : num A) (rel : (R -> R) -> A -> Prop).
Hypotheses (r_resp : respects rel) (r_cst : forall x, rel (fun _ => x) (cst N x))
  (r_add : forall f h x y, rel f x -> rel h y -> rel (fun s => f s + h s) (nadd N x y))
  (r_mul : forall f h x y, rel f x -> rel h y -> rel (fun s => f s * h s) (nmul N x y))
  (r_div : forall f h x y, h 0 <> 0 -> rel f x -> rel h y -> rel (fun s => f s / h s) (ndiv N x y)).
Variables (C : R -> cosmology) (g : gcosmo A).
Hypotheses (h_jit : forall s, cosmo_jit (C s) = Ok (C s)) (h_gjit : gcosmo_jit g = Ok g).
Hypothesis l_Om : rel (fun s => Omega_m (C s)) (gOmega_m N g).
Local Notation "' x" := (cst N x%R) (at level 1, format "' x").
Definition vrel := lr rel.
Definition mrel := lr (lr rel).

Lemma f_vadd f h x y : vrel f x -> vrel h y -> vrel (fun s => vadd (f s) (h s)) (gvadd N x y).
Proof. apply (lr_map2 rel rel rel (fun _ => Rplus) (nadd N)). intros; now apply r_add. Qed.
Lemma f_vmul f h x y : vrel f x -> vrel h y -> vrel (fun s => vmul (f s) (h s)) (gvmul N x y).
Proof. apply (lr_map2 rel rel rel (fun _ => Rmult) (nmul N)). intros; now apply r_mul. Qed.
Lemma f_vscale k kd f x : rel k kd -> vrel f x -> vrel (fun s => vscale (k s) (f s)) (gvscale N kd x).
Proof. intros Hk. apply (lr_map rel rel (fun s => Rmult (k s)) (nmul N kd)). intros; now apply r_mul. Qed.
Lemma f_vsum f x : vrel f x -> rel (fun s => vsum (f s)) (gsum N x).
Proof. apply (lr_fold rel rel (fun _ => Rplus) (nadd N) f x (fun _ => 0) '0 r_resp); [ intros; now apply r_add | apply r_cst ]. Qed.
Lemma f_simps f gf a b n : (forall x, In x (linspace a b (n + 1)) -> rel (fun s => f s x) (gf x)) ->
  rr rel (fun s => simps (f s) a b n) (gsimps N gf a b n).
Proof.
  intros HF. unfold simps, gsimps. destruct (Nat.eqb (n mod 2) 1); [ apply rr_err' | ]. cbv zeta. apply rr_ok'.
  assert (HY := lr_mapc rel f gf (linspace a b (n + 1)) HF). apply r_mul; [ apply r_cst | ]. apply f_vsum.
  apply f_vadd; [ apply f_vadd | ]; [ now apply lr_evens, lr_removelast | apply (f_vscale (fun _ => 4)); [ apply r_cst | now apply lr_odds ] | now apply lr_evens, lr_skipn ].
Qed.
Lemma f_simps_rows nc f gf a b n : rr mrel (fun s => f s (linspace a b (n + 1))) (gf (linspace a b (n + 1))) ->
  rr vrel (fun s => simps_rows nc (f s) a b n) (gsimps_rows N nc gf a b n).
Proof.
  intros HF. unfold simps_rows, gsimps_rows. destruct (Nat.eqb (n mod 2) 1); [ apply rr_err' | ]. cbv zeta.
  apply (rr_bind mrel vrel _ _ (fun s y => Ok (vscale ((b - a) / INR n / 3) (sum0 nc (madd (madd (evens (removelast y)) (map (vscale 4) (odds y))) (evens (skipn 2 y))))))); [ exact HF | ].
  intros x y HY. apply rr_ok'. apply (f_vscale (fun _ => (b - a) / INR n / 3)); [ apply r_cst | ]. unfold sum0.
  apply (lr_fold vrel vrel (fun _ => vadd) (gvadd N) _ _ (fun _ => repeat 0 nc)); [ apply lr_respects | intros; now apply f_vadd | apply (lr_repeat rel (fun _ => 0)), r_cst | ].
  unfold madd. apply (lr_map2 vrel vrel vrel (fun _ => vadd)); [ intros; now apply f_vadd | | now apply lr_evens, lr_skipn ].
  apply (lr_map2 vrel vrel vrel (fun _ => vadd)); [ intros; now apply f_vadd | now apply lr_evens, lr_removelast | ].
  apply (lr_map vrel vrel (fun _ => vscale 4)); [ | now apply lr_odds ]. intros u v Hu. apply (f_vscale (fun _ => 4)); [ apply r_cst | exact Hu ].
Qed.

(** ** kernels at redshifts z *)
Variable z : list R.
Variable src : R -> Prop.
Hypotheses (l_chi : forall q, In q z -> rel (fun s => chi (C s) (z2a q)) (gchi N g '(z2a q)))
  (l_dif : forall q a, In q z -> src a -> rel (fun s => clip_lo (chi (C s) a - chi (C s) (z2a q)) 0) (gclip_lo N (nsub N (gchi N g 'a) (gchi N g '(z2a q))) 0))
  (l_clip : forall a, src a -> rel (fun s => clip_lo (chi (C s) a) 1.0) (gclip_lo N (gchi N g 'a) 1.0))
  (l_D : forall q, In q z -> rel (fun s => D (C s) (z2a q)) (gD N g '(z2a q)))
  (l_D0 : forall q, In q z -> D (C 0) (z2a q) <> 0)
  (l_H : forall q, In q z -> rel (fun s => H (C s) (z2a q)) (gH N g '(z2a q))).
Lemma clip1_pos x : clip_lo x 1.0 <> 0.
Proof. unfold clip_lo. pose proof (Rmax_r x 1.0). lra. Qed.
Lemma f_efficiency d q z' : In q z -> src (z2a z') -> rel (fun s => wl_integrand (C s) d q z') (gwl_integrand N g d q z').
Proof.
  intros Hq Hs. unfold wl_integrand, gwl_integrand. apply r_div; [ apply clip1_pos | | now apply l_clip ].
  apply (r_mul (fun _ => pz d z')); [ apply r_cst | now apply l_dif ].
Qed.
Lemma f_extended zmax d q : In q z -> (forall z', In z' (linspace q zmax 257) -> src (z2a z')) -> rel (fun s => wl_extended (C s) zmax d q) (gwl_extended N g zmax d q).
Proof.
  intros Hq Hs. unfold wl_extended, gwl_extended. apply r_mul; [ apply (r_mul _ (fun _ => 1.0 + q)); [ | apply r_cst ] | now apply l_chi ].
  assert (HR := f_simps (fun s => wl_integrand (C s) d q) (gwl_integrand N g d q) q zmax 256 (fun z' Hz => f_efficiency d q z' Hq (Hs z' Hz))).
  destruct (rr_cases _ _ _ HR) as [(x & y & Ey & E & P) | (e & Ee & E)]; [ rewrite Ey; apply (r_resp x); [ intros s; now rewrite E | exact P ] | rewrite Ee; apply (r_resp (fun _ => 0)); [ intros s; now rewrite E | apply r_cst ] ].
Qed.
Lemma f_delta d q : In q z -> src (z2a (delta_z0 d)) -> rel (fun s => wl_delta (C s) d q) (gwl_delta N g d q).
Proof.
  intros Hq Hs. unfold wl_delta, gwl_delta. cbv zeta. apply r_mul; [ apply (r_mul _ (fun _ => 1.0 + q)); [ | apply r_cst ] | now apply l_chi ].
  apply r_div; [ apply clip1_pos | now apply l_dif | now apply l_clip ].
Qed.
Lemma idx_where_in {X} (test : X -> bool) l d i : In i (idx_where test l) -> In (nth i l d) l /\ test (nth i l d) = true.
Proof.
  unfold idx_where. rewrite in_map_iff. intros ((j & x) & <- & H). apply filter_In in H. destruct H as [H Ht]. cbn [fst snd] in *.
  assert (G : forall l k, In (j, x) (combine (seq k (length l)) l) -> (k <= j < k + length l)%nat /\ nth (j - k) l d = x).
  { clear. induction l as [ | y l IH]; intros k; [ easy | ]. cbn [length seq combine]. intros [E | H].
    - injection E as -> ->. split; [ cbn [length]; lia | ]. now rewrite Nat.sub_diag.
    - destruct (IH _ H) as [H1 H2]. split; [ cbn [length]; lia | ]. replace (j - k)%nat with (S (j - S k)) by lia. exact H2. }
  destruct (G l 0%nat H) as [HJ E]. rewrite Nat.sub_0_r in E. rewrite E. split; [ rewrite <- E; apply nth_In; lia | exact Ht ].
Qed.
Lemma f_weak_lensing pzs ell : (forall q a, In q z -> source_nodes pzs q a -> src a) ->
  rr mrel (fun s => weak_lensing_kernel (C s) pzs z ell) (gweak_lensing_kernel N g pzs z ell).
Proof.
  intros HS. unfold gweak_lensing_kernel. rewrite h_gjit. cbn [bind].
  apply (rr_respects _ (fun s => bind (pymax (map nz_zmax (map nz_jit pzs))) (fun zmax =>
    Ok (map (vscale (3.0 * const_H0 ^ 2 * Omega_m (C s) / 2.0 / const_c * ell_factor ell))
      (map (fun i => nth i (map (fun i => map (wl_extended (C s) zmax (nth_nz (map nz_jit pzs) i)) z) (idx_where (fun d => negb (is_delta d)) (map nz_jit pzs)) ++
        map (fun i => map (wl_delta (C s) (nth_nz (map nz_jit pzs) i)) z) (idx_where is_delta (map nz_jit pzs)))%list [])
        (argsort (idx_where (fun d => negb (is_delta d)) (map nz_jit pzs) ++ idx_where is_delta (map nz_jit pzs))%list))))));
    [ intros s; unfold weak_lensing_kernel; rewrite h_jit; reflexivity | ].
  apply (rr_bindc mrel). intros zmax Ez. cbv zeta.
  apply rr_ok'. apply (lr_map vrel vrel (fun s => vscale (3.0 * const_H0 ^ 2 * Omega_m (C s) / 2.0 / const_c * ell_factor ell))).
  - intros u v. apply f_vscale. apply (r_mul _ (fun _ => ell_factor ell)); [ | apply r_cst ].
    apply (r_div _ (fun _ => const_c)); [ unfold const_c; lra | | apply r_cst ]. apply (r_div _ (fun _ => 2.0)); [ lra | | apply r_cst ].
    apply (r_mul (fun _ => 3.0 * const_H0 ^ 2)); [ apply r_cst | exact l_Om ].
  - apply lr_mapc. intros i _. apply (lr_nth vrel); [ apply lr_respects | apply lr_nil' | ].
    apply lr_app; apply (lr_mapc vrel); intros j Hj; apply (lr_mapc rel); intros q Hq.
    + apply f_extended; [ exact Hq | ]. intros z' Hz. apply (HS q); [ exact Hq | ]. left. exists zmax, z'. auto.
    + apply f_delta; [ exact Hq | ]. apply (HS q); [ exact Hq | ]. right. exists (nth_nz (map nz_jit pzs) j).
      destruct (idx_where_in is_delta (map nz_jit pzs) nz_default j Hj) as [H1 H2]. auto.
Qed.
Lemma f_bias b q : In q z -> rel (fun s => bias_at b (C s) q) (gbias_at N b g q).
Proof.
  intros Hq. destruct b as [b | b | am eta z0]; cbn [bias_at gbias_at].
  - apply (r_mul (fun _ => b) (fun _ => 1)); apply r_cst.
  - apply (r_div (fun _ => b)); [ now apply l_D0 | apply r_cst | now apply l_D ].
  - apply r_cst.
Qed.
Lemma f_times_bias ba f x : mrel f x -> rr mrel (fun s => times_bias (C s) ba z (f s)) (gtimes_bias N g ba z x).
Proof.
  intros Hf. destruct ba as [b | [ | b bs]]; cbn [times_bias gtimes_bias]; [ | apply rr_err' | ].
  - apply rr_ok'. apply (lr_map vrel vrel (fun s row => vmul row (map (bias_at b (C s)) z))); [ | exact Hf ].
    intros u v Hu. apply f_vmul; [ exact Hu | ]. apply (lr_mapc rel). intros q Hq. now apply f_bias.
  - apply (rr_bcast vrel vrel vrel vmul (gvmul N)); [ intros; now apply f_vmul | exact Hf | ].
    apply (lr_mapc vrel (fun s b0 => map (bias_at b0 (C s)) z)). intros b' _. apply (lr_mapc rel). intros q Hq. now apply f_bias.
Qed.
Lemma f_clustering pzs ba : rr mrel (fun s => clustering_rows (C s) pzs ba z) (gclustering_rows N g pzs ba z).
Proof.
  unfold clustering_rows, gclustering_rows. destruct (existsb is_delta pzs); [ apply rr_err' | ]. destruct pzs as [ | d pzs]; [ apply rr_err' | ]. cbv zeta.
  apply (rr_bind mrel mrel _ _ (fun s rows => Ok (map (fun row => vmul row (map (fun q => H (C s) (z2a q)) z)) rows))).
  - apply (f_times_bias ba (fun _ => map (fun d0 => map (pz d0) z) (d :: pzs))). apply (lr_mapc vrel (fun _ d0 => map (pz d0) z)). intros d0 _. apply (lr_mapc rel (fun _ => pz d0)). intros q _. apply r_cst.
  - intros x y Hx. apply rr_ok'. apply (lr_map vrel vrel (fun s row => vmul row (map (fun q => H (C s) (z2a q)) z))); [ | exact Hx ].
    intros u v Hu. apply f_vmul; [ exact Hu | ]. apply (lr_mapc rel (fun s q => H (C s) (z2a q))). intros q Hq. now apply l_H.
Qed.
Lemma f_density pzs ba ell : rr mrel (fun s => density_kernel (C s) pzs ba z ell) (gdensity_kernel N g pzs ba z ell).
Proof.
  unfold gdensity_kernel. rewrite h_gjit. cbn [bind].
  apply (rr_respects _ (fun s => bind (clustering_rows (C s) (map nz_jit pzs) ba z) (fun rows => Ok (map (vscale (1.0 * 1.0)) rows)))); [ intros s; unfold density_kernel; now rewrite h_jit | ].
  apply (rr_bind mrel mrel); [ apply f_clustering | ]. intros x y Hx. apply rr_ok'. apply (lr_map vrel vrel (fun _ => vscale (1.0 * 1.0))); [ | exact Hx ].
  intros u v. apply (f_vscale (fun _ => 1.0 * 1.0)). apply r_cst.
Qed.
Lemma f_nla pzs ba ell : rr mrel (fun s => nla_kernel (C s) pzs ba z ell) (gnla_kernel N g pzs ba z ell).
Proof.
  unfold gnla_kernel. rewrite h_gjit. cbn [bind].
  apply (rr_respects _ (fun s => bind (clustering_rows (C s) (map nz_jit pzs) ba z) (fun rows =>
    Ok (map (fun row => vscale (1.0 * ell_factor ell) (vmul row (map (fun q => - (5e-14 * const_rhocrit) * Omega_m (C s) / D (C s) (z2a q)) z))) rows)))); [ intros s; unfold nla_kernel; now rewrite h_jit | ].
  apply (rr_bind mrel mrel _ _ (fun s rows => Ok (map (fun row => vscale (1.0 * ell_factor ell) (vmul row (map (fun q => - (5e-14 * const_rhocrit) * Omega_m (C s) / D (C s) (z2a q)) z))) rows))); [ apply f_clustering | ].
  intros x y Hx. cbv zeta. apply rr_ok'.
  apply (lr_map vrel vrel (fun s row => vscale (1.0 * ell_factor ell) (vmul row (map (fun q => - (5e-14 * const_rhocrit) * Omega_m (C s) / D (C s) (z2a q)) z)))); [ | exact Hx ].
  intros u v Hu. apply (f_vscale (fun _ => 1.0 * ell_factor ell)); [ apply r_cst | ]. apply f_vmul; [ exact Hu | ].
  apply (lr_mapc rel (fun s q => - (5e-14 * const_rhocrit) * Omega_m (C s) / D (C s) (z2a q))). intros q Hq. apply r_div; [ now apply l_D0 | | now apply l_D ].
  apply (r_mul (fun _ => - (5e-14 * const_rhocrit))); [ apply r_cst | exact l_Om ].
Qed.
Lemma f_apply_m m f x : mrel f x -> rr mrel (fun s => apply_m m (f s)) (gapply_m N m x).
Proof.
  intros Hf. destruct m as [mi | [ | mi ms]]; cbn [apply_m gapply_m]; [ | apply rr_err' | ].
  - apply rr_ok'. apply (lr_map vrel vrel (fun _ => vscale (1.0 + mi))); [ | exact Hf ]. intros u v. apply (f_vscale (fun _ => 1.0 + mi)), r_cst.
  - apply (rr_bcast vrel same vrel (fun row mj => vscale (1.0 + mj) row) _ f x (fun _ => mi :: ms)); [ | exact Hf | apply lr_const ].
    intros u v mj mk Hu Hm. apply (lr_respects rel (fun s => vscale (1.0 + mk) (u s))); [ intros s; now rewrite Hm | ]. apply (f_vscale (fun _ => 1.0 + mk)); [ apply r_cst | exact Hu ].
Qed.
Definition probe_ok (p : probe) : Prop := match p with PWL q => forall q' a, In q' z -> source_nodes (wl_bins q) q' a -> src a | PNC _ => True end.
Lemma f_kernel p ell : probe_ok p -> rr mrel (fun s => kernel p (C s) z ell) (gkernel N p g z ell).
Proof.
  intros HS. destruct p as [p | p]; cbn [kernel gkernel]; [ | apply f_density ]. cbn [probe_ok] in HS. unfold wl_kernel, gwl_kernel.
  apply (rr_bind mrel mrel _ _ (fun s k => bind (match wl_ia p with None => Ok k | Some b => bind (nla_kernel (C s) (wl_bins p) b z ell) (fun k2 => madd_rows k k2) end) (fun k0 => apply_m (wl_m p) k0)));
    [ now apply f_weak_lensing | ].
  intros x y Hx. apply (rr_bind mrel mrel _ _ (fun s => apply_m (wl_m p))); [ | intros; now apply f_apply_m ].
  destruct (wl_ia p) as [b | ]; [ | now apply rr_ok' ].
  apply (rr_bind mrel mrel _ _ (fun s k2 => madd_rows (x s) k2)); [ apply f_nla | ]. intros x2 y2 H2. unfold madd_rows.
  apply (rr_bcast vrel vrel vrel vadd (gvadd N)); [ intros; now apply f_vadd | exact Hx | exact H2 ].
Qed.
End Follow.

(** ** spectra *)
Section Spectra.
Context {A : Type} (N : num A) (rel : (R -> R) -> A -> Prop).
Hypotheses (r_resp : respects rel) (r_cst : forall x, rel (fun _ => x) (cst N x))
  (r_add : forall f h x y, rel f x -> rel h y -> rel (fun s => f s + h s) (nadd N x y))
  (r_mul : forall f h x y, rel f x -> rel h y -> rel (fun s => f s * h s) (nmul N x y))
  (r_div : forall f h x y, h 0 <> 0 -> rel f x -> rel h y -> rel (fun s => f s / h s) (ndiv N x y)).
Variables (C : R -> cosmology) (g : gcosmo A).
Hypotheses (h_jit : forall s, cosmo_jit (C s) = Ok (C s)) (h_gjit : gcosmo_jit g = Ok g).
Hypothesis l_Om : rel (fun s => Omega_m (C s)) (gOmega_m N g).
Local Notation "' x" := (cst N x%R) (at level 1, format "' x").
Variables (probes : list probe) (T : transfer) (nl : nonlinear) (P : gspectrum (A := A)).
(** [lim]: Limber nodes, [src]: source nodes *)
Variables (lim src : R -> Prop).
Hypotheses (l_chi : forall a, lim a -> rel (fun s => chi (C s) a) (gchi N g 'a))
  (l_dif : forall b a, lim b -> src a -> rel (fun s => clip_lo (chi (C s) a - chi (C s) b) 0) (gclip_lo N (nsub N (gchi N g 'a) (gchi N g 'b)) 0))
  (l_clip : forall a, lim a \/ src a -> rel (fun s => clip_lo (chi (C s) a) 1.0) (gclip_lo N (gchi N g 'a) 1.0))
  (l_clip2 : forall a, lim a -> rel (fun s => clip_lo (chi (C s) a ^ 2) 1.0) (gclip_lo N (nipow N (gchi N g 'a) 2) 1.0))
  (l_D : forall a, lim a -> rel (fun s => D (C s) a) (gD N g 'a))
  (l_D0 : forall a, lim a -> D (C 0) a <> 0)
  (l_H : forall a, lim a -> rel (fun s => H (C s) a) (gH N g 'a))
  (l_dchi : forall a, lim a -> rel (fun s => dchioverda (C s) a) (gdchioverda N g 'a)).
Lemma z2a_a2z a : a <> 0 -> z2a (a2z a) = a.
Proof. intros Ha. unfold z2a, a2z. field. split; lra. Qed.
Lemma f_div_clip a : (forall x, In x a -> lim x) -> forall top gt, lr rel top gt ->
  lr rel (fun s => vdiv (top s) (map (fun x => clip_lo (x ^ 2) 1.0) (map (chi (C s)) a))) (gvdiv N gt (map (fun x => gclip_lo N (nipow N x 2) 1.0) (map (fun q => gchi N g 'q) a))).
Proof.
  induction a as [ | x a' IH]; intros HL top gt HT.
  - destruct HT as [top Ht | top y fx gy gl Ht Py Qy]; apply lr_nil; intros s; now rewrite Ht.
  - destruct HT as [top Ht | top y fx gy gl Ht Py Qy]; [ apply lr_nil; intros s; now rewrite Ht | ]. cbn [map gvdiv map2].
    apply (lr_cons _ _ (fun s => y s / clip_lo (chi (C s) x ^ 2) 1.0) (fun s => vdiv (fx s) (map (fun x0 => clip_lo (x0 ^ 2) 1.0) (map (chi (C s)) a')))).
    + intros s. now rewrite Ht.
    + apply r_div; [ apply clip1_pos | exact Py | apply l_clip2, HL; now left ].
    + apply IH; [ intros w Hw; apply HL; now right | exact Qy ].
Qed.
Section One.
Variable ell : R.
Hypothesis l_pk : forall a, lim a -> rel (fun s => nonlinear_matter_power (C s) ((ell + 0.5) / clip_lo (chi (C s) a) 1.0) a T nl)
  (P g (ndiv N '(ell + 0.5) (gclip_lo N (gchi N g 'a) 1.0)) 'a).
Lemma f_integrand a : (forall x, In x a -> lim x /\ x <> 0) -> (forall p, In p probes -> probe_ok (map a2z a) src p) ->
  rr (lr (lr rel)) (fun s => cl_integrand (C s) probes T nl ell a) (gcl_integrand N g probes P ell a).
Proof.
  intros HA HP. assert (HL : forall x, In x a -> lim x) by (intros x Hx; now apply HA).
  assert (HZ : forall q, In q (map a2z a) -> lim (z2a q)).
  { intros q Hq. apply in_map_iff in Hq. destruct Hq as (x & <- & Hx). destruct (HA x Hx). now rewrite z2a_a2z. }
  unfold cl_integrand, gcl_integrand. cbv zeta.
  assert (HPK : lr rel (fun s => map2 (fun kk aa => nonlinear_matter_power (C s) kk aa T nl) (map (fun x => (ell + 0.5) / clip_lo x 1.0) (map (chi (C s)) a)) a)
    (map2 (fun kk aa => P g kk 'aa) (map (fun x => ndiv N '(ell + 0.5) (gclip_lo N x 1.0)) (map (fun q => gchi N g 'q) a)) a)).
  { clear HP HZ HA. induction a as [ | x a' IH]; [ apply lr_nil' | ]. cbn [map map2]. apply lr_cons'; [ apply l_pk, HL; now left | ]. apply IH. intros y Hy. apply HL. now right. }
  apply (rr_bind (lr (lr (lr rel))) (lr (lr rel)) _ _ (fun s ks => Ok (tab (length a) (fun q => map (fun row => el row q)
    (map (fun row => vdiv (vmul (vmul (map2 (fun kk aa => nonlinear_matter_power (C s) kk aa T nl) (map (fun x => (ell + 0.5) / clip_lo x 1.0) (map (chi (C s)) a)) a) row)
       (map (fun aa => dchioverda (C s) aa) a)) (map (fun x => clip_lo (x ^ 2) 1.0) (map (chi (C s)) a)))
       (map (fun ij => vmul (nth (fst ij) (vstack ks) []) (nth (snd ij) (vstack ks) [])) (get_cl_ordering probes))))))).
  - apply (rr_mapM (lr (lr rel)) (fun s p => kernel p (C s) (map a2z a) ell)). intros p Hp.
    apply (f_kernel N rel r_resp r_cst r_add r_mul r_div C g h_jit h_gjit l_Om (map a2z a) src); auto.
  - intros ks gks HK. apply rr_ok'. apply lr_tab. intros q _.
    apply (lr_map (lr rel) rel (fun _ row => el row q) (fun row => nth q row '0)); [ intros u v Hu; apply (lr_nth rel u v 0 '0 q r_resp (r_cst 0) Hu) | ].
    apply (lr_map (lr rel) (lr rel) (fun s row => vdiv (vmul (vmul (map2 (fun kk aa => nonlinear_matter_power (C s) kk aa T nl) (map (fun x => (ell + 0.5) / clip_lo x 1.0) (map (chi (C s)) a)) a) row)
       (map (fun aa => dchioverda (C s) aa) a)) (map (fun x => clip_lo (x ^ 2) 1.0) (map (chi (C s)) a)))).
    + intros u v Hu. apply f_div_clip; [ exact HL | ].
      apply (f_vmul N rel r_mul); [ apply (f_vmul N rel r_mul); [ exact HPK | exact Hu ] | ]. apply (lr_mapc rel (fun s aa => dchioverda (C s) aa)). intros x Hx. now apply l_dchi, HL.
    + apply (lr_mapc (lr rel) (fun s ij => vmul (nth (fst ij) (vstack (ks s)) []) (nth (snd ij) (vstack (ks s)) []))). intros ij _.
      assert (HC := lr_concat (lr rel) ks gks HK).
      apply (f_vmul N rel r_mul); apply (lr_nth (lr rel)); try apply lr_respects; try apply lr_nil'; exact HC.
Qed.
Lemma f_cl_one zmax : (forall x, In x (limber_nodes zmax) -> lim x /\ x <> 0) -> (forall p, In p probes -> probe_ok (map a2z (limber_nodes zmax)) src p) ->
  rr (lr rel) (fun s => cl_one (C s) probes T nl zmax ell) (gcl_one N g probes P zmax ell).
Proof.
  intros HA HP. unfold cl_one, gcl_one. apply (rr_bind (lr rel) (lr rel) _ _ (fun _ v => Ok (map (fun x => x / const_c ^ 2) v))).
  - apply (f_simps_rows N rel r_cst r_add r_mul _ (fun s => cl_integrand (C s) probes T nl ell)). change (512 + 1)%nat with 513%nat. now apply f_integrand.
  - intros u v Hu. apply rr_ok'. apply (lr_map rel rel (fun _ x => x / const_c ^ 2)); [ | exact Hu ]. intros x y Hx. apply (r_div x (fun _ => const_c ^ 2)); [ unfold const_c; lra | exact Hx | apply r_cst ].
Qed.
End One.
Lemma f_angular_cl ell : (forall ells l, ell = Array1 ells -> In l ells -> forall a, lim a -> rel (fun s => nonlinear_matter_power (C s) ((l + 0.5) / clip_lo (chi (C s) a) 1.0) a T nl)
    (P g (ndiv N '(l + 0.5) (gclip_lo N (gchi N g 'a) 1.0)) 'a)) ->
  (forall zs zmax, mapM probe_zmax probes = Ok zs -> pymax zs = Ok zmax -> (forall x, In x (limber_nodes zmax) -> lim x /\ x <> 0) /\ (forall p, In p probes -> probe_ok (map a2z (limber_nodes zmax)) src p)) ->
  rr (lr (lr rel)) (fun s => angular_cl (C s) ell probes T nl) (gangular_cl N g ell probes P).
Proof.
  intros HK HZ. unfold angular_cl, gangular_cl. apply (rr_bindc (lr (lr rel))). intros zs Ezs. apply (rr_bindc (lr (lr rel))). intros zmax Ez.
  destruct (HZ zs zmax Ezs Ez) as [HA HP]. destruct ell as [l | ells]; [ apply rr_err' | ].
  apply (rr_bind (lr (lr rel)) (lr (lr rel)) _ _ (fun _ cols => Ok (stack1 0 (length (get_cl_ordering probes)) cols))).
  - apply (rr_mapM (lr rel) (fun s => cl_one (C s) probes T nl zmax)). intros l Hl. apply f_cl_one; [ | exact HA | exact HP ]. intros a. now apply (HK ells l eq_refl Hl).
  - intros u v Hu. apply rr_ok'. apply (lr_stack1 rel); [ exact r_resp | apply r_cst | exact Hu ].
Qed.
End Spectra.
