(** * Gradients with respect to redshift distributions: finite and right, or NaN *)
From Coquelicot Require Import Coquelicot.
From Verif Require Import Np NpLemmas Core Interp Integrate IntegrateSpec Background Transfer Power SparseX Redshift Bias Probes AngularCl GradSpec Ad AdSpec AdProofs
  AdPower AdProbes AdNuis AdNuisSpec AdNan AdNanSpec AdNanProofs Poison.
From Coq Require Import List.
Import ListNotations.
Local Notation dead := (dead (N := num_x) (bad := bad)).

Lemma finite_gradient (d : gnz xdual) q : 0 <= gnz_zmax d -> finite_nz d -> smooth_norm (read_nz x_val d) -> 0 <= q -> smooth_nz (read_nz x_val d) q ->
  finite (hpz num_x d q) /\ tangent_of (fun t => pz (read_nz (moving t) d) q) 0 (x_val (hpz num_x d q), x_tan (hpz num_x d q)).
Proof. exact (finite_redshift d q). Qed.
Lemma root_smail_dead d : root_smail d -> dead d.
Proof. destruct d as [[a b z0 | | | ] g zm]; try easy. intros (Fa & Fb & Fz & A & B & Z & M). now apply smail_dead. Qed.
Lemma root_shift_dead d : root_shift d -> dead d.
Proof. destruct d as [[ | | | [[a b z0 | | | ] g zm] be] g' zm']; try easy. intros (Fa & Fb & Fz & Fe & A & B & Z & [E1 _] & M). apply shift_dead; try assumption. lra. Qed.
Lemma root_smail_nan d q : root_smail d -> 0 < gnz_zmax d -> 0 <= q -> ex_derive (fun t => pz (read_nz (moving t) d) q) 0 /\ snd (hpz num_x d q) = Some NaN.
Proof.
  intros HD HZ Hq. split; [ | now apply (dead_pz (bad := bad)), root_smail_dead ]. destruct d as [[a b z0 | | | ] g zm]; try easy. destruct HD as (_ & _ & _ & A & [B _] & Z & _). now apply smail_differentiable.
Qed.
Lemma root_shift_nan d q : root_shift d -> 0 <= q -> ex_derive (fun t => pz (read_nz (moving t) d) q) 0 /\ snd (hpz num_x d q) = Some NaN.
Proof.
  intros HD Hq. split; [ | now apply (dead_pz (bad := bad)), root_shift_dead ]. destruct d as [[ | | | [[a b z0 | | | ] g zm] be] g' zm']; try easy. destruct HD as (_ & _ & _ & _ & A & [B _] & Z & E & _). cbn [gnz_zmax] in E. apply shift_differentiable; try assumption; lra.
Qed.
Lemma root_spectra_nan c (ds : list (gnz xdual)) ba (P : gspectrum (A := xdual)) ells rows : (forall d, In d ds -> root_smail d \/ root_shift d) ->
  hangular_cl num_x c (Array1 ells) [GPNC (GNC ds ba)] P = Ok rows -> forall row x, In row rows -> In x row -> snd x = Some NaN.
Proof. intros HD. apply (clustering_nan (bad := bad)). intros d Hd. destruct (HD d Hd); [ now apply root_smail_dead | now apply root_shift_dead ]. Qed.
(** the spectra of one bin exist *)
Lemma one_bin_any {A} (N : num A) c (d : gnz A) b (P : gspectrum (A := A)) l : ggamma c = None -> gis_delta d = false ->
  exists x, hangular_cl N c (Array1 [l]) [GPNC (GNC [d] (GOneBias b))] P = Ok [[x]].
Proof.
  intros HG HD. unfold hangular_cl. cbn [mapM gbins_of gnc_bins map pymax bind fold_left].
  set (nc := length (hcl_ordering [GPNC (GNC [d] (GOneBias b))])). assert (NC : nc = 1%nat) by reflexivity.
  match goal with |- context [hcl_one N c _ P ?zz l] => set (zm := zz) end.
  assert (EO : exists v, hcl_one N c [GPNC (GNC [d] (GOneBias b))] P zm l = Ok v).
  { unfold hcl_one. fold nc. unfold gsimps_rows. change (Nat.eqb (512 mod 2) 1) with false. cbv iota zeta. set (nodes := linspace (z2a zm) 1.0 (512 + 1)). clearbody nodes.
    unfold hcl_integrand. cbv zeta. cbn [mapM hkernel gnc_bins gnc_bias]. unfold hdensity_kernel, gcosmo_jit. rewrite HG. cbn [bind]. unfold hclustering_rows. cbn [existsb]. rewrite HD. cbn [orb htimes_bias bind]. eexists. reflexivity. }
  destruct EO as (v & ->). cbn [bind]. exists (nth 0 v (cst N 0)). rewrite NC. reflexivity.
Qed.
Lemma one_bin_ok c (d : gnz xdual) b (P : gspectrum (A := xdual)) l : ggamma c = None -> gis_delta d = false ->
  exists x, hangular_cl num_x c (Array1 [l]) [GPNC (GNC [d] (GOneBias b))] P = Ok [[x]].
Proof. apply one_bin_any. Qed.
(** the bins of the LSST DESC requirements: z**2 exp(-(z / 0.11)**0.68) *)
Definition lsst : gnz xdual := GNz (GSmail (still 2) (still 0.68) (moves_at 1 0.11)) (still 27) 4.
Definition lsst_shifted : gnz xdual := GNz (GShift (GNz (GSmail (still 2) (still 0.68) (still 0.11)) (still 27) 4) (moves_at 1 0)) (still 27) 4.
Lemma f_still x : finite (still x). Proof. split; [ eexists; reflexivity | now left ]. Qed.
Lemma f_moves t x : finite (moves_at t x). Proof. split; [ eexists; reflexivity | right; eexists; reflexivity ]. Qed.
Lemma lsst_root : root_smail lsst /\ root_shift lsst_shifted.
Proof. split; cbn [root_smail root_shift lsst lsst_shifted gnz_fam]; unfold x_val; cbn [fst still moves_at gnz_zmax]; repeat match goal with |- _ /\ _ => split end; try apply f_still; try apply f_moves; try discriminate; try (cbn; lra). Qed.
Lemma smail_refuted : exists a b z0 g zm : R, 0 < a /\ 0 < b /\ 0 < z0 /\ 0 < zm /\
  forall q, 0 <= q -> ex_derive (fun t => pz (nz_new (Smail a b (z0 + t)) g zm) q) 0 /\ snd (hpz num_x (GNz (GSmail (still a) (still b) (moves_at 1 z0)) (still g) zm) q) = Some NaN.
Proof.
  exists 2, 0.68, 0.11, 27, 4. repeat match goal with |- _ < _ /\ _ => split; [ lra | ] end. intros q Hq. destruct (root_smail_nan lsst q (proj1 lsst_root)) as [D B]; [ cbn; lra | exact Hq | ]. split; [ | exact B ].
  revert D. apply ex_derive_ext. intros t. cbn [lsst read_nz read_fam]. unfold moving, x_val, x_tan. cbn [fst snd still moves_at]. now rewrite !Rmult_0_r, !Rplus_0_r, Rmult_1_r.
Qed.
Lemma shift_refuted : exists a b z0 g zm : R, 1 < a /\ 0 < b /\ 0 < z0 /\ 0 < zm /\
  forall q, 0 <= q -> ex_derive (fun t => pz (nz_new (Shift (nz_new (Smail a b z0) g zm) t) g zm) q) 0 /\
    snd (hpz num_x (GNz (GShift (GNz (GSmail (still a) (still b) (still z0)) (still g) zm) (moves_at 1 0)) (still g) zm) q) = Some NaN.
Proof.
  exists 2, 0.68, 0.11, 27, 4. repeat match goal with |- _ < _ /\ _ => split; [ lra | ] end. intros q Hq. destruct (root_shift_nan lsst_shifted q (proj2 lsst_root)) as [D B]; [ exact Hq | ]. split; [ | exact B ].
  revert D. apply ex_derive_ext. intros t. cbn [lsst_shifted read_nz read_fam]. unfold moving, x_val, x_tan. cbn [fst snd still moves_at]. now rewrite !Rmult_0_r, !Rplus_0_r, Rplus_0_l, Rmult_1_r.
Qed.
(** beside [finite_gradient] and [root_spectra_nan] *)
Lemma ex_finite : let d : gnz xdual := GNz (GSmail (moves_at 1 2) (still 3) (moves_at 2 1)) (still 1) 5 in
  0 <= gnz_zmax d /\ finite_nz d /\ smooth_norm (read_nz x_val d) /\ smooth_nz (read_nz x_val d) 1.
Proof.
  assert (HS : forall q, smooth_nz (read_nz x_val (GNz (GSmail (moves_at 1 2) (still 3) (moves_at 2 1)) (still 1) 5)) q) by (intros q; cbn; lra).
  split; [ cbn; lra | split; [ | split; [ | apply HS ]]].
  - cbn. repeat split; try apply f_still; try apply f_moves; try (eexists; reflexivity); try (now left); right; eexists; reflexivity.
  - split; [ intros i _; apply HS | ]. cbn [read_nz read_fam nz_new nz_zmax]. apply (simpson_pos _ 5 127); [ lra | apply smail_nonneg | apply smail_pos; lra ].
Qed.
Lemma ex_spectra_nan c b (P : gspectrum (A := xdual)) l : ggamma c = None ->
  (forall d, In d [lsst] -> root_smail d \/ root_shift d) /\ exists v, hangular_cl num_x c (Array1 [l]) [GPNC (GNC [lsst] (GOneBias b))] P = Ok [[(v, Some NaN)]].
Proof.
  intros HG. assert (H : forall d, In d [lsst] -> root_smail d \/ root_shift d) by (intros d [<- | []]; left; apply lsst_root). split; [ exact H | ].
  destruct (one_bin_ok c lsst b P l HG eq_refl) as ([v t] & E). exists v. rewrite E. assert (B := root_spectra_nan _ _ _ _ _ _ H E [(v, t)] (v, t) (or_introl eq_refl) (or_introl eq_refl)). cbn [snd] in B. now rewrite B.
Qed.
