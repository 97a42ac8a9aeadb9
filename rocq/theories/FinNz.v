(** * Redshift distributions in floating point *)
From Coquelicot Require Import Coquelicot.
From Verif Require Import Np NpLemmas Core Interp Integrate IntegrateSpec SimpsProofs Background Transfer Power Redshift RedshiftProofs Bias Probes AngularCl GradSpec Ad AdSpec AdProofs AdBg AdFinal
  AdPower AdProbes AdRel AdProbesProofs AdProbesFinal AdArrSpec AdNuis AdNuisProofs AdNuisSpec AdNuisNz AdNuisBack FinRules.

Local Notation M := num_dual.
Section Floats.
Context {Nm : Type} {N : num Nm} {FLN : floats N}.
Local Notation finite := (fl_ok (N := N)).
Local Notation rd := (fl_rd (N := N)).
(** the value, and a parameter with its tangent at time s *)
Definition fl_v (x : Nm) : R := fst (fl_rd x).
Definition fl_at (s : R) (x : Nm) : R := fst (fl_rd x) + s * snd (fl_rd x).
Local Notation gm := (nz_map rd).
Local Notation gmf := (fam_map rd).
(** all parameters are finite *)
Fixpoint fl_nz (d : gnz Nm) : Prop := match d with GNz f g _ => fl_fam f /\ fl_ok g end
with fl_fam (f : gfam Nm) : Prop :=
  match f with
  | GSmail a b z0 => fl_ok a /\ fl_ok b /\ fl_ok z0
  | GDelta z0 => fl_ok z0
  | GKde zcat wt _ => (forall x, In x zcat -> fl_ok x) /\ forall x, In x wt -> fl_ok x
  | GShift p b => fl_nz p /\ fl_ok b
  end.
Lemma fl_sq x : fl_ok x -> fl_ok (nipow N x 2) /\ fl_rd (nipow N x 2) = nipow M (fl_rd x) 2.
Proof. intros H. apply fl_ipow; [ exact H | right; lia ]. Qed.
Lemma fl_clip x : fl_ok x -> fl_ok (gclip_lo N x 0) /\ fl_rd (gclip_lo N x 0) = gclip_lo M (fl_rd x) 0.
Proof. intros H. destruct (fl_cst (N := N) 0) as [F E]. destruct (fl_max x (cst N 0) H F) as [F1 E1]. split; [ exact F1 | ]. unfold gclip_lo. now rewrite E1, E. Qed.
Fixpoint read_gm (v : dual -> R) (d : gnz Nm) : read_nz v (gm d) = read_nz (fun x => v (rd x)) d
with read_gmf (v : dual -> R) (f : gfam Nm) : read_fam v (gmf f) = read_fam (fun x => v (rd x)) f.
Proof.
  - destruct d as [f g zm]. exact (f_equal (fun h => nz_new h (v (rd g)) zm) (read_gmf v f)).
  - destruct f as [a b z0 | z0 | zc w bw | p b]; cbn [fam_map read_fam]; [ reflexivity | reflexivity | now rewrite !map_map | exact (f_equal (fun h => Shift h (v (rd b))) (read_gm v p)) ].
Qed.
Definition fhom (x : Nm) (y : dual) : Prop := finite x /\ rd x = y.
Lemma fhom_sum l : (forall x, In x l -> finite x) -> fhom (gsum N l) (gsum M (map rd l)).
Proof.
  induction l as [ | x l IH]; intros H; [ apply fl_cst | ]. cbn [map]. unfold gsum. cbn [fold_right]. destruct IH as [F E]; [ intros y Hy; apply H; now right | ].
  destruct (fl_add x (gsum N l) (H x (or_introl eq_refl)) F) as [F2 E2]. split; [ exact F2 | ]. unfold gsum in E2, E |- *. rewrite E2, E. reflexivity.
Qed.
Lemma fhom_vmul u v : (forall x, In x u -> finite x) -> (forall x, In x v -> finite x) ->
  (forall x, In x (gvmul N u v) -> finite x) /\ map rd (gvmul N u v) = gvmul M (map rd u) (map rd v).
Proof.
  revert v. induction u as [ | x u IH]; intros [ | y v] HU HV; try (split; [ easy | reflexivity ]).
  destruct (IH v) as [F E]; [ intros q Hq; apply HU; now right | intros q Hq; apply HV; now right | ].
  destruct (fl_mul x y (HU x (or_introl eq_refl)) (HV y (or_introl eq_refl))) as [F2 E2].
  unfold gvmul in *. cbn [map2 map]. split; [ intros q [<- | Hq]; [ exact F2 | now apply F ] | now rewrite E2, E ].
Qed.
Lemma fhom_kernel bw X x : bw <> 0 -> finite X -> finite x -> fhom (hkde_kernel N bw X x) (hkde_kernel M bw (rd X) (rd x)).
Proof.
  intros HB HX Hx. unfold hkde_kernel. set (k := 1.0 / sqrt (2 * PI) / bw). set (q := bw ^ 2 * 2.0). assert (NQ : q <> 0) by (unfold q; assert (0 < bw ^ 2) by (now apply pow2_gt_0); lra).
  destruct (fl_sub X x HX Hx) as [F1 E1]. destruct (fl_sq _ F1) as [F2 E2]. destruct (fl_neg _ F2) as [F3 E3]. destruct (fl_cst q) as [Fq Eq].
  destruct (fl_div _ _ F3 Fq ltac:(now rewrite Eq)) as [F4 E4]. destruct (fl_exp _ F4) as [F5 E5]. destruct (fl_cst k) as [Fk Ek]. destruct (fl_mul _ _ Fk F5) as [F6 E6].
  split; [ exact F6 | ]. now rewrite E6, Ek, E5, E4, E3, E2, E1, Eq.
Qed.
Lemma val_rd v x : fhom x v -> fl_v x = fst v. Proof. now intros [_ <-]. Qed.
Fixpoint fhom_fn (d : gnz Nm) : fl_nz d -> forall x, finite x -> 0 <= fl_v x -> smooth_nz (read_nz fl_v d) (fl_v x) -> fhom (hpz_fn N d x) (hpz_fn M (gm d) (rd x))
with fhom_fam (f : gfam Nm) : fl_fam f -> forall x, finite x -> 0 <= fl_v x -> smooth_fam (read_fam fl_v f) (fl_v x) -> fhom (hfam_pz N f x) (hfam_pz M (gmf f) (rd x)).
Proof.
  - destruct d as [f g zm]. intros [HF _] x. exact (fhom_fam f HF x).
  - destruct f as [a b z0 | z0 | zc w bw | p b]; intros HF x Fx Px HS; cbn [fl_fam read_fam smooth_fam fam_map hfam_pz] in *.
    + destruct HF as (Fa & Fb & Fz). destruct HS as (A1 & B1 & Z1).
      destruct (fl_pow x a Fx Fa) as [F1 E1]; [ unfold fl_v in *; lra | ]. destruct (fl_div x z0 Fx Fz) as [F2 E2]; [ unfold fl_v in *; lra | ].
      assert (V2 : fl_v (ndiv N x z0) = fl_v x / fl_v z0) by (change (fl_v (ndiv N x z0)) with (fst (rd (ndiv N x z0))); now rewrite E2).
      destruct (fl_pow _ b F2 Fb) as [F3 E3].
      { change (fst (fl_rd (ndiv N x z0))) with (fl_v (ndiv N x z0)); rewrite V2; change (fst (fl_rd b)) with (fl_v b). destruct Px as [P | <-]; [ left; now apply Rdiv_lt_0_compat | right; split; [ unfold Rdiv; ring | lra ]]. }
      destruct (fl_neg _ F3) as [F4 E4]. destruct (fl_exp _ F4) as [F5 E5]. destruct (fl_mul _ _ F1 F5) as [F6 E6]. split; [ exact F6 | ]. now rewrite E6, E1, E5, E4, E3, E2.
    + destruct HS.
    + destruct HF as (FZ & FW). destruct HS as (HL & HW & HB).
      assert (FK : forall q, In q (map (fun X => hkde_kernel N bw X x) zc) -> finite q) by (intros q Hq; apply in_map_iff in Hq; destruct Hq as (X & <- & HX); exact (proj1 (fhom_kernel bw X x HB (FZ X HX) Fx))).
      destruct (fhom_vmul _ w FK FW) as [F1 E1]. destruct (fhom_sum _ F1) as [F2 E2]. destruct (fhom_sum _ FW) as [F3 E3].
      assert (VW : fl_v (gsum N w) <> 0).
      { change (fl_v (gsum N w)) with (fst (rd (gsum N w))). rewrite E3. replace (fst (gsum M (map rd w))) with (vsum (map fl_v w)); [ exact HW | ].
        clear. induction w as [ | y w IH]; [ reflexivity | ]. unfold gsum, vsum in *. cbn [map fold_right nadd num_dual fst]. now rewrite IH. }
      destruct (fl_div _ _ F2 F3 VW) as [F4 E4]. split; [ exact F4 | ]. rewrite E4, E2, E3, E1. rewrite !map_map. do 3 f_equal. apply map_ext_in. intros X HX. exact (proj2 (fhom_kernel bw X x HB (FZ X HX) Fx)).
    + destruct HF as (FP & Fb). destruct HS as [_ HS]. destruct (fl_sub x b Fx Fb) as [F1 E1]. destruct (fl_clip _ F1) as [F2 E2].
      assert (V2 : fl_v (gclip_lo N (nsub N x b) 0) = Rmax (fl_v x - fl_v b) 0) by (change (fl_v (gclip_lo N (nsub N x b) 0)) with (fst (rd (gclip_lo N (nsub N x b) 0))); rewrite E2, E1; reflexivity).
      rewrite <- E1, <- E2. apply fhom_fn; [ exact FP | exact F2 | rewrite V2; apply Rmax_r | now rewrite V2 ].
Qed.
Local Notation frel f x := (fin_of f 0 x).
Lemma frel_respects : respects (fun f x => frel f x). Proof. intros f h y E. now apply ft_ext. Qed.
Lemma fl_at_0 : read_nz (fl_at 0) = read_nz fl_v.
Proof. f_equal. apply FunctionalExtensionality.functional_extensionality. intros x. unfold fl_at, fl_v. ring. Qed.
Lemma frel_fn d q : fl_nz d -> 0 <= q -> smooth_nz (read_nz fl_v d) q -> frel (fun s => pz_fn (read_nz (fl_at s) d) q) (hpz_fn N d (cst N q)).
Proof.
  intros FD Hq HS. destruct (fl_cst q) as [FC EC]. assert (VC : fl_v (cst N q) = q) by (unfold fl_v; now rewrite EC). destruct (fhom_fn d FD (cst N q) FC) as [F E]; [ now rewrite VC | now rewrite VC | ]. split; [ exact F | ]. rewrite E, EC.
  apply (t_ext 0 (fun s => pz_fn (read_nz (at_time s) (gm d)) q)); [ intros s; now rewrite read_gm | ]. apply t_pz_fn; [ exact Hq | ]. apply smooth_soft. rewrite read_gm. exact HS.
Qed.
Lemma zmax_at s d : nz_zmax (read_nz (fl_at s) d) = gnz_zmax d. Proof. now destruct d. Qed.
Lemma fl_redshift d q : 0 <= gnz_zmax d -> fl_nz d -> smooth_norm (read_nz fl_v d) -> 0 <= q -> smooth_nz (read_nz fl_v d) q ->
  frel (fun s => pz (read_nz (fl_at s) d) q) (hpz N d q).
Proof.
  intros HZ FD [HN H0] Hq HS. assert (ND : gis_delta d = false) by (destruct d as [[ | | | ] g zm]; try reflexivity; destruct HS).
  assert (ZV : nz_zmax (read_nz fl_v d) = gnz_zmax d) by (now destruct d). rewrite ZV in HN, H0.
  apply (frel_respects (fun s => pz_fn (read_nz (fl_at s) d) q / nz_simps_norm (read_nz (fl_at s) d))).
  { intros s. destruct d as [f g zm]. unfold pz, nz_call. cbn [fst map]. unfold el. cbn [nth]. destruct f; try reflexivity. discriminate. }
  assert (EH : hpz N d q = ndiv N (hpz_fn N d (cst N q)) (hnz_norm N d)) by (destruct d as [[ | | | ] g zm]; reflexivity || discriminate).
  rewrite EH. unfold hnz_norm. rewrite ND.
  apply (ft_div 0); [ rewrite nz_norm_simpson, zmax_at, fl_at_0; exact H0 | now apply frel_fn | ].
  assert (HR := f_simps N (fun f x => frel f x) frel_respects (ft_cst 0) (ft_add 0) (ft_mul 0) (fun s => pz_fn (read_nz (fl_at s) d)) (fun q => hpz_fn N d (cst N q)) 0.0 (gnz_zmax d) 256).
  assert (HF : forall x, In x (linspace 0.0 (gnz_zmax d) (256 + 1)) -> frel (fun s => pz_fn (read_nz (fl_at s) d) x) (hpz_fn N d (cst N x))).
  { intros x Hx. apply in_linspace in Hx. destruct Hx as (i & Hi & ->). replace (0.0 + INR i * ((gnz_zmax d - 0.0) / INR 256)) with (INR i * (gnz_zmax d / 256)).
    - apply frel_fn; [ exact FD | apply Rmult_le_pos; [ apply pos_INR | lra ] | now apply HN ].
    - replace (INR 256) with 256 by (rewrite INR_IZR_INZ; reflexivity). lra. }
  specialize (HR HF). destruct (rr_cases _ _ _ HR) as [(x & y & Ey & E & P) | (e & Ee & E)].
  - rewrite Ey. apply (frel_respects x); [ | exact P ]. intros s. unfold nz_simps_norm. rewrite zmax_at. now rewrite E.
  - rewrite Ee. apply (frel_respects (fun _ => 0)); [ | apply (ft_cst 0) ]. intros s. unfold nz_simps_norm. rewrite zmax_at. now rewrite E.
Qed.

End Floats.
