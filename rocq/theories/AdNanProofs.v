(** * Redshift distributions over numbers with infinities and NaN *)
From Coquelicot Require Import Coquelicot.
From Verif Require Import Np NpLemmas Core Interp Integrate IntegrateSpec SimpsProofs Background Transfer Power SparseX HalofitX Redshift RedshiftProofs Bias Probes AngularCl GradSpec Ad AdSpec AdProofs AdBg AdFinal
  AdPower AdProbes AdRel AdProbesProofs AdProbesFinal AdArrSpec AdNuis AdNuisProofs AdNuisSpec AdNuisNz AdNan AdNanSpec Poison.

Definition rd (x : xdual) : dual := (x_val x, x_tan x).
Local Notation N := num_x.
Local Notation M := num_dual.
(** the rules on finite numbers are those of exact dual numbers *)
Ltac fin := match goal with
  | H : finite ?x |- _ => let a := fresh "a" in let t := fresh "t" in let v := fresh "v" in destruct x as [v t]; destruct H as [[a H] [? | [? ?]]]; cbn [fst snd] in *; subst; fin
  | _ => idtac end.
Ltac done_fin := split; [ split; [ eexists; reflexivity | cbn; first [ left; reflexivity | right; eexists; reflexivity ]] | unfold rd, x_val, x_tan; cbn; f_equal; ring ].
Lemma rd_cst x : finite (cst N x) /\ rd (cst N x) = cst M x. Proof. done_fin. Qed.
Lemma rd_add x y : finite x -> finite y -> finite (nadd N x y) /\ rd (nadd N x y) = nadd M (rd x) (rd y). Proof. intros HX HY. fin; done_fin. Qed.
Lemma rd_sub x y : finite x -> finite y -> finite (nsub N x y) /\ rd (nsub N x y) = nsub M (rd x) (rd y). Proof. intros HX HY. fin; done_fin. Qed.
Lemma rd_mul x y : finite x -> finite y -> finite (nmul N x y) /\ rd (nmul N x y) = nmul M (rd x) (rd y). Proof. intros HX HY. fin; done_fin. Qed.
Lemma rd_neg x : finite x -> finite (nneg N x) /\ rd (nneg N x) = nneg M (rd x). Proof. intros HX. fin; done_fin. Qed.
Lemma rd_exp x : finite x -> finite (nexp N x) /\ rd (nexp N x) = nexp M (rd x). Proof. intros HX. fin; done_fin. Qed.
Lemma rd_sq x : finite x -> finite (nipow N x 2) /\ rd (nipow N x 2) = nipow M (rd x) 2.
Proof. intros HX. fin; split; try (split; [ eexists; reflexivity | cbn; first [ left; reflexivity | right; eexists; reflexivity ]]); unfold rd, x_val, x_tan; cbn; f_equal; ring. Qed.
Lemma xdiv_fin a b : b <> 0 -> xdiv (Fin a) (Fin b) = Fin (a / b).
Proof. intros Hb. unfold xdiv. destruct (Req_EM_T b 0); [ easy | reflexivity ]. Qed.
Lemma xinv2 b : b <> 0 -> xipow (Fin b) (-2) = Fin (/ b ^ 2).
Proof. intros Hb. unfold xipow. change (xpow_nat (Fin b) (Pos.to_nat 2)) with (Fin (b * (b * 1))). rewrite xdiv_fin by (rewrite Rmult_1_r; now apply Rmult_integral_contrapositive_currified). f_equal. field. exact Hb. Qed.
Lemma rd_div x y : finite x -> finite y -> x_val y <> 0 -> finite (ndiv N x y) /\ rd (ndiv N x y) = ndiv M (rd x) (rd y).
Proof.
  intros HX HY HN. fin; unfold x_val in HN; cbn [fst] in HN; cbn [ndiv num_x fst snd option_map]; rewrite ?xinv2, ?xdiv_fin by exact HN; cbn [xneg xmul tplus xadd]; split;
    try (split; [ eexists; reflexivity | first [ left; reflexivity | right; eexists; reflexivity ]]); unfold rd, x_val, x_tan; cbn [fst snd ndiv num_dual]; f_equal; field; exact HN.
Qed.
Lemma ln_0 : ln 0 = 0.
Proof. unfold ln. destruct (Rlt_dec 0 0) as [H | H]; [ exfalso; exact (Rlt_irrefl 0 H) | reflexivity ]. Qed.
(** a positive base, or zero to a power of at least 1 *)
Lemma xpow_fin a b : 0 < a \/ a = 0 /\ 0 <= b -> xpow (Fin a) (Fin b) = Fin (rpow a b).
Proof.
  intros H. unfold xpow. unfold rpow. destruct (Req_EM_T b 0) as [-> | NB].
  - destruct (Req_EM_T a 0); [ reflexivity | now rewrite Rmult_0_l, exp_0 ].
  - destruct (Rlt_dec a 0); [ lra | ]. destruct (Req_EM_T a 0); [ | reflexivity ]. destruct (Rlt_dec b 0); [ lra | reflexivity ].
Qed.
Lemma xpow_jac a b : 0 < a \/ a = 0 /\ 1 <= b -> xmul (Fin b) (xpow (Fin a) (xpred (Fin b))) = Fin (b * rpow a (b - 1)).
Proof.
  intros H. unfold xpred. cbn [xeqb]. destruct (Req_EM_T b 0) as [-> | NB].
  - rewrite xpow_fin by lra. cbn [xmul]. f_equal. ring.
  - unfold xsub. cbn [xneg xadd]. replace (b + - (1)) with (b - 1) by ring. rewrite xpow_fin by lra. reflexivity.
Qed.
Lemma xlog_fin a : 0 <= a -> xlog_nz (Fin a) = Fin (ln a).
Proof. intros H. unfold xlog_nz. destruct (Req_EM_T a 0) as [-> | NA]; [ now rewrite ln_0 | ]. cbn [xlog]. destruct (Rlt_dec 0 a); [ reflexivity | lra ]. Qed.
Lemma rd_pow x y : finite x -> finite y -> 0 < x_val x \/ x_val x = 0 /\ 1 <= x_val y -> finite (npow N x y) /\ rd (npow N x y) = npow M (rd x) (rd y).
Proof.
  intros HX HY HN. fin; unfold x_val in HN; cbn [fst] in HN; cbn [npow num_x fst snd ttimes option_map]; rewrite ?xpow_jac, ?xlog_fin, ?xpow_fin by lra; cbn [xmul tplus xadd]; split;
    try (split; [ eexists; reflexivity | cbn; first [ left; reflexivity | right; eexists; reflexivity ]]); unfold rd, x_val, x_tan; cbn [fst snd npow num_dual]; f_equal; ring.
Qed.
Lemma rd_clip x : finite x -> finite (gclip_lo N x 0) /\ rd (gclip_lo N x 0) = gclip_lo M (rd x) 0.
Proof.
  intros HX. unfold gclip_lo. fin; cbn [nmax num_x cst fst snd ttimes option_map]; unfold xmax, xlt, balanced, xeqb.
  - split; [ split; [ | now left ] | unfold rd, x_val, x_tan; cbn [fst snd nmax num_dual cst tplus]; unfold sel3 ].
    + destruct (Rlt_dec a 0); eexists; reflexivity.
    + destruct (Rlt_dec a 0); f_equal; try (rewrite Rmax_right by lra; reflexivity); try (rewrite Rmax_left by lra; reflexivity); destruct (Rlt_dec 0 a); try lra.
  - destruct (Rlt_dec a 0) as [L | L].
    + destruct (Req_EM_T a 0); [ lra | ]. destruct (Req_EM_T 0 0); [ | lra ]. rewrite xdiv_fin by lra. cbn [xmul tplus]. split; [ split; [ eexists; reflexivity | right; eexists; reflexivity ] | ].
      unfold rd, x_val, x_tan; cbn [fst snd nmax num_dual cst]. unfold sel3. rewrite Rmax_right by lra. destruct (Rlt_dec 0 a); [ lra | ]. destruct (Rlt_dec a 0); [ | lra ]. f_equal. field.
    + destruct (Req_EM_T a a); [ | lra ]. destruct (Req_EM_T 0 a) as [E | NE].
      * rewrite xdiv_fin by lra. cbn [xmul tplus]. split; [ split; [ eexists; reflexivity | right; eexists; reflexivity ] | ].
        unfold rd, x_val, x_tan; cbn [fst snd nmax num_dual cst]. unfold sel3. rewrite Rmax_left by lra. destruct (Rlt_dec 0 a); [ lra | ]. destruct (Rlt_dec a 0); [ lra | ]. f_equal. field.
      * rewrite xdiv_fin by lra. cbn [xmul tplus]. split; [ split; [ eexists; reflexivity | right; eexists; reflexivity ] | ].
        unfold rd, x_val, x_tan; cbn [fst snd nmax num_dual cst]. unfold sel3. rewrite Rmax_left by lra. destruct (Rlt_dec 0 a); [ | lra ]. f_equal. field.
Qed.

(** ** finite gradients *)
Fixpoint gm (d : gnz xdual) : gnz dual := match d with GNz f g zm => GNz (gmf f) (rd g) zm end
with gmf (f : gfam xdual) : gfam dual :=
  match f with
  | GSmail a b z0 => GSmail (rd a) (rd b) (rd z0)
  | GDelta z0 => GDelta (rd z0)
  | GKde zcat wt bw => GKde (map rd zcat) (map rd wt) bw
  | GShift p b => GShift (gm p) (rd b)
  end.
Fixpoint read_gm (v : dual -> R) (d : gnz xdual) : read_nz v (gm d) = read_nz (fun x => v (rd x)) d
with read_gmf (v : dual -> R) (f : gfam xdual) : read_fam v (gmf f) = read_fam (fun x => v (rd x)) f.
Proof.
  - destruct d as [f g zm]. exact (f_equal (fun h => nz_new h (v (rd g)) zm) (read_gmf v f)).
  - destruct f as [a b z0 | z0 | zc w bw | p b]; cbn [gmf read_fam]; [ reflexivity | reflexivity | now rewrite !map_map | exact (f_equal (fun h => Shift h (v (rd b))) (read_gm v p)) ].
Qed.
Definition hom (x : xdual) (y : dual) : Prop := finite x /\ rd x = y.
Lemma hom_sum l : (forall x, In x l -> finite x) -> hom (gsum N l) (gsum M (map rd l)).
Proof.
  induction l as [ | x l IH]; intros H; [ apply rd_cst | ]. cbn [map]. unfold gsum. cbn [fold_right]. destruct IH as [F E]; [ intros y Hy; apply H; now right | ].
  destruct (rd_add x (gsum N l) (H x (or_introl eq_refl)) F) as [F2 E2]. split; [ exact F2 | ]. unfold gsum in E2, E |- *. rewrite E2, E. reflexivity.
Qed.
Lemma hom_vmul u v : (forall x, In x u -> finite x) -> (forall x, In x v -> finite x) ->
  (forall x, In x (gvmul N u v) -> finite x) /\ map rd (gvmul N u v) = gvmul M (map rd u) (map rd v).
Proof.
  revert v. induction u as [ | x u IH]; intros [ | y v] HU HV; try (split; [ easy | reflexivity ]).
  destruct (IH v) as [F E]; [ intros q Hq; apply HU; now right | intros q Hq; apply HV; now right | ].
  destruct (rd_mul x y (HU x (or_introl eq_refl)) (HV y (or_introl eq_refl))) as [F2 E2].
  unfold gvmul in *. cbn [map2 map]. split; [ intros q [<- | Hq]; [ exact F2 | now apply F ] | now rewrite E2, E ].
Qed.
Lemma hom_kernel bw X x : bw <> 0 -> finite X -> finite x -> hom (hkde_kernel N bw X x) (hkde_kernel M bw (rd X) (rd x)).
Proof.
  intros HB HX Hx. unfold hkde_kernel. set (k := 1.0 / sqrt (2 * PI) / bw). set (q := bw ^ 2 * 2.0). assert (NQ : q <> 0) by (unfold q; assert (0 < bw ^ 2) by (now apply pow2_gt_0); lra).
  destruct (rd_sub X x HX Hx) as [F1 E1]. destruct (rd_sq _ F1) as [F2 E2]. destruct (rd_neg _ F2) as [F3 E3]. destruct (rd_cst q) as [Fq Eq].
  destruct (rd_div _ _ F3 Fq NQ) as [F4 E4]. destruct (rd_exp _ F4) as [F5 E5]. destruct (rd_cst k) as [Fk Ek]. destruct (rd_mul _ _ Fk F5) as [F6 E6].
  split; [ exact F6 | ]. now rewrite E6, Ek, E5, E4, E3, E2, E1, Eq.
Qed.
Lemma val_rd v x : hom x v -> x_val x = fst v. Proof. now intros [_ <-]. Qed.
Fixpoint hom_fn (d : gnz xdual) : finite_nz d -> forall x, finite x -> 0 <= x_val x -> smooth_nz (read_nz x_val d) (x_val x) -> hom (hpz_fn N d x) (hpz_fn M (gm d) (rd x))
with hom_fam (f : gfam xdual) : finite_fam f -> forall x, finite x -> 0 <= x_val x -> smooth_fam (read_fam x_val f) (x_val x) -> hom (hfam_pz N f x) (hfam_pz M (gmf f) (rd x)).
Proof.
  - destruct d as [f g zm]. intros [HF _] x. exact (hom_fam f HF x).
  - destruct f as [a b z0 | z0 | zc w bw | p b]; intros HF x Fx Px HS; cbn [finite_fam read_fam smooth_fam gmf hfam_pz] in *.
    + destruct HF as (Fa & Fb & Fz). destruct HS as (A1 & B1 & Z1).
      destruct (rd_pow x a Fx Fa) as [F1 E1]; [ lra | ]. destruct (rd_div x z0 Fx Fz) as [F2 E2]; [ lra | ].
      assert (V2 : x_val (ndiv N x z0) = x_val x / x_val z0) by (change (x_val (ndiv N x z0)) with (fst (rd (ndiv N x z0))); now rewrite E2).
      destruct (rd_pow _ b F2 Fb) as [F3 E3].
      { rewrite V2. destruct Px as [P | <-]; [ left; now apply Rdiv_lt_0_compat | right; split; [ unfold Rdiv; ring | lra ]]. }
      destruct (rd_neg _ F3) as [F4 E4]. destruct (rd_exp _ F4) as [F5 E5]. destruct (rd_mul _ _ F1 F5) as [F6 E6]. split; [ exact F6 | ]. now rewrite E6, E1, E5, E4, E3, E2.
    + destruct HS.
    + destruct HF as (FZ & FW). destruct HS as (HL & HW & HB).
      assert (FK : forall q, In q (map (fun X => hkde_kernel N bw X x) zc) -> finite q) by (intros q Hq; apply in_map_iff in Hq; destruct Hq as (X & <- & HX); exact (proj1 (hom_kernel bw X x HB (FZ X HX) Fx))).
      destruct (hom_vmul _ w FK FW) as [F1 E1]. destruct (hom_sum _ F1) as [F2 E2]. destruct (hom_sum _ FW) as [F3 E3].
      assert (VW : x_val (gsum N w) <> 0).
      { change (x_val (gsum N w)) with (fst (rd (gsum N w))). rewrite E3. replace (fst (gsum M (map rd w))) with (vsum (map x_val w)); [ exact HW | ].
        clear. induction w as [ | y w IH]; [ reflexivity | ]. unfold gsum, vsum in *. cbn [map fold_right nadd num_dual fst]. now rewrite IH. }
      destruct (rd_div _ _ F2 F3 VW) as [F4 E4]. split; [ exact F4 | ]. rewrite E4, E2, E3, E1. rewrite !map_map. do 3 f_equal. apply map_ext_in. intros X HX. exact (proj2 (hom_kernel bw X x HB (FZ X HX) Fx)).
    + destruct HF as (FP & Fb). destruct HS as [_ HS]. destruct (rd_sub x b Fx Fb) as [F1 E1]. destruct (rd_clip _ F1) as [F2 E2].
      assert (V2 : x_val (gclip_lo N (nsub N x b) 0) = Rmax (x_val x - x_val b) 0) by (change (x_val (gclip_lo N (nsub N x b) 0)) with (fst (rd (gclip_lo N (nsub N x b) 0))); rewrite E2, E1; reflexivity).
      rewrite <- E1, <- E2. apply hom_fn; [ exact FP | exact F2 | rewrite V2; apply Rmax_r | now rewrite V2 ].
Qed.
Definition frel (f : R -> R) (x : xdual) : Prop := finite x /\ tangent_of f 0 (rd x).
Lemma frel_respects : respects frel. Proof. intros f h y E [F T]. split; [ exact F | now apply (tangent_respects f) ]. Qed.
Lemma frel_cst x : frel (fun _ => x) (cst N x). Proof. split; [ apply rd_cst | apply (t_cst 0 x) ]. Qed.
Lemma frel_add f h x y : frel f x -> frel h y -> frel (fun s => f s + h s) (nadd N x y).
Proof. intros [F1 T1] [F2 T2]. destruct (rd_add x y F1 F2) as [F E]. split; [ exact F | rewrite E; now apply t_add ]. Qed.
Lemma frel_mul f h x y : frel f x -> frel h y -> frel (fun s => f s * h s) (nmul N x y).
Proof. intros [F1 T1] [F2 T2]. destruct (rd_mul x y F1 F2) as [F E]. split; [ exact F | rewrite E; now apply t_mul ]. Qed.
Lemma frel_div f h x y : h 0 <> 0 -> frel f x -> frel h y -> frel (fun s => f s / h s) (ndiv N x y).
Proof. intros H0 [F1 T1] [F2 T2]. destruct (rd_div x y F1 F2) as [F E]; [ change (x_val y) with (fst (rd y)); rewrite <- (t_leaf_0 _ _ T2); exact H0 | ]. split; [ exact F | rewrite E; now apply t_div ]. Qed.
Lemma moving_0 : read_nz (moving 0) = read_nz x_val.
Proof. f_equal. apply FunctionalExtensionality.functional_extensionality. intros x. unfold moving. ring. Qed.
Lemma frel_fn d q : finite_nz d -> 0 <= q -> smooth_nz (read_nz x_val d) q -> frel (fun s => pz_fn (read_nz (moving s) d) q) (hpz_fn N d (cst N q)).
Proof.
  intros FD Hq HS. destruct (rd_cst q) as [FC EC]. destruct (hom_fn d FD (cst N q) FC) as [F E]; [ exact Hq | exact HS | ]. split; [ exact F | ]. rewrite E, EC.
  apply (t_ext 0 (fun s => pz_fn (read_nz (at_time s) (gm d)) q)); [ intros s; now rewrite read_gm | ]. apply t_pz_fn; [ exact Hq | ]. apply smooth_soft. rewrite read_gm. exact HS.
Qed.
Lemma zmax_moving s d : nz_zmax (read_nz (moving s) d) = gnz_zmax d. Proof. now destruct d. Qed.
Lemma finite_redshift d q : 0 <= gnz_zmax d -> finite_nz d -> smooth_norm (read_nz x_val d) -> 0 <= q -> smooth_nz (read_nz x_val d) q ->
  frel (fun s => pz (read_nz (moving s) d) q) (hpz N d q).
Proof.
  intros HZ FD [HN H0] Hq HS. assert (ND : gis_delta d = false) by (destruct d as [[ | | | ] g zm]; try reflexivity; destruct HS).
  assert (ZV : nz_zmax (read_nz x_val d) = gnz_zmax d) by (now destruct d). rewrite ZV in HN, H0.
  apply (frel_respects (fun s => pz_fn (read_nz (moving s) d) q / nz_simps_norm (read_nz (moving s) d))).
  { intros s. destruct d as [f g zm]. unfold pz, nz_call. cbn [fst map]. unfold el. cbn [nth]. destruct f; try reflexivity. discriminate. }
  assert (EH : hpz N d q = ndiv N (hpz_fn N d (cst N q)) (hnz_norm N d)) by (destruct d as [[ | | | ] g zm]; reflexivity || discriminate).
  rewrite EH. unfold hnz_norm. rewrite ND.
  apply frel_div; [ rewrite nz_norm_simpson, zmax_moving, moving_0; exact H0 | now apply frel_fn | ].
  assert (HR := f_simps N frel frel_respects frel_cst frel_add frel_mul (fun s => pz_fn (read_nz (moving s) d)) (fun q => hpz_fn N d (cst N q)) 0.0 (gnz_zmax d) 256).
  assert (HF : forall x, In x (linspace 0.0 (gnz_zmax d) (256 + 1)) -> frel (fun s => pz_fn (read_nz (moving s) d) x) (hpz_fn N d (cst N x))).
  { intros x Hx. apply in_linspace in Hx. destruct Hx as (i & Hi & ->). replace (0.0 + INR i * ((gnz_zmax d - 0.0) / INR 256)) with (INR i * (gnz_zmax d / 256)).
    - apply frel_fn; [ exact FD | apply Rmult_le_pos; [ apply pos_INR | lra ] | now apply HN ].
    - replace (INR 256) with 256 by (rewrite INR_IZR_INZ; reflexivity). lra. }
  specialize (HR HF). destruct (rr_cases _ _ _ HR) as [(x & y & Ey & E & P) | (e & Ee & E)].
  - rewrite Ey. apply (frel_respects x); [ | exact P ]. intros s. unfold nz_simps_norm. rewrite zmax_moving. now rewrite E.
  - rewrite Ee. apply (frel_respects (fun _ => 0)); [ | apply frel_cst ]. intros s. unfold nz_simps_norm. rewrite zmax_moving. now rewrite E.
Qed.

(** ** NaN gradients *)
Definition bad (x : xdual) : Prop := snd x = Some NaN.
Lemma xadd_nan x : xadd x NaN = NaN. Proof. now destruct x. Qed.
Lemma xmul_nan x : xmul x NaN = NaN. Proof. destruct x; cbn; try reflexivity. Qed.
Lemma xdiv_nan x : xdiv NaN x = NaN. Proof. now destruct x. Qed.
Lemma tplus_l v : tplus (Some NaN) v = Some NaN. Proof. now destruct v. Qed.
Lemma tplus_r v : tplus v (Some NaN) = Some NaN. Proof. destruct v; cbn; [ now rewrite xadd_nan | reflexivity ]. Qed.
Lemma bad_add_l x y : bad x -> bad (nadd N x y). Proof. unfold bad. intros H. cbn [nadd num_x snd]. rewrite H. apply tplus_l. Qed.
Lemma bad_add_r x y : bad y -> bad (nadd N x y). Proof. unfold bad. intros H. cbn [nadd num_x snd]. rewrite H. apply tplus_r. Qed.
Lemma bad_sub_l x y : bad x -> bad (nsub N x y). Proof. unfold bad. intros H. cbn [nsub num_x snd]. rewrite H. apply tplus_l. Qed.
Lemma bad_mul_l x y : bad x -> bad (nmul N x y). Proof. unfold bad. intros H. cbn [nmul num_x snd]. rewrite H. apply tplus_l. Qed.
Lemma bad_mul_r x y : bad y -> bad (nmul N x y). Proof. unfold bad. intros H. cbn [nmul num_x snd]. rewrite H. apply tplus_r. Qed.
Lemma bad_div_l x y : bad x -> bad (ndiv N x y). Proof. unfold bad. intros H. cbn [ndiv num_x snd]. rewrite H. cbn [option_map]. rewrite xdiv_nan. apply tplus_l. Qed.
Lemma bad_div_r x y : bad y -> bad (ndiv N x y). Proof. unfold bad. intros H. cbn [ndiv num_x snd]. rewrite H. cbn [option_map]. change (xneg NaN) with NaN. assert (E1 : xmul NaN (fst x) = NaN) by reflexivity. rewrite E1. assert (E2 : forall u, xmul NaN u = NaN) by reflexivity. rewrite E2. apply tplus_r. Qed.
Lemma bad_neg x : bad x -> bad (nneg N x). Proof. unfold bad. intros H. cbn [nneg num_x snd]. rewrite H. reflexivity. Qed.
Lemma bad_exp x : bad x -> bad (nexp N x). Proof. unfold bad. intros H. cbn [nexp num_x snd]. rewrite H. reflexivity. Qed.
Lemma inf_1 : inf_of 1 = PInf. Proof. unfold inf_of. destruct (Rlt_dec 1 0); [ lra | ]. destruct (Rlt_dec 0 1); [ reflexivity | lra ]. Qed.
Lemma inf_m1 : inf_of (-1) = NInf. Proof. unfold inf_of. destruct (Rlt_dec (-1) 0); [ reflexivity | lra ]. Qed.
Lemma inf_0 : inf_of 0 = NaN. Proof. unfold inf_of. destruct (Rlt_dec 0 0); [ lra | ]. reflexivity. Qed.
Lemma sgn_cases r : (r = 0 /\ Rsgn r = 0) \/ (r <> 0 /\ (Rsgn r = 1 \/ Rsgn r = -1)).
Proof. unfold Rsgn. destruct (Rlt_dec r 0); [ right; lra | ]. destruct (Rlt_dec 0 r); [ right; lra | left; lra ]. Qed.
Lemma sgn_pos r : 0 < r -> Rsgn r = 1. Proof. intros H. unfold Rsgn. destruct (Rlt_dec r 0); [ lra | ]. destruct (Rlt_dec 0 r); lra. Qed.
Lemma xmul_pinf r : xmul (Fin r) PInf = NaN \/ xmul (Fin r) PInf = PInf \/ xmul (Fin r) PInf = NInf.
Proof. cbn [xmul xsgR]. rewrite Rmult_1_r. destruct (sgn_cases r) as [[_ ->] | [_ [-> | ->]]]; rewrite ?inf_0, ?inf_1, ?inf_m1; auto. Qed.
(** lax.pow at the base 0: the slope of the power is infinite *)
Lemma root_jac b : 0 < b < 1 -> xmul (Fin b) (xpow (Fin 0) (xpred (Fin b))) = PInf.
Proof.
  intros HB. unfold xpred. cbn [xeqb]. destruct (Req_EM_T b 0); [ lra | ]. unfold xsub. cbn [xneg xadd]. unfold xpow. destruct (Req_EM_T (b + - (1)) 0); [ lra | ]. destruct (Rlt_dec 0 0); [ lra | ].
  destruct (Req_EM_T 0 0); [ | lra ]. destruct (Rlt_dec (b + - (1)) 0); [ | lra ]. cbn [xmul xsgR]. rewrite sgn_pos, Rmult_1_r by lra. apply inf_1.
Qed.
Lemma smail_zero a b z0 x : finite a -> finite b -> finite z0 -> finite x -> x_val x = 0 -> 0 < x_val a -> 0 < x_val b < 1 -> 0 < x_val z0 -> (snd x <> None \/ snd z0 <> None) ->
  bad (hfam_pz N (GSmail a b z0) x).
Proof.
  intros Fa Fb Fz Fx X0 A0 B0 Z0 MV. cbn [hfam_pz]. destruct (rd_div x z0 Fx Fz) as [Fq Eq]; [ lra | ].
  assert (SQ : exists c, ndiv N x z0 = (Fin 0, Some (Fin c))).
  { assert (V0 : x_val (ndiv N x z0) = 0) by (change (x_val (ndiv N x z0)) with (fst (rd (ndiv N x z0))); rewrite Eq; cbn [ndiv num_dual rd fst]; rewrite X0; unfold Rdiv; ring).
    assert (NS : snd (ndiv N x z0) <> None).
    { destruct x as [vx tx], z0 as [vz tz]. cbn [ndiv num_x snd fst] in *. destruct tx as [tx | ]; [ destruct tz; discriminate | ]. destruct tz as [tz | ]; [ discriminate | ]. destruct MV as [MV | MV]; now destruct MV. }
    destruct (ndiv N x z0) as [vq tq]. destruct Fq as [[q E1] [E2 | [c E2]]]; cbn [fst snd] in *; [ now rewrite E2 in NS | ]. subst. unfold x_val in V0. cbn [fst] in V0. subst. now exists c. }
  destruct SQ as (c & ->). destruct a as [va ta], b as [vb tb]. destruct Fa as [[pa Ea] Fa], Fb as [[pb Eb] Fb]. cbn [fst snd] in *. subst va vb. unfold x_val in A0, B0. cbn [fst] in A0, B0.
  assert (XV : fst x = Fin 0) by (destruct Fx as [[p E] _]; unfold x_val in X0; rewrite E in *; now subst).
  assert (PA : fst (npow N x (Fin pa, ta)) = Fin 0) by (cbn [npow num_x fst]; rewrite XV, xpow_fin by lra; f_equal; apply rpow_0l; lra).
  set (W := npow N (Fin 0, Some (Fin c)) (Fin pb, tb)).
  assert (PW : fst W = Fin 0) by (unfold W; cbn [npow num_x fst]; rewrite xpow_fin by lra; f_equal; apply rpow_0l; lra).
  assert (TW : bad W \/ snd W = Some PInf \/ snd W = Some NInf).
  { unfold W, bad. cbn [npow num_x snd fst ttimes option_map]. rewrite root_jac by lra. rewrite xpow_fin by lra. rewrite xlog_fin by lra.
    destruct (xmul_pinf c) as [-> | [-> | ->]]; [ left; apply tplus_l | right; left | right; right ]; (destruct Fb as [-> | [u ->]]; reflexivity). }
  destruct TW as [TW | TW]; [ apply bad_mul_r, bad_exp, bad_neg; exact TW | ].
  assert (TE : snd (nexp N (nneg N W)) = Some PInf \/ snd (nexp N (nneg N W)) = Some NInf).
  { destruct W as [vw tw]. cbn [fst snd] in PW, TW. subst vw. cbn [nexp nneg num_x snd fst xneg xexp]. rewrite Ropp_0, exp_0. destruct TW as [-> | ->]; cbn [option_map ttimes xneg xmul xsgR]; rewrite sgn_pos by lra; [ right | left ]; f_equal; [ replace (-1 * 1) with (-1) by ring; apply inf_m1 | rewrite Rmult_1_r; apply inf_1 ]. }
  unfold bad. cbn [nmul num_x snd]. rewrite PA. destruct TE as [-> | ->]; cbn [ttimes option_map xmul xsgR]; unfold Rsgn; destruct (Rlt_dec 0 0); try lra; rewrite Rmult_0_r, inf_0; apply tplus_r.
Qed.
(** the derivative is NaN at every redshift, since the first node of the normalisation is at redshift 0 *)
Global Instance bad_poison : poison num_x bad.
Proof. split; [ exact bad_add_l | exact bad_add_r | exact bad_sub_l | exact bad_mul_l | exact bad_mul_r | exact bad_div_l | exact bad_div_r ]. Qed.
Local Notation dead := (dead (N := num_x) (bad := bad)).
Lemma smail_dead a b z0 g zm : finite a -> finite b -> finite z0 -> 0 < x_val a -> 0 < x_val b < 1 -> 0 < x_val z0 -> snd z0 <> None -> dead (GNz (GSmail a b z0) g zm).
Proof. intros Fa Fb Fz A0 B0 Z0 MV. split; [ reflexivity | ]. cbn [hpz_fn]. apply smail_zero; try assumption; [ apply rd_cst | reflexivity | now right ]. Qed.
Lemma shift_dead a b z0 g zm be g' zm' : finite a -> finite b -> finite z0 -> finite be -> 0 < x_val a -> 0 < x_val b < 1 -> 0 < x_val z0 -> 0 <= x_val be -> snd be <> None ->
  dead (GNz (GShift (GNz (GSmail a b z0) g zm) be) g' zm').
Proof.
  intros Fa Fb Fz Fe A0 B0 Z0 E0 MV. split; [ reflexivity | ]. cbn [hpz_fn hfam_pz]. destruct (rd_sub (cst N 0) be (proj1 (rd_cst 0)) Fe) as [F1 E1]. destruct (rd_clip _ F1) as [F2 E2].
  apply smail_zero; try assumption.
  - change (x_val (gclip_lo N (nsub N (cst N 0) be) 0)) with (fst (rd (gclip_lo N (nsub N (cst N 0) be) 0))). rewrite E2, E1. change (Rmax (0 - x_val be) 0 = 0). rewrite Rmax_right; lra.
  - left. destruct be as [vb [tb | ]]; [ | now destruct MV ]. unfold gclip_lo. cbn [nmax nsub cst num_x snd tplus option_map ttimes]. discriminate.
Qed.

(** ** such distributions are differentiable *)
Lemma rpow_pos x y : 0 < x -> 0 < rpow x y. Proof. intros H. unfold rpow. destruct (Req_EM_T x 0); [ lra | apply exp_pos ]. Qed.
Lemma smail_nonneg a b z0 x : 0 <= fam_pz (Smail a b z0) x.
Proof. cbn [fam_pz]. apply Rmult_le_pos; [ apply rpow_nonneg | left; apply exp_pos ]. Qed.
Lemma smail_pos a b z0 x : 0 < x -> 0 < fam_pz (Smail a b z0) x.
Proof. intros H. cbn [fam_pz]. apply Rmult_lt_0_compat; [ now apply rpow_pos | apply exp_pos ]. Qed.
Lemma Rsum_nonneg n f : (forall i, (i < n)%nat -> 0 <= f i) -> 0 <= Rsum n f.
Proof. induction n as [ | n IH]; intros H; cbn [Rsum]; [ lra | ]. assert (A := IH (fun i Hi => H i (Nat.lt_lt_succ_r _ _ Hi))). assert (B := H n (Nat.lt_succ_diag_r n)). lra. Qed.
Lemma simpson_pos f zm n : 0 < zm -> (forall x, 0 <= f x) -> 0 < f zm -> simpson f 0 zm (2 * S n) <> 0.
Proof.
  intros HZ H0 HM. unfold simpson. replace (2 * S n / 2)%nat with (S n) by (rewrite Nat.mul_comm, Nat.div_mul; lia).
  assert (PN : 0 < INR (2 * S n)) by (apply lt_0_INR; lia). assert (EN : node 0 zm (2 * S n) (2 * n + 2) = zm) by (unfold node; replace (2 * n + 2)%nat with (2 * S n)%nat by lia; field; lra).
  apply Rmult_integral_contrapositive_currified; [ apply Rgt_not_eq; apply Rdiv_lt_0_compat; [ apply Rdiv_lt_0_compat | ]; lra | ].
  cbn [Rsum]. rewrite EN. assert (A := H0 (node 0 zm (2 * S n) (2 * n))). assert (B := H0 (node 0 zm (2 * S n) (2 * n + 1))).
  assert (C : 0 <= Rsum n (fun i => f (node 0 zm (2 * S n) (2 * i)) + 4 * f (node 0 zm (2 * S n) (2 * i + 1)) + f (node 0 zm (2 * S n) (2 * i + 2)))).
  { apply Rsum_nonneg. intros i _. assert (A1 := H0 (node 0 zm (2 * S n) (2 * i))). assert (A2 := H0 (node 0 zm (2 * S n) (2 * i + 1))). assert (A3 := H0 (node 0 zm (2 * S n) (2 * i + 2))). lra. }
  lra.
Qed.
Lemma soft_differentiable (d : gnz xdual) q : 0 <= gnz_zmax d -> soft_norm (read_nz x_val d) -> 0 <= q -> soft_nz (read_nz x_val d) q -> ex_derive (fun t => pz (read_nz (moving t) d) q) 0.
Proof.
  intros HZ HN Hq HS. assert (ZE : gnz_zmax (gm d) = gnz_zmax d) by (now destruct d).
  assert (T : tangent_of (fun s => pz (read_nz (at_time s) (gm d)) q) 0 (hpz num_dual (gm d) q)).
  { apply t_pz_soft; [ rewrite <- ZE in HZ; exact HZ | exact (eq_ind_r soft_norm HN (read_gm fst d)) | exact Hq | exact (eq_ind_r (fun e => soft_nz e q) HS (read_gm fst d)) ]. }
  destruct T as [_ D]. exists (snd (hpz num_dual (gm d) q)). refine (is_derive_ext _ _ _ _ _ D). intros s. cbv beta. now rewrite (read_gm (at_time s) d).
Qed.
Lemma smail_differentiable a b z0 g zm q : 0 < x_val a -> 0 < x_val b -> 0 < x_val z0 -> 0 < zm -> 0 <= q -> ex_derive (fun t => pz (read_nz (moving t) (GNz (GSmail a b z0) g zm)) q) 0.
Proof.
  intros A0 B0 Z0 HZ Hq. apply soft_differentiable; [ cbn [gnz_zmax]; lra | | exact Hq | easy ]. split; [ easy | ].
  cbn [read_nz read_fam nz_new nz_zmax]. apply (simpson_pos _ zm 127 HZ); [ apply smail_nonneg | now apply smail_pos ].
Qed.
Lemma shift_differentiable a b z0 g zm be g' zm' q : 1 < x_val a -> 0 < x_val b -> 0 < x_val z0 -> x_val be < zm' -> 0 < zm' -> 0 <= q ->
  ex_derive (fun t => pz (read_nz (moving t) (GNz (GShift (GNz (GSmail a b z0) g zm) be) g' zm')) q) 0.
Proof.
  intros A0 B0 Z0 HB HZ Hq. assert (HS : forall x, soft_nz (read_nz x_val (GNz (GShift (GNz (GSmail a b z0) g zm) be) g' zm')) x) by (intros x; cbn; split; [ now right | lra ]).
  apply soft_differentiable; [ cbn [gnz_zmax]; lra | | exact Hq | apply HS ]. split; [ intros i _; apply HS | ].
  cbn [read_nz read_fam nz_new nz_zmax]. apply (simpson_pos _ zm' 127 HZ); cbn [pz_fn fam_pz nz_new]; [ intros x; apply (smail_nonneg (x_val a) (x_val b) (x_val z0)) | ].
  unfold clip_lo. rewrite Rmax_left by lra. apply (smail_pos (x_val a) (x_val b) (x_val z0)). lra.
Qed.
