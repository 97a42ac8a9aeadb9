(** * Redshift distributions on dual numbers *)
From Coquelicot Require Import Coquelicot.
From Verif Require Import Np NpLemmas Core Interp Integrate IntegrateSpec SimpsProofs Background Transfer Power Redshift RedshiftProofs Bias Probes AngularCl GradSpec Ad AdSpec AdProofs AdBg AdFinal
  AdPower AdProbes AdRel AdProbesProofs AdProbesFinal AdArrSpec AdNuis AdNuisProofs AdNuisSpec.
From Coq Require Import FunctionalExtensionality.

Local Notation T f x := (tangent_of f 0 x).
Local Notation N := num_dual.
Lemma at_0 x : at_time 0 x = fst x. Proof. unfold at_time. ring. Qed.
Lemma at_0_eq : at_time 0 = fst. Proof. apply functional_extensionality. exact at_0. Qed.
Lemma t_leaf x : T (fun s => at_time s x) x.
Proof. destruct x as [x dx]. exact (line_tangent x dx). Qed.
Lemma t_leaf_0 x f : T f x -> f 0 = fst x. Proof. now intros [E _]. Qed.

(** curves that vanish to second order *)
Lemma flat_derive f K (h : R -> R) : f 0 = 0 -> locally 0 (fun s => Rabs (f s) <= K * Rabs s * h s) -> (forall e, 0 < e -> locally 0 (fun s => 0 <= h s <= e)) -> 0 < K -> is_derive f 0 0.
Proof.
  intros F0 B Hh HK. apply is_derive_Reals. intros e Pe. assert (PK : 0 < e / 2 / K) by (apply Rdiv_lt_0_compat; lra).
  specialize (Hh (e / 2 / K) PK). destruct (filter_and _ _ B Hh) as [del Hd]. exists del. intros k Nh Hh2. rewrite Rplus_0_l, F0, !Rminus_0_r.
  assert (BB : ball 0 del k) by (change (Rabs (k - 0) < del); now rewrite Rminus_0_r). destruct (Hd k BB) as [B1 H1].
  unfold Rdiv. rewrite Rabs_mult, Rabs_inv. assert (PH := Rabs_pos_lt k Nh). apply (Rle_lt_trans _ (e / 2)); [ | lra ].
  apply (Rmult_le_reg_r (Rabs k)); [ exact PH | ]. rewrite Rmult_assoc, Rinv_l, Rmult_1_r by lra. apply (Rle_trans _ _ _ B1).
  replace (e / 2 * Rabs k) with (K * Rabs k * (e / 2 / K)) by (field; lra). apply Rmult_le_compat_l; [ apply Rmult_le_pos; lra | apply H1 ].
Qed.
Lemma lipschitz f x : T f x -> f 0 = 0 -> exists K, 0 < K /\ locally 0 (fun s => Rabs (f s) <= K * Rabs s).
Proof.
  intros [E D] F0. apply is_derive_Reals in D. destruct (D 1 Rlt_0_1) as [del Hd]. exists (Rabs (snd x) + 1). split; [ pose proof (Rabs_pos (snd x)); lra | ].
  exists del. intros s Bs. change (Rabs (s - 0) < del) in Bs. rewrite Rminus_0_r in Bs. destruct (Req_dec s 0) as [-> | Ns]; [ rewrite F0, Rabs_R0; lra | ].
  specialize (Hd s Ns Bs). rewrite Rplus_0_l, F0, Rminus_0_r in Hd. replace (f s) with ((f s / s - snd x) * s + snd x * s) by (field; exact Ns).
  apply (Rle_trans _ _ _ (Rabs_triang _ _)). rewrite !Rabs_mult. assert (PS := Rabs_pos s). nra.
Qed.
Lemma rpow_0l y : y <> 0 -> rpow 0 y = 0.
Proof. intros Hy. unfold rpow. destruct (Req_EM_T 0 0) as [_ | X]; [ | now destruct X ]. destruct (Req_EM_T y 0); [ easy | reflexivity ]. Qed.
Lemma rpow_nonneg x y : 0 <= rpow x y.
Proof. unfold rpow. destruct (Req_EM_T x 0); [ destruct (Req_EM_T y 0); lra | left; apply exp_pos ]. Qed.
(** lax.pow at a base that stays zero *)
Lemma t_pow_still f h x y : locally 0 (fun s => f s = 0) -> snd x = 0 -> h 0 <> 0 -> T f x -> T h y -> T (fun s => rpow (f s) (h s)) (npow N x y).
Proof.
  intros Z S0 H0 Tf Th. assert (F0 : f 0 = 0) by (apply (locally_singleton _ _ Z)). assert (X0 : fst x = 0) by (now rewrite <- (t_leaf_0 _ _ Tf)). assert (Y0 := t_leaf_0 _ _ Th).
  replace (npow N x y) with ((0, 0) : dual).
  - apply (t_loc 0 (fun _ => 0)); [ | apply t_cst ]. assert (C := t_continuous _ _ _ Th). specialize (C (fun v => v <> 0) (open_neq 0 _ H0)). generalize (filter_and _ _ Z C). apply filter_imp. intros s [E1 E2]. now rewrite E1, rpow_0l.
  - cbn [npow num_dual]. rewrite X0, S0, <- Y0, rpow_0l by exact H0. f_equal. ring.
Qed.
(** x ** a * exp(- (x / z0) ** b) where x = max(u, 0) and u = 0 at the start *)
Lemma t_smail_tie u a b z0 ud ad bd zd : u 0 = 0 -> 1 < a 0 -> 0 < b 0 -> 0 < z0 0 -> T u ud -> T a ad -> T b bd -> T z0 zd ->
  T (fun s => rpow (Rmax (u s) 0) (a s) * exp (- rpow (Rmax (u s) 0 / z0 s) (b s)))
    (nmul N (npow N (nmax N ud (cst N 0)) ad) (nexp N (nneg N (npow N (ndiv N (nmax N ud (cst N 0)) zd) bd)))).
Proof.
  intros U0 A1 B1 Z1 Tu Ta Tb Tz. assert (UD := t_leaf_0 _ _ Tu). assert (AD := t_leaf_0 _ _ Ta). assert (BD := t_leaf_0 _ _ Tb). assert (ZD := t_leaf_0 _ _ Tz).
  set (W := nexp N _). assert (EV : nmul N (npow N (nmax N ud (cst N 0)) ad) W = ((0, 0) : dual)).
  { cbn [nmul npow nmax cst num_dual fst snd]. rewrite <- UD, U0, Rmax_left, rpow_0l, (rpow_0l (fst ad - 1)) by lra. f_equal; ring. }
  rewrite EV. split; cbn [fst snd]; [ rewrite U0, Rmax_left, rpow_0l by lra; ring | ].
  destruct (lipschitz u ud Tu U0) as (K & PK & LK). set (e := (a 0 - 1) / 2). assert (PE : 0 < e) by (unfold e; lra).
  assert (LA : locally 0 (fun s => 1 + e < a s)) by (apply (t_gt 0 a ad); [ exact Ta | unfold e; lra ]).
  assert (LU : forall q, 0 < q -> locally 0 (fun s => u s < q)) by (intros q Pq; apply (t_lt 0 u ud); [ exact Tu | lra ]).
  apply (flat_derive _ K (fun s => if Rlt_dec 0 (u s) then exp (e * ln (u s)) else 0)); [ rewrite U0, Rmax_left, rpow_0l by lra; ring | | | exact PK ].
  - generalize (filter_and _ _ LA (filter_and _ _ LK (LU 1 Rlt_0_1))). apply filter_imp. intros s (Ha & Hk & Hu).
    assert (EX : Rabs (exp (- rpow (Rmax (u s) 0 / z0 s) (b s))) <= 1).
    { rewrite Rabs_pos_eq by (left; apply exp_pos). rewrite <- exp_0. assert (R0 := rpow_nonneg (Rmax (u s) 0 / z0 s) (b s)). destruct R0 as [R0 | R0]; [ left; apply exp_increasing; lra | rewrite <- R0, Ropp_0; lra ]. }
    rewrite Rabs_mult. set (E := Rabs (exp _)) in *. assert (E0 : 0 <= E) by apply Rabs_pos.
    destruct (Rlt_dec 0 (u s)) as [L | L].
    + rewrite Rmax_left by lra. assert (RP : rpow (u s) (a s) = exp (a s * ln (u s))) by (unfold rpow; destruct (Req_EM_T (u s) 0); [ lra | reflexivity ]). rewrite Rabs_pos_eq by apply rpow_nonneg. rewrite RP.
      assert (LN : ln (u s) < 0) by (rewrite <- ln_1; apply ln_increasing; lra).
      assert (LE : exp (a s * ln (u s)) <= u s * exp (e * ln (u s))).
      { rewrite <- (exp_ln (u s) L) at 2. rewrite <- exp_plus. left. apply exp_increasing. nra. }
      rewrite Rabs_pos_eq in Hk by lra. assert (X1 := exp_pos (a s * ln (u s))). assert (X2 := exp_pos (e * ln (u s))).
      apply (Rle_trans _ (u s * exp (e * ln (u s)))); [ nra | ]. apply Rmult_le_compat_r; lra.
    + rewrite Rmax_right, rpow_0l by lra. rewrite Rabs_R0, Rmult_0_l. rewrite Rmult_0_r. lra.
  - intros q Pq. generalize (LU (exp (ln q / e)) (exp_pos _)). apply filter_imp. intros s Hs. destruct (Rlt_dec 0 (u s)) as [L | L]; [ | lra ]. split; [ left; apply exp_pos | ].
    rewrite <- (exp_ln q Pq). left. apply exp_increasing. apply (Rlt_le_trans _ (e * (ln q / e))); [ | right; field; lra ]. apply Rmult_lt_compat_l; [ exact PE | ].
    rewrite <- (ln_exp (ln q / e)). now apply ln_increasing.
Qed.

(** ** every distribution *)
Lemma lr_leaf_dual l : lr (fun f x => T f x) (fun s => map (at_time s) l) l.
Proof. apply (lr_leaf (fun f x => T f x) at_time (fun _ => True) (fun x _ => t_leaf x)). auto. Qed.
Definition settled (x : R -> R) (xd : dual) : Prop := 0 < x 0 \/ locally 0 (fun s => x s = 0) /\ snd xd = 0.
Lemma t_power_settled f h x y : settled f x -> h 0 <> 0 -> T f x -> T h y -> T (fun s => rpow (f s) (h s)) (npow N x y).
Proof. intros [P | [L S0]] H0 Tf Th; [ now apply t_pow | now apply t_pow_still ]. Qed.
Lemma vdot_vsum u v : vdot u v = vsum (vmul u v). Proof. reflexivity. Qed.
(** exponents of less than 1 are no obstacle to differentiability *)
Fixpoint soft_nz (d : nz) (x : R) : Prop := match d with Nz f _ _ _ => soft_fam f x end
with soft_fam (f : nz_family) (x : R) : Prop :=
  match f with
  | Smail a b z0 => 0 < a /\ 0 < b /\ 0 < z0
  | Delta _ => False
  | Kde zcat wt bw => length wt = length zcat /\ vsum wt <> 0 /\ bw <> 0
  | Shift p b => (x <> b \/ steep p) /\ soft_nz p (Rmax (x - b) 0)
  end.
Fixpoint smooth_soft (d : nz) : forall x, smooth_nz d x -> soft_nz d x
with smooth_soft_fam (f : nz_family) : forall x, smooth_fam f x -> soft_fam f x.
Proof.
  - destruct d as [f g zm n]. intros x. exact (smooth_soft_fam f x).
  - destruct f as [a b z0 | z0 | zc w bw | p b]; intros x; cbn [smooth_fam soft_fam]; [ lra | easy | easy | ]. intros [H1 H2]. split; [ exact H1 | now apply smooth_soft ].
Qed.
Definition soft_norm (d : nz) : Prop :=
  (forall i, (i <= 256)%nat -> soft_nz d (INR i * (nz_zmax d / 256))) /\ simpson (pz_fn d) 0 (nz_zmax d) 256 <> 0.
Fixpoint carry (d : gnz dual) : forall x xd, T x xd -> settled x xd -> soft_nz (read_nz fst d) (x 0) ->
  T (fun s => pz_fn (read_nz (at_time s) d) (x s)) (hpz_fn N d xd)
with carry_fam (f : gfam dual) : forall x xd, T x xd -> settled x xd -> soft_fam (read_fam fst f) (x 0) ->
  T (fun s => fam_pz (read_fam (at_time s) f) (x s)) (hfam_pz N f xd).
Proof.
  - destruct d as [f g zm]. intros x xd Tx Sx HS. exact (carry_fam f x xd Tx Sx HS).
  - destruct f as [a b z0 | z0 | zc w bw | p b]; intros x xd Tx Sx HS; cbn [read_fam fam_pz hfam_pz soft_fam] in *.
    + destruct HS as (A1 & B1 & Z1). assert (Ta := t_leaf a). assert (Tb := t_leaf b). assert (Tz := t_leaf z0).
      apply t_mul; [ apply t_power_settled; try assumption; rewrite at_0; lra | ]. apply t_exp, t_neg.
      assert (Tq : T (fun s => x s / at_time s z0) (ndiv N xd z0)) by (apply t_div; [ rewrite at_0; lra | exact Tx | exact Tz ]).
      apply (t_power_settled (fun s => x s / at_time s z0)); [ | rewrite at_0; lra | exact Tq | exact Tb ].
      destruct Sx as [P | [L S0]]; [ left; rewrite at_0; now apply Rdiv_lt_0_compat | right ]. split; [ revert L; apply filter_imp; intros s ->; unfold Rdiv; ring | ].
      assert (X0 : x 0 = 0) by (apply (locally_singleton _ _ L)). cbn [ndiv num_dual snd]. rewrite S0, <- (t_leaf_0 _ _ Tx), X0. unfold Rdiv. ring.
    + destruct HS.
    + destruct HS as (HL & HW & HB). rewrite map_length in HL. rewrite map_length in HL.
      assert (SQ : bw ^ 2 * 2.0 <> 0) by (assert (0 < bw ^ 2) by (now apply pow2_gt_0); lra).
      apply (t_div 0 (fun s => vdot (map (fun X => kde_kernel bw X (x s)) (map (at_time s) zc)) (map (at_time s) w)) (fun s => vsum (map (at_time s) w))); [ now rewrite at_0_eq | | ].
      * apply (t_ext 0 (fun s => vsum (vmul (map (fun X => kde_kernel bw X (x s)) (map (at_time s) zc)) (map (at_time s) w)))); [ intros s; reflexivity | ].
        apply (f_vsum N (fun f x => T f x) tangent_respects (t_cst 0) (t_add 0)). apply (f_vmul N (fun f x => T f x) (t_mul 0)); [ | apply lr_leaf_dual ].
        apply (lr_map (fun f x => T f x) (fun f x => T f x) (fun s X => kde_kernel bw X (x s)) (fun X => hkde_kernel N bw X xd)); [ | apply lr_leaf_dual ].
        intros q qd Tq. unfold kde_kernel, hkde_kernel. apply (t_mul 0 (fun _ => _)); [ apply (t_cst 0) | ].
        apply t_exp. apply (t_div 0 _ (fun _ => bw ^ 2 * 2.0)); [ exact SQ | | apply (t_cst 0) ]. apply t_neg.
        exact (t_ipow 0 2 _ _ (or_intror eq_refl) (t_sub 0 _ _ _ _ Tq Tx)).
      * apply (f_vsum N (fun f x => T f x) tangent_respects (t_cst 0) (t_add 0)). apply lr_leaf_dual.
    + destruct HS as [HT HP]. assert (Tb := t_leaf b). assert (Tu := t_sub 0 _ _ _ _ Tx Tb). assert (U0 := t_leaf_0 _ _ Tu). cbv beta in U0.
      assert (BE : at_time 0 b = fst b) by apply at_0.
      destruct (Req_dec (x 0) (fst b)) as [E | NE].
      * destruct HT as [HT | HT]; [ now destruct HT | ]. destruct p as [[a' b' z' | | | ] gg zm]; cbn [read_nz nz_fam nz_new read_fam] in HT; try (now destruct HT). cbn [steep nz_fam] in HT. unfold steep in HT. cbn [nz_fam] in HT.
        cbn [read_nz nz_new soft_nz read_fam soft_fam] in HP. destruct HP as (A1 & B1 & Z1).
        cbn [read_nz nz_new pz_fn read_fam fam_pz hpz_fn hfam_pz]. unfold clip_lo, gclip_lo.
        apply (t_smail_tie (fun s => x s - at_time s b)); try apply t_leaf; rewrite ?at_0; try assumption; lra.
      * assert (Ty : T (fun s => clip_lo (x s - at_time s b) 0) (gclip_lo N (nsub N xd b) 0)).
        { apply (t_max 0 (fun s => x s - at_time s b) (fun _ => 0)); [ rewrite BE; lra | exact Tu | apply t_cst ]. }
        apply (carry p (fun s => clip_lo (x s - at_time s b) 0)); [ exact Ty | | cbv beta; rewrite BE; exact HP ].
        destruct (Rlt_dec (fst b) (x 0)) as [L | L]; [ left; rewrite BE; unfold clip_lo; rewrite Rmax_left; lra | right ]. split.
        -- assert (LT := t_lt 0 _ _ 0 Tu ltac:(cbv beta; rewrite BE; lra)). revert LT. apply filter_imp. intros s Hs. unfold clip_lo. rewrite Rmax_right; lra.
        -- unfold gclip_lo. cbn [nmax cst nsub num_dual fst snd]. unfold sel3. rewrite (t_leaf_0 _ _ Tx) in L, NE. destruct (Rlt_dec 0 (fst xd - fst b)); [ lra | ]. destruct (Rlt_dec (fst xd - fst b) 0); [ reflexivity | lra ].
Qed.
Lemma settled_const q : 0 <= q -> settled (fun _ => q) (cst N q).
Proof. intros [P | <-]; [ now left | right; split; [ now apply filter_forall | reflexivity ]]. Qed.
Lemma t_pz_fn (d : gnz dual) q : 0 <= q -> soft_nz (read_nz fst d) q -> T (fun s => pz_fn (read_nz (at_time s) d) q) (hpz_fn N d (cst N q)).
Proof. intros Hq HS. apply (carry d (fun _ => q)); [ apply (t_cst 0) | now apply settled_const | exact HS ]. Qed.
Lemma smooth_not_delta f x : soft_fam f x -> match f with Delta _ => False | _ => True end. Proof. now destruct f. Qed.
Lemma t_pz_soft (d : gnz dual) q : 0 <= gnz_zmax d -> soft_norm (read_nz fst d) -> 0 <= q -> soft_nz (read_nz fst d) q ->
  T (fun s => pz (read_nz (at_time s) d) q) (hpz N d q).
Proof.
  intros HZ [HN H0] Hq HS. assert (ND : gis_delta d = false) by (destruct d as [[ | | | ] g zm]; try reflexivity; destruct HS).
  apply (t_ext 0 (fun s => pz_fn (read_nz (at_time s) d) q / nz_simps_norm (read_nz (at_time s) d))).
  { intros s. destruct d as [f g zm]. unfold pz, nz_call. cbn [fst map]. unfold el. cbn [nth]. destruct f; try reflexivity. discriminate. }
  assert (EH : hpz N d q = ndiv N (hpz_fn N d (cst N q)) (hnz_norm N d)) by (destruct d as [[ | | | ] g zm]; reflexivity || discriminate).
  rewrite EH. unfold hnz_norm. rewrite ND. rewrite read_zmax in *.
  apply t_div; [ rewrite at_0_eq, nz_norm_simpson, read_zmax; exact H0 | now apply t_pz_fn | ].
  assert (HR := f_simps N (fun f x => T f x) tangent_respects (t_cst 0) (t_add 0) (t_mul 0) (fun s => pz_fn (read_nz (at_time s) d)) (fun q => hpz_fn N d (cst N q)) 0.0 (gnz_zmax d) 256).
  assert (HF : forall x, In x (linspace 0.0 (gnz_zmax d) (256 + 1)) -> T (fun s => pz_fn (read_nz (at_time s) d) x) (hpz_fn N d (cst N x))).
  { intros x Hx. apply in_linspace in Hx. destruct Hx as (i & Hi & ->). replace (0.0 + INR i * ((gnz_zmax d - 0.0) / INR 256)) with (INR i * (gnz_zmax d / 256)).
    - apply t_pz_fn; [ apply Rmult_le_pos; [ apply pos_INR | lra ] | now apply HN ].
    - replace (INR 256) with 256 by (rewrite INR_IZR_INZ; reflexivity). lra. }
  specialize (HR HF). destruct (rr_cases _ _ _ HR) as [(x & y & Ey & E & P) | (e & Ee & E)].
  - rewrite Ey. apply (t_ext 0 x); [ | exact P ]. intros s. unfold nz_simps_norm. rewrite read_zmax. now rewrite E.
  - rewrite Ee. apply (t_ext 0 (fun _ => 0)); [ | apply (t_cst 0) ]. intros s. unfold nz_simps_norm. rewrite read_zmax. now rewrite E.
Qed.
Lemma t_pz (d : gnz dual) q : 0 <= gnz_zmax d -> smooth_norm (read_nz fst d) -> 0 <= q -> smooth_nz (read_nz fst d) q ->
  T (fun s => pz (read_nz (at_time s) d) q) (hpz N d q).
Proof. intros HZ [HN H0] Hq HS. apply t_pz_soft; try assumption; [ split; [ intros i Hi; now apply smooth_soft, HN | exact H0 ] | now apply smooth_soft ]. Qed.
