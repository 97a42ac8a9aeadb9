(** * Forward-mode differentiation of kernels and Limber spectra: public statements *)
From Coquelicot Require Import Coquelicot.
From Verif Require Import Np NpLemmas Core Ode OdeSpec OdeProofs Interp InterpProofs InterpCont Integrate IntegrateSpec RombProofs Background BgSpec BgAlgebra BgTables
  BgGrowth BgPositive BgProofs BgFinal BgFinal2 BgFinal4 BgGrad Transfer TransferProofs TransferMono Power PowerProofs ExPower Redshift RedshiftProofs Bias Probes AngularCl GradSpec
  Ad AdSpec AdProofs AdBg AdGrowth AdFinal AdPower AdPowerProofs AdTransfer AdPowerFinal AdProbes AdRel AdProbesProofs AdArrSpec.
Opaque chi_table growth_table_ODE growth_table_gamma logspace.

(** ** the distance is strictly decreasing *)
Lemma min_slope xp fp : incr xp -> decr fp -> length fp = length xp -> exists L, 0 < L /\ forall k, (k + 1 < length xp)%nat -> L * (el xp (k + 1) - el xp k) <= el fp k - el fp (k + 1).
Proof.
  intros Hi Hd Hl.
  assert (G : forall m, (m + 1 <= length xp)%nat -> exists L, 0 < L /\ forall k, (k < m)%nat -> L * (el xp (k + 1) - el xp k) <= el fp k - el fp (k + 1)).
  { induction m as [ | m IH]; intros Hm; [ exists 1; split; [ lra | lia ] | ]. destruct (IH ltac:(lia)) as (L & L0 & HL).
    assert (X : 0 < el xp (m + 1) - el xp m) by (specialize (Hi m (m + 1)%nat ltac:(lia)); lra).
    assert (F : 0 < el fp m - el fp (m + 1)) by (specialize (Hd m (m + 1)%nat ltac:(lia)); lra).
    set (u := (el fp m - el fp (m + 1)) / (el xp (m + 1) - el xp m)). assert (U : 0 < u) by (now apply Rdiv_lt_0_compat).
    exists (Rmin L u). split; [ now apply Rmin_glb_lt | ]. intros k Hk. destruct (Nat.eq_dec k m) as [-> | Hne].
    - apply (Rle_trans _ (u * (el xp (m + 1) - el xp m))); [ apply Rmult_le_compat_r; [ lra | apply Rmin_r ] | ]. unfold u. right. field. lra.
    - apply (Rle_trans _ (L * (el xp (k + 1) - el xp k))); [ | apply HL; lia ]. apply Rmult_le_compat_r; [ | apply Rmin_l ]. specialize (Hi k (k + 1)%nat ltac:(lia)). lra. }
  destruct (Nat.eq_dec (length xp) 0) as [E | E]; [ exists 1; split; [ lra | lia ] | ].
  destruct (G (length xp - 1)%nat ltac:(lia)) as (L & L0 & HL). exists L. split; [ exact L0 | ]. intros k Hk. apply HL. lia.
Qed.
Lemma chi_strict c a b : built c -> expanding c -> a < b <= 1 -> chi c b < chi c a.
Proof.
  intros B HE Hab. assert (EV : forall q, chi c q = chi_of c (-3) 256 q) by (intros q; apply chi_value, inv_fresh, built_fresh, B).
  destruct (chi_table_length c (-3) 256) as [L1 L2].
  assert (HI : incr (fst (chi_table c (-3) 256))) by (rewrite chi_table_fst; apply logspace_incr; [ lra | lia ]).
  assert (HD : decr (snd (chi_table c (-3) 256))) by (apply chi_table_decr; [ exact HE | lra | lia ]).
  destruct (min_slope _ _ HI HD ltac:(congruence)) as (L & L0 & HL).
  set (xp := fst (chi_table c (-3) 256)) in *. set (fp := snd (chi_table c (-3) 256)) in *.
  assert (A : interp1 b xp (tilt L xp fp) <= interp1 a xp (tilt L xp fp)).
  { apply interp1_antitone; [ rewrite L1; lia | apply tilt_length | exact HI | | lra ]. rewrite tilt_length. intros k H1 H2. rewrite !tilt_el by lia. specialize (HL k H2). lra. }
  rewrite !interp1_tilt in A by (first [ lia | congruence | now apply incr_neq ]).
  assert (ST : interp1 b xp fp < interp1 a xp fp) by (assert (0 < L * (b - a)) by (apply Rmult_lt_0_compat; lra); lra).
  assert (P : 0 < chi c a) by (rewrite EV; apply chi_of_pos; [ exact HE | lra | lia | lra ]). rewrite EV in P.
  rewrite !EV. unfold chi_of, clip_lo in *. fold xp fp in P |- *.
  assert (Z : 0.0 < interp1 a xp fp) by (destruct (Rlt_dec 0.0 (interp1 a xp fp)); [ assumption | rewrite Rmax_right in P by lra; lra ]).
  rewrite (Rmax_left (interp1 a xp fp)) by lra. apply Rmax_lub_lt; lra.
Qed.
Lemma chi_one_any c : fresh c -> chi c 1 = 0.
Proof.
  intros F. rewrite (chi_value c c 1 (inv_fresh c F)). unfold chi_of, clip_lo. rewrite chi_table_fst.
  assert (C255 : el (snd (chi_table c (-3) 256)) 255 = 0) by (rewrite chi_table_el by lia; change (256 - 1)%nat with 255%nat; lra).
  assert (LX : length (logspace (-3) 0.0 256) = 256%nat) by apply length_logspace. assert (Hx := node_lt 256 254 ltac:(lia) ltac:(lia)).
  rewrite interp1_above; rewrite ?LX; [ | lia | apply chi_table_length | apply logspace_incr; [ lra | lia ] | ].
  - change (256 - 2)%nat with 254%nat. unfold cell, line. change (254 + 1)%nat with 255%nat. rewrite !logspace_el by lia. change (anode (-3) 256 255) with (anode (-3) 256 (256 - 1)). rewrite anode_last, anode_table by lia.
    rewrite C255. set (x := table_node 256 254) in *. set (y := el _ 254). replace (y + (0 - y) / (1 - x) * (1 - x)) with 0 by (field; lra). rewrite Rmax_left; lra.
  - change (256 - 2)%nat with 254%nat. rewrite logspace_el, anode_table by lia. lra.
Qed.

(** ** leaves on dual numbers *)
Section Leaves.
Variables (c : cosmology) (d : direction).
Hypotheses (B : built c) (HE : expanding c) (NG : _gamma c = None) (HP : physical c) (HMo : moderate c).
Local Notation C := (displaced c d).
Local Notation g := (dual_cosmo c d).
Local Notation tg := (fun f x => tangent_of f 0 x).
Local Notation N := num_dual.
Local Notation "' x" := (cst num_dual x%R) (at level 1, format "' x").
Lemma HG : growing c. Proof. unfold growing. rewrite NG. now split. Qed.
Lemma still F G a : tangent_of (fun s => F (C s) (a + s * 0)) 0 (G g (a, 0)) -> tangent_of (fun s => F (C s) a) 0 (G g 'a).
Proof. apply t_ext. intros s. cbv beta. now rewrite Rmult_0_r, Rplus_0_r. Qed.
Lemma leaf_chi a : 0 < a <= 1 -> tangent_of (fun s => chi (C s) a) 0 (gchi N g 'a).
Proof.
  intros [Pa [L | ->]].
  - apply (still chi (gchi N)). apply differentiates_tangent; [ exact B | ]. apply distances_jvp; try assumption; [ lra | now left ].
  - change ('1) with ((1, 0) : dual). rewrite chi_today by assumption. replace (0 * last_slope (chi c) 256 / 2) with 0 by (unfold Rdiv; ring).
    refine (t_ext 0 (fun _ => 0) _ _ _ (t_cst 0 0)). intros s. symmetry. apply chi_one_any. split; reflexivity.
Qed.
Lemma chi_0 a : chi (C 0) a = chi c a. Proof. now rewrite displaced_0. Qed.
Lemma leaf_clip a : 0 < a <= 1 -> chi c a <> 1 -> tangent_of (fun s => clip_lo (chi (C s) a) 1.0) 0 (gclip_lo N (gchi N g 'a) 1.0).
Proof. intros Ha NE. apply (t_max 0 (fun s => chi (C s) a) (fun _ => 1.0)); [ rewrite chi_0; lra | now apply leaf_chi | apply t_cst ]. Qed.
Lemma leaf_clip2 a : 0 < a <= 1 -> chi c a <> 1 -> tangent_of (fun s => clip_lo (chi (C s) a ^ 2) 1.0) 0 (gclip_lo N (nipow N (gchi N g 'a) 2) 1.0).
Proof.
  intros Ha NE. apply (t_max 0 (fun s => chi (C s) a ^ 2) (fun _ => 1.0)); [ rewrite chi_0 | exact (t_ipow 0 2 _ _ (or_intror eq_refl) (leaf_chi a Ha)) | apply t_cst ].
  assert (P : 0 <= chi c a) by (apply distance_properties; [ apply fresh_reachable, built_fresh, B | exact HE ]). intros E. assert (X : (chi c a - 1) * (chi c a + 1) = 0) by lra.
  apply Rmult_integral in X. lra.
Qed.
Lemma leaf_dif b a : 0 < b <= 1 -> 0 < a <= 1 -> tangent_of (fun s => clip_lo (chi (C s) a - chi (C s) b) 0) 0 (gclip_lo N (nsub N (gchi N g 'a) (gchi N g 'b)) 0).
Proof.
  intros Hb Ha. assert (TD := t_sub 0 _ _ _ _ (leaf_chi a Ha) (leaf_chi b Hb)). destruct (Req_dec a b) as [E | NE].
  - subst b. refine (t_ext 0 (fun _ => 0) _ _ _ (t_max_same 0 (fun _ => 0) _ _ (t_ext 0 _ _ _ _ TD) (t_cst 0 0))); intros s; cbv beta; unfold clip_lo; rewrite ?Rminus_diag_eq by reflexivity; [ rewrite Rmax_left; lra | reflexivity ].
  - apply (t_max 0 (fun s => chi (C s) a - chi (C s) b) (fun _ => 0)); [ | exact TD | apply t_cst ]. rewrite !chi_0.
    destruct (Rtotal_order a b) as [L | [L | L]]; [ | easy | ]; [ pose proof (chi_strict c a b B HE ltac:(lra)) | pose proof (chi_strict c b a B HE ltac:(lra)) ]; lra.
Qed.
Lemma node1_pos : 0 < table_node 128 1. Proof. rewrite <- anode_table. apply anode_pos. Qed.
Lemma leaf_D a : table_node 128 1 <= a <= 1 -> tangent_of (fun s => D (C s) a) 0 (gD N g 'a).
Proof.
  intros Ha. pose proof node1_pos as P1. apply (still D (gD N)). apply growth_tangent; [ exact B | exact HE | exact HG | ].
  destruct (proj2 Ha) as [L | ->]; [ left | right; split; reflexivity ]. split; [ lra | ]. split; [ apply growth_interior; try assumption; lra | now left ].
Qed.
Lemma leaf_D0 a : table_node 128 1 <= a <= 1 -> D (C 0) a <> 0.
Proof.
  intros Ha. rewrite displaced_0 by exact B. destruct (proj2 Ha) as [L | ->]; [ apply Rgt_not_eq; apply growth_interior; try assumption; lra | ].
  assert (E : D c 1 = 1) by (apply growth_normalised; [ apply fresh_reachable, built_fresh, B | apply growing_nonzero; [ exact B | exact HG ] ]). lra.
Qed.
Lemma leaf_H a : 0 < a -> tangent_of (fun s => H (C s) a) 0 (gH N g 'a).
Proof. intros Pa. apply (still H (gH N)), differentiates_tangent; [ exact B | now apply background_jvp ]. Qed.
Lemma leaf_dchi a : 0 < a -> tangent_of (fun s => dchioverda (C s) a) 0 (gdchioverda N g 'a).
Proof. intros Pa. apply (still dchioverda (gdchioverda N)), differentiates_tangent; [ exact B | now apply background_jvp ]. Qed.
Lemma jit_curve s : cosmo_jit (C s) = Ok (C s).
Proof. unfold cosmo_jit, displaced, make_cosmology. rewrite NG. reflexivity. Qed.
Lemma jit_dual : gcosmo_jit g = Ok g.
Proof. unfold gcosmo_jit. cbn [ggamma dual_cosmo]. now rewrite NG. Qed.
End Leaves.
Lemma tangent_respects : respects (fun f x => tangent_of f 0 x).
Proof. intros f h y E. now apply t_ext. Qed.

(** ** ranges *)
Lemma tabulated_mid z zm x : tabulated z -> tabulated zm -> 0 <= x <= 1 -> tabulated (z + x * (zm - z)).
Proof.
  assert (P1 := node1_pos). intros [Z1 Z2] [M1 M2] Hx. assert (E : forall q, 0 <= q -> table_node 128 1 <= 1 / (1 + q) <-> q <= / table_node 128 1 - 1).
  { intros q Hq. split; intros Hh.
    - apply Rinv_le_contravar in Hh; [ | lra ]. unfold Rdiv in Hh. rewrite Rmult_1_l, Rinv_involutive in Hh by lra. lra.
    - unfold Rdiv. rewrite Rmult_1_l. rewrite <- (Rinv_involutive (table_node 128 1)) at 1 by lra. apply Rinv_le_contravar; lra. }
  assert (0 <= z + x * (zm - z)) by nra. split; [ assumption | ]. apply E; [ assumption | ]. apply E in Z2, M2; try assumption. nra.
Qed.
Lemma tabulated_epoch z : tabulated z -> table_node 128 1 <= 1 / (1 + z) <= 1.
Proof. intros [Z1 Z2]. split; [ exact Z2 | ]. unfold Rdiv. rewrite Rmult_1_l. rewrite <- Rinv_1 at 2. apply Rinv_le_contravar; lra. Qed.
Lemma z2a_eq z : z2a z = 1 / (1 + z). Proof. unfold z2a. now replace 1.0 with 1 by lra. Qed.
Lemma a2z_eq a : a2z a = 1 / a - 1. Proof. unfold a2z. now replace 1.0 with 1 by lra. Qed.
Lemma in_linspace a b n x : In x (linspace a b (n + 1)) -> exists i, (i <= n)%nat /\ x = a + INR i * ((b - a) / INR n).
Proof. unfold linspace, tab. rewrite in_map_iff. intros (i & <- & Hi). apply in_seq in Hi. exists i. split; [ lia | ]. now replace (n + 1 - 1)%nat with n by lia. Qed.
Lemma frac_range i n : (i <= n)%nat -> (0 < n)%nat -> 0 <= INR i / INR n <= 1.
Proof.
  intros Hi Hn. assert (0 < INR n) by now apply lt_0_INR. assert (0 <= INR i <= INR n) by (split; [ apply pos_INR | now apply le_INR ]).
  split; [ apply Rmult_le_pos; [ lra | left; now apply Rinv_0_lt_compat ] | ]. apply (Rmult_le_reg_r (INR n)); [ lra | ]. unfold Rdiv. rewrite Rmult_assoc, Rinv_l by lra. lra.
Qed.
Lemma pymax_max l m : pymax l = Ok m -> In m l /\ forall x, In x l -> x <= m.
Proof.
  destruct l as [ | y l]; [ discriminate | ]. cbn [pymax]. intros E. injection E as <-. revert y. induction l as [ | x l IH]; intros y; cbn [fold_left].
  - split; [ now left | ]. intros x [-> | []]. lra.
  - destruct (IH (Rmax y x)) as [I1 I2]. split.
    + destruct I1 as [E | I1]; [ | now right; right ]. rewrite <- E. unfold Rmax. destruct (Rle_dec y x); [ right; now left | now left ].
    + intros q [<- | [<- | Hq]]; [ apply (Rle_trans _ (Rmax y x)); [ apply Rmax_l | apply I2; now left ] | apply (Rle_trans _ (Rmax y x)); [ apply Rmax_r | apply I2; now left ] | apply I2; now right ].
Qed.
Lemma pymax_deepest bins m : pymax (map nz_zmax bins) = Ok m -> deepest bins m.
Proof.
  intros E. apply pymax_max in E. destruct E as [E1 E2]. apply in_map_iff in E1. destruct E1 as (d & E1 & Hd). split; [ now exists d | ]. intros q Hq. now apply E2, in_map.
Qed.
Lemma mapM_zmax probes : forall zs, mapM probe_zmax probes = Ok zs -> Forall2 (fun p z => deepest (bins_of p) z) probes zs.
Proof.
  induction probes as [ | p probes IH]; intros zs; cbn [mapM].
  - intros E. injection E as <-. constructor.
  - destruct (probe_zmax p) as [z | e] eqn:Ez; [ | discriminate ]. cbn [bind]. destruct (mapM probe_zmax probes) as [zs' | e]; [ | discriminate ]. cbn [bind]. intros E. injection E as <-.
    constructor; [ now apply pymax_deepest | now apply IH ].
Qed.
Lemma probes_deepest probes zs zm : mapM probe_zmax probes = Ok zs -> pymax zs = Ok zm -> deepest (concat (map bins_of probes)) zm.
Proof.
  intros E1 E2. apply mapM_zmax in E1. apply pymax_max in E2. destruct E2 as [I M]. split.
  - clear M. induction E1 as [ | p z ps zs' Hp Hps IH]; [ easy | ]. destruct I as [-> | I].
    + destruct Hp as [(d & Hd & E) _]. exists d. split; [ | exact E ]. cbn [map concat]. apply in_or_app. now left.
    + destruct (IH I) as (d & Hd & E). exists d. split; [ | exact E ]. cbn [map concat]. apply in_or_app. now right.
  - clear I. induction E1 as [ | p z ps zs' Hp Hps IH]; [ easy | ]. intros d Hd. cbn [map concat] in Hd. apply in_app_or in Hd. destruct Hd as [Hd | Hd].
    + apply (Rle_trans _ z); [ now apply Hp | apply M; now left ].
    + apply IH; [ intros x Hx; apply M; now right | exact Hd ].
Qed.
Lemma zmax_jit bins : map nz_zmax (map nz_jit bins) = map nz_zmax bins.
Proof. rewrite map_map. apply map_ext. intros d. apply nz_jit_fields. Qed.
Lemma fam_of_jit d : is_delta (nz_jit d) = true -> exists z0, nz_fam d = Delta z0 /\ delta_z0 (nz_jit d) = z0.
Proof.
  destruct d as [f gals zm n]. destruct f as [ | z0 | | ]; try discriminate. intros _. exists z0. split; reflexivity.
Qed.
Lemma source_of bins z a : source_nodes bins z a -> source_epoch bins z a.
Proof.
  intros [(zm & z' & Ez & Hz & ->) | (d & Hd & Id & ->)]; [ left | right ].
  - rewrite zmax_jit in Ez. apply pymax_deepest in Ez. apply (in_linspace z zm 256) in Hz. destruct Hz as (i & Hi & ->). exists zm, i. split; [ exact Ez | split; [ exact Hi | ]].
    rewrite z2a_eq. replace (INR 256) with 256 by (rewrite INR_IZR_INZ; reflexivity). reflexivity.
  - apply in_map_iff in Hd. destruct Hd as (d0 & <- & Hd0). destruct (fam_of_jit d0 Id) as (z0 & E1 & E2). exists d0, z0. split; [ exact Hd0 | split; [ exact E1 | ]]. now rewrite E2, z2a_eq.
Qed.
Lemma deepest_tabulated bins zm : shallow bins -> deepest bins zm -> tabulated zm.
Proof. intros HS [(d & Hd & <-) _]. now apply HS. Qed.
Lemma source_range bins z a : shallow bins -> tabulated z -> source_epoch bins z a -> table_node 128 1 <= a <= 1.
Proof.
  intros HS Hz [(zm & i & Hm & Hi & ->) | (d & z0 & Hd & Ef & ->)]; apply tabulated_epoch; [ | now apply (HS d Hd) ].
  replace (INR i * ((zm - z) / 256)) with (INR i / INR 256 * (zm - z)) by (replace (INR 256) with 256 by (rewrite INR_IZR_INZ; reflexivity); unfold Rdiv; ring).
  apply tabulated_mid; [ exact Hz | now apply (deepest_tabulated bins) | apply frac_range; [ exact Hi | lia ] ].
Qed.
Lemma limber_range probes b : shallow (concat (map bins_of probes)) -> limber_epoch probes b -> table_node 128 1 <= b <= 1.
Proof.
  intros HS (zm & i & Hm & Hi & ->). assert (Hz := tabulated_epoch zm (deepest_tabulated _ _ HS Hm)). set (u := 1 / (1 + zm)) in *.
  assert (HF := frac_range i 512 Hi ltac:(lia)). replace (INR 512) with 512 in HF by (rewrite INR_IZR_INZ; reflexivity). set (x := INR i / 512) in HF.
  replace (INR i * ((1 - u) / 512)) with (x * (1 - u)) by (unfold x, Rdiv; ring). split; nra.
Qed.
Lemma limber_in probes zm x : deepest (concat (map bins_of probes)) zm -> In x (limber_nodes zm) -> limber_epoch probes x.
Proof.
  intros Hm Hx. apply (in_linspace (z2a zm) 1.0 512) in Hx. destruct Hx as (i & Hi & ->). exists zm, i. split; [ exact Hm | split; [ exact Hi | ]].
  rewrite z2a_eq. replace (INR 512) with 512 by (rewrite INR_IZR_INZ; reflexivity). now replace 1.0 with 1 by lra.
Qed.
Lemma redshift_of b : table_node 128 1 <= b <= 1 -> tabulated (1 / b - 1).
Proof.
  assert (P1 := node1_pos). intros Hb. split; [ | replace (1 / (1 + (1 / b - 1))) with b by (field; lra); apply Hb ].
  assert (1 <= 1 / b); [ | lra ]. unfold Rdiv. rewrite Rmult_1_l. rewrite <- Rinv_1 at 1. apply Rinv_le_contravar; lra.
Qed.
Lemma shallow_in p probes : In p probes -> shallow (concat (map bins_of probes)) -> shallow (lensing_bins p).
Proof.
  intros Hp HS d Hd. apply HS. apply in_concat. exists (bins_of p). split; [ now apply in_map | ]. destruct p; [ exact Hd | easy ].
Qed.

(** ** arrays *)
Lemma rows_of F G : rr (lr (lr (fun f x => tangent_of f 0 x))) F G -> jvp_rows F G.
Proof.
  intros HR. unfold jvp_rows. destruct (rr_cases _ _ _ HR) as [(V & M & -> & E & L) | (e & -> & E)]; [ | exact E ].
  assert (RL : forall i, lr (fun f x => tangent_of f 0 x) (fun t => nth i (V t) []) (nth i M [])).
  { intros i. apply (lr_nth (lr _)); [ apply lr_respects | apply lr_nil' | exact L ]. }
  exists V. split; [ exact E | split; [ apply (lr_length _ _ _ L) | split ]].
  - intros t i. apply (lr_length _ _ _ (RL i) t).
  - intros i j. apply (lr_nth _ _ _ 0 (0, 0) j tangent_respects (t_cst 0 0) (RL i)).
Qed.

(** ** public statements *)
Lemma kernel_jvp c d p z ell : built c -> expanding c -> _gamma c = None -> physical c -> moderate c ->
  (forall q, In q z -> tabulated q) -> shallow (lensing_bins p) -> (forall q a, In q z -> source_epoch (lensing_bins p) q a -> chi c a <> 1) ->
  jvp_rows (fun t => kernel p (displaced c d t) z ell) (gkernel num_dual p (dual_cosmo c d) z ell).
Proof.
  intros B HE NG HP HMo HZ HS HC. apply rows_of. assert (P1 := node1_pos).
  assert (RZ : forall q, In q z -> table_node 128 1 <= z2a q <= 1) by (intros q Hq; rewrite z2a_eq; now apply tabulated_epoch, HZ).
  apply (f_kernel num_dual (fun f x => tangent_of f 0 x) tangent_respects (t_cst 0) (t_add 0) (t_mul 0) (t_div 0) (displaced c d) (dual_cosmo c d) (jit_curve c d NG) (jit_dual c d NG)
    (m_Omega_m _ _ _ (displaced_moves c d)) z (fun a => table_node 128 1 <= a <= 1 /\ chi c a <> 1)).
  - intros q Hq. specialize (RZ q Hq). apply leaf_chi; try assumption. lra.
  - intros q a Hq [Ha _]. specialize (RZ q Hq). apply leaf_dif; try assumption; lra.
  - intros a [Ha NE]. apply leaf_clip; try assumption. lra.
  - intros q Hq. now apply leaf_D; auto.
  - intros q Hq. now apply leaf_D0; auto.
  - intros q Hq. specialize (RZ q Hq). apply leaf_H; try assumption. lra.
  - destruct p as [p | p]; [ | exact I ]. cbn [probe_ok lensing_bins] in *. intros q a Hq Ha. apply source_of in Ha. split; [ apply (source_range _ _ _ HS (HZ q Hq) Ha) | now apply (HC q) ].
Qed.
Lemma spectra_jvp c d probes ells T nl P : built c -> expanding c -> _gamma c = None -> physical c -> moderate c ->
  shallow (concat (map bins_of probes)) -> off_clip chi c probes -> (forall l, In l ells -> - 0.5 < l) ->
  (forall b, limber_epoch probes b -> spectrum_moves (fun c k a => nonlinear_matter_power c k a T nl) P c d b) ->
  jvp_rows (fun t => angular_cl (displaced c d t) (Array1 ells) probes T nl) (gangular_cl num_dual (dual_cosmo c d) (Array1 ells) probes P).
Proof.
  intros B HE NG HP HMo HS HC HL HK. apply rows_of. assert (P1 := node1_pos).
  apply (f_angular_cl num_dual (fun f x => tangent_of f 0 x) tangent_respects (t_cst 0) (t_add 0) (t_mul 0) (t_div 0) (displaced c d) (dual_cosmo c d) (jit_curve c d NG) (jit_dual c d NG)
    (m_Omega_m _ _ _ (displaced_moves c d)) probes T nl P (limber_epoch probes) (fun a => table_node 128 1 <= a <= 1 /\ chi c a <> 1)).
  - intros a Ha. apply (limber_range _ _ HS) in Ha. apply leaf_chi; try assumption. lra.
  - intros b a Hb [Ha _]. apply (limber_range _ _ HS) in Hb. apply leaf_dif; try assumption; lra.
  - intros a [Ha | [Ha NE]]; apply leaf_clip; try assumption; [ apply (limber_range _ _ HS) in Ha; lra | now apply HC | lra ].
  - intros a Ha. apply leaf_clip2; try assumption; [ apply (limber_range _ _ HS) in Ha; lra | now apply HC ].
  - intros a Ha. apply leaf_D; try assumption. now apply (limber_range _ _ HS).
  - intros a Ha. apply leaf_D0; try assumption. now apply (limber_range _ _ HS).
  - intros a Ha. apply (limber_range _ _ HS) in Ha. apply leaf_H; try assumption. lra.
  - intros a Ha. apply (limber_range _ _ HS) in Ha. apply leaf_dchi; try assumption. lra.
  - intros ells' l E Hl a Ha. injection E as <-. assert (RA := limber_range _ _ HS Ha).
    apply (HK a Ha (fun s => (l + 0.5) / clip_lo (chi (displaced c d s) a) 1.0)).
    + apply (t_div 0 (fun _ => l + 0.5)); [ apply clip1_pos | apply (t_cst 0 (l + 0.5)) | apply leaf_clip; try assumption; [ lra | now apply HC ]].
    + specialize (HL l Hl). apply Rdiv_lt_0_compat; [ lra | ]. unfold clip_lo. pose proof (Rmax_r (chi (displaced c d 0) a) 1.0). lra.
  - intros zs zmax E1 E2. assert (Hm := probes_deepest _ _ _ E1 E2). split.
    + intros x Hx. apply (limber_in probes) in Hx; [ | exact Hm ]. split; [ exact Hx | ]. apply (limber_range _ _ HS) in Hx. lra.
    + intros p Hp. destruct p as [p | p]; [ | exact I ]. cbn [probe_ok]. intros q a Hq Ha. apply in_map_iff in Hq. destruct Hq as (b & <- & Hb).
      apply (limber_in probes) in Hb; [ | exact Hm ]. apply source_of in Ha. rewrite a2z_eq in Ha.
      split; [ apply (source_range (wl_bins p) (1 / b - 1)); [ apply (shallow_in (PWL p) probes Hp HS) | apply redshift_of, (limber_range _ _ HS), Hb | exact Ha ] | ].
      apply (proj2 (HC b Hb) (PWL p)); [ exact Hp | exact Ha ].
Qed.

(** ** the linear spectrum *)
Lemma eisenhu_moves c d : built c -> dense c -> 0 <= eh_alpha_gamma c -> transfer_moves eisenhu (geisenhu num_dual) c d.
Proof. intros B HD HA k kd Tk Pk. apply (tr_eisenhu _ _ _ (displaced_moves c d)); cbv beta; rewrite ?displaced_0 by exact B; assumption. Qed.
Lemma eisenhu_osc_moves c d : built c -> dense c -> 0 < _Omega_c c -> transfer_moves eisenhu_osc (geisenhu_osc num_dual) c d.
Proof. intros B HD HC k kd Tk Pk. apply (tr_eisenhu_osc _ _ _ (displaced_moves c d)); cbv beta; rewrite ?displaced_0 by exact B; assumption. Qed.
Lemma linear_moves c d T GT a : built c -> expanding c -> _gamma c = None -> physical c -> moderate c -> (forall d, transfer_moves T GT c d) -> sigmasqr_default c 8.0 T <> 0 ->
  table_node 128 1 <= a <= 1 ->
  spectrum_moves (fun c k a => linear_matter_power c k a T) (fun g k a => glinear_matter_power num_dual g k a GT) c d a.
Proof.
  intros B HE NG HP HMo HT NS Ha k kd Tk Pk. assert (HG := HG c NG HP HMo).
  assert (HJ : transfer_jvp T GT c).
  { intros d' q dq Pq. apply differentiates_intro; [ exact B | ]. apply (HT d' (fun s => q + s * dq)); [ apply line_tangent | cbv beta; now rewrite line_0 ]. }
  assert (TG := leaf_D c d B HE NG HP HMo a Ha). assert (TT := HT d k kd Tk Pk).
  assert (TP := primordial_tangent c d k kd Tk Pk).
  assert (TS := sigmasqr_tangent c d T GT B HJ 8.0 0.0001 1000.0 ltac:(lra)). unfold linear_matter_power, glinear_matter_power. cbv zeta.
  change ((a, 0) : dual) with (cst num_dual a).
  apply t_mul; [ exact (t_mul 0 _ _ _ _ (t_mul 0 _ _ _ _ TP (t_sq 0 _ _ TT)) (t_sq 0 _ _ TG)) | ].
  apply t_div; [ | exact (t_sq 0 _ _ (m_sigma8 _ _ _ (displaced_moves c d))) | exact TS ]. rewrite displaced_0 by exact B. exact NS.
Qed.
Lemma linear_spectra_jvp c d probes ells T GT : built c -> expanding c -> _gamma c = None -> physical c -> moderate c ->
  (forall d, transfer_moves T GT c d) -> sigmasqr_default c 8.0 T <> 0 ->
  shallow (concat (map bins_of probes)) -> off_clip chi c probes -> (forall l, In l ells -> - 0.5 < l) ->
  jvp_rows (fun t => angular_cl (displaced c d t) (Array1 ells) probes T linear)
    (gangular_cl num_dual (dual_cosmo c d) (Array1 ells) probes (fun g k a => glinear_matter_power num_dual g k a GT)).
Proof.
  intros B HE NG HP HMo HT NS HS HC HL. apply spectra_jvp; try assumption. intros b Hb. apply linear_moves; try assumption. now apply (limber_range probes).
Qed.

(** ** at exact reals the programs are those of Probes.v and AngularCl.v *)
Lemma lr_eq {X} (f : R -> list X) l : lr same f l -> forall s, f s = l.
Proof. induction 1 as [f E | f x fx y l E P Q IH]; intros s; rewrite E; [ reflexivity | now rewrite P, IH ]. Qed.
Lemma lr_eq2 {X} (f : R -> list (list X)) l : lr (lr same) f l -> forall s, f s = l.
Proof. induction 1 as [f E | f x fx y l E P Q IH]; intros s; rewrite E; [ reflexivity | now rewrite (lr_eq _ _ P), IH ]. Qed.
Lemma rr_eq2 {X} (f : R -> res (list (list X))) r : rr (lr (lr same)) f r -> forall s, f s = r.
Proof. intros HR s. destruct (rr_cases _ _ _ HR) as [(x & y & -> & E & L) | (e & -> & E)]; rewrite E; [ now rewrite (lr_eq2 _ _ L) | reflexivity ]. Qed.
Section AtReals.
Variables (c : cosmology).
Hypotheses (B : built c) (NG : _gamma c = None).
Lemma s_cst x : @same R (fun _ => x) x. Proof. intros s; reflexivity. Qed.
Lemma s_bin (op : R -> R -> R) f h x y : @same R f x -> @same R h y -> same (fun s => op (f s) (h s)) (op x y).
Proof. intros H1 H2 s. now rewrite H1, H2. Qed.
Lemma R_jit : cosmo_jit c = Ok c.
Proof. rewrite B. unfold cosmo_jit, make_cosmology. rewrite NG. reflexivity. Qed.
Lemma R_gjit : gcosmo_jit (lift_cosmo c) = Ok (lift_cosmo c).
Proof. unfold gcosmo_jit. cbn [ggamma lift_cosmo]. now rewrite NG. Qed.
Lemma s_fun (F : cosmology -> R -> R) (G : gcosmo R -> R -> R) a : G (lift_cosmo c) a = F c a -> same (fun _ : R => F c a) (G (lift_cosmo c) a).
Proof. intros E s. now symmetry. Qed.
Lemma R_chi_eq a : gchi num_R (lift_cosmo c) a = chi c a. Proof. now apply same_programs. Qed.
Lemma R_D_eq a : gD num_R (lift_cosmo c) a = D c a. Proof. now apply same_programs. Qed.
End AtReals.
Lemma probes_programs c z ell probes T nl P : built c -> _gamma c = None ->
  (forall p, (forall q, In q z -> D c (z2a q) <> 0) -> gkernel num_R p (lift_cosmo c) z ell = kernel p c z ell) /\
  ((forall b, limber_epoch probes b -> 0 < b /\ D c b <> 0) -> (forall k a, P (lift_cosmo c) k a = nonlinear_matter_power c k a T nl) ->
   forall ells, gangular_cl num_R (lift_cosmo c) ells probes P = angular_cl c ells probes T nl).
Proof.
  intros B NG.
  assert (EC : forall a, gchi num_R (lift_cosmo c) a = chi c a) by (intros a; now apply R_chi_eq).
  assert (ED : forall a, gD num_R (lift_cosmo c) a = D c a) by (intros a; now apply R_D_eq).
  split.
  - intros p HD. symmetry. apply (rr_eq2 (fun _ => kernel p c z ell)); [ | exact 0 ].
    apply (f_kernel num_R same same_respects s_cst (s_bin Rplus) (s_bin Rmult) (fun f h x y _ => s_bin Rdiv f h x y) (fun _ => c) (lift_cosmo c) (fun _ => R_jit c B NG) (R_gjit c NG)
      (fun _ => eq_refl) z (fun _ => True)); try (intros; intros s; unfold gclip_lo; cbn [cst num_R nsub nmax]; rewrite ?EC, ?ED; reflexivity).
    + exact HD.
    + destruct p; [ | exact I ]. now intros q a _ _.
  - intros HD HK ells. symmetry. apply (rr_eq2 (fun _ => angular_cl c ells probes T nl)); [ | exact 0 ].
    apply (f_angular_cl num_R same same_respects s_cst (s_bin Rplus) (s_bin Rmult) (fun f h x y _ => s_bin Rdiv f h x y) (fun _ => c) (lift_cosmo c) (fun _ => R_jit c B NG) (R_gjit c NG)
      (fun _ => eq_refl) probes T nl P (limber_epoch probes) (fun _ => True)); try (intros; intros s; unfold gclip_lo; cbn [cst num_R nsub nmax nipow]; rewrite ?EC, ?ED; reflexivity).
    + intros a Ha. now apply HD.
    + intros ells' l _ _ a _ s. unfold gclip_lo. cbn [cst num_R ndiv nmax]. rewrite EC, HK. reflexivity.
    + intros zs zmax E1 E2. assert (Hm := probes_deepest _ _ _ E1 E2). split.
      * intros x Hx. apply (limber_in probes) in Hx; [ | exact Hm ]. split; [ exact Hx | ]. destruct (HD x Hx). lra.
      * intros p Hp. destruct p; [ | exact I ]. now intros q a _ _.
Qed.
