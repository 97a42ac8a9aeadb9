(** * Final forms for probes.py and bias.py *)
From Coquelicot Require Import Coquelicot.
From Verif Require Import Np NpLemmas Core Integrate IntegrateSpec SimpsProofs Interp Background BgSpec BgTables BgPositive BgGrowth BgProofs BgFinal BgFinal2
  BgFinal4 Redshift RedshiftSpec RedshiftProofs CoreProofs Bias Probes ProbesSpec ProbesProofs.
Opaque chi_table growth_table_ODE growth_table_gamma logspace.

(** ** C32 *)
Lemma kernel_gamma p c g z ell : _gamma c = Some g -> _gamma_growth c = true -> kernel p c z ell = Err AttributeError.
Proof.
  intros H1 H2. pose proof (jit_with_gamma c g H1 H2) as E. destruct p as [q | q]; simpl.
  - unfold wl_kernel, weak_lensing_kernel. rewrite E. reflexivity.
  - unfold nc_kernel, density_kernel. rewrite E. reflexivity.
Qed.
Definition one_bin : probe := PNC (NC [nz_new (Smail 1 2 0.5) 10 3] (OneBias (constant_linear_bias 1.5))).
Lemma gamma_kernel_fails : exists c p z ell, probe_ok p /\ fresh c /\ physical c /\ kernel p c z ell = Err AttributeError.
Proof.
  exists planck_gamma, one_bin, [1], 100. split; [ | split; [ split; reflexivity | split ]].
  - split; [ discriminate | ]. split; [ exact I | ]. intros d [<- | []]. reflexivity.
  - apply planck_gamma_ok.
  - eapply kernel_gamma; reflexivity.
Qed.

(** ** C74 *)
Lemma lensing_order c pzs z ell k : reachable c -> _gamma_growth c = false -> (k < length pzs)%nat ->
  exists rows, weak_lensing_kernel c pzs z ell = Ok rows /\ length rows = length pzs /\
    nth k rows [] = map (lensing c (zmax_of pzs) (nth_nz pzs k) ell) z.
Proof.
  intros Hr Hg Hk. rewrite lensing_rows; [ | assumption | assumption | destruct pzs; [ simpl in Hk; lia | discriminate ]].
  eexists. split; [ reflexivity | ]. split; [ apply map_length | ]. now rewrite nth_map_lt with (d := nz_default).
Qed.
Lemma lensing_empty c z ell : _gamma_growth c = false -> weak_lensing_kernel c [] z ell = Err ValueError.
Proof. intros Hg. destruct (jit_without_gamma c Hg) as (d & Ed & _). unfold weak_lensing_kernel. now rewrite Ed. Qed.

(** ** C75 *)
Lemma chi_nonneg c a : reachable c -> 0 <= chi c a.
Proof. intros Hr. destruct (inv_reach c Hr) as (c0 & HI & _). rewrite (chi_value c0 c a HI). apply chi_of_nonneg. Qed.
Lemma dist_mono c z z' : reachable c -> expanding c -> -1 < z -> z <= z' -> dist c z <= dist c z'.
Proof.
  intros Hr HE Hz Hzz. unfold dist. apply (distance_properties c Hr HE). unfold Rdiv. rewrite !Rmult_1_l.
  apply Rinv_le_contravar; lra.
Qed.
Lemma ratio_nonneg c z z' : 0 <= distance_ratio c z z'.
Proof.
  unfold distance_ratio. apply Rmult_le_pos; [ apply Rmax_r | ]. left. apply Rinv_0_lt_compat.
  eapply Rlt_le_trans; [ | apply Rmax_r ]. lra.
Qed.
Lemma ratio_behind c z z' : reachable c -> expanding c -> -1 < z' -> z' <= z -> distance_ratio c z z' = 0.
Proof.
  intros Hr HE Hz Hzz. pose proof (dist_mono c z' z Hr HE Hz Hzz). unfold distance_ratio. rewrite Rmax_right by lra.
  unfold Rdiv. ring.
Qed.
Lemma ratio_below_1 c z z' : reachable c -> distance_ratio c z z' <= 1.
Proof.
  intros Hr. unfold distance_ratio. pose proof (chi_nonneg c (1 / (1 + z)) Hr) as A. fold (dist c z) in A.
  pose proof (Rmax_l (dist c z') 1). pose proof (Rmax_r (dist c z') 1).
  apply Rmult_le_reg_r with (Rmax (dist c z') 1); [ lra | ]. unfold Rdiv. rewrite Rmult_assoc, Rinv_l by lra.
  rewrite Rmult_1_r, Rmult_1_l. apply Rmax_lub; lra.
Qed.
Lemma node_between a b N i : (0 < N)%nat -> (i <= N)%nat -> Rmin a b <= node a b N i <= Rmax a b.
Proof.
  intros HN Hi. unfold node. assert (P : 0 < INR N) by (apply lt_0_INR; lia). assert (Q : INR i <= INR N) by (now apply le_INR).
  assert (0 <= INR i) by apply pos_INR. set (t := INR i / INR N).
  assert (0 <= t <= 1).
  { unfold t. split; [ apply Rmult_le_pos; [ lra | left; now apply Rinv_0_lt_compat ] | ].
    apply Rmult_le_reg_r with (INR N); [ exact P | ]. unfold Rdiv. rewrite Rmult_assoc, Rinv_l; lra. }
  replace (a + INR i * ((b - a) / INR N)) with (a + t * (b - a)) by (unfold t; field; lra).
  destruct (Rle_dec a b); [ rewrite Rmin_left, Rmax_right by lra | rewrite Rmin_right, Rmax_left by lra ]; nra.
Qed.
Lemma efficiency_nonneg c zm d z : reachable c -> expanding c -> -1 < z -> -1 < zm ->
  (forall z', z <= z' <= zm -> 0 <= nz_density d z') -> 0 <= efficiency c zm d z.
Proof.
  intros Hr HE Hz Hm Hd. assert (S : 0 <= simpson (fun z' => nz_density d z' * distance_ratio c z z') z zm 256).
  { destruct (Rle_dec z zm).
    - apply simpson_nonneg; [ assumption | lia | ]. intros i Hi. pose proof (node_between z zm 256 i ltac:(lia) Hi) as N.
      rewrite Rmin_left, Rmax_right in N by lra. apply Rmult_le_pos; [ now apply Hd | apply ratio_nonneg ].
    - right. rewrite (simpson_ext _ (fun _ => 0 * 0)).
      + rewrite (simpson_scal 0 (fun _ => 0)). ring.
      + intros i Hi. pose proof (node_between z zm 256 i ltac:(lia) Hi) as N. rewrite Rmin_right, Rmax_left in N by lra.
        rewrite ratio_behind; [ ring | assumption | assumption | lra | lra ]. }
  unfold efficiency. destruct (nz_fam d); try exact S. apply ratio_nonneg.
Qed.
Lemma efficiency_behind c zm d z : reachable c -> expanding c -> -1 < zm -> zm <= z ->
  match nz_fam d with Delta z0 => -1 < z0 /\ z0 <= z | _ => True end -> efficiency c zm d z = 0.
Proof.
  intros Hr HE Hm Hz Hd.
  assert (S : simpson (fun z' => nz_density d z' * distance_ratio c z z') z zm 256 = 0).
  { rewrite (simpson_ext _ (fun _ => 0 * 0)); [ rewrite (simpson_scal 0 (fun _ => 0)); ring | ].
    intros i Hi. pose proof (node_between z zm 256 i ltac:(lia) Hi) as N. rewrite Rmin_right, Rmax_left in N by lra.
    rewrite ratio_behind; [ ring | assumption | assumption | lra | lra ]. }
  unfold efficiency. destruct (nz_fam d); try exact S. apply ratio_behind; tauto.
Qed.

(** ** C79 *)
Lemma spin2_bounds ell : 1 <= ell -> 1 - 5 / (2 * (ell + 1 / 2) ^ 2) <= spin2 ell < 1 /\ 0 <= spin2 ell.
Proof.
  intros H. unfold spin2. set (u := (ell + 1 / 2) ^ 2). assert (U : 9 / 4 <= u) by (unfold u; nra).
  replace ((ell + 2) * (ell + 1) * ell * (ell - 1)) with ((u - 9 / 4) * (u - 1 / 4)) by (unfold u; field).
  set (q := (u - 9 / 4) * (u - 1 / 4)). assert (Q0 : 0 <= q) by (unfold q; apply Rmult_le_pos; lra).
  assert (Q1 : q < u * u) by (unfold q; nra).
  assert (P : 0 <= sqrt q) by apply sqrt_pos.
  assert (S : sqrt q * sqrt q = q) by now apply sqrt_sqrt.
  assert (L : sqrt q < u) by (destruct (Rlt_dec (sqrt q) u); [ assumption | exfalso; nra ]).
  assert (I : 0 < / u) by (apply Rinv_0_lt_compat; lra).
  split; [ split | ].
  - (* u - 5/2 <= sqrt q *)
    assert (u - 5 / 2 <= sqrt q).
    { destruct (Rle_dec (u - 5 / 2) 0); [ lra | ]. assert ((u - 5 / 2) * u <= q) by (unfold q; nra).
      destruct (Rle_dec (u - 5 / 2) (sqrt q)); [ assumption | exfalso; nra ]. }
    replace (1 - 5 / (2 * u)) with ((u - 5 / 2) * / u) by (field; lra). apply Rmult_le_compat_r; lra.
  - apply Rmult_lt_reg_r with u; [ lra | ]. unfold Rdiv. rewrite Rmult_assoc, Rinv_l by lra. lra.
  - apply Rmult_le_pos; lra.
Qed.
Lemma spin2_lim : is_lim spin2 p_infty 1.
Proof.
  apply (is_lim_le_le_loc (fun l => 1 - 5 / 2 * / l) (fun _ => 1)).
  - exists 1. intros l Hl. destruct (spin2_bounds l ltac:(lra)) as [[A B] _]. split; [ | lra ]. eapply Rle_trans; [ | exact A ].
    assert (/ (l + 1 / 2) ^ 2 <= / l) by (apply Rinv_le_contravar; nra).
    replace (5 / (2 * (l + 1 / 2) ^ 2)) with (5 / 2 * / (l + 1 / 2) ^ 2) by (field; nra). lra.
  - replace (Finite 1) with (Rbar_minus (Finite 1) (Rbar_mult (Finite (5 / 2)) (Finite 0))) by (simpl; f_equal; ring).
    apply is_lim_minus'; [ apply is_lim_const | ]. apply (is_lim_scal_l (fun l => / l) (5 / 2) p_infty 0).
    apply (is_lim_inv (fun l => l) p_infty p_infty); [ apply is_lim_id | discriminate ].
  - apply is_lim_const.
Qed.

Lemma lensing_nonneg c zm d ell z : reachable c -> expanding c -> 0 <= Omega_m c -> 1 <= ell -> -1 < z -> -1 < zm ->
  (forall z', z <= z' <= zm -> 0 <= nz_density d z') -> 0 <= lensing c zm d ell z.
Proof.
  intros Hr HE HO He Hz Hm Hd. unfold lensing. pose proof (efficiency_nonneg c zm d z Hr HE Hz Hm Hd).
  pose proof (chi_nonneg c (1 / (1 + z)) Hr) as A. fold (dist c z) in A. destruct (spin2_bounds ell He) as [_ S].
  apply Rmult_le_pos; [ | apply Rmult_le_pos; [ apply Rmult_le_pos; lra | assumption ]].
  apply Rmult_le_pos; [ | exact S ]. apply Rmult_le_pos; [ | lra ]. apply Rmult_le_pos; lra.
Qed.
Lemma lensing_behind c zm d ell z : reachable c -> expanding c -> -1 < zm -> zm <= z ->
  match nz_fam d with Delta z0 => -1 < z0 /\ z0 <= z | _ => True end -> lensing c zm d ell z = 0.
Proof. intros. unfold lensing. rewrite (efficiency_behind c zm d z) by assumption. ring. Qed.
Lemma lensing_delta_behind c zm z0 g zd n ell z : reachable c -> expanding c -> -1 < z0 -> z0 <= z ->
  lensing c zm (Nz (Delta z0) g zd n) ell z = 0.
Proof. intros. unfold lensing, efficiency, nz_fam. rewrite (ratio_behind c z z0) by assumption. ring. Qed.

Lemma lensing_signs c pzs z ell rows : reachable c -> expanding c -> _gamma_growth c = false -> 0 <= Omega_m c -> 1 <= ell ->
  (forall d, In d pzs -> -1 < nz_zmax d) -> (forall q, In q z -> -1 < q) ->
  weak_lensing_kernel c pzs z ell = Ok rows ->
  forall k i, (k < length pzs)%nat -> (i < length z)%nat -> let d := nth_nz pzs k in
  ((forall z', el z i <= z' <= zmax_of pzs -> 0 <= nz_density d z') -> 0 <= el2 rows k i) /\
  (forall z0, nz_fam d = Delta z0 -> -1 < z0 -> z0 <= el z i -> el2 rows k i = 0) /\
  (is_delta d = false -> zmax_of pzs <= el z i -> el2 rows k i = 0).
Proof.
  intros Hr HE Hg HO He Hb Hz EK k i Hk Hi d.
  assert (Hp : pzs <> []) by (destruct pzs; [ simpl in Hk; lia | discriminate ]).
  rewrite lensing_rows in EK by assumption. injection EK as <-.
  assert (Hm : -1 < zmax_of pzs).
  { unfold zmax_of. destruct (list_max_spec (map nz_zmax pzs)) as [A _]; [ destruct pzs; [ congruence | discriminate ] | ].
    apply in_map_iff in A. destruct A as (b & <- & Hbb). now apply Hb. }
  assert (Hq : -1 < el z i) by (apply Hz; now apply nth_In).
  assert (E : el2 (map (fun b => map (lensing c (zmax_of pzs) b ell) z) pzs) k i = lensing c (zmax_of pzs) d ell (el z i)).
  { unfold el2. rewrite nth_map_lt with (d := nz_default) by assumption. now rewrite nth_map_lt with (d := 0). }
  rewrite E. split; [ intros Hd; now apply lensing_nonneg | split ].
  - intros z0 F H1 H2. clearbody d. destruct d as [f g zd n]. simpl in F. subst f. now apply lensing_delta_behind.
  - intros F H1. apply lensing_behind; try assumption. unfold is_delta in F. now destruct (nz_fam d).
Qed.

(** ** C76 *)
Lemma shear_bias bins m ia se c z ell : reachable c -> _gamma_growth c = false -> probe_ok (PWL (WL bins m ia se)) ->
  exists rows, kernel (PWL (WL bins (MScalar 0) ia se)) c z ell = Ok rows /\
    kernel (PWL (WL bins m ia se)) c z ell = Ok (tab (length bins) (fun k => map (Rmult (1 + m_for m k)) (nth k rows []))).
Proof.
  intros Hr Hg Hok. assert (Hok' : probe_ok (PWL (WL bins (MScalar 0) ia se))).
  { destruct Hok as (H1 & _ & H2). split; [ exact H1 | split; [ exact I | exact H2 ]]. }
  rewrite (kernel_rows _ c z ell Hr Hg Hok), (kernel_rows _ c z ell Hr Hg Hok'). eexists. split; [ reflexivity | ]. f_equal.
  apply tab_ext. intros k Hk. rewrite nth_tab by exact Hk. rewrite map_map. apply map_ext. intros q. simpl. ring.
Qed.
Lemma probe_formula p c z ell : reachable c -> _gamma_growth c = false -> probe_ok p ->
  exists rows, kernel p c z ell = Ok rows /\ length rows = length (bins_of p) /\
  forall k, (k < length (bins_of p))%nat -> nth k rows [] = map (tracer_kernel p k c ell) z.
Proof.
  intros Hr Hg Hok. rewrite kernel_rows by assumption. eexists. split; [ reflexivity | ].
  split; [ apply length_tab | intros k Hk; rewrite nth_tab by exact Hk; reflexivity ].
Qed.

(** ** C77 *)
Lemma wl_noise_spec q : sigma_fits (length (wl_bins q)) (wl_sigma_e q) ->
  noise (PWL q) = Ok (tab (length (wl_bins q)) (fun k =>
    sigma_for (wl_sigma_e q) k ^ 2 / (nz_gals (nth_nz (wl_bins q) k) * 11818102.86004228))).
Proof.
  intros Hs. simpl. unfold wl_noise. destruct (wl_sigma_e q) as [s | ss]; simpl in Hs |- *.
  - f_equal. rewrite map_map. rewrite (map_tab_nth _ _ nz_default). reflexivity.
  - rewrite bcast_same by (now rewrite map_length). f_equal.
    rewrite (map2_tab _ _ _ 0 0) by (now rewrite map_length). rewrite Hs. apply tab_ext. intros k Hk.
    rewrite nth_map_lt with (d := nz_default) by exact Hk. reflexivity.
Qed.
Lemma nc_noise_spec q : noise (PNC q) = Ok (tab (length (nc_bins q)) (fun k => 1 / (nz_gals (nth_nz (nc_bins q) k) * 11818102.86004228))).
Proof.
  simpl. unfold nc_noise. f_equal. rewrite (map_tab_nth _ _ nz_default). apply tab_ext. intros k Hk. unfold gals_per_steradian, steradian_to_arcmin2.
  replace 1.0 with 1 by lra. reflexivity.
Qed.
Lemma noise_values p : match p with PWL q => sigma_fits (length (wl_bins q)) (wl_sigma_e q) | PNC _ => True end ->
  exists v, noise p = Ok v /\ length v = length (bins_of p) /\
  forall k, (k < length (bins_of p))%nat -> let n_gal := nz_gals (nth_nz (bins_of p) k) * 11818102.86004228 in
    el v k = match p with PWL q => sigma_for (wl_sigma_e q) k ^ 2 / n_gal | PNC _ => 1 / n_gal end /\
    (0 < nz_gals (nth_nz (bins_of p) k) -> match p with PWL q => sigma_for (wl_sigma_e q) k <> 0 | PNC _ => True end -> 0 < el v k).
Proof.
  assert (P : forall g, 0 < g -> 0 < g * 11818102.86004228) by (intros; apply Rmult_lt_0_compat; lra).
  intros H. destruct p as [q | q].
  - rewrite wl_noise_spec by assumption. eexists. split; [ reflexivity | ]. split; [ apply length_tab | ].
    simpl bins_of. intros k Hk. cbv zeta. unfold el. rewrite nth_tab by exact Hk. split; [ reflexivity | ].
    intros G S. apply Rdiv_lt_0_compat; [ | now apply P ]. replace (sigma_for (wl_sigma_e q) k ^ 2) with (Rsqr (sigma_for (wl_sigma_e q) k)) by (unfold Rsqr; ring).
    now apply Rsqr_pos_lt.
  - rewrite nc_noise_spec. eexists. split; [ reflexivity | ]. split; [ apply length_tab | ].
    simpl bins_of. intros k Hk. cbv zeta. unfold el. rewrite nth_tab by exact Hk. split; [ reflexivity | ].
    intros G _. apply Rdiv_lt_0_compat; [ lra | now apply P ].
Qed.

(** ** C78 *)
Lemma existsb_delta pzs : existsb is_delta (map nz_jit pzs) = true <-> exists d, In d pzs /\ is_delta d = true.
Proof.
  rewrite existsb_exists. split.
  - intros (x & Hx & Ht). apply in_map_iff in Hx. destruct Hx as (d & <- & Hd). rewrite is_delta_jit in Ht. eauto.
  - intros (d & Hd & Ht). exists (nz_jit d). split; [ now apply in_map | now rewrite is_delta_jit ].
Qed.
Lemma rows_delta d pzs ba z : clustering_rows d (map nz_jit pzs) ba z = Err NotImplementedError <-> exists b, In b pzs /\ is_delta b = true.
Proof.
  rewrite <- existsb_delta. unfold clustering_rows. destruct (existsb is_delta (map nz_jit pzs)); [ tauto | ].
  split; [ | discriminate ]. intros E. exfalso. destruct (map nz_jit pzs); [ discriminate | ].
  destruct ba as [b | [ | b bs]]; simpl in E; try discriminate. unfold bcast in E.
  destruct (Nat.eqb _ _); simpl in E; [ discriminate | ]. destruct (map _ l); simpl in E; destruct (map _ bs); simpl in E; discriminate.
Qed.
Lemma delta_rejected c pzs ba z ell : _gamma_growth c = false ->
  (density_kernel c pzs ba z ell = Err NotImplementedError <-> exists b, In b pzs /\ is_delta b = true) /\
  (nla_kernel c pzs ba z ell = Err NotImplementedError <-> exists b, In b pzs /\ is_delta b = true).
Proof.
  intros Hg. destruct (jit_without_gamma c Hg) as (d & Ed & _). unfold density_kernel, nla_kernel. rewrite Ed. cbn [bind].
  rewrite <- (rows_delta d pzs ba z). destruct (clustering_rows d (map nz_jit pzs) ba z) as [v | e]; cbn [bind].
  - split; split; discriminate.
  - split; reflexivity.
Qed.

(** ** C80 *)
Lemma probe_zmax_spec p : bins_of p <> [] -> exists zm, probe_zmax p = Ok zm /\
  (exists d, In d (bins_of p) /\ nz_zmax d = zm) /\ forall d, In d (bins_of p) -> nz_zmax d <= zm.
Proof.
  intros Hp. assert (Hm : map nz_zmax (bins_of p) <> []) by (destruct (bins_of p); [ congruence | discriminate ]).
  exists (zmax_of (bins_of p)). split; [ now apply pymax_list_max | ]. destruct (list_max_spec _ Hm) as [A B]. split.
  - apply in_map_iff in A. destruct A as (d & E & Hd). exists d. split; [ exact Hd | exact E ].
  - intros d Hd. apply B. now apply in_map.
Qed.
Lemma probe_zmax_empty p : bins_of p = [] -> probe_zmax p = Err ValueError.
Proof. intros E. unfold probe_zmax. now rewrite E. Qed.

(** ** C82: biases *)
Lemma bias_values c z : 
  (forall b, bias_at (constant_linear_bias b) c z = b) /\
  (forall b, D c (1 / (1 + z)) <> 0 -> bias_at (inverse_growth_linear_bias b) c z * D c (1 / (1 + z)) = b) /\
  (forall A eta z0, -1 < z -> -1 < z0 -> bias_at (des_y1_ia_bias A eta z0) c z = A * Rpower ((1 + z) / (1 + z0)) eta).
Proof.
  split; [ intros b; simpl; ring | split ].
  - intros b Hd. simpl. rewrite z2a_eq. field. exact Hd.
  - intros A eta z0 Hz H0. simpl. replace 1.0 with 1 by lra. unfold rpow, Rpower.
    assert (P : 0 < (1 + z) / (1 + z0)) by (apply Rdiv_lt_0_compat; lra).
    destruct (Req_EM_T ((1 + z) / (1 + z0)) 0); [ lra | reflexivity ].
Qed.
Lemma bias_today c : reachable c -> _gamma_growth c = true \/ physical c /\ moderate c ->
  forall b, bias_at (inverse_growth_linear_bias b) c 0 = b.
Proof.
  intros Hr HC b. simpl. rewrite z2a_eq. replace (1 / (1 + 0)) with 1 by field. rewrite (proj1 (growth_at_one c Hr HC)). field.
Qed.
Lemma ia_pivot c A eta z0 : -1 < z0 -> bias_at (des_y1_ia_bias A eta z0) c z0 = A.
Proof.
  intros H. rewrite (proj2 (proj2 (bias_values c z0))) by assumption. replace ((1 + z0) / (1 + z0)) with 1 by (field; lra).
  unfold Rpower. rewrite ln_1, Rmult_0_r, exp_0. ring.
Qed.

(** the multipole enters the lensing kernel through the spin-2 factor alone *)
Lemma lensing_ell_factor c pzs z : reachable c -> _gamma_growth c = false -> pzs <> [] ->
  exists base, forall ell, weak_lensing_kernel c pzs z ell = Ok (map (map (Rmult (spin2 ell))) base).
Proof.
  intros Hr Hg Hp. exists (map (fun b => map (fun q => 3 / 2 * 100 ^ 2 * Omega_m c / 299792.458 * ((1 + q) * dist c q * efficiency c (zmax_of pzs) b q)) z) pzs).
  intros ell. rewrite lensing_rows by assumption. f_equal. rewrite map_map. apply map_ext. intros k. rewrite map_map. apply map_ext. intros q.
  unfold lensing. ring.
Qed.
