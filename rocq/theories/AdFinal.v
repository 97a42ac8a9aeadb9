(** * Forward-mode differentiation of the background: public statements *)
From Coquelicot Require Import Coquelicot.
From Verif Require Import Np NpLemmas Core Ode OdeSpec OdeProofs Interp InterpProofs Integrate Background BgSpec BgAlgebra BgTables
  BgGrowth BgPositive BgProofs BgFinal BgFinal2 BgFinal4 BgGrad GradSpec Ad AdSpec AdProofs AdBg AdGrowth.
Opaque chi_table growth_table_ODE growth_table_gamma logspace.

Lemma line_tangent x dx : tangent_of (fun t => x + t * dx) 0 (x, dx).
Proof. split; [ cbn [fst]; ring | ]. cbn [snd]. auto_derive; [ exact I | ring ]. Qed.
Lemma displaced_moves c d : moves (displaced c d) 0 (dual_cosmo c d).
Proof.
  split; [ intros s; split; [ split; reflexivity | reflexivity ] | ].
  repeat (split; [ apply line_tangent | ]). cbn [ggamma dual_cosmo]. destruct (_gamma c) as [v | ] eqn:E.
  - exists (fun _ => v). split; [ intros s; exact E | apply (t_cst 0 v) ].
  - intros s; exact E.
Qed.
Lemma displaced_0 c d : built c -> displaced c d 0 = c.
Proof. intros B. symmetry. etransitivity; [ exact B | ]. unfold displaced. now rewrite !Rmult_0_l, !Rplus_0_r. Qed.
Lemma built_flag c : built c -> _gamma_growth c = match _gamma c with Some _ => true | None => false end.
Proof. intros B. exact (f_equal _gamma_growth B). Qed.
Lemma built_fresh c : built c -> fresh c.
Proof. intros B. split; [ exact (f_equal ws_chi B) | exact (f_equal ws_growth B) ]. Qed.
Lemma line_0 a da : a + 0 * da = a. Proof. ring. Qed.
Lemma differentiates_intro F G c d a da : built c ->
  tangent_of (fun t => F (displaced c d t) (a + t * da)) 0 (G (dual_cosmo c d) (a, da)) -> differentiates F G c d a da.
Proof. intros B [E D]. split; [ | exact D ]. rewrite E, displaced_0 by exact B. cbv beta; now rewrite line_0. Qed.
Lemma off_nodes_query n a da : (2 <= n)%nat -> off_nodes n a da -> query_ok 0 (fun t => a + t * da) (logspace (-3) 0.0 n).
Proof.
  intros Hn [-> | HO]; [ left; intros s; ring | right ]. intros i Hi. rewrite length_logspace in Hi.
  rewrite logspace_el, anode_table by lia. cbv beta; rewrite line_0. now apply HO.
Qed.

Section Public.
Variables (c : cosmology) (d : direction) (a da : R).
Hypotheses (B : built c) (HE : expanding c) (Pa : 0 < a).
Local Notation al := (fun t => a + t * da).
Let M := displaced_moves c d.
Let L : tangent_of al 0 (a, da) := line_tangent a da.
Lemma E0 : expanding (displaced c d 0). Proof. now apply displaced_expanding. Qed.
Lemma P0 : 0 < al 0. Proof. cbv beta; now rewrite line_0. Qed.
Lemma PE0 : 0 < Esqr (displaced c d 0) (al 0). Proof. apply E0, P0. Qed.
Lemma rates_jvp :
  differentiates H (gH num_dual) c d a da /\ differentiates Omega_m_a (gOmega_m_a num_dual) c d a da /\
  differentiates Omega_de_a (gOmega_de_a num_dual) c d a da /\ differentiates dchioverda (gdchioverda num_dual) c d a da.
Proof.
  pose proof PE0 as PE. pose proof P0 as P.
  split; [ | split; [ | split ]]; apply differentiates_intro; try exact B.
  - exact (m_H _ _ _ M al _ L P PE).
  - exact (m_Omega_m_a _ _ _ M al _ L P PE).
  - exact (m_Omega_de_a _ _ _ M al _ L P PE).
  - exact (m_dchioverda _ _ _ M al _ L P PE).
Qed.
Lemma chi_pos0 : a < 1 -> 0 < chi (displaced c d 0) (al 0).
Proof. intros H1. cbv beta; rewrite line_0, displaced_chi. apply chi_of_pos; [ exact E0 | lra | lia | exact H1 ]. Qed.
Lemma distance_jvp : a < 1 -> off_nodes 256 a da ->
  differentiates chi (gchi num_dual) c d a da /\
  (_Omega_k c <> 0 \/ dOmega_k d = 0 ->
   differentiates f_k (gf_k num_dual) c d a da /\
   differentiates (fun c a => el (fst (angular_diameter_distance c (Scalar a))) 0) (gd_A num_dual) c d a da).
Proof.
  intros H1 HO. assert (HQ := off_nodes_query 256 a da ltac:(lia) HO). assert (PC := chi_pos0 H1). split.
  - apply differentiates_intro; [ exact B | ]. exact (m_chi _ _ _ M E0 al _ L HQ PC).
  - intros HK. assert (HK' : _Omega_k (displaced c d 0) <> 0 \/ (forall s, _Omega_k (displaced c d s) = 0) \/ (forall s, _Omega_k (displaced c d s) = _Omega_k c)).
    { cbn [_Omega_k displaced make_cosmology]. destruct HK as [HK | HK]; [ left | right; right ]; rewrite ?HK; [ now rewrite Rmult_0_l, Rplus_0_r | intros s; ring ]. }
    assert (TF : tangent_of (fun t => f_k (displaced c d t) (al t)) 0 (gf_k num_dual (dual_cosmo c d) (a, da))).
    { apply (m_f_k _ _ _ M E0 al _ L HQ PC). destruct HK' as [HK' | [HK' | HK']]; [ now left | now right | ].
      destruct (Req_dec (_Omega_k c) 0) as [Z | Z]; [ right; intros s; now rewrite HK' | left; now rewrite HK' ]. }
    split; apply differentiates_intro; try exact B; [ exact TF | ].
    refine (t_ext 0 _ _ _ _ (t_mul 0 _ _ _ _ L TF)). intros s. reflexivity.
Qed.
Lemma growing0 : growing c -> growth_ok (displaced c d 0).
Proof. unfold growing, growth_ok. rewrite displaced_0 by exact B. auto. Qed.
Lemma growth_jvp : growing c -> off_nodes 128 a da ->
  (0 < D c a < 1 -> differentiates D (gD num_dual) c d a da) /\ differentiates f_growth (gf num_dual) c d a da.
Proof.
  intros HG HO. assert (HQ := off_nodes_query 128 a da ltac:(lia) HO). assert (G0 := growing0 HG). split.
  - intros HD. apply differentiates_intro; [ exact B | ]. apply (m_D _ _ _ M E0 al _ L HQ G0). cbv beta; rewrite line_0, displaced_0 by exact B. exact HD.
  - apply differentiates_intro; [ exact B | ]. exact (m_f _ _ _ M E0 al _ L P0 HQ G0).
Qed.
End Public.

Lemma growing_nonzero c : built c -> growing c -> growth_nonzero c.
Proof.
  intros B HG F. pose proof (built_flag c B) as G1. unfold growing in HG. destruct (_gamma c) as [v | ]; [ congruence | ]. destruct HG as [HP HMo].
  pose proof (ode_positive c (-3) 128 HP HMo ltac:(lra) ltac:(lia) default_step 127%nat ltac:(lia)) as (P & _). apply Rgt_not_eq. exact P.
Qed.
(** ** a = 1: the clip is at its edge *)
Section Today.
Variables (c : cosmology) (d : direction) (da : R).
Hypotheses (B : built c) (HE : expanding c).
Local Notation al := (fun t => 1 + t * da).
Let M := displaced_moves c d.
Let L : tangent_of al 0 (1, da) := line_tangent 1 da.
Lemma node_lt n i : (2 <= n)%nat -> (i < n - 1)%nat -> table_node n i < 1.
Proof.
  intros Hn Hi. rewrite <- anode_table. rewrite <- (anode_last (-3) n) by lia. rewrite <- !logspace_el by lia.
  apply logspace_incr; [ lra | lia | rewrite ?length_logspace; lia ].
Qed.
Lemma one_query n : (4 <= n)%nat -> query_ok 0 al (logspace (-3) 0.0 n).
Proof.
  intros Hn. right. intros i Hi. rewrite length_logspace in Hi. rewrite logspace_el, anode_table by lia. cbv beta. rewrite line_0.
  pose proof (node_lt n i ltac:(lia) ltac:(lia)). lra.
Qed.
(** the last cell near a = 1 *)
Lemma last_cell n F : (4 <= n)%nat -> (forall s, length (F s) = n) -> let x := table_node n (n - 2) in
  locally 0 (fun s => interp1 (al s) (logspace (-3) 0.0 n) (F s) = el (F s) (n - 2) + (el (F s) (n - 1) - el (F s) (n - 2)) / (1 - x) * (al s - x)).
Proof.
  intros Hn LF x. assert (Hx := node_lt n (n - 2) ltac:(lia) ltac:(lia)). fold x in Hx.
  assert (LX : length (logspace (-3) 0.0 n) = n) by apply length_logspace.
  apply (filter_imp (fun s => x < al s)); [ | apply (t_gt 0 al _ x L); cbv beta; rewrite line_0; exact Hx ].
  intros s Hs. rewrite interp1_above; rewrite ?LX; auto; [ | lia | apply logspace_incr; [ lra | lia ] | rewrite logspace_el, anode_table by lia; fold x; lra ].
  unfold cell, line. replace (n - 2 + 1)%nat with (n - 1)%nat by lia. rewrite !logspace_el by lia. rewrite anode_last, anode_table by lia. reflexivity.
Qed.
Lemma chi_today : gchi num_dual (dual_cosmo c d) (1, da) = (0, da * last_slope (chi c) 256 / 2).
Proof.
  set (x := table_node 256 254). assert (Hx := node_lt 256 254 ltac:(lia) ltac:(lia)). fold x in Hx.
  assert (TR := m_chi_raw _ _ _ M (E0 c d HE) al _ L (one_query 256 ltac:(lia))).
  destruct (m_chi_table _ _ _ M (E0 c d HE) (-3) 256 ltac:(lia)) as [_ [LF MF]].
  assert (LF' : forall s, length (snd (chi_table (displaced c d s) (-3) 256)) = 256%nat) by (intros s; apply chi_table_length).
  assert (LN : forall s, el (snd (chi_table (displaced c d s) (-3) 256)) 255 = 0).
  { intros s. rewrite chi_table_el by lia. change (256 - 1)%nat with 255%nat. lra. }
  assert (M254 := MF 254%nat ltac:(rewrite <- (LF 0), LF'; lia)).
  set (y := fun s => el (snd (chi_table (displaced c d s) (-3) 256)) 254) in *. set (yd := nth 254 (snd (gchi_table num_dual (dual_cosmo c d) (-3) 256)) (0, 0)) in *.
  set (raw := fun s => interp1 (al s) (logspace (-3) 0.0 256) (snd (chi_table (displaced c d s) (-3) 256))) in *.
  assert (EQ : locally 0 (fun s => y s * ((1 - al s) / (1 - x)) = raw s)).
  { apply (filter_imp (fun s => raw s = y s + (el (snd (chi_table (displaced c d s) (-3) 256)) 255 - y s) / (1 - x) * (al s - x))).
    - intros s ->. rewrite LN. field. lra.
    - exact (last_cell 256 (fun s => snd (chi_table (displaced c d s) (-3) 256)) ltac:(lia) LF'). }
  assert (NX : 1 - x <> 0) by lra.
  assert (T2 := t_loc 0 _ _ _ EQ (t_mul 0 _ _ _ _ M254 (t_div 0 (fun s => 1 - al s) (fun _ => 1 - x) _ _ NX (t_sub 0 _ _ _ _ (t_cst 0 1) L) (t_cst 0 (1 - x))))).
  assert (R0 : raw 0 = 0). { rewrite <- (locally_singleton _ _ EQ). cbv beta. rewrite line_0. field. exact NX. }
  destruct (m_chi_tie _ _ _ M (E0 c d HE) al _ L (one_query 256 ltac:(lia)) R0) as [V1 V2].
  rewrite (surjective_pairing (gchi num_dual (dual_cosmo c d) (1, da))), V1, V2. fold raw. rewrite (is_derive_unique _ _ _ (proj2 T2)).
  f_equal. cbn [snd fst nmul ndiv nsub cst num_dual].
  assert (EY : fst yd = chi c x).
  { rewrite (proj1 M254). unfold y. rewrite displaced_0 by exact B.
    rewrite (chi_value c) by (apply inv_fresh; exact (built_fresh c B)). unfold x. rewrite <- anode_table. symmetry. apply chi_of_node; [ exact HE | lra | lia | lia ]. }
  unfold last_slope. change (256 - 2)%nat with 254%nat. fold x. 
  assert (C1 : chi c 1 = 0) by (apply distance_properties; [ apply fresh_reachable; exact (built_fresh c B) | exact HE ]).
  rewrite EY, C1. field. exact NX.
Qed.

Lemma D_today : growing c -> gD num_dual (dual_cosmo c d) (1, da) = (1, da * last_slope (D c) 128 / 2).
Proof.
  intros HG. set (x := table_node 128 126). assert (Hx := node_lt 128 126 ltac:(lia) ltac:(lia)). fold x in Hx. assert (NX : 1 - x <> 0) by lra.
  destruct (m_gtab _ _ _ M (E0 c d HE) (growing0 c d B HG)) as (gt & MG & LG & EG). rewrite EG.
  assert (LF' : forall s, length (gtab_of (displaced c d s)) = 128%nat) by (intros s; apply gtab_length).
  assert (TI := t_interp 0 al (1, da) atab128 (fun s => gtab_of (displaced c d s)) gt ltac:(rewrite length_logspace; lia) atab128_incr ltac:(now rewrite LG, length_logspace) (one_query 128 ltac:(lia)) L MG).
  assert (M126 := proj2 MG 126%nat ltac:(lia)). assert (M127 := proj2 MG 127%nat ltac:(lia)).
  set (y := fun s => el (gtab_of (displaced c d s)) 126) in *. set (z := fun s => el (gtab_of (displaced c d s)) 127) in *.
  set (raw := fun s => interp1 (al s) atab128 (gtab_of (displaced c d s))) in *.
  assert (EQ : locally 0 (fun s => y s + (z s - y s) / (1 - x) * (al s - x) = raw s)).
  { apply (filter_imp (fun s => raw s = y s + (z s - y s) / (1 - x) * (al s - x))); [ intros s E; now rewrite E | ].
    exact (last_cell 128 (fun s => gtab_of (displaced c d s)) ltac:(lia) LF'). }
  assert (NZ : growth_nonzero c) by (now apply growing_nonzero).
  assert (Z0 : z 0 = 1) by (unfold z; rewrite displaced_0 by exact B; now apply gtab_last).
  (* the last entry of the table is v / v *)
  assert (ZL : locally 0 (fun s => z s = 1)).
  { destruct (_gamma c) as [v | ] eqn:Ev.
    - apply filter_forall. intros s. unfold z. apply gtab_last. intros F. exfalso. cbn [_gamma_growth displaced make_cosmology] in F. rewrite Ev in F. discriminate.
    - apply (filter_imp (fun s => 0 < z s)); [ | apply (t_gt 0 z _ 0 M127); rewrite Z0; lra ].
      intros s Hs. unfold z in *. apply gtab_last. intros F E0'. unfold gtab_of in Hs. rewrite F in Hs.
      destruct (ODE_table_el (displaced c d s) (-3) 128 ltac:(lia)) as (_ & _ & _ & G & _). rewrite G in Hs by lia. change (128 - 1)%nat with 127%nat in Hs.
      rewrite E0' in Hs. unfold Rdiv in Hs. rewrite Rmult_0_l in Hs. lra. }
  assert (Z1 : snd (nth 127 gt (0, 0)) = 0).
  { rewrite <- (is_derive_unique _ _ _ (proj2 M127)). apply is_derive_unique. apply (is_derive_ext_loc (fun _ => 1)); [ | apply (is_derive_const (V := R_NormedModule)) ].
    apply (filter_imp (fun s => z s = 1)); [ intros s E; now symmetry | exact ZL ]. }
  assert (T2 := t_loc 0 _ _ _ EQ (t_add 0 _ _ _ _ M126 (t_mul 0 _ _ _ _ (t_div 0 (fun s => z s - y s) (fun _ => 1 - x) _ _ NX (t_sub 0 _ _ _ _ M127 M126) (t_cst 0 (1 - x))) (t_sub 0 _ _ _ _ L (t_cst 0 x))))).
  assert (R0 : raw 0 = 1). { rewrite <- (locally_singleton _ _ EQ). cbv beta. rewrite line_0, Z0. field. exact NX. }
  assert (SR : snd (ginterp1 num_dual (1, da) (map (cst num_dual) atab128) gt) = da * ((1 - y 0) / (1 - x))).
  { rewrite <- (is_derive_unique _ _ _ (proj2 TI)), (is_derive_unique _ _ _ (proj2 T2)). cbn [snd fst nmul ndiv nsub nadd cst num_dual].
    rewrite Z1, (proj1 M126), (proj1 M127). fold y z. rewrite Z0. field. exact NX. }
  assert (FR : fst (ginterp1 num_dual (1, da) (map (cst num_dual) atab128) gt) = 1) by (rewrite (proj1 TI); exact R0).
  assert (CR : reachable c) by (apply fresh_reachable; exact (built_fresh c B)).
  assert (EV : forall q, D c q = D_of c q) by (intros q; apply D_value, inv_fresh; exact (built_fresh c B)).
  assert (Y0 : y 0 = D c x).
  { unfold y. rewrite displaced_0 by exact B. rewrite EV. unfold x. symmetry. apply D_node; [ lia | ].
    unfold growing in HG. assert (G1 := built_flag c B).
    destruct (_gamma c) as [v | ].
    - unfold gtab_of. rewrite G1. pose proof (gamma_table_range c (-3) 128 126 ltac:(lra) ltac:(lia) ltac:(lia)). lra.
    - destruct HG as [HP HMo]. pose proof (ode_positive c (-3) 128 HP HMo ltac:(lra) ltac:(lia) default_step) as POS.
      unfold gtab_of. rewrite G1. destruct (ODE_table_el c (-3) 128 ltac:(lia)) as (_ & _ & _ & G & _). rewrite G by lia. change (128 - 1)%nat with 127%nat.
      destruct (POS 126%nat ltac:(lia)) as (P1 & _ & Lt). specialize (Lt ltac:(lia)). change (126 + 1)%nat with 127%nat in Lt. destruct (POS 127%nat ltac:(lia)) as (P2 & _ & _).
      split; [ left; now apply Rdiv_lt_0_compat | ]. apply Rlt_le. apply (Rmult_lt_reg_r (fst (nth 127 (ode_y c (-3) 128) (0, 0)))); [ exact P2 | ].
      unfold Rdiv. rewrite Rmult_assoc, Rinv_l, Rmult_1_l, Rmult_1_r by lra. exact Lt. }
  assert (D1 : D c 1 = 1) by (apply growth_normalised; assumption).
  unfold gclip01. set (u := ginterp1 num_dual (1, da) (map (cst num_dual) atab128) gt) in *. clearbody u. cbn [nmin nmax num_dual fst snd cst]. rewrite FR, SR. unfold sel3. cbn [fst snd].
  assert (MX : Rmax 1 0.0 = 1) by (apply Rmax_left; lra). rewrite MX.
  destruct (Rlt_dec 0.0 1); [ | lra ]. destruct (Rlt_dec (- (1.0)) (- (1))); [ lra | ]. destruct (Rlt_dec (- (1)) (- (1.0))); [ lra | ].
  unfold last_slope. change (128 - 2)%nat with 126%nat. fold x. rewrite D1, Y0. f_equal; [ rewrite Rmin_left; lra | field; exact NX ].
Qed.
End Today.

(** ** public statements *)
Lemma background_jvp c d a da : built c -> expanding c -> 0 < a ->
  differentiates H (gH num_dual) c d a da /\ differentiates Omega_m_a (gOmega_m_a num_dual) c d a da /\
  differentiates Omega_de_a (gOmega_de_a num_dual) c d a da /\ differentiates dchioverda (gdchioverda num_dual) c d a da.
Proof. intros B HE Pa. now apply rates_jvp. Qed.
Lemma distances_jvp c d a da : built c -> expanding c -> 0 < a < 1 -> off_nodes 256 a da ->
  differentiates chi (gchi num_dual) c d a da /\
  (_Omega_k c <> 0 \/ dOmega_k d = 0 ->
   differentiates f_k (gf_k num_dual) c d a da /\
   differentiates (fun c a => el (fst (angular_diameter_distance c (Scalar a))) 0) (gd_A num_dual) c d a da).
Proof. intros B HE Pa. now apply distance_jvp. Qed.
Lemma growths_jvp c d a da : built c -> expanding c -> growing c -> 0 < a -> off_nodes 128 a da ->
  (0 < D c a < 1 -> differentiates D (gD num_dual) c d a da) /\ differentiates f_growth (gf num_dual) c d a da.
Proof. intros B HE HG Pa. now apply growth_jvp. Qed.

Lemma min_derive f l : is_derive f 0 l -> (forall x, f 0 <= f x) -> l = 0.
Proof.
  intros Df Hm. apply is_derive_Reals in Df. assert (pr : derivable_pt f 0) by (now exists l).
  rewrite <- (deriv_minimum f (-1) 1 0 pr ltac:(lra) ltac:(lra) (fun x _ _ => Hm x)). symmetry. now apply derive_pt_eq_0.
Qed.
Lemma chi_edge c a : built c -> expanding c -> table_node 256 254 <= a ->
  chi c a = Rmax (last_slope (chi c) 256 * (a - 1)) 0.
Proof.
  intros B HE Ha. set (x := table_node 256 254) in *. assert (Hx := node_lt 256 254 ltac:(lia) ltac:(lia)). fold x in Hx.
  assert (EV : forall q, chi c q = chi_of c (-3) 256 q) by (intros q; apply chi_value, inv_fresh, built_fresh, B).
  assert (C1 : chi c 1 = 0) by (apply distance_properties; [ apply fresh_reachable, built_fresh, B | exact HE ]).
  assert (CX : chi c x = el (snd (chi_table c (-3) 256)) 254) by (rewrite EV; unfold x; rewrite <- anode_table; apply chi_of_node; [ exact HE | lra | lia | lia ]).
  assert (C255 : el (snd (chi_table c (-3) 256)) 255 = 0) by (rewrite chi_table_el by lia; change (256 - 1)%nat with 255%nat; lra).
  rewrite EV. unfold chi_of, clip_lo. rewrite chi_table_fst.
  assert (LX : length (logspace (-3) 0.0 256) = 256%nat) by apply length_logspace.
  rewrite interp1_above; rewrite ?LX; [ | lia | apply chi_table_length | apply logspace_incr; [ lra | lia ] | ].
  - change (256 - 2)%nat with 254%nat. unfold cell, line. change (254 + 1)%nat with 255%nat. rewrite !logspace_el by lia. change (anode (-3) 256 255) with (anode (-3) 256 (256 - 1)). rewrite anode_last, anode_table by lia. fold x.
    rewrite C255, <- CX. unfold last_slope. change (256 - 2)%nat with 254%nat. fold x. rewrite C1. replace 0.0 with 0 by lra. f_equal. field. lra.
  - change (256 - 2)%nat with 254%nat. rewrite logspace_el, anode_table by lia. exact Ha.
Qed.
Lemma chi_slope_neg c : built c -> expanding c -> last_slope (chi c) 256 < 0.
Proof.
  intros B HE. assert (Hx := node_lt 256 254 ltac:(lia) ltac:(lia)). destruct (distance_properties c) as (_ & C1 & _ & _ & P); [ apply fresh_reachable, built_fresh, B | exact HE | ].
  specialize (P _ Hx). unfold last_slope. change (256 - 2)%nat with 254%nat. rewrite C1.
  replace ((0 - chi c (table_node 256 254)) / (1 - table_node 256 254)) with (- (chi c (table_node 256 254) / (1 - table_node 256 254))) by (field; lra).
  assert (0 < chi c (table_node 256 254) / (1 - table_node 256 254)) by (apply Rdiv_lt_0_compat; lra). lra.
Qed.
Lemma today_jvp c d da : built c -> expanding c ->
  gchi num_dual (dual_cosmo c d) (1, da) = (0, da * last_slope (chi c) 256 / 2) /\
  (growing c -> gD num_dual (dual_cosmo c d) (1, da) = (1, da * last_slope (D c) 128 / 2)) /\
  (forall a, table_node 256 254 <= a -> chi c a = Rmax (last_slope (chi c) 256 * (a - 1)) 0) /\ last_slope (chi c) 256 < 0.
Proof.
  intros B HE. split; [ now apply chi_today | ]. split; [ now apply D_today | ]. split; [ intros a Ha; now apply chi_edge | now apply chi_slope_neg ].
Qed.
Lemma today_not_derivative c d da : built c -> expanding c -> da <> 0 -> ~ differentiates chi (gchi num_dual) c d 1 da.
Proof.
  intros B HE Hd [_ Df]. rewrite chi_today in Df by assumption. cbn [snd] in Df.
  assert (E0 := min_derive _ _ Df). cbv beta in E0. pose proof (chi_slope_neg c B HE) as NS.
  assert (Z : da * last_slope (chi c) 256 / 2 = 0).
  { apply E0. intros x. rewrite displaced_0, line_0 by exact B. destruct (distance_properties c) as (_ & -> & _); [ apply fresh_reachable, built_fresh, B | exact HE | ].
    rewrite displaced_chi. apply chi_of_nonneg. }
  assert (da * last_slope (chi c) 256 <> 0) by (apply Rmult_integral_contrapositive_currified; lra). lra.
Qed.
Lemma planck_built : built Planck15. Proof. reflexivity. Qed.
Lemma today_refuted : exists c d da, built c /\ expanding c /\ ~ differentiates chi (gchi num_dual) c d 1 da.
Proof.
  exists Planck15, (Direction 0 0 0 0 0 0 0 0), 1. split; [ exact planck_built | ]. assert (HE : expanding Planck15) by apply planck_ok.
  split; [ exact HE | ]. apply today_not_derivative; [ exact planck_built | exact HE | lra ].
Qed.
Lemma ex_C120 : built Planck15 /\ expanding Planck15 /\ growing Planck15 /\
  (let a := (table_node 256 254 + 1) / 2 in 0 < a < 1 /\ off_nodes 256 a 1) /\
  (let a := table_node 128 126 in 0 < a /\ 0 < D Planck15 a < 1 /\ off_nodes 128 a 0).
Proof.
  destruct planck_ok as (Rc & HP & HMo & HE & FG). split; [ exact planck_built | split; [ exact HE | split; [ exact (conj HP HMo) | split ]]].
  - assert (Hx := node_lt 256 254 ltac:(lia) ltac:(lia)). assert (0 < table_node 256 254) by (rewrite <- anode_table; apply anode_pos).
    cbv zeta. split; [ lra | ]. right. intros i Hi E.
    assert (table_node 256 i <= table_node 256 254).
    { rewrite <- !anode_table, <- !logspace_el by lia. apply incr_le; [ apply logspace_incr; [ lra | lia ] | rewrite length_logspace; lia ]. }
    lra.
  - cbv zeta. split; [ rewrite <- anode_table; apply anode_pos | ]. split; [ | now left ].
    destruct (ode_growth_properties Planck15 Rc FG HP HMo) as (NZ & _ & P & I). destruct (P 126%nat ltac:(lia)) as [P1 _]. specialize (I 126%nat ltac:(lia) ltac:(lia)).
    change (126 + 1)%nat with 127%nat in I. rewrite node_last in I. rewrite (proj2 (proj2 (growth_normalised Planck15 Rc)) NZ) in I. lra.
Qed.
(** at exact reals the generic programs are the functions of Background.v *)
Lemma same_programs c a : built c ->
  gH num_R (lift_cosmo c) a = H c a /\ gOmega_m_a num_R (lift_cosmo c) a = Omega_m_a c a /\ gOmega_de_a num_R (lift_cosmo c) a = Omega_de_a c a /\
  gchi num_R (lift_cosmo c) a = chi c a /\ gf_k num_R (lift_cosmo c) a = f_k c a /\
  gD num_R (lift_cosmo c) a = D c a /\ gf num_R (lift_cosmo c) a = f_growth c a.
Proof.
  intros B. destruct (built_fresh c B) as [F1 F2]. pose proof (built_flag c B) as F3.
  repeat split; [ apply R_chi | apply R_f_k | apply R_D | apply R_f ]; assumption.
Qed.
