(** * Closed statements for the continuity properties and the extended halofit, with concrete cases *)
From Coq Require Import Reals Lra Lia List String.
From Coquelicot Require Import Coquelicot.
From Verif Require Import Np NpLemmas Core Ode OdeSpec OdeProofs Interp InterpProofs InterpCont Integrate IntegrateSpec SimpsProofs Background BgSpec
  BgAlgebra BgTables BgGrowth BgPositive BgProofs BgFinal BgFinal2 BgFinal3 BgFinal4 BgCont Transfer TransferProofs Power PowerProofs PowerFinal RedshiftShape
  DependsSpec BgDepends AmpScale PowerArrProofs HalofitScaleSpec HalofitScale HalofitScale2 SparseX HalofitX HalofitXProofs.
Import ListNotations.
Local Open Scope R_scope.
Opaque chi_table growth_table_ODE growth_table_gamma logspace hf_sigma.

Lemma background_continuous c : reachable c -> forall a,
  continuity_pt (chi c) a /\ continuity_pt (f_k c) a /\
  continuity_pt (fun q => el (fst (angular_diameter_distance c (Scalar q))) 0) a /\
  continuity_pt (D c) a /\ (_gamma_growth c = false -> continuity_pt (f_growth c) a).
Proof.
  intros Hr a. split; [ now apply chi_continuous | split; [ now apply fk_continuous | split; [ now apply ang_continuous | split; [ now apply D_continuous | intros; now apply rate_continuous ]]]].
Qed.

Lemma inverse_jumps c i : reachable c -> expanding c -> (2 <= i)%nat -> (i + 1 < 254)%nat ->
  let a := table_node 256 in let X := fun k => chi c (a k) in
  let slope := fun k => (a (k + 1)%nat - a k) / (X (k + 1)%nat - X k) in
  continuity_pt (fun x => el (fst (a_of_chi c (Scalar x))) 0) ((X i + X (i + 1)%nat) / 2) <-> slope i = slope (i - 1)%nat.
Proof. intros. now apply inverse_jump. Qed.
Lemma inverse_continuous_between c x : reachable c -> expanding c ->
  let X := fun k => chi c (table_node 256 k) in
  x <= X 1%nat -> (forall i, (1 <= i)%nat -> (i + 1 < 256)%nat -> x <> (X i + X (i + 1)%nat) / 2) ->
  continuity_pt (fun x => el (fst (a_of_chi c (Scalar x))) 0) x.
Proof. intros. now apply inverse_continuous. Qed.
Lemma inverse_discontinuous : exists c x, fresh c /\ expanding c /\ chi c (table_node 256 3) < x < chi c (table_node 256 2) /\
  ~ continuity_pt (fun x => el (fst (a_of_chi c (Scalar x))) 0) x.
Proof.
  exists milne, ((chi milne (table_node 256 2) + chi milne (table_node 256 3)) / 2).
  split; [ apply milne_fresh | split; [ apply milne_expanding | split; [ | exact milne_jump ]]].
  pose proof (inv_fresh milne milne_fresh) as HI.
  assert (HX : forall k, (1 <= k < 256)%nat -> chi milne (table_node 256 k) = - const_rh * ln (anode (-3) 256 k)).
  { intros k Hk. rewrite (chi_value milne milne _ HI), <- anode_table, chi_of_node by (auto; lra || lia || apply milne_expanding).
    apply milne_table; lia. }
  rewrite !HX by lia. pose proof (ln_anode_step (-3) 256 2) as S2. change (2 + 1)%nat with 3%nat in S2.
  pose proof (ln_step_pos (-3) 256 ltac:(lra) ltac:(lia)) as SP.
  assert (Hrh : 0 < const_rh) by (unfold const_rh; lra).
  assert (const_rh * ln (anode (-3) 256 2) < const_rh * ln (anode (-3) 256 3)) by (apply Rmult_lt_compat_l; lra). lra.
Qed.

Lemma halofit_scale_jumps Oc Ob h ns Ok_ w0 wa gam a T i :
  let C := fun s => make_cosmology Oc Ob h ns s Ok_ w0 wa gam in
  (forall s k, T (C s) k = T (C 1) k) -> sigmasqr_default (C 1) 8.0 T <> 0 -> T (C 1) (1 / 10000) <> 0 ->
  D (C 1) a <> 0 -> D (C 1) 1 <> 0 -> (1 <= i)%nat -> (i + 1 < 254)%nat ->
  let v := fun j => smoothed_variance (fun k => linear_matter_power (C 1) k 1 T) (D (C 1) a) (search_radius j) in
  0 < v (i + 1)%nat < v i /\
  (continuity_pt (fun s => fst (fst (halofit_parameters (C s) a T))) (/ sqrt ((v i + v (i + 1)%nat) / 2)) <->
   v (i - 1)%nat - v i = v i - v (i + 1)%nat).
Proof. intros. now apply halofit_jump. Qed.
Lemma halofit_scale_cutoff Oc Ob h ns Ok_ w0 wa gam a T :
  let C := fun s => make_cosmology Oc Ob h ns s Ok_ w0 wa gam in
  (forall s k, T (C s) k = T (C 1) k) -> sigmasqr_default (C 1) 8.0 T <> 0 -> T (C 1) (1 / 10000) <> 0 ->
  D (C 1) a <> 0 -> D (C 1) 1 <> 0 -> (forall k, 5000 < k -> T (C 1) k = 0) ->
  exists s, 0 < s /\ ~ continuity_pt (fun s => fst (fst (halofit_parameters (C s) a T))) s.
Proof. intros. now apply cutoff_jump. Qed.

(** ** cases *)
Definition planck_s (s : R) : cosmology := make_cosmology 0.2589 0.04860 0.6774 0.9667 s 0.0 (-1.0) 0.0 None.
Definition cutoff_T : transfer := fun _ k => if Rle_dec k 5000 then 1 else 0.
Lemma planck_s_D s : D (planck_s s) 1 = 1.
Proof.
  destruct planck_ok as (A & B & C & _). assert (R0 : reachable (planck_s s)) by (exists (planck_s s), []; split; [ split; reflexivity | reflexivity ]).
  rewrite <- (same_D Planck15 (planck_s s) 1 A R0); [ apply growth_one; [ exact A | right; now split ] | ].
  apply sigma8_background. repeat split.
Qed.
Lemma cutoff_norm s : sigmasqr_default (planck_s s) 8.0 cutoff_T <> 0.
Proof.
  assert (0 < sigmasqr_default (planck_s s) 8.0 cutoff_T); [ | lra ]. apply sigma8_positive. unfold cutoff_T.
  destruct exp_m4. destruct (Rle_dec (exp (-4)) 5000); lra.
Qed.
Lemma ex_C111 : (forall s k, cutoff_T (planck_s s) k = cutoff_T (planck_s 1) k) /\ sigmasqr_default (planck_s 1) 8.0 cutoff_T <> 0 /\
  cutoff_T (planck_s 1) (1 / 10000) <> 0 /\ D (planck_s 1) 1 <> 0 /\ (forall k, 5000 < k -> cutoff_T (planck_s 1) k = 0) /\
  (forall s k, eisenhu (planck_s s) k = eisenhu (planck_s 1) k) /\ sigmasqr_default (planck_s 1) 8.0 eisenhu <> 0 /\ eisenhu (planck_s 1) (1 / 10000) <> 0.
Proof.
  assert (E0 : forall s k, eisenhu (planck_s s) k = eisenhu Planck15 k) by (intros; now apply eisenhu_depends).
  assert (EP : forall k, 0 <= k -> 0 < eisenhu Planck15 k).
  { intros k Hk. destruct planck_dense as (P1 & P2 & P3 & P4). apply (eisenhu_range Planck15 k P1 (alpha_gamma_realistic Planck15 P1 P2 P3 P4) Hk). }
  split; [ reflexivity | split; [ apply cutoff_norm | split; [ | split; [ rewrite planck_s_D; lra | split; [ | split; [ | split ]]]]]].
  - unfold cutoff_T. destruct (Rle_dec (1 / 10000) 5000); lra.
  - intros k Hk. unfold cutoff_T. destruct (Rle_dec k 5000); lra.
  - intros. now rewrite !E0.
  - assert (0 < sigmasqr_default (planck_s 1) 8.0 eisenhu); [ | lra ]. apply sigma8_positive. rewrite E0.
    pose proof (EP (exp (-4)) ltac:(left; apply exp_pos)). lra.
  - rewrite E0. pose proof (EP (1 / 10000) ltac:(lra)). lra.
Qed.
Lemma halofit_scale_discontinuous : exists T s, 0 < s /\ (forall c d k, T c k = T d k) /\ (forall k, 0 < k <= 5000 -> T Planck15 k = 1) /\
  ~ continuity_pt (fun s => fst (fst (halofit_parameters (planck_s s) 1 T))) s.
Proof.
  destruct ex_C111 as (A & B & C & E & F & _).
  destruct (halofit_scale_cutoff 0.2589 0.04860 0.6774 0.9667 0.0 (-1.0) 0.0 None 1 cutoff_T A B C E E F) as (s & S0 & HS).
  exists cutoff_T, s. split; [ exact S0 | split; [ reflexivity | split; [ | exact HS ]]].
  intros k Hk. unfold cutoff_T. destruct (Rle_dec k 5000); lra.
Qed.
Lemma ex_C110 : reachable Planck15 /\ expanding Planck15.
Proof. destruct planck_ok as (A & B & _). split; [ exact A | now apply physical_expanding ]. Qed.
Lemma ex_C109 : (3 <= List.length [1; 2; 4])%nat /\ List.length [0; 1; 3] = List.length [1; 2; 4] /\ incr [1; 2; 4] /\
  (forall k, (1 <= k)%nat -> (k + 1 < List.length [1; 2; 4])%nat -> Rabs (el [0; 1; 3] (k + 1) - el [0; 1; 3] k) <= 1 * (el [1; 2; 4] (k + 1) - el [1; 2; 4] k)) /\
  reachable Planck15 /\ _gamma_growth Planck15 = false.
Proof.
  split; [ simpl; lia | split; [ reflexivity | split; [ | split; [ | split; [ apply planck_ok | reflexivity ]]]]].
  - intros i j Hij. simpl in Hij. destruct i as [ | [ | ]], j as [ | [ | [ | ]]]; try lia; unfold el; simpl; lra.
  - intros k H1 H2. simpl in H2. replace k with 1%nat by lia. unfold el. simpl. rewrite Rabs_right; lra.
Qed.

(** ** smith2003 in an Einstein-de Sitter universe *)
Lemma smith_eds c k a T : einstein_de_sitter c -> 0 < a -> 0 < k -> k <> fst (fst (halofit_parameters c a T)) ->
  xhalofit c k a T "smith2003" = Ok NaN.
Proof. intros HE Ha Hk Hne. apply smith_nan; [ exact Hk | now apply eds_fractions | exact Hne ]. Qed.
Lemma smith_not_finite : exists c a T, reachable c /\ einstein_de_sitter c /\ 0 < a <= 1 /\ (forall k, 0 < k -> T c k = 1) /\
  forall k, 0 < k -> k <> fst (fst (halofit_parameters c a T)) -> xhalofit c k a T "smith2003" = Ok NaN.
Proof.
  exists eds_ode, 1, (fun _ _ => 1). destruct eds_ode_ok as [A B]. split; [ exact A | split; [ exact B | split; [ lra | split; [ reflexivity | ]]]].
  intros k Hk Hne. apply smith_eds; auto. lra.
Qed.
(** a case for smith2003: Planck parameters and a small amplitude *)
Lemma planck_fractions s : 0 < Omega_m_a (planck_s s) 1 < 1 /\ 0 <= Omega_de_a (planck_s s) 1 <= 1 - Omega_m_a (planck_s s) 1.
Proof.
  destruct (today (planck_s s)) as (_ & _ & -> & ->). unfold Omega_de, Omega_k, Omega, Omega_m, Omega_c, Omega_b, planck_s, make_cosmology. simpl. lra.
Qed.
Lemma ex_smith k : 0 < k -> exists s, 0 < s /\ 0 <= linear_matter_power (planck_s s) k 1 eisenhu /\ 0 < Omega_m_a (planck_s s) 1 < 1 /\
  0 <= Omega_de_a (planck_s s) 1 <= 1 - Omega_m_a (planck_s s) 1 /\
  (let n := snd (fst (halofit_parameters (planck_s s) 1 eisenhu)) in
   -1 < (1.3884 + 0.3700 * n - 0.1452 * n ^ 2) * (k ^ 3 * linear_matter_power (planck_s s) k 1 eisenhu / (2 * PI ^ 2))).
Proof.
  intros Hk. destruct ex_C111 as (_ & _ & _ & _ & _ & HT & HN & HT0).
  assert (RS : forall s, reachable (planck_s s)) by (intros s; exists (planck_s s), []; split; [ split; reflexivity | reflexivity ]).
  set (L := fun q => linear_matter_power (planck_s 1) q 1 eisenhu).
  assert (LN : forall q, 0 <= L q) by (intros; now apply linear_nonneg).
  assert (LS : forall s q, linear_matter_power (planck_s s) q 1 eisenhu = s ^ 2 * L q).
  { intros s q. pose proof (sigma8_linear (planck_s 1) (planck_s s) eisenhu q 1 (RS 1) (RS s) ltac:(repeat split) (fun k => eq_sym (HT s k))) as E.
    simpl _sigma8 in E. unfold L. lra. }
  assert (P2 : 0 < 2 * PI ^ 2) by (pose proof PI_RGT_0; assert (0 < PI ^ 2) by (now apply pow_lt); lra).
  set (G := fun x => 2 * (L (exp x) * exp x ^ 3 / (2 * PI ^ 2))).
  assert (GN : forall x, 0 <= G x).
  { intros x. unfold G. apply Rmult_le_pos; [ lra | ]. apply Rmult_le_pos; [ apply Rmult_le_pos; [ apply LN | left; apply pow_lt, exp_pos ] | left; now apply Rinv_0_lt_compat ]. }
  assert (RG : ln 1e-4 < ln 1e4) by (apply ln_increasing; lra).
  set (B := simpson G (ln 1e-4) (ln 1e4) 256).
  assert (BN : 0 <= B) by (apply simpson_nonneg; [ lra | lia | intros; apply GN ]).
  set (d := k ^ 3 * L k / (2 * PI ^ 2)).
  assert (DN : 0 <= d) by (apply Rmult_le_pos; [ apply Rmult_le_pos; [ left; now apply pow_lt | apply LN ] | left; now apply Rinv_0_lt_compat ]).
  set (q := / (B + 2 * d + 2)). assert (Q0 : 0 < q) by (apply Rinv_0_lt_compat; lra).
  assert (QB : q * B <= 1 /\ q * d <= 1 / 2).
  { assert (E : q * (B + 2 * d + 2) = 1) by (unfold q; apply Rinv_l; lra). split; nra. }
  exists (sqrt q). assert (SQ : sqrt q ^ 2 = q) by (rewrite <- Rsqr_pow2; apply Rsqr_sqrt; lra).
  split; [ now apply sqrt_lt_R0 | ]. rewrite LS, SQ. split; [ apply Rmult_le_pos; [ lra | apply LN ] | ].
  destruct (planck_fractions (sqrt q)) as [F1 F2]. split; [ exact F1 | split; [ exact F2 | ]].
  unfold halofit_parameters. cbn [fst snd]. rewrite simps_val by (reflexivity || lia).
  set (r := simpson (hf_dneff _ _ _) _ _ _).
  assert (R01 : 0 <= r <= 1).
  { set (f := hf_dneff (planck_s (sqrt q)) 1 eisenhu) in *.
    assert (FB : forall x, 0 <= f x <= q * G x).
    { intros x. unfold f, hf_dneff, hf_res. cbv zeta. replace 1.0 with 1 by lra. replace 2.0 with 2 by lra. rewrite LS, SQ, planck_s_D.
      set (y := exp x * (1 / _)). set (W := L (exp x) * exp x ^ 3 / (2 * PI ^ 2)).
      assert (GW : G x = 2 * W) by reflexivity. pose proof (GN x) as G0. rewrite GW in *.
      replace (2 * (q * L (exp x) * exp x ^ 3 * exp (- y ^ 2) * 1 ^ 2 / (2 * PI ^ 2)) * y ^ 2) with (q * (2 * W) * (exp (- y ^ 2) * y ^ 2)) by (unfold W, Rdiv; ring).
      assert (EY : 0 <= exp (- y ^ 2) * y ^ 2 <= 1).
      { pose proof (pow2_ge_0 y). split; [ apply Rmult_le_pos; [ left; apply exp_pos | assumption ] | ].
        assert (y ^ 2 <= exp (y ^ 2)) by (destruct (Req_dec (y ^ 2) 0) as [-> | N]; [ left; apply exp_pos | pose proof (exp_ineq1 (y ^ 2) N); lra ]).
        rewrite exp_Ropp. pose proof (exp_pos (y ^ 2)). apply Rmult_le_reg_l with (exp (y ^ 2)); [ assumption | ]. rewrite <- Rmult_assoc, Rinv_r; lra. }
      assert (0 <= q * (2 * W)) by (apply Rmult_le_pos; lra).
      split; [ apply Rmult_le_pos; lra | ]. rewrite <- (Rmult_1_r (q * (2 * W))) at 2. apply Rmult_le_compat_l; lra. }
    split.
    - apply simpson_nonneg; [ lra | lia | intros; apply FB ].
    - assert (0 <= q * B + (-1) * r); [ | lra ]. unfold r, B. rewrite <- !simpson_scal, <- simpson_plus.
      apply simpson_nonneg; [ lra | lia | ]. intros i _. pose proof (FB (node (ln 1e-4) (ln 1e4) 256 i)). lra. }
  replace (k ^ 3 * (q * L k) / (2 * PI ^ 2)) with (q * d) by (unfold d, Rdiv; ring).
  assert (0 <= q * d) by (apply Rmult_le_pos; lra).
  set (al := 1.3884 + 0.3700 * (r - 3.0) - 0.1452 * (r - 3.0) ^ 2).
  assert (AL : -1.1 <= al) by (unfold al; nra).
  assert (-1.1 * (q * d) <= al * (q * d)) by (apply Rmult_le_compat_r; lra). lra.
Qed.
Lemma ex_C112 k : 0 < k -> (0 <= linear_matter_power Planck15 k 1 eisenhu /\ 0 < Omega_m_a Planck15 1) /\
  exists s, 0 < s /\ 0 <= linear_matter_power (planck_s s) k 1 eisenhu /\ 0 < Omega_m_a (planck_s s) 1 < 1 /\
  0 <= Omega_de_a (planck_s s) 1 <= 1 - Omega_m_a (planck_s s) 1 /\
  (let n := snd (fst (halofit_parameters (planck_s s) 1 eisenhu)) in
   -1 < (1.3884 + 0.3700 * n - 0.1452 * n ^ 2) * (k ^ 3 * linear_matter_power (planck_s s) k 1 eisenhu / (2 * PI ^ 2))).
Proof.
  intros Hk. split; [ split; [ apply linear_nonneg, planck_sigma | ] | now apply ex_smith ].
  apply (planck_fractions 0.8159).
Qed.
Lemma takahashi_dom c k a T : 0 < k -> 0 <= linear_matter_power c k a T -> 0 < Omega_m_a c a ->
  exists p, halofit c k a T "takahashi2012" = Ok p /\ 0 < p.
Proof. intros Hk Hp _. now apply takahashi_pos. Qed.
Lemma smith_dom c k a T : 0 < k -> 0 <= linear_matter_power c k a T -> 0 < Omega_m_a c a < 1 -> 0 <= Omega_de_a c a <= 1 - Omega_m_a c a ->
  (let n := snd (fst (halofit_parameters c a T)) in
   -1 < (1.3884 + 0.3700 * n - 0.1452 * n ^ 2) * (k ^ 3 * linear_matter_power c k a T / (2 * PI ^ 2))) ->
  exists p, halofit c k a T "smith2003" = Ok p /\ 0 < p.
Proof. intros Hk Hp H1 H2 H3. destruct (xhalofit_smith c k a T Hk Hp H1 H2 H3) as (p & _ & E & P0). now exists p. Qed.
