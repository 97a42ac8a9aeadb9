(** * A survey for which minus the Hessian of README.md is negative *)
From Coq Require Import String.
From Coquelicot Require Import Coquelicot.
From Verif Require Import Np NpLemmas Core Sparse SparseSpec SparseProofs Likelihood LikelihoodSpec ExLikelihood FisherSpec Integrate IntegrateSpec SimpsProofs Interp Background BgAlgebra BgSpec BgCompare Transfer Power PowerProofs Redshift RedshiftSpec RedshiftShape ExRedshift Bias Probes ProbesSpec AngularCl CovSpec CovProofs AclSpec AclProofs AclFinal AmpScale DependsSpec GradSpec ContFinal ExAdProbes ExAdHalofit ExCov AdLike AdSpec AdFinal AdArrSpec ReadmeSpec Readme.
Opaque chi_table growth_table_ODE growth_table_gamma logspace.
Local Open Scope R_scope.

(** galaxy counts in one Smail bin, [g] galaxies per square arcminute, bias 1; two multipoles *)
Definition counts (g : R) : probe := PNC (NC [nz_new (Smail 1 2 0.5) g 2] (OneBias (constant_linear_bias 1))).
Definition ell2 : list R := [10; 20].
Definition c0 := planck_s 0.8159.

Lemma third_node : table_node 128 1 <= 1 / 3.
Proof. destruct (tab_below 2 ltac:(lra)) as [_ Q]. replace (1 / (1 + 2)) with (1 / 3) in Q by lra. exact Q. Qed.
Lemma counts_power g ell : 0 <= ell -> 0 < spectrum c0 eisenhu linear [counts g] 0 0 ell.
Proof.
  intros Hl. unfold spectrum, limber. apply Rdiv_lt_0_compat; [ | lra ].
  replace (survey_zmax [counts g]) with 2 by reflexivity.
  assert (NN : forall a k, 0 <= linear c0 k a eisenhu) by (intros; apply linear_nonneg, planck_s_norm).
  assert (W : forall a, 0 <= limber_weight c0 eisenhu linear ell a).
  { intros a. unfold limber_weight. pose proof (Rmax_r (chi c0 a ^ 2) 1). pose proof (sqrt_pos (Esqr c0 a)). pose proof (pow2_ge_0 a).
    apply Rmult_le_pos; [ apply Rmult_le_pos; [ apply NN | ] | left; apply Rinv_0_lt_compat; lra ]. apply Rmult_le_pos; [ lra | ].
    destruct (Req_dec (a ^ 2 * sqrt (Esqr c0 a)) 0) as [-> | N]; [ rewrite Rinv_0; lra | ]. left. apply Rinv_0_lt_compat. nra. }
  apply (simpson_pos_one _ _ _ 512 0); [ lra | lia | reflexivity | lia | | ].
  - intros j _. cbv beta. rewrite Rmult_assoc. apply Rmult_le_pos; [ apply W | apply Rle_0_sqr ].
  - unfold node. cbv beta. set (a := 1 / (1 + 2) + _). assert (A : a = 1 / 3) by (unfold a; simpl INR; lra). rewrite A.
    assert (K : 0 < survey_kernel [counts g] 0 c0 ell (1 / (1 / 3) - 1)).
    { change (0 < clustering c0 (nz_new (Smail 1 2 0.5) g 2) (constant_linear_bias 1) (1 / (1 / 3) - 1)). replace (1 / (1 / 3) - 1) with 2 by lra. unfold clustering.
      apply Rmult_lt_0_compat; [ apply Rmult_lt_0_compat; [ | simpl; lra ] | ].
      - unfold nz_density. apply Rdiv_lt_0_compat; [ apply smail_pos; lra | ]. change (0 < simpson (pz_fn (nz_new (Smail 1 2 0.5) g 2)) 0 2 256). apply smail_norm_pos. lra.
      - apply H_pos; [ apply planck_s_phys | lra ]. }
    apply Rmult_lt_0_compat; [ apply Rmult_lt_0_compat; [ | exact K ] | exact K ].
    unfold limber_weight. pose proof (Rmax_r (chi c0 (1 / 3) ^ 2) 1). pose proof (Rmax_r (chi c0 (1 / 3)) 1).
    assert (E : 0 < Esqr c0 (1 / 3)) by (apply planck_s_phys; lra).
    apply Rdiv_lt_0_compat; [ | lra ]. apply Rmult_lt_0_compat; [ | apply Rdiv_lt_0_compat; [ lra | ]; apply Rmult_lt_0_compat; [ lra | now apply sqrt_lt_R0 ] ].
    assert (0 < (ell + 1 / 2) / Rmax (chi c0 (1 / 3)) 1) by (apply Rdiv_lt_0_compat; lra).
    unfold linear. apply linear_pos; [ apply planck_s_norm | assumption | | | unfold c0; cbn; lra ].
    + apply Rgt_not_eq, eisenhu_pos. lra.
    + apply Rgt_not_eq, planck_s_growth. pose proof third_node. lra.
Qed.

Lemma counts_same g ell : spectrum c0 eisenhu linear [counts g] 0 0 ell = spectrum c0 eisenhu linear [counts 1] 0 0 ell.
Proof. reflexivity. Qed.
Definition S_ (l : nat) : R := spectrum c0 eisenhu linear [counts 1] 0 0 (el ell2 l).
(** so few galaxies that the noise is 100 times the signal, times the number of modes *)
Definition shot : R := 1 + (S_ 0 + S_ 1) * 1000.
Definition few : R := / (shot * steradian_to_arcmin2).
Lemma ster_pos : 0 < steradian_to_arcmin2.
Proof. unfold steradian_to_arcmin2. lra. Qed.
Lemma signal_pos l : (l < 2)%nat -> 0 < S_ l.
Proof. intros Hl. apply counts_power. destruct l as [ | [ | l]]; unfold ell2, el; cbn; lra || lia. Qed.
Lemma few_noise : 0 < few /\ 0 < shot /\ noise (counts few) = Ok [shot].
Proof.
  pose proof ster_pos as P. pose proof (signal_pos 0 ltac:(lia)). pose proof (signal_pos 1 ltac:(lia)). assert (Q : 0 < shot) by (unfold shot; lra).
  split; [ apply Rinv_0_lt_compat, Rmult_lt_0_compat; assumption | split; [ exact Q | ]]. assert (E : 1.0 / gals_per_steradian (nz_new (Smail 1 2 0.5) few 2) = shot) by (unfold gals_per_steradian; cbn [nz_gals nz_new]; unfold few; replace 1.0 with 1 by lra; field; split; apply Rgt_not_eq; assumption).
  cbn. unfold nc_noise. cbn [map nc_bins]. now rewrite E.
Qed.
Lemma norm2 l : (l < length ell2)%nat -> 0 < knox_norm ell2 0.25 l <= 200.
Proof. intros Hl. destruct l as [ | [ | l]]; cbn in Hl; try lia; unfold knox_norm, spacing, ell2, el; cbn; lra. Qed.
Lemma ex_C130 : built c0 /\ _gamma c0 = None /\ _sigma8 c0 <> 0 /\ (forall d, same_but_sigma8 c0 d -> forall k, eisenhu c0 k = eisenhu d k) /\ sigmasqr_default c0 8.0 eisenhu <> 0 /\
  probe_ok (counts few) /\ length (bins_of (counts few)) = 1%nat /\ (forall d, In d (bins_of (counts few)) -> 0 <= nz_zmax d) /\ noise (counts few) = Ok [shot] /\ 0 < shot /\
  (2 <= length ell2)%nat /\ (forall l, (l < length ell2)%nat -> 0 < knox_norm ell2 0.25 l).
Proof.
  destruct few_noise as (F1 & F2 & F3). split; [ reflexivity | split; [ reflexivity | split; [ unfold c0; cbn; lra | ]]]. split.
  { intros d (A & B & C & N & _) k. now apply eisenhu_depends. }
  split; [ apply planck_s_norm | ]. split. { split; [ discriminate | ]. cbn. split; [ exact I | ]. intros d [<- | []]. reflexivity. }
  split; [ reflexivity | ]. split. { intros d [<- | []]. cbn. lra. } split; [ exact F3 | split; [ exact F2 | split; [ cbn; lia | ]]]. intros l Hl. now apply norm2.
Qed.
Lemma readme_refuted la : linalg_ok la -> exists c p ells f_sky mean cov P dm dC f f1 h, let n := length ells in
  built c /\ probe_ok p /\
  (forall t, gaussian_cl_covariance_and_mean (displaced c sigma8_only t) (Array1 ells) [p] eisenhu linear f_sky false = Ok (mean t, A2 n n (cov t))) /\
  is_inverse n (cov 0) P /\ (forall i, (i < n)%nat -> is_derive (fun t => el (mean t) i) 0 (dm i)) /\
  (forall i j, (i < n)%nat -> (j < n)%nat -> is_derive (fun t => el2 (cov t) i j) 0 (dC i j)) /\
  (forall t, survey_likelihood la (displaced c sigma8_only t) ells [p] eisenhu linear f_sky false (mean 0) true "inverse" = Ok (f t)) /\
  (forall t, is_derive f t (f1 t)) /\ is_derive f1 0 h /\ - h < 0 < normal_information n P dm dC.
Proof.
  intros HLA. destruct ex_C130 as (X1 & X2 & X3 & X4 & X5 & X6 & X7 & X8 & X9 & X10 & X11 & X12).
  destruct (readme_value la c0 (counts few) eisenhu ell2 0.25 shot HLA X1 X2 X3 X4 X5 X6 X7 X8 X9 X10 X11 X12) as (mean & cov & P & dm & dC & A1 & A2 & A3 & A4 & A5).
  destruct (A5 true) as (f & f1 & h & B1 & B2 & B3 & B4). cbv zeta in B4. destruct B4 as [_ B4]. specialize (B4 eq_refl). destruct B4 as [B4 B5].
  assert (GG : _gamma_growth c0 = false) by reflexivity.
  assert (OK1 : probes_ok [counts few]) by (split; [ discriminate | ]; intros q [<- | []]; exact X6).
  assert (NT : noise_total [counts few]) by (intros q [<- | []]; exists [shot]; split; [ exact X9 | reflexivity ]).
  assert (M : forall l, (l < 2)%nat -> el (mean 0) l = S_ l).
  { intros l Hl. specialize (A1 0). rewrite displaced_0 in A1 by exact X1.
    destruct (mean_layout c0 ell2 [counts few] eisenhu linear 0.25 false (planck_s_reach _) GG OK1 NT X11) as (sig & noi & mn & cv & E1 & _ & _ & E3 & _ & _ & E6).
    rewrite A1 in E3. injection E3 as <- <-. specialize (E6 0%nat l ltac:(cbn; lia) Hl). cbn [Nat.mul Nat.add] in E6. rewrite E6.
    rewrite (rows_spectrum c0 ell2 [counts few] eisenhu linear sig 0 0 0 l (planck_s_reach _) GG OK1 E1 eq_refl Hl). apply counts_same. }
  set (x := fun l => el (mean 0) l / (el (mean 0) l + shot)).
  change (- h = normal_information (length ell2) P dm dC - Rsum (length ell2) (fun l => (4 * x l ^ 2 + 2 * x l) / _sigma8 c0 ^ 2)) in B4.
  change (- h = Rsum (length ell2) (fun l => (2 * knox_norm ell2 0.25 l * x l ^ 2 + 4 * x l ^ 2 - 2 * x l) / _sigma8 c0 ^ 2)) in B5.
  assert (X : forall l, (l < 2)%nat -> 0 < x l < 1 / 1000).
  { intros l Hl. unfold x. rewrite (M l Hl). pose proof (signal_pos 0 ltac:(lia)). pose proof (signal_pos 1 ltac:(lia)). pose proof (signal_pos l Hl).
    assert (SL : S_ l <= S_ 0 + S_ 1) by (destruct l as [ | [ | l]]; [ lra | lra | lia ]). assert (Q : 1000 * S_ l < shot) by (unfold shot; lra). split; [ apply Rdiv_lt_0_compat; lra | ].
    apply Rlt_div_l; lra. }
  assert (S2 : 0 < _sigma8 c0 ^ 2) by (unfold c0; cbn; lra).
  assert (G : - h < 0).
  { rewrite B5. change (length ell2) with 2%nat. cbn [Rsum].
    assert (T : forall l, (l < 2)%nat -> (2 * knox_norm ell2 0.25 l * x l ^ 2 + 4 * x l ^ 2 - 2 * x l) / _sigma8 c0 ^ 2 < 0).
    { intros l Hl. destruct (X l Hl) as [U1 U2]. destruct (norm2 l Hl) as [V1 V2]. set (y := x l) in *. set (v := knox_norm ell2 0.25 l) in *.
      assert (Q : 2 * v * y ^ 2 + 4 * y ^ 2 - 2 * y < 0) by (assert (v * y <= 200 * y) by nra; nra).
      unfold Rdiv. assert (0 < / _sigma8 c0 ^ 2) by now apply Rinv_0_lt_compat. nra. }
    pose proof (T 0%nat ltac:(lia)). pose proof (T 1%nat ltac:(lia)). lra. }
  assert (G' : 0 < normal_information (length ell2) P dm dC).
  { replace (normal_information (length ell2) P dm dC) with (Rsum (length ell2) (fun l => (2 * knox_norm ell2 0.25 l * x l ^ 2 + 8 * x l ^ 2) / _sigma8 c0 ^ 2)).
    - change (length ell2) with 2%nat. cbn [Rsum].
      assert (T : forall l, (l < 2)%nat -> 0 < (2 * knox_norm ell2 0.25 l * x l ^ 2 + 8 * x l ^ 2) / _sigma8 c0 ^ 2).
      { intros l Hl. destruct (X l Hl) as [U1 U2]. destruct (norm2 l Hl) as [V1 V2]. apply Rdiv_lt_0_compat; [ | exact S2 ]. pose proof (pow_lt (x l) 2 U1). nra. }
      pose proof (T 0%nat ltac:(lia)). pose proof (T 1%nat ltac:(lia)). lra.
    - apply (Rplus_eq_reg_r (- Rsum (length ell2) (fun l => (4 * x l ^ 2 + 2 * x l) / _sigma8 c0 ^ 2))).
      change (Rsum (length ell2) (fun l => (2 * knox_norm ell2 0.25 l * x l ^ 2 + 8 * x l ^ 2) / _sigma8 c0 ^ 2) - Rsum (length ell2) (fun l => (4 * x l ^ 2 + 2 * x l) / _sigma8 c0 ^ 2) = normal_information (length ell2) P dm dC - Rsum (length ell2) (fun l => (4 * x l ^ 2 + 2 * x l) / _sigma8 c0 ^ 2)).
      rewrite <- B4, B5, <- Rsum_minus. apply Rsum_ext. intros l _. unfold Rdiv. ring. }
  exists c0, (counts few), ell2, 0.25, mean, cov, P, dm, dC, f, f1, h. cbv zeta. do 9 (split; [ assumption | ]). split; assumption.
Qed.
