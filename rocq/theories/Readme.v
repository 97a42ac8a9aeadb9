(** * The Hessian of README.md *)
From Coq Require Import String.
From Coquelicot Require Import Coquelicot.
From Verif Require Import Np NpLemmas Core Sparse SparseSpec SparseProofs DetSpec DiagDet Likelihood LikelihoodSpec LikelihoodProofs ExLikelihood FisherSpec Integrate IntegrateSpec RombProofs Interp Background BgSpec Transfer Power PowerProofs Redshift Probes ProbesSpec AngularCl CovSpec CovProofs CovPsd CovFinal AclSpec AclProofs AclFinal Forecast AmpScale DependsSpec GradSpec AdLike AdSpec ReadmeSpec.
Opaque chi_table growth_table_ODE growth_table_gamma logspace.
Local Open Scope R_scope.

(** ** diagonal matrices *)
Definition diagonal (n : nat) (m : list (list R)) (d : nat -> R) : Prop :=
  forall i j, (i < n)%nat -> (j < n)%nat -> el2 m i j = if Nat.eqb i j then d i else 0.
Lemma Rsum_pick n i (f : nat -> R) : (i < n)%nat -> Rsum n (fun j => if Nat.eqb i j then f j else 0) = f i.
Proof.
  induction n as [ | n IH]; [ lia | ]. intros Hi. cbn [Rsum]. destruct (Nat.eqb_spec i n) as [-> | N].
  - rewrite Rsum_0_ext; [ ring | ]. intros j Hj. destruct (Nat.eqb_spec n j); [ lia | reflexivity ].
  - rewrite IH by lia. ring.
Qed.
Definition diag (n : nat) (d : nat -> R) : list (list R) := tab n (fun i => tab n (fun j => if Nat.eqb i j then d i else 0)).
Lemma diag_diagonal n d : diagonal n (diag n d) d.
Proof. intros i j Hi Hj. unfold diag. now rewrite el2_tab. Qed.
Lemma diagonal_inverse n m d : diagonal n m d -> (forall i, (i < n)%nat -> d i <> 0) -> is_inverse n m (diag n (fun i => / d i)).
Proof.
  intros E N. pose proof (diag_diagonal n (fun i => / d i)) as E'. split; [ apply wf2_tab2 | split ]; intros i j Hi Hj.
  - rewrite (Rsum_ext _ _ (fun l => if Nat.eqb i l then (if Nat.eqb i j then 1 else 0) else 0)).
    + now rewrite (Rsum_pick n i (fun _ => if Nat.eqb i j then 1 else 0)).
    + intros l Hl. rewrite E, E' by assumption. destruct (Nat.eqb_spec i l) as [<- | ]; [ | ring ]. destruct (Nat.eqb i j); [ field; now apply N | ring ].
  - rewrite (Rsum_ext _ _ (fun l => if Nat.eqb i l then (if Nat.eqb i j then 1 else 0) else 0)).
    + now rewrite (Rsum_pick n i (fun _ => if Nat.eqb i j then 1 else 0)).
    + intros l Hl. rewrite E, E' by assumption. destruct (Nat.eqb_spec i l) as [<- | ]; [ | ring ]. destruct (Nat.eqb i j); [ field; now apply N | ring ].
Qed.
Lemma bilin_diagonal n m d u v : diagonal n m d -> bilin n m u v = Rsum n (fun i => u i * d i * v i).
Proof.
  intros E. apply Rsum_ext. intros i Hi. rewrite (Rsum_ext _ _ (fun j => if Nat.eqb i j then u i * d i * v j else 0)).
  - apply (Rsum_pick n i (fun j => u i * d i * v j) Hi).
  - intros j Hj. rewrite E by assumption. destruct (Nat.eqb i j); ring.
Qed.
Lemma quad_diagonal n m d u : diagonal n m d -> quad n m u = Rsum n (fun i => u i * d i * u i).
Proof. intros E. rewrite <- (bilin_diagonal n m d u u E). reflexivity. Qed.
Lemma diagonal_pos n m d : diagonal n m d -> (forall i, (i < n)%nat -> 0 < d i) -> pos_def n m.
Proof.
  intros E P x [i [Hi Hx]]. rewrite (quad_diagonal n m d x E).
  assert (G : forall j, (j < n)%nat -> 0 <= x j * d j * x j) by (intros j Hj; specialize (P j Hj); pose proof (Rle_0_sqr (x j)); unfold Rsqr in *; nra).
  apply (Rlt_le_trans _ (x i * d i * x i)); [ specialize (P i Hi); assert (0 < x i * x i) by (now apply Rsqr_pos_lt); nra | ].
  clear Hx P E. induction n as [ | n IH]; [ lia | ]. cbn [Rsum]. destruct (Nat.eq_dec i n) as [-> | N].
  - pose proof (Rsum_nonneg n (fun j => x j * d j * x j) ltac:(intros; apply G; lia)). lra.
  - pose proof (G n ltac:(lia)). specialize (IH ltac:(lia) ltac:(intros; apply G; lia)). lra.
Qed.
Lemma diagonal_logdet n m d : diagonal n m d -> (forall i, (i < n)%nat -> 0 < d i) -> ln (det_of n m) = Rsum n (fun i => ln (d i)).
Proof.
  intros E P. rewrite (@det_diagonal n m d E). clear E m.
  enough (G : 0 < vprod (tab n d) /\ ln (vprod (tab n d)) = Rsum n (fun i => ln (d i))) by exact (proj2 G).
  revert d P. induction n as [ | n IH]; intros d P; [ split; [ cbn; lra | cbn; exact ln_1 ] | ]. destruct (IH (fun i => d (S i))) as [I1 I2]; [ intros; apply P; lia | ].
  rewrite tab_S. change (vprod (d 0%nat :: tab n (fun i => d (S i)))) with (d 0%nat * vprod (tab n (fun i => d (S i)))). pose proof (P 0%nat ltac:(lia)). split; [ nra | ].
  rewrite ln_mult by assumption. rewrite Rsum_S_l, I2. reflexivity.
Qed.

(** ** one multipole *)
(** signal K s^2, noise N, nu modes, data the signal at s0 *)
Definition u_ (K N s : R) : R := K * s ^ 2 + N.
Definition var_ (K N nu s : R) : R := 2 * u_ K N s ^ 2 / nu.
Definition term (b : bool) (K N nu s0 s : R) : R := (K * s ^ 2 - K * s0 ^ 2) ^ 2 / var_ K N nu s - (if b then ln (var_ K N nu s) else 0).
Definition term1 (b : bool) (K N nu s0 s : R) : R :=
  nu / 2 * (4 * K * s * (K * s ^ 2 - K * s0 ^ 2) / u_ K N s ^ 2 - 4 * K * s * (K * s ^ 2 - K * s0 ^ 2) ^ 2 / u_ K N s ^ 3) - (if b then 4 * K * s / u_ K N s else 0).
Lemma u_pos K N s : 0 <= K -> 0 < N -> 0 < u_ K N s.
Proof. intros. unfold u_. pose proof (pow2_ge_0 s). nra. Qed.
Lemma term_derive b K N nu s0 s : 0 <= K -> 0 < N -> 0 < nu -> is_derive (term b K N nu s0) s (term1 b K N nu s0 s).
Proof.
  intros HK HN Hnu. pose proof (u_pos K N s HK HN) as U. unfold u_ in U. unfold term, term1, var_, u_.
  assert (V : 0 < 2 * (K * s ^ 2 + N) ^ 2 / nu) by (apply Rdiv_lt_0_compat; [ | lra ]; pose proof (pow_lt _ 2 U); lra).
  destruct b; auto_derive.
  - repeat split; try lra; apply Rgt_not_eq; assumption.
  - field; lra.
  - repeat split; try lra; apply Rgt_not_eq; assumption.
  - field; lra.
Qed.
Lemma term_derive2 b K N nu s0 : 0 <= K -> 0 < N -> 0 < nu ->
  is_derive (term1 b K N nu s0) s0 (4 * nu * K ^ 2 * s0 ^ 2 / u_ K N s0 ^ 2 - (if b then 4 * K / u_ K N s0 - 8 * K ^ 2 * s0 ^ 2 / u_ K N s0 ^ 2 else 0)).
Proof.
  intros HK HN Hnu. pose proof (u_pos K N s0 HK HN) as U. unfold u_ in U. unfold term1, u_.
  destruct b; auto_derive.
  - repeat split; try lra; repeat apply Rmult_integral_contrapositive_currified; lra.
  - field; lra.
  - repeat split; try lra; repeat apply Rmult_integral_contrapositive_currified; lra.
  - field; lra.
Qed.

Section Amplitude.
Variables (la : linalg) (c : cosmology) (p : probe) (T : transfer) (ells : list R) (f_sky N : R).
Hypothesis HLA : linalg_ok la.
Hypothesis HB : built c.
Hypothesis NG : _gamma c = None.
Hypothesis H8 : _sigma8 c <> 0.
Hypothesis HT : forall d, same_but_sigma8 c d -> forall k, T c k = T d k.
Hypothesis HV : sigmasqr_default c 8.0 T <> 0.
Hypothesis Hok : probe_ok p.
Hypothesis H1 : length (bins_of p) = 1%nat.
Hypothesis HZ : forall d, In d (bins_of p) -> 0 <= nz_zmax d.
Hypothesis HN : noise p = Ok [N].
Hypothesis HN0 : 0 < N.
Hypothesis HL : (2 <= length ells)%nat.
Hypothesis HK : forall l, (l < length ells)%nat -> 0 < knox_norm ells f_sky l.
Let n := length ells.
Let c_ t := displaced c sigma8_only t.
Let s t := _sigma8 c + t.

Lemma ordering1 : get_cl_ordering [p] = [(0, 0)%nat].
Proof.
  unfold get_cl_ordering, total_tracers. cbn [map list_sum fold_right]. assert (E : n_tracers p = 1%nat) by (destruct p as [q | q]; cbn in *; congruence). rewrite E. reflexivity.
Qed.
Lemma same_s t : same_but_sigma8 c (c_ t).
Proof. unfold c_, displaced, sigma8_only. cbn. rewrite !Rmult_0_r, !Rplus_0_r. repeat split; auto. now rewrite NG, HB, NG. Qed.
Lemma reach_c : reachable c.
Proof. exists c, []. split; [ rewrite HB; split; reflexivity | reflexivity ]. Qed.
Lemma reach_s t : reachable (c_ t).
Proof. exists (c_ t), []. repeat split; reflexivity. Qed.
Lemma c_0 : c_ 0 = c.
Proof. unfold c_, displaced. cbn. rewrite !Rmult_0_l, !Rplus_0_r. symmetry. exact HB. Qed.
Lemma gg t : _gamma_growth (c_ t) = false.
Proof. unfold c_, displaced. cbn. now rewrite NG. Qed.
Lemma ok1 : probes_ok [p].
Proof. split; [ discriminate | ]. intros q [<- | []]. exact Hok. Qed.

Lemma HVs t : sigmasqr_default c 8.0 T = sigmasqr_default (c_ t) 8.0 T.
Proof.
  destruct (same_s t) as (_ & _ & _ & E & _). pose proof (HT _ (same_s t)) as E'. unfold sigmasqr_default, sigmasqr. f_equal. replace (int_sigma (c_ t) 8.0 T) with (int_sigma c 8.0 T); [ reflexivity | ].
  apply FunctionalExtensionality.functional_extensionality. intros x. unfold int_sigma, primordial_matter_power. now rewrite E', E.
Qed.
Lemma total1 : noise_total [p].
Proof. intros q [<- | []]. exists [N]. split; [ exact HN | now rewrite H1 ]. Qed.
Lemma noise1 noi l : noise_cl n [p] = Ok noi -> (l < n)%nat -> el2 noi 0 l = N.
Proof.
  intros E Hl. destruct (noise_cl_spec [p] n total1) as (rows & E1 & _ & E2). rewrite E in E1. injection E1 as <-. rewrite ordering1 in E2.
  destruct (E2 0%nat 0%nat 0%nat eq_refl) as (q & k & v & T1 & T2 & T3). cbn in T1. rewrite H1 in T1. cbn in T1. injection T1 as <- <-. rewrite HN in T2. injection T2 as <-.
  unfold el2. rewrite (nth_of_nth_error _ _ _ [] T3). cbn [Nat.eqb]. clear - Hl. revert l Hl. induction n as [ | m IH]; intros l Hl; [ lia | ]. destruct l; [ reflexivity | ]. cbn [repeat nth]. apply IH. lia.
Qed.
Lemma run t : exists sig mean m, angular_cl (c_ t) (Array1 ells) [p] T linear = Ok sig /\
  gaussian_cl_covariance_and_mean (c_ t) (Array1 ells) [p] T linear f_sky false = Ok (mean, A2 n n m) /\
  wf1 n mean /\ (forall l, (l < n)%nat -> el mean l = el2 sig 0 l /\ 0 <= el2 sig 0 l) /\ wf2 n n m /\ diagonal n m (fun l => 2 * (el2 sig 0 l + N) ^ 2 / knox_norm ells f_sky l).
Proof.
  destruct (mean_layout (c_ t) ells [p] T linear f_sky false (reach_s t) (gg t) ok1 total1 HL) as (sig & noi & mean & cov & E1 & E2 & CI & E3 & E4 & E5 & E6).
  destruct (spectra_exist [p] (madd sig noi)) as [S HS]. destruct (spectra_exist [p] sig) as [S' HS'].
  destruct (covariance_knox ells [p] sig noi f_sky S CI HS ltac:(intros l Hl; pose proof (HK l Hl); lra)) as (s3 & m2 & _ & _ & K1 & K2 & K3).
  rewrite E4 in K1. injection K1 as ->. rewrite ordering1 in *. cbn [length] in *. rewrite Nat.mul_1_r in *. rewrite Nat.mul_1_l in E5.
  exists sig, mean, m2. split; [ exact E1 | ]. split; [ exact E3 | ]. split; [ exact E5 | ]. split; [ | split; [ exact K2 | ]].
  - intros l Hl. split; [ exact (E6 0%nat l ltac:(lia) Hl) | ].
    destruct (angular_psd (c_ t) ells [p] T linear sig S' (reach_s t) (gg t) ok1) with (l := l) as [_ Q].
    + intros q d [<- | []]. apply HZ.
    + intros l' a Hl' _. apply linear_nonneg. rewrite <- (HVs t). exact HV.
    + exact E1.
    + rewrite ordering1. exact HS'.
    + exact Hl.
    + destruct (Q 0%nat 0%nat) as [Q1 _]; try (unfold n_bins; cbn; rewrite app_nil_r, H1; lia). destruct (HS' 0%nat 0%nat 0%nat l eq_refl) as [<- _]. exact Q1.
  - intros i j Hi Hj. destruct (K3 0%nat 0%nat 0%nat 0%nat 0%nat 0%nat i j eq_refl eq_refl Hi Hj) as [_ E]. cbn [Nat.mul Nat.add] in E. rewrite E. destruct (Nat.eqb i j); [ | reflexivity ].
    unfold knox. destruct (HS 0%nat 0%nat 0%nat i eq_refl) as [-> _]. destruct CI as (_ & W1 & W2). rewrite ordering1 in W1, W2.
    rewrite (el2_madd _ _ _ _ 0 i W1 W2) by (cbn; lia). rewrite (noise1 noi i E2 Hi). unfold Rdiv. ring.
Qed.
Definition mean_of (t : R) : list R := match gaussian_cl_covariance_and_mean (c_ t) (Array1 ells) [p] T linear f_sky false with Ok (m, _) => m | _ => [] end.
Definition cov_of (t : R) : list (list R) := match gaussian_cl_covariance_and_mean (c_ t) (Array1 ells) [p] T linear f_sky false with Ok (_, A2 _ _ m) => m | _ => [] end.
Lemma curve : exists K, (forall l, (l < n)%nat -> 0 <= K l) /\ forall t,
  gaussian_cl_covariance_and_mean (c_ t) (Array1 ells) [p] T linear f_sky false = Ok (mean_of t, A2 n n (cov_of t)) /\
  wf1 n (mean_of t) /\ (forall l, (l < n)%nat -> el (mean_of t) l = K l * s t ^ 2) /\ wf2 n n (cov_of t) /\ diagonal n (cov_of t) (fun l => var_ (K l) N (knox_norm ells f_sky l) (s t)).
Proof.
  destruct (run 0) as (sig0 & mean0 & m0 & A1 & _ & _ & A2 & _). rewrite c_0 in A1.
  assert (S0 : 0 < _sigma8 c ^ 2) by (replace (_sigma8 c ^ 2) with (Rsqr (_sigma8 c)) by (unfold Rsqr; ring); now apply Rsqr_pos_lt).
  exists (fun l => el2 sig0 0 l / _sigma8 c ^ 2). split.
  { intros l Hl. destruct (A2 l Hl) as [_ Q]. apply Rmult_le_pos; [ exact Q | left; now apply Rinv_0_lt_compat ]. }
  intros t. destruct (run t) as (sig & mean & m & B1 & B2 & B3 & B4 & B5 & B6). unfold mean_of, cov_of. rewrite B2.
  assert (E : forall l, (l < n)%nat -> el2 sig 0 l = el2 sig0 0 l / _sigma8 c ^ 2 * s t ^ 2).
  { intros l Hl. pose proof (sigma8_scaling c (c_ t) ells [p] T sig0 sig reach_c (reach_s t) (same_s t) (HT _ (same_s t)) ltac:(rewrite <- c_0; apply gg) ok1 A1 B1 0 l) as Q.
    rewrite ordering1 in Q. specialize (Q ltac:(cbn; lia) Hl). replace (_sigma8 (c_ t)) with (s t) in Q by (unfold s, c_, displaced; cbn; ring). apply (Rmult_eq_reg_r (_sigma8 c ^ 2)); [ | lra ]. rewrite Q. field. exact H8. }
  split; [ reflexivity | split; [ exact B3 | split; [ | split; [ exact B5 | ]]]].
  - intros l Hl. rewrite (proj1 (B4 l Hl)). now apply E.
  - intros i j Hi Hj. rewrite (B6 i j Hi Hj). destruct (Nat.eqb i j); [ | reflexivity ]. unfold var_, u_. now rewrite (E i Hi).
Qed.

Lemma readme_value : exists mean cov P dm dC,
  (forall t, gaussian_cl_covariance_and_mean (displaced c sigma8_only t) (Array1 ells) [p] T linear f_sky false = Ok (mean t, A2 n n (cov t))) /\
  is_inverse n (cov 0) P /\ (forall i, (i < n)%nat -> is_derive (fun t => el (mean t) i) 0 (dm i)) /\
  (forall i j, (i < n)%nat -> (j < n)%nat -> is_derive (fun t => el2 (cov t) i j) 0 (dC i j)) /\
  forall include_logdet, exists f f1 h,
    (forall t, survey_likelihood la (displaced c sigma8_only t) ells [p] T linear f_sky false (mean 0) include_logdet "inverse" = Ok (f t)) /\
    (forall t, is_derive f t (f1 t)) /\ is_derive f1 0 h /\
    let x l := el (mean 0) l / (el (mean 0) l + N) in
    (include_logdet = false -> - h = bilin n P dm dm) /\
    (include_logdet = true ->
       - h = normal_information n P dm dC - Rsum n (fun l => (4 * x l ^ 2 + 2 * x l) / _sigma8 c ^ 2) /\
       - h = Rsum n (fun l => (2 * knox_norm ells f_sky l * x l ^ 2 + 4 * x l ^ 2 - 2 * x l) / _sigma8 c ^ 2)).
Proof.
  destruct curve as (K & HK0 & HC). set (nu := knox_norm ells f_sky) in *.
  assert (V : forall l t, (l < n)%nat -> 0 < var_ (K l) N (nu l) t).
  { intros l t Hl. unfold var_. pose proof (u_pos (K l) N t (HK0 l Hl) HN0) as U. apply Rdiv_lt_0_compat; [ | now apply HK ]. pose proof (pow_lt _ 2 U). lra. }
  set (dv := fun l => 8 * K l * _sigma8 c * u_ (K l) N (_sigma8 c) / nu l).
  exists mean_of, cov_of, (diag n (fun l => / var_ (K l) N (nu l) (s 0))), (fun l => 2 * K l * _sigma8 c), (fun i j => if Nat.eqb i j then dv i else 0).
  split; [ intros t; exact (proj1 (HC t)) | ].
  split. { apply diagonal_inverse; [ apply (HC 0) | ]. intros i Hi. apply Rgt_not_eq, V, Hi. }
  split. { intros i Hi. apply (is_derive_ext (fun t => K i * s t ^ 2)); [ intros t; symmetry; now apply (HC t) | ]. unfold s. auto_derive; [ exact I | ring ]. }
  split. { intros i j Hi Hj. apply (is_derive_ext (fun t => if Nat.eqb i j then var_ (K i) N (nu i) (s t) else 0)); [ intros t; symmetry; now apply (HC t) | ].
    destruct (Nat.eqb i j); [ | apply (is_derive_const (V := R_NormedModule)) ]. unfold dv, var_, u_, s. auto_derive; [ exact I | ]. specialize (HK i Hi). fold nu in HK. field. lra. }
  intros b.
  set (g := fun t => - (1 / 2) * Rsum n (fun l => term b (K l) N (nu l) (_sigma8 c) (s t))).
  set (g1 := fun t => - (1 / 2) * Rsum n (fun l => term1 b (K l) N (nu l) (_sigma8 c) (s t))).
  set (h := - (1 / 2) * Rsum n (fun l => 4 * nu l * K l ^ 2 * _sigma8 c ^ 2 / u_ (K l) N (_sigma8 c) ^ 2 - (if b then 4 * K l / u_ (K l) N (_sigma8 c) - 8 * K l ^ 2 * _sigma8 c ^ 2 / u_ (K l) N (_sigma8 c) ^ 2 else 0))).
  exists g, g1, h. split; [ | split; [ | split ]].
  - intros t. destruct (HC t) as (E1 & E2 & E3 & E4 & E5). destruct (HC 0) as (_ & F2 & F3 & _). unfold survey_likelihood. fold (c_ t). rewrite E1. cbn [bind fst snd].
    pose proof (diagonal_inverse n (cov_of t) _ E5 ltac:(intros i Hi; apply Rgt_not_eq, V, Hi)) as HI.
    assert (CH : chi2 n (diag n (fun i => / var_ (K i) N (nu i) (s t))) (mean_of 0) (mean_of t) = Rsum n (fun l => (K l * s t ^ 2 - K l * _sigma8 c ^ 2) ^ 2 / var_ (K l) N (nu l) (s t))).
    { unfold chi2. rewrite (quad_diagonal n _ _ _ (diag_diagonal n _)). apply Rsum_ext. intros l Hl. rewrite (E3 l Hl), (F3 l Hl). unfold s at 2 5. rewrite Rplus_0_r. unfold Rdiv. ring. }
    unfold g. destruct b.
    + destruct (logdet_value la HLA n (cov_of t) _ (mean_of 0) (mean_of t) E4 (diagonal_pos n _ _ E5 (fun i Hi => V i (s t) Hi)) HI F2 E2) as [_ ->].
      rewrite CH, (diagonal_logdet n _ _ E5 (fun i Hi => V i (s t) Hi)). do 2 f_equal. unfold term. rewrite Rsum_minus. reflexivity.
    + rewrite (no_logdet_value la HLA n (cov_of t) _ (mean_of 0) (mean_of t) E4 HI F2 E2), CH. do 2 f_equal. apply Rsum_ext. intros l Hl. unfold term. ring.
  - intros t. unfold g, g1. apply (is_derive_scal (fun t => Rsum n (fun l => term b (K l) N (nu l) (_sigma8 c) (s t)))).
    apply (is_derive_Rsum n (fun l t => term b (K l) N (nu l) (_sigma8 c) (s t))). intros l Hl.
    replace (term1 b (K l) N (nu l) (_sigma8 c) (s t)) with (scal 1 (term1 b (K l) N (nu l) (_sigma8 c) (s t))) by (unfold scal; cbn; unfold mult; cbn; ring).
    apply (is_derive_comp (term b (K l) N (nu l) (_sigma8 c)) s); [ apply term_derive; [ now apply HK0 | exact HN0 | now apply HK ] | unfold s; auto_derive; [ exact I | ring ] ].
  - unfold g1, h. apply (is_derive_scal (fun t => Rsum n (fun l => term1 b (K l) N (nu l) (_sigma8 c) (s t)))).
    apply (is_derive_Rsum n (fun l t => term1 b (K l) N (nu l) (_sigma8 c) (s t))). intros l Hl.
    match goal with |- is_derive _ _ ?q => replace q with (scal 1 q) by (unfold scal; cbn; unfold mult; cbn; ring) end.
    apply (is_derive_comp (term1 b (K l) N (nu l) (_sigma8 c)) s); [ | unfold s; auto_derive; [ exact I | ring ] ].
    unfold s at 1. rewrite Rplus_0_r. apply term_derive2; [ now apply HK0 | exact HN0 | now apply HK ].
  - destruct (HC 0) as (_ & _ & F3 & _). intros x.
    assert (X : forall l, (l < n)%nat -> x l = K l * _sigma8 c ^ 2 / u_ (K l) N (_sigma8 c)).
    { intros l Hl. unfold x. rewrite (F3 l Hl). unfold s. rewrite Rplus_0_r. reflexivity. }
    assert (S0 : s 0 = _sigma8 c) by (unfold s; ring).
    assert (UU : forall l, (l < n)%nat -> 0 < u_ (K l) N (_sigma8 c)) by (intros l Hl; apply u_pos; [ now apply HK0 | exact HN0 ]).
    assert (BI : bilin n (diag n (fun l => / var_ (K l) N (nu l) (s 0))) (fun l => 2 * K l * _sigma8 c) (fun l => 2 * K l * _sigma8 c) = Rsum n (fun l => 2 * nu l * K l ^ 2 * _sigma8 c ^ 2 / u_ (K l) N (_sigma8 c) ^ 2)).
    { rewrite (bilin_diagonal n _ _ _ _ (diag_diagonal n _)), S0. apply Rsum_ext. intros l Hl. unfold var_. pose proof (UU l Hl). specialize (HK l Hl). fold nu in HK. field. lra. }
    split; intros ->.
    + rewrite BI. unfold h. rewrite <- Ropp_mult_distr_l, Ropp_involutive, <- Rsum_scal. apply Rsum_ext. intros l Hl. pose proof (UU l Hl). field. lra.
    + assert (HH : - h = Rsum n (fun l => (2 * nu l * x l ^ 2 + 4 * x l ^ 2 - 2 * x l) / _sigma8 c ^ 2)).
      { unfold h. rewrite <- Ropp_mult_distr_l, Ropp_involutive, <- Rsum_scal. apply Rsum_ext. intros l Hl. rewrite (X l Hl). pose proof (UU l Hl). field. repeat split; first [ exact H8 | lra ]. }
      split; [ | exact HH ]. rewrite HH. unfold normal_information. rewrite BI.
      assert (TR : Rsum n (fun i => Rsum n (fun j => Rsum n (fun k => Rsum n (fun l => el2 (diag n (fun l0 => / var_ (K l0) N (nu l0) (s 0))) i j * (if Nat.eqb j k then dv j else 0) * el2 (diag n (fun l0 => / var_ (K l0) N (nu l0) (s 0))) k l * (if Nat.eqb l i then dv l else 0))))) = Rsum n (fun i => (dv i / var_ (K i) N (nu i) (s 0)) ^ 2)).
      { apply Rsum_ext. intros i Hi.
        rewrite (Rsum_ext _ _ (fun j => if Nat.eqb i j then (dv j / var_ (K j) N (nu j) (s 0)) ^ 2 else 0)); [ apply (Rsum_pick n i (fun j => (dv j / var_ (K j) N (nu j) (s 0)) ^ 2) Hi) | ]. intros j Hj.
        rewrite (Rsum_ext _ _ (fun k => if Nat.eqb j k then (if Nat.eqb i j then (dv k / var_ (K k) N (nu k) (s 0)) ^ 2 else 0) else 0)); [ rewrite (Rsum_pick n j (fun k => if Nat.eqb i j then (dv k / var_ (K k) N (nu k) (s 0)) ^ 2 else 0) Hj); reflexivity | ]. intros k Hk.
        rewrite (Rsum_ext _ _ (fun l => if Nat.eqb i l then (if Nat.eqb j k then (if Nat.eqb i j then (dv k / var_ (K k) N (nu k) (s 0)) ^ 2 else 0) else 0) else 0)); [ rewrite (Rsum_pick n i (fun l => if Nat.eqb j k then (if Nat.eqb i j then (dv k / var_ (K k) N (nu k) (s 0)) ^ 2 else 0) else 0) Hi); reflexivity | ]. intros l Hl.
        rewrite !(diag_diagonal n) by assumption. rewrite (Nat.eqb_sym l i).
        destruct (Nat.eqb_spec i j) as [<- | ]; [ | destruct (Nat.eqb i l), (Nat.eqb j k); ring ]. destruct (Nat.eqb_spec i k) as [<- | ]; [ | destruct (Nat.eqb i l); ring ].
        destruct (Nat.eqb_spec i l) as [<- | ]; [ | ring ]. unfold Rdiv. ring. }
      rewrite TR, S0, <- Rsum_scal, <- Rsum_plus, <- Rsum_minus. apply Rsum_ext. intros l Hl. rewrite (X l Hl). unfold dv, var_. pose proof (UU l Hl). specialize (HK l Hl). fold nu in HK. field. repeat split; first [ exact H8 | lra ].
Qed.
End Amplitude.
Lemma c_readme la c p T ells f_sky N : linalg_ok la -> built c -> _gamma c = None -> _sigma8 c <> 0 -> (forall d, same_but_sigma8 c d -> forall k, T c k = T d k) -> sigmasqr_default c 8.0 T <> 0 ->
  probe_ok p -> length (bins_of p) = 1%nat -> (forall d, In d (bins_of p) -> 0 <= nz_zmax d) -> noise p = Ok [N] -> 0 < N ->
  (2 <= length ells)%nat -> (forall l, (l < length ells)%nat -> 0 < knox_norm ells f_sky l) -> let n := length ells in
  exists mean cov P dm dC,
    (forall t, gaussian_cl_covariance_and_mean (displaced c sigma8_only t) (Array1 ells) [p] T linear f_sky false = Ok (mean t, A2 n n (cov t))) /\
    is_inverse n (cov 0) P /\ (forall i, (i < n)%nat -> is_derive (fun t => el (mean t) i) 0 (dm i)) /\
    (forall i j, (i < n)%nat -> (j < n)%nat -> is_derive (fun t => el2 (cov t) i j) 0 (dC i j)) /\
    forall include_logdet, exists f f1 h,
      (forall t, survey_likelihood la (displaced c sigma8_only t) ells [p] T linear f_sky false (mean 0) include_logdet "inverse" = Ok (f t)) /\
      (forall t, is_derive f t (f1 t)) /\ is_derive f1 0 h /\
      let x l := el (mean 0) l / (el (mean 0) l + N) in
      (include_logdet = false -> - h = bilin n P dm dm) /\
      (include_logdet = true ->
         - h = normal_information n P dm dC - Rsum n (fun l => (4 * x l ^ 2 + 2 * x l) / _sigma8 c ^ 2) /\
         - h = Rsum n (fun l => (2 * knox_norm ells f_sky l * x l ^ 2 + 4 * x l ^ 2 - 2 * x l) / _sigma8 c ^ 2)).
Proof. intros. now apply readme_value. Qed.
