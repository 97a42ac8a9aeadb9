(** * The distance table and the gamma growth table converge to their integrals *)
From Coquelicot Require Import Coquelicot.
From Verif Require Import Np NpLemmas Core Interp Ode OdeSpec OdeProofs NumFinal Background BgSpec BgAlgebra BgTables BgGrowth BgFinal4 BgAccuracy OdeConvSpec OdeConv GrowthConvSpec GrowthConv.
Opaque chi_table growth_table_gamma growth_table_ODE logspace.

Section Quad.
Variable f : R -> R.
Hypothesis Hf : forall a, 0 < a -> continuous f a.
Variable la : R.
Hypothesis Hla : la < 0.
Let a0 := pow10 la.
Let g (x : R) : R := f (exp x) * exp x.
Let F (a : R) : R := RInt f a0 a.
Lemma qa0 : 0 < a0 < 1. Proof. now apply pow10_lt1. Qed.
Lemma f_int x y : 0 < x -> 0 < y -> ex_RInt f x y.
Proof.
  intros Hx Hy. apply (ex_RInt_continuous (V := R_CompleteNormedModule)). intros z Hz. apply Hf. apply Rlt_le_trans with (Rmin x y); [ now apply Rmin_pos | apply Hz ].
Qed.
Lemma F_derive a : 0 < a -> is_derive F a (f a).
Proof.
  intros Ha. pose proof qa0. unfold F. apply (is_derive_RInt (V := R_CompleteNormedModule) f _ a0 a); [ | now apply Hf ].
  exists (mkposreal a Ha). intros b Hb. unfold ball in Hb. simpl in Hb. unfold AbsRing_ball, abs, minus, plus, opp in Hb. simpl in Hb. apply Rabs_def2 in Hb.
  apply (RInt_correct (V := R_CompleteNormedModule)). apply f_int; lra.
Qed.
Lemma Y_derive x : is_derive (fun x => F (exp x)) x (g x).
Proof.
  evar_last; [ apply (is_derive_comp F exp); [ apply F_derive, exp_pos | apply is_derive_exp ] | ]. unfold g, scal; simpl; unfold mult; simpl. ring.
Qed.
Lemma g_continuous x : continuous g x.
Proof.
  unfold g. apply (continuous_mult (K := R_AbsRing) (fun x => f (exp x)) exp); [ | apply continuous_exp ].
  apply (continuous_comp exp f); [ apply continuous_exp | apply Hf, exp_pos ].
Qed.
Lemma ln_grid n h : (3 <= n)%nat -> - la / INR (n - 1) * ln 10 <= h -> grid (map ln (logspace la 0.0 n)) (ln a0) 0 h.
Proof.
  intros Hn Hh. assert (Ll : length (map ln (logspace la 0.0 n)) = n) by (rewrite map_length; apply length_logspace).
  split; [ intros E; rewrite E in Ll; simpl in Ll; lia | ]. rewrite Ll. rewrite !lnlogspace_el by lia. rewrite anode_0, anode_last, ln_1 by lia. split; [ reflexivity | ]. split; [ | lra ].
  intros i Hi. rewrite !lnlogspace_el by lia. rewrite ln_anode_step. pose proof (ln_step_pos la n Hla ltac:(lia)). replace (0.0 - la) with (- la) in * by lra. lra.
Qed.
Lemma quad_nodes e : 0 < e -> exists N, (3 <= N)%nat /\ forall n, (N <= n)%nat -> forall i, (i < n)%nat -> Rabs (Rsum i (qstep g la n) - RInt f a0 (anode la n i)) < e.
Proof.
  intros He. pose proof qa0 as A.
  destruct (odeint1_converges (fun _ => g) (fun x => F (exp x)) 0 (ln a0) 0) with (eps := e) as (h & Hh & H).
  - rewrite <- ln_1. left. now apply ln_increasing.
  - split; [ lra | ]. intros. rewrite Rminus_eq_0, Rabs_R0. lra.
  - intros t Ht. apply Y_derive.
  - intros t Ht. apply continuity_pt_filterlim. apply g_continuous.
  - exact He.
  - destruct (fine_mesh la h Hla Hh) as (N & H3 & HN). exists N. split; [ exact H3 | ]. intros n Hn i Hi.
    specialize (H _ (ln_grid n h ltac:(lia) (HN n Hn)) i). rewrite map_length, length_logspace in H. specialize (H Hi).
    rewrite quad_el in H by exact Hi. rewrite lnlogspace_el in H by exact Hi. rewrite !exp_ln in H by (try apply anode_pos; lra). unfold F in H at 1.
    replace (RInt f a0 a0) with 0 in H by (symmetry; exact (RInt_point (V := R_CompleteNormedModule) a0 f)). rewrite Rplus_0_l in H. exact H.
Qed.
Lemma quad_tail e : 0 < e -> exists N, (3 <= N)%nat /\ forall n, (N <= n)%nat -> forall i, (i < n)%nat -> Rabs ((Rsum (n - 1) (qstep g la n) - Rsum i (qstep g la n)) - RInt f (anode la n i) 1) < e.
Proof.
  intros He. destruct (quad_nodes (e / 2) ltac:(lra)) as (N & H3 & H). exists N. split; [ exact H3 | ]. intros n Hn i Hi.
  pose proof (H n Hn i Hi) as A. pose proof (H n Hn (n - 1)%nat ltac:(lia)) as B. rewrite anode_last in B by lia.
  assert (E : RInt f a0 1 = RInt f a0 (anode la n i) + RInt f (anode la n i) 1).
  { symmetry. apply (RInt_Chasles (V := R_CompleteNormedModule) f); apply f_int; try apply qa0; try apply anode_pos; lra. }
  apply Rabs_def2 in A. apply Rabs_def2 in B. apply Rabs_def1; lra.
Qed.
Lemma tail_cont t : 0 < t -> continuity_pt (fun t => RInt f t 1) t.
Proof.
  intros Ht. apply continuity_pt_filterlim. apply (ex_derive_continuous (V := R_NormedModule) (fun t => RInt f t 1)). pose proof qa0.
  exists (- f t). apply (is_derive_ext_loc (fun a => F 1 - F a)).
  - exists (mkposreal t Ht). intros b Hb. unfold ball in Hb. simpl in Hb. unfold AbsRing_ball, abs, minus, plus, opp in Hb. simpl in Hb. apply Rabs_def2 in Hb.
    unfold F. rewrite <- (RInt_Chasles (V := R_CompleteNormedModule) f a0 b 1) by (apply f_int; lra). unfold plus; simpl. ring.
  - evar_last; [ apply (is_derive_minus (fun _ => F 1) F); [ apply is_derive_const | now apply F_derive ] | ]. unfold minus, plus, opp, zero; simpl. ring.
Qed.
End Quad.

(** ** radial_comoving_distance *)
Lemma dchi_cont c a : expanding c -> 0 < a -> continuous (dchioverda c) a.
Proof.
  intros HE Ha. apply (ex_derive_continuous (V := R_NormedModule)). pose proof (HE a Ha) as P. unfold dchioverda. pose proof (Esqr_is_derive c a Ha) as D.
  assert (D' : ex_derive (Esqr c) a) by (eexists; exact D). set (X := Esqr c) in *. clearbody X. clear D. generalize const_rh. intros k.
  auto_derive. repeat split; try assumption. apply Rgt_not_eq. apply Rmult_lt_0_compat; [ repeat apply Rmult_lt_0_compat; lra | now apply sqrt_lt_R0 ].
Qed.
Theorem distance_converges c la : expanding c -> ws_chi c = None -> la < 0 -> forall eps, 0 < eps ->
  exists N, forall n, (N <= n)%nat -> forall q, (forall x, In x (atleast_1d q) -> pow10 la <= x <= 1) ->
    let d := fst (radial_comoving_distance c q la n) in
    length d = length (atleast_1d q) /\
    forall k, (k < length (atleast_1d q))%nat -> Rabs (el d k - RInt (fun x => 299792.458 / (x ^ 2 * H c x)) (el (atleast_1d q) k) 1) < eps.
Proof.
  intros HE Hw Hla eps He. pose proof (pow10_lt1 la Hla) as A.
  assert (Hc : forall a, 0 < a -> continuous (dchioverda c) a) by (intros; now apply dchi_cont).
  destruct (tables_uniform la (fun n => snd (chi_table c la n)) (fun t => RInt (dchioverda c) t 1) Hla) with (eps := eps) as (N & H3 & HN); [ | | | exact He | ].
  - intros n Hn. apply chi_table_length.
  - intros t Ht. apply (tail_cont (dchioverda c) Hc la Hla). lra.
  - intros e He'. destruct (quad_tail (dchioverda c) Hc la Hla e He') as (N & _ & HN). exists N. intros n Hn i Hi. rewrite chi_table_el by exact Hi. exact (HN n Hn i Hi).
  - exists N. intros n Hn q Hq. cbv zeta. unfold radial_comoving_distance, chi_cache. rewrite Hw. destruct (chi_table c la n) as [t1 t2] eqn:ET.
    assert (E1 : t1 = logspace la 0.0 n) by (rewrite <- (chi_table_fst c la n), ET; reflexivity). assert (E2 : t2 = snd (chi_table c la n)) by (now rewrite ET). cbn [fst].
    split; [ now rewrite map_length | ]. intros k Hk. unfold el at 1. rewrite (nth_map_lt _ _ _ 0) by exact Hk. set (x := el (atleast_1d q) k). fold (el (atleast_1d q) k). fold x.
    assert (Hx : pow10 la <= x <= 1) by (apply Hq, nth_In; exact Hk).
    assert (EI : RInt (fun x => 299792.458 / (x ^ 2 * H c x)) x 1 = RInt (dchioverda c) x 1).
    { apply (RInt_ext (V := R_CompleteNormedModule)). intros y. rewrite Rmin_left, Rmax_right by lra. intros Hy. symmetry. apply hubble_rate; [ assumption | lra ]. }
    rewrite EI. specialize (HN n Hn x Hx). rewrite <- E1, <- E2 in HN.
    assert (P : 0 <= RInt (dchioverda c) x 1). { apply RInt_ge_0; [ lra | apply f_int; auto; lra | intros y Hy; left; apply dchioverda_pos; [ assumption | lra ]]. }
    set (I := interp1 x t1 t2) in *. set (T := RInt (dchioverda c) x 1) in *. clearbody I T.
    apply Rabs_def2 in HN. apply Rabs_def1; unfold clip_lo, Rmax; destruct Rle_dec; lra.
Qed.

(** ** _growth_factor_gamma *)
Lemma gamma_cont c a : expanding c -> 0 < Omega_m c -> 0 < a -> continuous (fun x => growth_rate_gamma1 c x / x) a.
Proof.
  intros HE Hm Ha. apply (continuous_mult (K := R_AbsRing) (growth_rate_gamma1 c) (fun x => / x)); [ | apply continuous_Rinv; lra ].
  assert (PM : forall x, 0 < x -> 0 < Omega_m_a c x).
  { intros x Hx. unfold Omega_m_a. apply Rdiv_lt_0_compat; [ | now apply HE ]. apply Rmult_lt_0_compat; [ assumption | apply Rinv_0_lt_compat, pow_lt; assumption ]. }
  apply (continuous_ext_loc _ (fun x => exp (gamma_of c * ln (Omega_m_a c x)))).
  - exists (mkposreal a Ha). intros b Hb. unfold ball in Hb. simpl in Hb. unfold AbsRing_ball, abs, minus, plus, opp in Hb. simpl in Hb. apply Rabs_def2 in Hb.
    unfold growth_rate_gamma1. rewrite rpow_pos by (apply PM; lra). reflexivity.
  - apply (continuous_comp (fun x => gamma_of c * ln (Omega_m_a c x)) exp); [ | apply continuous_exp ].
    apply (continuous_mult (K := R_AbsRing) (fun _ => gamma_of c) (fun x => ln (Omega_m_a c x))); [ apply continuous_const | ].
    apply (continuous_comp (Omega_m_a c) ln); [ | apply (ex_derive_continuous (V := R_NormedModule)); eexists; apply is_derive_ln; now apply PM ].
    unfold Omega_m_a. apply (continuous_mult (K := R_AbsRing) (fun x => Omega_m c * / x ^ 3) (fun x => / Esqr c x)).
    + apply (ex_derive_continuous (V := R_NormedModule)). auto_derive. apply Rgt_not_eq. repeat apply Rmult_lt_0_compat; lra.
    + apply continuous_Rinv_comp; [ now apply Esqr_cont | apply Rgt_not_eq; now apply HE ].
Qed.
Lemma exp_contract x y : x <= 0 -> y <= 0 -> Rabs (exp x - exp y) <= Rabs (x - y).
Proof.
  assert (G : forall x y, x <= y -> y <= 0 -> Rabs (exp x - exp y) <= Rabs (x - y)).
  { intros u v Huv Hv. destruct (Rle_lt_or_eq_dec u v Huv) as [L | ->]; [ | rewrite !Rminus_eq_0; lra ].
    pose proof (exp_increasing _ _ L). rewrite (Rabs_left1 (exp u - exp v)), (Rabs_left1 (u - v)) by lra.
    assert (exp v <= 1) by (rewrite <- exp_0; destruct Hv as [Hv | ->]; [ left; now apply exp_increasing | lra ]).
    pose proof (exp_ineq1_le (u - v)) as B. replace (exp u) with (exp v * exp (u - v)) by (rewrite <- exp_plus; f_equal; ring). pose proof (exp_pos v). nra. }
  intros Hx Hy. destruct (Rle_lt_dec x y); [ now apply G | ]. rewrite (Rabs_minus_sym (exp x)), (Rabs_minus_sym x). apply G; lra.
Qed.
Theorem gamma_growth_converges c la : expanding c -> 0 < Omega_m c -> ws_growth c = None -> la < 0 -> forall eps, 0 < eps ->
  exists N, forall n, (N <= n)%nat -> forall q, (forall x, In x q -> pow10 la <= x <= 1) ->
    exists g, fst (growth_factor_gamma c (Array1 q) la n) = Ok g /\ length g = length q /\
    forall k, (k < length q)%nat -> Rabs (el g k - exp (- RInt (fun x => rpow (Omega_m_a c x) (gamma_of c) / x) (el q k) 1)) < eps.
Proof.
  intros HE Hm Hw Hla eps He. pose proof (pow10_lt1 la Hla) as A. set (f := fun x => growth_rate_gamma1 c x / x).
  change (fun x => rpow (Omega_m_a c x) (gamma_of c) / x) with f.
  assert (Hc : forall a, 0 < a -> continuous f a) by (intros; now apply gamma_cont).
  assert (P : forall x, 0 < x <= 1 -> 0 <= RInt f x 1).
  { intros x Hx. apply RInt_ge_0; [ lra | apply f_int; auto; lra | intros y Hy ]. unfold f. apply Rmult_le_pos; [ apply rpow_nonneg | left; apply Rinv_0_lt_compat; lra ]. }
  destruct (tables_uniform la (fun n => snd (growth_table_gamma c la n)) (fun t => exp (- RInt f t 1)) Hla) with (eps := eps) as (N & H3 & HN); [ | | | exact He | ].
  - intros n Hn. apply gamma_table_length.
  - intros t Ht. apply (continuity_pt_comp (fun t => - RInt f t 1) exp); [ | apply derivable_continuous_pt, derivable_pt_exp ].
    apply continuity_pt_opp. apply (tail_cont f Hc la Hla). lra.
  - intros e He'. destruct (quad_tail f Hc la Hla e He') as (N & H3 & HN). exists N. intros n Hn i Hi. rewrite gamma_table_el by exact Hi.
    assert (ES : forall j, gstep c la n j = qstep (fun x => f (exp x) * exp x) la n j).
    { intros j. apply qstep_ext. intros x. unfold f. pose proof (exp_pos x). field. lra. }
    rewrite !(Rsum_ext _ _ _ (fun j _ => ES j)). specialize (HN n Hn i Hi). pose proof (anode_le1 la n i Hla ltac:(lia) Hi) as Ai.
    apply Rle_lt_trans with (2 := HN). rewrite <- Rabs_Ropp with (x := (Rsum (n - 1) _ - _) - _).
    match goal with |- Rabs (exp ?x - exp ?y) <= Rabs ?z => replace z with (x - y) by ring end. apply exp_contract.
    + assert (Rsum i (qstep (fun x => f (exp x) * exp x) la n) <= Rsum (n - 1) (qstep (fun x => f (exp x) * exp x) la n)); [ | lra ].
      apply Rsum_le_mono; [ | lia ]. intros k. rewrite <- ES. apply gstep_nonneg; auto. lia.
    + pose proof (P (anode la n i) ltac:(lra)). lra.
  - exists N. intros n Hn q Hq. unfold growth_factor_gamma, growth_cache_gamma. rewrite Hw. destruct (growth_table_gamma c la n) as [t1 t2] eqn:ET.
    assert (E1 : t1 = logspace la 0.0 n) by (rewrite <- (gamma_table_fst c la n), ET; reflexivity). assert (E2 : t2 = snd (growth_table_gamma c la n)) by (now rewrite ET). cbn [fst interp bind].
    eexists. split; [ reflexivity | ]. split; [ now rewrite !map_length | ]. intros k Hk. rewrite map_map. unfold el at 1. rewrite (nth_map_lt _ _ _ 0) by exact Hk. fold (el q k).
    assert (Hx : pow10 la <= el q k <= 1) by (apply Hq, nth_In; exact Hk). specialize (HN n Hn _ Hx). rewrite <- E1, <- E2 in HN. specialize (P (el q k) ltac:(lra)).
    assert (T : 0 < exp (- RInt f (el q k) 1) <= 1). { split; [ apply exp_pos | ]. apply Rle_trans with (exp 0); [ | rewrite exp_0; lra ]. destruct (Req_dec (RInt f (el q k) 1) 0) as [-> | Hne]; [ rewrite Ropp_0; lra | left; apply exp_increasing; lra ]. }
    set (I := interp1 (el q k) t1 t2) in *. set (T' := exp (- RInt f (el q k) 1)) in *. clearbody I T'.
    apply Rabs_def2 in HN. apply Rabs_def1; unfold clip, Rmin, Rmax; replace 0.0 with 0 by lra; replace 1.0 with 1 by lra; repeat destruct Rle_dec; lra.
Qed.
