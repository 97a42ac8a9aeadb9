(** * Ordering of expansion histories and distances *)
From Coquelicot Require Import Coquelicot.
From Verif Require Import Np NpLemmas Core Ode OdeSpec OdeProofs Interp InterpProofs IntegrateSpec Background BgSpec BgAlgebra BgTables BgGrowth BgProofs BgFinal BgFinal2 BgFinal4.
Opaque chi_table growth_table_ODE growth_table_gamma.

Lemma f_de_order c a b k : 0 < a <= b -> (forall x, a <= x <= b -> k <= 1 + w c x) -> f_de c b <= f_de c a - 3 * k * (ln b - ln a).
Proof.
  intros Hab Hw. destruct (Req_dec a b) as [<- | Hne]; [ lra | ].
  destruct (MVT_cor2 (fun x => f_de c x + 3 * k * ln x) (fun x => -3 * (1 + w c x) / x + 3 * k * / x) a b ltac:(lra)) as (t & E & Ht).
  { intros x Hx. apply is_derive_Reals. apply (is_derive_plus (V := R_NormedModule) (f_de c)); [ apply f_de_derivative; lra | ].
    apply (is_derive_scal ln). apply is_derive_ln. lra. }
  specialize (Hw t ltac:(lra)).
  assert (P : 0 < / t) by (apply Rinv_0_lt_compat; lra).
  assert (-3 * (1 + w c t) / t + 3 * k * / t <= 0).
  { replace (-3 * (1 + w c t) / t + 3 * k * / t) with (- (3 * (1 + w c t - k) * / t)) by (unfold Rdiv; ring).
    assert (0 <= 3 * (1 + w c t - k) * / t) by (apply Rmult_le_pos; lra). lra. }
  assert ((-3 * (1 + w c t) / t + 3 * k * / t) * (b - a) <= 0) by nra. lra.
Qed.
Lemma inv_pow_lt a b n : 0 < a < b -> (1 <= n)%nat -> / b ^ n < / a ^ n.
Proof.
  intros Hab Hn. apply Rinv_lt_contravar; [ apply Rmult_lt_0_compat; apply pow_lt; lra | ].
  destruct n as [ | n]; [ lia | ]. simpl. assert (a ^ n <= b ^ n) by (apply pow_incr; lra). assert (0 < a ^ n) by (apply pow_lt; lra). nra.
Qed.
Lemma Esqr_decreasing c a b : physical c -> 0 < a < b -> (forall x, a <= x <= b -> -1 <= w c x) -> Esqr c b < Esqr c a.
Proof.
  intros (Pm & Pk & Pde) Hab Hw. unfold Esqr.
  assert (F : f_de c b <= f_de c a).
  { pose proof (f_de_order c a b 0 ltac:(lra)) as Q. assert (f_de c b <= f_de c a - 3 * 0 * (ln b - ln a)) by (apply Q; intros x Hx; specialize (Hw x Hx); lra). lra. }
  assert (X : exp (f_de c b) <= exp (f_de c a)) by (destruct F as [F | ->]; [ left; now apply exp_increasing | right; reflexivity ]).
  pose proof (inv_pow_lt a b 3 Hab ltac:(lia)). pose proof (inv_pow_lt a b 2 Hab ltac:(lia)). nra.
Qed.
Lemma hubble_decreasing c a b : physical c -> 0 < a < b -> b <= 1 -> (forall x, 0 < x <= 1 -> -1 <= w c x) ->
  H c b < H c a /\ (a < 1 -> 100 < H c a).
Proof.
  intros HP Hab Hb Hw.
  assert (L : forall s t, 0 < s < t -> t <= 1 -> H c t < H c s).
  { intros s t Hst Ht. unfold H, const_H0. apply Rmult_lt_compat_l; [ lra | ]. apply sqrt_lt_1.
    - left; apply Esqr_pos; [ assumption | lra ].
    - left; apply Esqr_pos; [ assumption | lra ].
    - apply Esqr_decreasing; auto. intros x Hx. apply Hw; lra. }
  split; [ now apply L | ]. intros Ha. rewrite <- (H_1 c). apply L; lra.
Qed.

(** matter fraction *)
Lemma Omega_m_a_form c a : expanding c -> 0 < a -> Omega_m_a c a = Omega_m c / (Omega_m c + Omega_k c * a + Omega_de c * exp (f_de c a + 3 * ln a)).
Proof.
  intros HE Ha. unfold Omega_m_a. pose proof (HE a Ha) as P.
  assert (E : Omega_m c + Omega_k c * a + Omega_de c * exp (f_de c a + 3 * ln a) = a ^ 3 * Esqr c a).
  { unfold Esqr. rewrite exp_plus. replace (3 * ln a) with (ln a + (ln a + ln a)) by ring. rewrite !exp_plus, exp_ln by assumption. field. lra. }
  rewrite E. assert (0 < a ^ 3) by (apply pow_lt; lra). unfold Rdiv. rewrite Rinv_mult. ring.
Qed.
Lemma Omega_m_a_order c a b : physical c -> 0 < a <= b -> b <= 1 -> (forall x, 0 < x <= 1 -> w c x <= 0) -> Omega_m_a c b <= Omega_m_a c a.
Proof.
  intros HP Hab Hb Hw. pose proof (physical_expanding c HP) as HE. destruct HP as (Pm & Pk & Pde).
  rewrite !Omega_m_a_form by (auto; lra). unfold Rdiv. apply Rmult_le_compat_l; [ lra | ].
  assert (F : f_de c a + 3 * ln a <= f_de c b + 3 * ln b).
  { (* derivative of f_de + 3 ln is -3 w / a *)
    destruct (Req_dec a b) as [<- | Hne]; [ lra | ].
    destruct (MVT_cor2 (fun x => f_de c x + 3 * ln x) (fun x => -3 * (1 + w c x) / x + 3 * / x) a b ltac:(lra)) as (t & E & Ht).
    { intros x Hx. apply is_derive_Reals. apply (is_derive_plus (V := R_NormedModule) (f_de c)); [ apply f_de_derivative; lra | ].
      apply (is_derive_scal ln). apply is_derive_ln. lra. }
    specialize (Hw t ltac:(lra)). assert (P : 0 < / t) by (apply Rinv_0_lt_compat; lra).
    assert (0 <= -3 * (1 + w c t) / t + 3 * / t).
    { replace (-3 * (1 + w c t) / t + 3 * / t) with (3 * - w c t * / t) by (unfold Rdiv; ring). apply Rmult_le_pos; lra. }
    assert (0 <= (-3 * (1 + w c t) / t + 3 * / t) * (b - a)) by (apply Rmult_le_pos; lra). lra. }
  assert (X : exp (f_de c a + 3 * ln a) <= exp (f_de c b + 3 * ln b)) by (destruct F as [F | ->]; [ left; now apply exp_increasing | right; reflexivity ]).
  assert (0 < exp (f_de c a + 3 * ln a)) by apply exp_pos.
  apply Rinv_le_contravar; nra.
Qed.

(** faster expansion, smaller distances *)
Lemma chi_of_order c d n q : expanding c -> expanding d -> (3 <= n)%nat -> q <= 1 ->
  (forall i, (i + 1 < n)%nat -> chistep c (-3) n i <= chistep d (-3) n i) -> chi_of c (-3) n q <= chi_of d (-3) n q.
Proof.
  intros HE HE' Hn Hq Hs. unfold chi_of, clip_lo. apply Rle_max_compat_r.
  destruct (chi_table_length c (-3) n) as [L1 L2]. destruct (chi_table_length d (-3) n) as [L1' L2'].
  assert (HI : incr (logspace (-3) 0.0 n)) by (apply logspace_incr; [ lra | lia ]).
  set (W := fun i => Rsum (n - 1) (fun j => chistep d (-3) n j - chistep c (-3) n j) - Rsum i (fun j => chistep d (-3) n j - chistep c (-3) n j)).
  assert (EW : forall i, (i < n)%nat -> el (snd (chi_table d (-3) n)) i - el (snd (chi_table c (-3) n)) i = W i).
  { intros i Hi. rewrite !chi_table_el by lia. unfold W. rewrite !Rsum_minus. ring. }
  assert (W0 : W (n - 1)%nat = 0) by (unfold W; ring).
  assert (WS : forall i, (i + 1 < n)%nat -> W (i + 1)%nat <= W i).
  { intros i Hi. unfold W. rewrite Nat.add_1_r. change (Rsum (S i) ?g) with (Rsum i g + g i). cbv beta. specialize (Hs i Hi). lra. }
  assert (WP : forall k i, (i + k = n - 1)%nat -> 0 <= W i).
  { induction k as [ | k IH]; intros i Hi; [ replace i with (n - 1)%nat by lia; lra | ]. specialize (IH (i + 1)%nat ltac:(lia)). specialize (WS i ltac:(lia)). lra. }
  rewrite chi_table_fst in L1, L1' |- *. rewrite chi_table_fst.
  destruct (interp1_cell q (logspace (-3) 0.0 n) (snd (chi_table c (-3) n)) ltac:(lia) ltac:(lia) HI) as (k & Hk & E & Hlo & Hhi).
  rewrite L1 in Hk, Hhi.
  assert (E' : interp1 q (logspace (-3) 0.0 n) (snd (chi_table d (-3) n)) = cell (logspace (-3) 0.0 n) (snd (chi_table d (-3) n)) k q).
  { destruct (Rle_dec (el (logspace (-3) 0.0 n) k) q) as [Q1 | Q1].
    - destruct (Rle_dec q (el (logspace (-3) 0.0 n) (k + 1))) as [Q2 | Q2].
      + apply interp1_incr; auto; lia.
      + destruct Hhi as [Hhi | ->]; [ lra | ]. pose proof (interp1_above q (logspace (-3) 0.0 n) (snd (chi_table d (-3) n)) ltac:(lia) ltac:(lia) HI) as A. rewrite L1 in A. apply A. lra.
    - destruct Hlo as [Hlo | ->]; [ lra | ]. apply interp1_below; auto; lia || lra. }
  rewrite E, E'. unfold cell, line.
  assert (Q1 : q <= el (logspace (-3) 0.0 n) (k + 1)).
  { destruct Hhi as [Hhi | ->]; [ assumption | ]. replace (n - 2 + 1)%nat with (n - 1)%nat by lia. rewrite logspace_el, anode_last by lia. assumption. }
  assert (X : el (logspace (-3) 0.0 n) k < el (logspace (-3) 0.0 n) (k + 1)) by (apply HI; lia).
  pose proof (EW k ltac:(lia)) as E1. pose proof (EW (k + 1)%nat ltac:(lia)) as E2.
  pose proof (WS k ltac:(lia)) as S1. pose proof (WP (n - 1 - (k + 1))%nat (k + 1)%nat ltac:(lia)) as P1.
  set (x0 := el (logspace (-3) 0.0 n) k) in *. set (x1 := el (logspace (-3) 0.0 n) (k + 1)) in *.
  set (u0 := el (snd (chi_table c (-3) n)) k) in *. set (u1 := el (snd (chi_table c (-3) n)) (k + 1)) in *.
  set (v0 := el (snd (chi_table d (-3) n)) k) in *. set (v1 := el (snd (chi_table d (-3) n)) (k + 1)) in *.
  replace v0 with (u0 + W k) by lra. replace v1 with (u1 + W (k + 1)%nat) by lra.
  cut (0 <= W k + (W (k + 1)%nat - W k) / (x1 - x0) * (q - x0)). { unfold Rdiv. lra. }
  replace (W k + (W (k + 1)%nat - W k) / (x1 - x0) * (q - x0)) with (W (k + 1)%nat + (W k - W (k + 1)%nat) * ((x1 - q) / (x1 - x0))) by (field; lra).
  assert (0 <= (x1 - q) / (x1 - x0)) by (apply Rmult_le_pos; [ lra | left; apply Rinv_0_lt_compat; lra ]). nra.
Qed.

Lemma dchi_order c d a : expanding d -> 0 < a -> Esqr d a <= Esqr c a -> dchioverda c a <= dchioverda d a.
Proof.
  intros HE Ha L. unfold dchioverda, Rdiv. pose proof (HE a Ha). apply Rmult_le_compat_l; [ unfold const_rh; lra | ].
  assert (0 < sqrt (Esqr d a)) by (now apply sqrt_lt_R0). assert (sqrt (Esqr d a) <= sqrt (Esqr c a)) by (apply sqrt_le_1_alt; lra).
  assert (0 < a ^ 2) by (apply pow_lt; lra). apply Rinv_le_contravar; nra.
Qed.
Lemma table_node_range n i : (2 <= n)%nat -> (i < n)%nat -> 1 / 1000 <= table_node n i <= 1.
Proof.
  intros Hn Hi. rewrite <- anode_table. split.
  - replace (1 / 1000) with (anode (-3) n 0).
    + destruct (Nat.eq_dec i 0) as [-> | Hne]; [ lra | ]. left. apply anode_lt; lra || lia.
    + unfold anode, pow10. simpl INR. rewrite Rmult_0_l, Rplus_0_r. replace (-3 * ln 10) with (- (ln 10 + (ln 10 + ln 10))) by ring.
      rewrite exp_Ropp, !exp_plus, exp_ln by lra. field.
  - rewrite <- (anode_last (-3) n) by lia. destruct (Nat.eq_dec i (n - 1)) as [-> | Hne]; [ lra | ]. left. apply anode_lt; lra || lia.
Qed.
Lemma distance_order c d : reachable c -> reachable d -> expanding c -> expanding d ->
  (forall a, 1 / 1000 <= a <= 1 -> H d a <= H c a) -> forall a, a <= 1 -> chi c a <= chi d a.
Proof.
  intros Rc Rd HE HE' HL a Ha. destruct (inv_reach c Rc) as (c0 & HI & EE & _). destruct (inv_reach d Rd) as (d0 & HI' & EE' & _).
  assert (HE0 : expanding c0) by (intros t Ht; rewrite <- EE; now apply HE). assert (HE0' : expanding d0) by (intros t Ht; rewrite <- EE'; now apply HE').
  rewrite (chi_value c0 c _ HI), (chi_value d0 d _ HI').
  assert (G : forall x, 1 / 1000 <= exp x <= 1 -> dchioverda c0 (exp x) * exp x <= dchioverda d0 (exp x) * exp x).
  { intros x Hx. apply Rmult_le_compat_r; [ left; apply exp_pos | ]. apply dchi_order; [ assumption | apply exp_pos | ].
    rewrite <- EE, <- EE'. specialize (HL (exp x) Hx). unfold H, const_H0 in HL.
    pose proof (HE (exp x) (exp_pos x)). pose proof (HE' (exp x) (exp_pos x)).
    apply sqrt_le_0; lra. }
  apply chi_of_order; auto; try lia. intros i Hi. unfold chistep, qstep.
  pose proof (table_node_range 256 i ltac:(lia) ltac:(lia)) as N0. pose proof (table_node_range 256 (i + 1) ltac:(lia) ltac:(lia)) as N1.
  rewrite <- anode_table in N0, N1. pose proof (anode_pos (-3) 256 i) as P0. pose proof (anode_pos (-3) 256 (i + 1)) as P1.
  pose proof (anode_lt (-3) 256 i (i + 1) ltac:(lra) ltac:(lia) ltac:(lia)) as LT.
  assert (LL : ln (anode (-3) 256 i) < ln (anode (-3) 256 (i + 1))) by (apply ln_increasing; lra).
  set (s := ln (anode (-3) 256 i)) in *. set (t := ln (anode (-3) 256 (i + 1))) in *.
  assert (Es : exp s = anode (-3) 256 i) by (apply exp_ln; lra). assert (Et : exp t = anode (-3) 256 (i + 1)) by (apply exp_ln; lra).
  assert (Em : exp s <= exp ((s + t) / 2) <= exp t) by (split; left; apply exp_increasing; lra).
  pose proof (G s ltac:(lra)). pose proof (G t ltac:(lra)). pose proof (G ((s + t) / 2) ltac:(lra)).
  apply Rmult_le_compat_l; lra.
Qed.

(** flat LambdaCDM: more matter, smaller distances *)
Definition flat_lcdm (c : cosmology) : Prop := _Omega_k c = 0 /\ _w0 c = -1 /\ _wa c = 0 /\ 0 < Omega_m c <= 1.
Lemma flat_lcdm_E c a : flat_lcdm c -> Esqr c a = Omega_m c * / a ^ 3 + (1 - Omega_m c).
Proof.
  intros (K & W0 & Wa & _). unfold Esqr. rewrite f_de_lambda by assumption. rewrite exp_0. unfold Omega_de, Omega, Omega_k. rewrite K. lra.
Qed.
Lemma flat_lcdm_physical c : flat_lcdm c -> physical c.
Proof. intros (K & _ & _ & P). unfold physical, Omega_k, Omega_de, Omega. rewrite K. lra. Qed.
Lemma more_matter_closer c d : reachable c -> reachable d -> flat_lcdm c -> flat_lcdm d -> Omega_m d <= Omega_m c ->
  forall a, a <= 1 -> chi c a <= chi d a /\ f_k c a <= f_k d a.
Proof.
  intros Rc Rd Fc Fd L a Ha.
  assert (X : chi c a <= chi d a).
  { apply distance_order; auto; try (apply physical_expanding, flat_lcdm_physical; assumption).
    intros x Hx. unfold H, const_H0. apply Rmult_le_compat_l; [ lra | ]. apply sqrt_le_1_alt. rewrite !flat_lcdm_E by assumption.
    assert (1 <= / x ^ 3). { rewrite <- Rinv_1. apply Rinv_le_contravar; [ apply pow_lt; lra | ]. rewrite <- (pow1 3). apply pow_incr. lra. }
    nra. }
  split; [ exact X | ]. rewrite (proj1 (proj2 (proj2 (transverse_properties c Rc))) (proj1 Fc)), (proj1 (proj2 (proj2 (transverse_properties d Rd))) (proj1 Fd)). exact X.
Qed.
Lemma planck_flat : reachable Planck15 /\ flat_lcdm Planck15 /\ (forall x, 0 < x <= 1 -> -1 <= w Planck15 x <= 0).
Proof.
  split; [ apply planck_ok | ].
  unfold flat_lcdm, w, Omega_m, Planck15, make_cosmology; simpl. repeat split; intros; lra.
Qed.
Definition denser_planck : cosmology := make_cosmology 0.35 0.05 0.6774 0.9667 0.8159 0 (-1) 0 None.
Lemma denser_planck_flat : reachable denser_planck /\ flat_lcdm denser_planck /\ Omega_m Planck15 < Omega_m denser_planck.
Proof.
  split; [ exists denser_planck, []; split; [ split; reflexivity | reflexivity ] | ].
  unfold flat_lcdm, Omega_m, denser_planck, Planck15, make_cosmology; simpl. repeat split; intros; lra.
Qed.
Lemma denser_planck_order : expanding Planck15 /\ expanding denser_planck /\ forall a, 1 / 1000 <= a <= 1 -> H Planck15 a <= H denser_planck a.
Proof.
  destruct denser_planck_flat as (_ & Fd & L). destruct planck_flat as (_ & Fc & _).
  split; [ now apply physical_expanding, flat_lcdm_physical | ]. split; [ now apply physical_expanding, flat_lcdm_physical | ].
  intros x Hx. unfold H, const_H0. apply Rmult_le_compat_l; [ lra | ]. apply sqrt_le_1_alt. rewrite !flat_lcdm_E by assumption.
  assert (1 <= / x ^ 3). { rewrite <- Rinv_1. apply Rinv_le_contravar; [ apply pow_lt; lra | ]. rewrite <- (pow1 3). apply pow_incr. lra. }
  nra.
Qed.
