(** * Background properties at the level of the public functions *)
From Coquelicot Require Import Coquelicot.
From Verif Require Import Np NpLemmas Core Ode OdeSpec OdeProofs Interp InterpProofs IntegrateSpec Background BgSpec
  BgAlgebra BgTables BgGrowth BgProofs.
Opaque chi_table growth_table_ODE growth_table_gamma.

Lemma simpson2 f a b : simpson f a b 2 = (b - a) / 6 * (f a + 4 * f ((a + b) / 2) + f b).
Proof.
  unfold simpson. change (2 / 2)%nat with 1%nat. simpl Rsum. unfold node. simpl INR.
  replace (a + 0 * ((b - a) / (1 + 1))) with a by ring.
  replace (a + 1 * ((b - a) / (1 + 1))) with ((a + b) / 2) by field.
  replace (a + (1 + 1) * ((b - a) / (1 + 1))) with b by field. field.
Qed.

(** ** values on a reachable object *)
Lemma inv_reach c : reachable c -> exists c0, inv_ws c0 c /\ (forall a, Esqr c a = Esqr c0 a) /\ (forall a, dchioverda c a = dchioverda c0 a)
  /\ _gamma_growth c = _gamma_growth c0 /\ _Omega_k c = _Omega_k c0 /\ same_parameters c c0.
Proof.
  intros Hr. destruct (reachable_inv c Hr) as (c0 & _ & HI). exists c0. split; [ assumption | ].
  destruct HI as (x & y & -> & _). repeat split.
Qed.

Lemma chi_value c0 c a : inv_ws c0 c -> chi c a = chi_of c0 (-3) 256 a.
Proof. intros H. unfold chi. rewrite (proj1 (rcd_inv c0 c (Scalar a) H)). reflexivity. Qed.
Lemma rcd_map c v : reachable c -> fst (rcd_default c (Array1 v)) = map (chi c) v.
Proof.
  intros Hr. destruct (inv_reach c Hr) as (c0 & HI & _). rewrite (proj1 (rcd_inv c0 c (Array1 v) HI)).
  simpl atleast_1d. apply map_ext. intros a. now rewrite (chi_value c0 c a HI).
Qed.

Lemma distance_properties c : reachable c -> expanding c ->
  (forall v, fst (rcd_default c (Array1 v)) = map (chi c) v) /\
  chi c 1 = 0 /\ (forall a, 0 <= chi c a) /\ (forall a b, a <= b -> chi c b <= chi c a) /\ (forall a, a < 1 -> 0 < chi c a).
Proof.
  intros Hr HE. split; [ intros v; now apply rcd_map | ].
  destruct (inv_reach c Hr) as (c0 & HI & EE & _).
  assert (HE0 : expanding c0) by (intros a Ha; rewrite <- EE; now apply HE).
  repeat split; intros; rewrite ?(chi_value c0 c _ HI).
  - apply chi_of_1; auto; lra || lia.
  - apply chi_of_nonneg.
  - apply chi_of_antitone; auto; lra || lia.
  - apply chi_of_pos; auto; lra || lia.
Qed.

Lemma distance_simpson c i : reachable c -> expanding c -> (1 <= i)%nat -> (i + 1 < 256)%nat ->
  let a := table_node 256 i in let b := table_node 256 (i + 1) in
  chi c a - chi c b =
  simpson (fun x => 2997.92458 / (exp x * sqrt (Esqr c (exp x)))) (ln a) (ln b) 2.
Proof.
  intros Hr HE H1 H2 a b. destruct (inv_reach c Hr) as (c0 & HI & EE & _).
  assert (HE0 : expanding c0) by (intros t Ht; rewrite <- EE; now apply HE).
  rewrite !(chi_value c0 c _ HI). unfold a, b. rewrite <- !anode_table.
  rewrite !chi_of_node by (auto; lra || lia). rewrite !chi_table_el by lia.
  rewrite Nat.add_1_r. change (Rsum (S i) ?g) with (Rsum i g + g i).
  rewrite simpson2. unfold chistep, qstep. rewrite Nat.add_1_r.
  assert (HG : forall x, dchioverda c0 (exp x) * exp x = 2997.92458 / (exp x * sqrt (Esqr c (exp x)))).
  { intros x. rewrite EE. unfold dchioverda, const_rh. pose proof (exp_pos x).
    assert (0 < sqrt (Esqr c0 (exp x))) by (apply sqrt_lt_R0, HE0; assumption).
    generalize (2997.92458). intros k. field. split; lra. }
  rewrite !HG. lra.
Qed.

(** ** transverse distances *)
Lemma trans_value c0 c a : inv_ws c0 c -> f_k c a = f_k_branch c0 (chi c a).
Proof.
  intros HI. unfold f_k. rewrite (proj1 (trans_inv c0 c (Scalar a) HI)), (chi_value c0 c a HI). reflexivity.
Qed.
Lemma trans_map c v : reachable c -> fst (transverse_comoving_distance c (Array1 v)) = map (f_k c) v.
Proof.
  intros Hr. destruct (inv_reach c Hr) as (c0 & HI & _). rewrite (proj1 (trans_inv c0 c (Array1 v) HI)).
  simpl atleast_1d. rewrite map_map. apply map_ext. intros a. now rewrite (trans_value c0 c a HI), (chi_value c0 c a HI).
Qed.
Lemma map2_map_r {A B C} (f : A -> B -> C) g l : map2 f l (map g l) = map (fun a => f a (g a)) l.
Proof. induction l as [ | x l IH]; [ reflexivity | ]. simpl. now rewrite IH. Qed.
Lemma ang_map c v : reachable c -> fst (angular_diameter_distance c (Array1 v)) = map (fun a => a * f_k c a) v.
Proof.
  intros Hr. unfold angular_diameter_distance.
  pose proof (trans_map c v Hr) as E. destruct (transverse_comoving_distance c (Array1 v)) as [xs c'].
  simpl in *. subst xs. unfold vmul. apply map2_map_r.
Qed.

Lemma branch_cases c x :
  (_Omega_k c = 0 -> f_k_branch c x = x) /\
  (0 < _Omega_k c -> f_k_branch c x = const_rh / sqrt (Rabs (_Omega_k c)) * sinh (sqrt (Rabs (_Omega_k c)) * x / const_rh)) /\
  (_Omega_k c < 0 -> f_k_branch c x = const_rh / sqrt (Rabs (_Omega_k c)) * sin (sqrt (Rabs (_Omega_k c)) * x / const_rh)).
Proof.
  unfold f_k_branch, curv, sqrtk, isign.
  repeat split; intros Hk; destruct (Rlt_dec (_Omega_k c) 0); try lra; destruct (Rlt_dec 0 (_Omega_k c)); try lra; reflexivity.
Qed.
Lemma rh_sqrt_pos k : k <> 0 -> 0 < sqrt (Rabs k) /\ 0 < const_rh / sqrt (Rabs k).
Proof.
  intros Hk. assert (0 < sqrt (Rabs k)) by (apply sqrt_lt_R0, Rabs_pos_lt, Hk). split; [ assumption | ].
  unfold const_rh. apply Rdiv_lt_0_compat; lra.
Qed.
Lemma transverse_properties c : reachable c ->
  let K := 2997.92458 / sqrt (Rabs (_Omega_k c)) in
  (forall v, fst (transverse_comoving_distance c (Array1 v)) = map (f_k c) v) /\
  (forall v, fst (angular_diameter_distance c (Array1 v)) = map (fun a => a * f_k c a) v) /\
  (_Omega_k c = 0 -> forall a, f_k c a = chi c a) /\
  (0 < _Omega_k c -> forall a, f_k c a = K * sinh (chi c a / K) /\ chi c a <= f_k c a) /\
  (_Omega_k c < 0 -> forall a, f_k c a = K * sin (chi c a / K) /\ f_k c a <= chi c a) /\
  (expanding c -> f_k c 1 = 0).
Proof.
  intros Hr K. destruct (inv_reach c Hr) as (c0 & HI & EE & _ & _ & EK & _).
  assert (Hpos : forall a, 0 <= chi c a).
  { intros a. rewrite (chi_value c0 c a HI). apply chi_of_nonneg. }
  assert (HKx : _Omega_k c <> 0 -> 0 < K /\ forall x, sqrt (Rabs (_Omega_k c0)) * x / const_rh = x / K).
  { intros Hk. destruct (rh_sqrt_pos (_Omega_k c) Hk) as [P1 P2]. split; [ exact P2 | ].
    intros x. assert (HKd : K = const_rh / sqrt (Rabs (_Omega_k c))) by reflexivity. rewrite HKd, <- EK.
    assert (Hrh : const_rh <> 0) by (unfold const_rh; lra). field. split; [ lra | assumption ]. }
  split; [ intros; now apply trans_map | split; [ intros; now apply ang_map | split; [ | split; [ | split ]]]].
  - intros Hk a. rewrite (trans_value c0 c a HI). apply branch_cases. congruence.
  - intros Hk a. assert (Hk' : _Omega_k c <> 0) by lra. destruct (HKx Hk') as [HK0 HKe].
    rewrite (trans_value c0 c a HI). rewrite (proj1 (proj2 (branch_cases c0 (chi c a)))) by (rewrite <- EK; assumption).
    rewrite HKe. rewrite <- EK. change (const_rh / sqrt (Rabs (_Omega_k c))) with K.
    split; [ reflexivity | ]. assert (0 <= chi c a / K) by (apply Rmult_le_pos; [ apply Hpos | left; now apply Rinv_0_lt_compat ]).
    pose proof (sinh_ge _ H). replace (chi c a) with (K * (chi c a / K)) at 1 by (field; lra).
    apply Rmult_le_compat_l; lra.
  - intros Hk a. assert (Hk' : _Omega_k c <> 0) by lra. destruct (HKx Hk') as [HK0 HKe].
    rewrite (trans_value c0 c a HI). rewrite (proj2 (proj2 (branch_cases c0 (chi c a)))) by (rewrite <- EK; assumption).
    rewrite HKe. rewrite <- EK. change (const_rh / sqrt (Rabs (_Omega_k c))) with K.
    split; [ reflexivity | ]. assert (0 <= chi c a / K) by (apply Rmult_le_pos; [ apply Hpos | left; now apply Rinv_0_lt_compat ]).
    pose proof (sin_le _ H). replace (chi c a) with (K * (chi c a / K)) at 2 by (field; lra).
    apply Rmult_le_compat_l; lra.
  - intros HE. rewrite (trans_value c0 c 1 HI). rewrite (proj1 (proj2 (distance_properties c Hr HE))).
    destruct (branch_cases c0 0) as (B0 & B1 & B2).
    destruct (Rtotal_order (_Omega_k c0) 0) as [Hk | [Hk | Hk]].
    + rewrite B2 by assumption. replace (sqrt (Rabs (_Omega_k c0)) * 0 / const_rh) with 0 by (unfold Rdiv; ring). rewrite sin_0. ring.
    + now apply B0.
    + rewrite B1 by assumption. replace (sqrt (Rabs (_Omega_k c0)) * 0 / const_rh) with 0 by (unfold Rdiv; ring). rewrite sinh_0. ring.
Qed.
