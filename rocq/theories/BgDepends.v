(** * What the background functions depend on *)
From Coq Require Import FunctionalExtensionality.
From Coquelicot Require Import Coquelicot.
From Verif Require Import Np NpLemmas Core Ode Interp Background BgSpec DependsSpec BgProofs.
Transparent chi_table growth_table_ODE growth_table_gamma.

Lemma same_Omega_m c d : same_background c d -> Omega_m c = Omega_m d.
Proof. intros (A & _). unfold Omega_m. lra. Qed.
Lemma same_Omega_de c d : same_background c d -> Omega_de c = Omega_de d.
Proof. intros HS. pose proof (same_Omega_m c d HS). destruct HS as (_ & B & _). unfold Omega_de, Omega_k, Omega, Omega_m in *. rewrite ?B. lra. Qed.
Lemma same_f_de c d a : same_background c d -> f_de c a = f_de d a.
Proof. intros (_ & _ & B & C & _). unfold f_de. now rewrite B, C. Qed.
Lemma same_w c d a : same_background c d -> w c a = w d a.
Proof. intros (_ & _ & B & C & _). unfold w. now rewrite B, C. Qed.
Lemma same_Esqr c d a : same_background c d -> Esqr c a = Esqr d a.
Proof.
  intros HS. unfold Esqr. rewrite (same_Omega_m c d HS), (same_Omega_de c d HS), (same_f_de c d a HS). destruct HS as (_ & B & _).
  unfold Omega_k. now rewrite B.
Qed.
Lemma same_dchi c d a : same_background c d -> dchioverda c a = dchioverda d a.
Proof. intros HS. unfold dchioverda. now rewrite (same_Esqr c d a HS). Qed.
Lemma same_H c d a : same_background c d -> H c a = H d a.
Proof. intros HS. unfold H. now rewrite (same_Esqr c d a HS). Qed.
Lemma same_Omega_m_a c d a : same_background c d -> Omega_m_a c a = Omega_m_a d a.
Proof. intros HS. unfold Omega_m_a. now rewrite (same_Esqr c d a HS), (same_Omega_m c d HS). Qed.
Lemma same_Omega_de_a c d a : same_background c d -> Omega_de_a c a = Omega_de_a d a.
Proof. intros HS. unfold Omega_de_a. now rewrite (same_Esqr c d a HS), (same_Omega_de c d HS), (same_f_de c d a HS). Qed.
Lemma same_chi_table c d la n : same_background c d -> chi_table c la n = chi_table d la n.
Proof.
  intros HS. unfold chi_table. replace (dchioverdlna c) with (dchioverdlna d); [ reflexivity | ].
  apply functional_extensionality; intros y. apply functional_extensionality; intros x. unfold dchioverdlna. now rewrite (same_dchi c d _ HS).
Qed.
Lemma same_growth_ODE c d la n : same_background c d -> growth_table_ODE c la n = growth_table_ODE d la n.
Proof.
  intros HS. unfold growth_table_ODE. replace (D_derivs c) with (D_derivs d); [ reflexivity | ].
  apply functional_extensionality; intros y. apply functional_extensionality; intros x. unfold D_derivs.
  now rewrite (same_Omega_m_a c d _ HS), (same_Omega_de_a c d _ HS), (same_w c d _ HS).
Qed.
Lemma same_rate_gamma c d a : same_background c d -> growth_rate_gamma1 c a = growth_rate_gamma1 d a.
Proof. intros HS. unfold growth_rate_gamma1. rewrite (same_Omega_m_a c d _ HS). destruct HS as (_ & _ & _ & _ & G & _). unfold gamma_of. now rewrite G. Qed.
Lemma same_growth_gamma c d la n : same_background c d -> growth_table_gamma c la n = growth_table_gamma d la n.
Proof.
  intros HS. unfold growth_table_gamma. replace (fun y loga : R => growth_rate_gamma1 c (exp loga)) with (fun y loga : R => growth_rate_gamma1 d (exp loga)); [ reflexivity | ].
  apply functional_extensionality; intros y. apply functional_extensionality; intros x. now rewrite (same_rate_gamma c d _ HS).
Qed.
Opaque chi_table growth_table_ODE growth_table_gamma.
Lemma same_growth_default c d : same_background c d -> growth_default c = growth_default d.
Proof.
  intros HS. unfold growth_default. rewrite (same_growth_ODE c d _ _ HS), (same_growth_gamma c d _ _ HS). destruct HS as (_ & _ & _ & _ & _ & G). now rewrite G.
Qed.
Lemma same_fk c d : same_background c d -> f_k_branch c = f_k_branch d.
Proof. intros (_ & B & _). unfold f_k_branch, sqrtk, curv. now rewrite B. Qed.
Lemma inv_same c0 c : inv_ws c0 c -> same_background c c0.
Proof. intros (x & y & -> & _). repeat split. Qed.
Lemma same_sym c d : same_background c d -> same_background d c.
Proof. unfold same_background. intuition. Qed.
Lemma same_trans c d e : same_background c d -> same_background d e -> same_background c e.
Proof. unfold same_background. intuition congruence. Qed.

Lemma background_depends c d : reachable c -> reachable d -> same_background c d ->
  (forall k, fst (run1 k c) = fst (run1 k d)) /\
  forall a, w c a = w d a /\ f_de c a = f_de d a /\ Esqr c a = Esqr d a /\ H c a = H d a /\ Omega_m_a c a = Omega_m_a d a /\ Omega_de_a c a = Omega_de_a d a /\ dchioverda c a = dchioverda d a.
Proof.
  intros Hc Hd HS. split.
  2:{ intros a. rewrite (same_w c d a HS), (same_f_de c d a HS), (same_Esqr c d a HS), (same_H c d a HS), (same_Omega_m_a c d a HS), (same_Omega_de_a c d a HS), (same_dchi c d a HS). repeat split. }
  destruct (reachable_inv c Hc) as (c0 & _ & IC). destruct (reachable_inv d Hd) as (d0 & _ & ID).
  assert (H0 : same_background c0 d0).
  { apply (same_trans _ c); [ now apply same_sym, inv_same | ]. apply (same_trans _ d); [ exact HS | now apply inv_same ]. }
  pose proof (same_chi_table c0 d0 (-3) 256 H0) as T. pose proof (same_fk c0 d0 H0) as F. pose proof (same_growth_default c0 d0 H0) as G.
  intros [a | a | a | a | a | a]; simpl.
  - pose proof (proj1 (rcd_inv c0 c a IC)). pose proof (proj1 (rcd_inv d0 d a ID)). rewrite T in *. destruct (rcd_default c a), (rcd_default d a); simpl in *; congruence.
  - pose proof (proj1 (aofchi_inv c0 c a IC)). pose proof (proj1 (aofchi_inv d0 d a ID)). rewrite T in *. destruct (a_of_chi c a), (a_of_chi d a); simpl in *; congruence.
  - pose proof (proj1 (trans_inv c0 c a IC)). pose proof (proj1 (trans_inv d0 d a ID)). rewrite T, F in *. destruct (transverse_comoving_distance c a), (transverse_comoving_distance d a); simpl in *; congruence.
  - pose proof (proj1 (ang_inv c0 c a IC)). pose proof (proj1 (ang_inv d0 d a ID)). rewrite T, F in *. destruct (angular_diameter_distance c a), (angular_diameter_distance d a); simpl in *; congruence.
  - rewrite (proj1 (growth_inv c0 c a IC)), (proj1 (growth_inv d0 d a ID)), G. reflexivity.
  - rewrite (proj1 (rate_inv c0 c a IC)), (proj1 (rate_inv d0 d a ID)). pose proof (same_growth_ODE c0 d0 (-3) 128 H0) as TO. rewrite TO.
    rewrite (proj2 (proj2 (proj2 (proj2 (proj2 H0))))). destruct (_gamma_growth d0); [ | reflexivity ]. f_equal. apply map_ext. intros q. now apply same_rate_gamma.
Qed.
Lemma same_chi c d a : reachable c -> reachable d -> same_background c d -> chi c a = chi d a.
Proof.
  intros Hc Hd HS. pose proof (proj1 (background_depends c d Hc Hd HS) (Radial (Scalar a))) as E. simpl in E. unfold chi.
  destruct (rcd_default c (Scalar a)), (rcd_default d (Scalar a)); simpl in *. congruence.
Qed.
Lemma same_D c d a : reachable c -> reachable d -> same_background c d -> D c a = D d a.
Proof. intros Hc Hd HS. pose proof (proj1 (background_depends c d Hc Hd HS) (Growth (Array1 [a]))) as E. simpl in E. unfold D. now rewrite E. Qed.
