(** * Proofs about background.py: caches, algebra, distances *)
From Coquelicot Require Import Coquelicot.
From Verif Require Import Np NpLemmas Core Ode OdeSpec OdeProofs Interp InterpProofs Background BgSpec.

(** ** C33: call history *)
Definition with_ws (c : cosmology) x y : cosmology :=
  Cosmology (_Omega_c c) (_Omega_b c) (_h c) (_n_s c) (_sigma8 c) (_Omega_k c) (_w0 c) (_wa c)
    (_gamma c) (_gamma_growth c) x y.
Lemma chi_table_ws c x y la n : chi_table (with_ws c x y) la n = chi_table c la n.
Proof. reflexivity. Qed.
Lemma growth_table_ODE_ws c x y la n : growth_table_ODE (with_ws c x y) la n = growth_table_ODE c la n.
Proof. reflexivity. Qed.
Lemma growth_table_gamma_ws c x y la n : growth_table_gamma (with_ws c x y) la n = growth_table_gamma c la n.
Proof. reflexivity. Qed.
Opaque chi_table growth_table_ODE growth_table_gamma.

Definition growth_default (c : cosmology) : list R * list R * option (list R) :=
  if _gamma_growth c then let '(a, g) := growth_table_gamma c (-3) 128 in (a, g, None)
  else let '(a, g, f) := growth_table_ODE c (-3) 128 in (a, g, Some f).
Definition inv_ws (c0 c : cosmology) : Prop := exists x y, c = with_ws c0 x y /\
  (x = None \/ x = Some (chi_table c0 (-3) 256)) /\ (y = None \/ y = Some (growth_default c0)).

Lemma inv_fresh c0 : fresh c0 -> inv_ws c0 c0.
Proof.
  intros [H1 H2]. exists None, None. split; [ | split; now left ].
  destruct c0; simpl in *; subst. reflexivity.
Qed.

Lemma chi_cache_inv c0 c : inv_ws c0 c ->
  fst (chi_cache c (-3) 256) = chi_table c0 (-3) 256 /\ inv_ws c0 (snd (chi_cache c (-3) 256)).
Proof.
  intros (x & y & -> & Hx & Hy). unfold chi_cache.
  destruct Hx as [-> | ->]; simpl ws_chi; cbv iota beta.
  - rewrite chi_table_ws. split; [ reflexivity | ]. exists (Some (chi_table c0 (-3) 256)), y.
    split; [ reflexivity | split; auto ].
  - split; [ reflexivity | ]. exists (Some (chi_table c0 (-3) 256)), y. split; [ reflexivity | split; auto ].
Qed.

Lemma rcd_inv c0 c a : inv_ws c0 c ->
  fst (rcd_default c a) = map (fun q => clip_lo (interp1 q (fst (chi_table c0 (-3) 256)) (snd (chi_table c0 (-3) 256))) 0.0) (atleast_1d a) /\
  inv_ws c0 (snd (rcd_default c a)).
Proof.
  intros H. destruct (chi_cache_inv c0 c H) as [H1 H2]. unfold rcd_default, radial_comoving_distance.
  destruct (chi_cache c (-3) 256) as [[at_ ct] c'] eqn:E. simpl in *. rewrite <- H1. simpl. auto.
Qed.

Lemma f_k_branch_inv c0 c : inv_ws c0 c -> f_k_branch c = f_k_branch c0.
Proof. intros (x & y & -> & _). reflexivity. Qed.

Lemma trans_inv c0 c a : inv_ws c0 c ->
  fst (transverse_comoving_distance c a) =
    map (f_k_branch c0) (map (fun q => clip_lo (interp1 q (fst (chi_table c0 (-3) 256)) (snd (chi_table c0 (-3) 256))) 0.0) (atleast_1d a)) /\
  inv_ws c0 (snd (transverse_comoving_distance c a)).
Proof.
  intros H. destruct (rcd_inv c0 c a H) as [H1 H2]. unfold transverse_comoving_distance.
  destruct (rcd_default c a) as [v c'] eqn:E. simpl in *. rewrite (f_k_branch_inv c0 c H), H1. auto.
Qed.

Lemma ang_inv c0 c a : inv_ws c0 c ->
  fst (angular_diameter_distance c a) =
    vmul (atleast_1d a) (map (f_k_branch c0) (map (fun q => clip_lo (interp1 q (fst (chi_table c0 (-3) 256)) (snd (chi_table c0 (-3) 256))) 0.0) (atleast_1d a))) /\
  inv_ws c0 (snd (angular_diameter_distance c a)).
Proof.
  intros H. destruct (trans_inv c0 c a H) as [H1 H2]. unfold angular_diameter_distance.
  destruct (transverse_comoving_distance c a) as [v c'] eqn:E. simpl in *. rewrite H1. auto.
Qed.

Lemma aofchi_inv c0 c x : inv_ws c0 c ->
  fst (a_of_chi c x) = map (fun q => interp1 q (snd (chi_table c0 (-3) 256)) (fst (chi_table c0 (-3) 256))) (atleast_1d x) /\
  inv_ws c0 (snd (a_of_chi c x)).
Proof.
  intros (u & v & -> & Hu & Hv). unfold a_of_chi.
  destruct Hu as [-> | ->]; simpl ws_chi; cbv iota.
  - unfold rcd_default, radial_comoving_distance, chi_cache. simpl ws_chi. cbv iota.
    rewrite chi_table_ws. destruct (chi_table c0 (-3) 256) as [at_ ct] eqn:E. simpl. split; [ reflexivity | ].
    exists (Some (at_, ct)), v. split; [ reflexivity | split; [ right; now rewrite E | assumption ]].
  - split; [ now destruct (chi_table c0 (-3) 256) | ].
    exists (Some (chi_table c0 (-3) 256)), v. split; [ now destruct (chi_table c0 (-3) 256) | split; auto ].
Qed.

Definition growth_value (t : list R * list R * option (list R)) (a : array_like) : res (list R) :=
  let '(at_, g, _) := t in bind (interp a at_ g) (fun v => Ok (map (fun q => clip q 0.0 1.0) v)).

Lemma growth_inv c0 c a : inv_ws c0 c ->
  fst (growth_factor c a) = growth_value (growth_default c0) a /\ inv_ws c0 (snd (growth_factor c a)) /\
  ws_growth (snd (growth_factor c a)) = Some (growth_default c0).
Proof.
  intros (x & y & -> & Hx & Hy).
  assert (HI : forall y', y' = Some (growth_default c0) -> inv_ws c0 (with_ws c0 x y'))
    by (intros y' ->; exists x, (Some (growth_default c0)); auto).
  revert HI Hy. unfold growth_factor, growth_factor_gamma, growth_factor_ODE, growth_cache_gamma,
    growth_cache_ODE, growth_default. simpl _gamma_growth. simpl ws_growth.
  destruct (_gamma_growth c0) eqn:Eg; intros HI Hy.
  - rewrite growth_table_gamma_ws. destruct (growth_table_gamma c0 (-3) 128) as [at_ g] eqn:ET.
    destruct Hy as [-> | ->]; cbv iota; (split; [ reflexivity | split; [ | reflexivity ]]);
      simpl; now apply HI.
  - rewrite growth_table_ODE_ws. destruct (growth_table_ODE c0 (-3) 128) as [[at_ g] f] eqn:ET.
    destruct Hy as [-> | ->]; cbv iota; (split; [ reflexivity | split; [ | reflexivity ]]);
      simpl; now apply HI.
Qed.

Lemma rate_inv c0 c a : inv_ws c0 c ->
  fst (growth_rate c a) =
    (if _gamma_growth c0 then Ok (map (growth_rate_gamma1 c0) (atleast_1d a))
     else let '(at_, _, f) := growth_table_ODE c0 (-3) 128 in interp a at_ f) /\
  inv_ws c0 (snd (growth_rate c a)).
Proof.
  intros HI. pose proof (growth_inv c0 c (Array1 [1.0]) HI) as HG. destruct HI as (x & y & -> & Hx & Hy).
  unfold growth_rate. simpl _gamma_growth.
  destruct (_gamma_growth c0) eqn:Eg.
  - split; [ reflexivity | ]. exists x, y; auto.
  - unfold growth_rate_ODE. unfold growth_factor in HG. simpl _gamma_growth in HG. rewrite Eg in HG.
    unfold growth_default in *. rewrite Eg in *.
    destruct (growth_table_ODE c0 (-3) 128) as [[at_ g] f] eqn:ET.
    destruct Hy as [-> | ->]; simpl ws_growth; cbv iota.
    + destruct HG as (_ & HG2 & HG3). rewrite HG3. split; [ reflexivity | exact HG2 ].
    + split; [ reflexivity | ]. exists x, (Some (at_, g, Some f)).
      split; [ reflexivity | split; [ assumption | right ]]. unfold growth_default. now rewrite Eg, ET.
Qed.

Lemma run1_inv c0 c k : inv_ws c0 c -> inv_ws c0 (snd (run1 k c)).
Proof.
  intros H. destruct k as [a | a | a | a | a | a]; simpl.
  - pose proof (proj2 (rcd_inv c0 c a H)). now destruct (rcd_default c a).
  - pose proof (proj2 (aofchi_inv c0 c a H)). now destruct (a_of_chi c a).
  - pose proof (proj2 (trans_inv c0 c a H)). now destruct (transverse_comoving_distance c a).
  - pose proof (proj2 (ang_inv c0 c a H)). now destruct (angular_diameter_distance c a).
  - apply (growth_inv c0 c a H).
  - apply (rate_inv c0 c a H).
Qed.
Lemma run_inv c0 hist : forall c, inv_ws c0 c -> inv_ws c0 (run hist c).
Proof.
  induction hist as [ | k hist IH]; intros c H; [ exact H | ]. simpl. apply IH. now apply run1_inv.
Qed.

Lemma run1_value c0 c d k : inv_ws c0 c -> inv_ws c0 d -> fst (run1 k c) = fst (run1 k d).
Proof.
  intros H1 H2. destruct k as [a | a | a | a | a | a]; simpl.
  - pose proof (proj1 (rcd_inv c0 c a H1)). pose proof (proj1 (rcd_inv c0 d a H2)).
    destruct (rcd_default c a), (rcd_default d a); simpl in *; congruence.
  - pose proof (proj1 (aofchi_inv c0 c a H1)). pose proof (proj1 (aofchi_inv c0 d a H2)).
    destruct (a_of_chi c a), (a_of_chi d a); simpl in *; congruence.
  - pose proof (proj1 (trans_inv c0 c a H1)). pose proof (proj1 (trans_inv c0 d a H2)).
    destruct (transverse_comoving_distance c a), (transverse_comoving_distance d a); simpl in *; congruence.
  - pose proof (proj1 (ang_inv c0 c a H1)). pose proof (proj1 (ang_inv c0 d a H2)).
    destruct (angular_diameter_distance c a), (angular_diameter_distance d a); simpl in *; congruence.
  - rewrite (proj1 (growth_inv c0 c a H1)), (proj1 (growth_inv c0 d a H2)). reflexivity.
  - rewrite (proj1 (rate_inv c0 c a H1)), (proj1 (rate_inv c0 d a H2)). reflexivity.
Qed.

Lemma history_independent c0 hist k : fresh c0 ->
  fst (run1 k (run hist c0)) = fst (run1 k c0) /\ same_parameters (run hist c0) c0.
Proof.
  intros Hf. pose proof (inv_fresh c0 Hf) as H0. pose proof (run_inv c0 hist c0 H0) as H1.
  split; [ now apply (run1_value c0) | ].
  destruct H1 as (x & y & -> & _). repeat split.
Qed.

(** a reachable object and the fresh object it came from *)
Lemma reachable_inv c : reachable c -> exists c0, fresh c0 /\ inv_ws c0 c.
Proof. intros (c0 & hist & Hf & ->). exists c0; split; [ assumption | ]. apply run_inv. now apply inv_fresh. Qed.
