(** * Continuity of the background functions in the scale factor, and of the inverse distance *)
From Coq Require Import Reals Lra Lia List.
From Coquelicot Require Import Coquelicot.
From Verif Require Import Np NpLemmas Core Ode OdeSpec OdeProofs Interp InterpProofs InterpCont Background BgSpec
  BgAlgebra BgTables BgGrowth BgPositive BgProofs BgFinal BgFinal2 BgFinal3.
Import ListNotations.
Local Open Scope R_scope.
Opaque chi_table growth_table_ODE growth_table_gamma logspace.

Lemma continuity_pt_eq f g x : (forall y, f y = g y) -> continuity_pt g x -> continuity_pt f x.
Proof. intros H. apply (continuity_pt_local f g x 1); [ lra | auto ]. Qed.
Lemma continuity_contr (h : R -> R) f x : (forall u v, Rabs (h u - h v) <= Rabs (u - v)) -> continuity_pt f x -> continuity_pt (fun q => h (f q)) x.
Proof.
  intros H Cf eps Heps. destruct (Cf eps Heps) as (d & D0 & HD). exists d. split; [ assumption | ].
  intros y Hy. simpl in *. unfold R_dist in *. eapply Rle_lt_trans; [ apply H | now apply HD ].
Qed.
Lemma Rmax_contr k u v : Rabs (Rmax u k - Rmax v k) <= Rabs (u - v).
Proof. unfold Rmax. destruct (Rle_dec u k), (Rle_dec v k); unfold Rabs; repeat destruct Rcase_abs; lra. Qed.
Lemma Rmin_contr k u v : Rabs (Rmin u k - Rmin v k) <= Rabs (u - v).
Proof. unfold Rmin. destruct (Rle_dec u k), (Rle_dec v k); unfold Rabs; repeat destruct Rcase_abs; lra. Qed.

Lemma chi_of_continuous c a : continuity_pt (chi_of c (-3) 256) a.
Proof.
  destruct (chi_table_length c (-3) 256) as [L1 L2].
  unfold chi_of, clip_lo. apply (continuity_contr (fun q => Rmax q 0.0)); [ intros; apply Rmax_contr | ].
  apply interp1_continuous; rewrite ?L1, ?L2; auto; [ lia | ]. rewrite chi_table_fst. apply logspace_incr; [ lra | lia ].
Qed.
Lemma chi_continuous c a : reachable c -> continuity_pt (chi c) a.
Proof.
  intros Hr. destruct (inv_reach c Hr) as (c0 & HI & _). apply (continuity_pt_eq _ (chi_of c0 (-3) 256)); [ | apply chi_of_continuous ].
  intros y. now apply chi_value.
Qed.
Lemma D_continuous c a : reachable c -> continuity_pt (D c) a.
Proof.
  intros Hr. destruct (inv_reach c Hr) as (c0 & HI & _). apply (continuity_pt_eq _ (D_of c0)); [ intros y; now apply D_value | ].
  unfold D_of, clip. apply (continuity_contr (fun q => Rmin q 1.0)); [ intros; apply Rmin_contr | ].
  apply (continuity_contr (fun q => Rmax q 0.0)); [ intros; apply Rmax_contr | ].
  apply interp1_continuous; [ rewrite length_logspace; lia | rewrite gtab_length, length_logspace; reflexivity | apply atab128_incr ].
Qed.
Lemma rate_continuous c a : reachable c -> _gamma_growth c = false -> continuity_pt (f_growth c) a.
Proof.
  intros Hr Hg. destruct (inv_reach c Hr) as (c0 & HI & _ & _ & EG & _).
  apply (continuity_pt_eq _ (fun q => interp1 q atab128 (snd (growth_table_ODE c0 (-3) 128)))).
  - intros y. rewrite (rate_value c0 c y HI), <- EG, Hg. reflexivity.
  - destruct (ODE_table_el c0 (-3) 128 ltac:(lia)) as (_ & _ & L & _).
    apply interp1_continuous; [ rewrite length_logspace; lia | rewrite L, length_logspace; reflexivity | apply atab128_incr ].
Qed.
Lemma fk_branch_continuous c x : continuity_pt (f_k_branch c) x.
Proof.
  unfold f_k_branch. destruct (clipZ (curv c + 1) 0 2) as [ | [ | | ] | ].
  1: apply derivable_continuous_pt; unfold sinh; set (k := const_rh / sqrtk c); set (s := sqrtk c); reg.
  all: try (set (k := const_rh / sqrtk c); set (s := sqrtk c); reg).
Qed.
Lemma fk_continuous c a : reachable c -> continuity_pt (f_k c) a.
Proof.
  intros Hr. destruct (inv_reach c Hr) as (c0 & HI & _).
  apply (continuity_pt_eq _ (fun q => f_k_branch c0 (chi c q))); [ intros y; now apply trans_value | ].
  apply (continuity_pt_comp (chi c) (f_k_branch c0)); [ now apply chi_continuous | apply fk_branch_continuous ].
Qed.
Lemma ang_continuous c a : reachable c -> continuity_pt (fun q => el (fst (angular_diameter_distance c (Scalar q))) 0) a.
Proof.
  intros Hr. destruct (inv_reach c Hr) as (c0 & HI & _).
  apply (continuity_pt_eq _ (fun q => q * f_k c q)).
  - intros y. unfold angular_diameter_distance, f_k, transverse_comoving_distance, rcd_default, radial_comoving_distance.
    destruct (chi_cache c (-3) 256) as [[at_ ct] c']. reflexivity.
  - apply continuity_pt_mult; [ apply derivable_continuous_pt, derivable_pt_id | now apply fk_continuous ].
Qed.

(** ** the inverse *)
Section Inverse.
Variables (c : cosmology).
Hypothesis (Hr : reachable c) (HE : expanding c).
Let a := table_node 256.
Let X := fun k => chi c (a k).
Let sl := fun k => (a (k + 1)%nat - a k) / (X (k + 1)%nat - X k).
Definition inverse_at (c : cosmology) (x : R) : R := el (fst (a_of_chi c (Scalar x))) 0.

Lemma inverse_setup : exists T : list R * list R, length (fst T) = 256%nat /\ length (snd T) = 256%nat /\ decr (snd T) /\
  (forall k, (k < 256)%nat -> a k = el (fst T) k) /\ (forall k, (1 <= k < 256)%nat -> X k = el (snd T) k) /\
  forall x, inverse_at c x = interp1 x (snd T) (fst T).
Proof.
  destruct (inv_reach c Hr) as (c0 & HI & EE & _).
  assert (HE0 : expanding c0) by (intros t Ht; rewrite <- EE; now apply HE).
  destruct (chi_table_length c0 (-3) 256) as [L1 L2]. exists (chi_table c0 (-3) 256).
  split; [ exact L1 | split; [ exact L2 | split; [ apply chi_table_decr; auto; lra || lia | split; [ | split ]]]].
  - intros k Hk. unfold a. rewrite <- anode_table, chi_table_fst. symmetry. now apply logspace_el.
  - intros k Hk. unfold X, a. rewrite (chi_value c0 c _ HI), <- anode_table. apply chi_of_node; auto; lra || lia.
  - intros x. unfold inverse_at. rewrite (a_of_chi_value c0 c _ HI). reflexivity.
Qed.

Lemma inverse_jump i : (2 <= i)%nat -> (i + 1 < 254)%nat ->
  continuity_pt (inverse_at c) ((X i + X (i + 1)%nat) / 2) <-> sl i = sl (i - 1).
Proof.
  intros H2 Hi. destruct inverse_setup as (T & L1 & L2 & Hd & HA & HX & HV).
  assert (ES : forall k, (1 <= k < 255)%nat -> sl k = slope (snd T) (fst T) k).
  { intros k Hk. unfold sl, slope. rewrite !HA, !HX by lia. reflexivity. }
  rewrite !ES, !HX by lia.
  rewrite <- (interp1_decr_jump (snd T) (fst T) i) by (rewrite ?L1, ?L2; auto; lia).
  split; apply continuity_pt_eq; intros y; now rewrite HV.
Qed.

Lemma inverse_continuous x : x <= X 1%nat ->
  (forall i, (1 <= i)%nat -> (i + 1 < 256)%nat -> x <> (X i + X (i + 1)%nat) / 2) -> continuity_pt (inverse_at c) x.
Proof.
  intros Hx Hm. destruct inverse_setup as (T & L1 & L2 & Hd & HA & HX & HV).
  apply (continuity_pt_eq _ (fun q => interp1 q (snd T) (fst T))); [ exact HV | ].
  apply interp1_decr_continuous; rewrite ?L1, ?L2; auto; [ lia | ].
  intros i Hi. destruct (Nat.eq_dec i 0) as [-> | N].
  - assert (el (snd T) (0 + 1) < el (snd T) 0) by (apply Hd; rewrite L2; lia). rewrite HX in Hx by lia.
    change (0 + 1)%nat with 1%nat in *. lra.
  - rewrite <- !HX by lia. apply Hm; lia.
Qed.
End Inverse.

(** Milne: the slopes of neighbouring cells differ *)
Lemma milne_jump : let X := fun k => chi milne (table_node 256 k) in
  ~ continuity_pt (inverse_at milne) ((X 2%nat + X 3%nat) / 2).
Proof.
  intros X C. assert (Hr : reachable milne) by (exists milne, []; split; [ apply milne_fresh | reflexivity ]).
  apply (inverse_jump milne Hr milne_expanding 2) in C; try lia.
  pose proof (inv_fresh milne milne_fresh) as HI.
  assert (HX : forall k, (1 <= k < 256)%nat -> chi milne (table_node 256 k) = - const_rh * ln (anode (-3) 256 k)).
  { intros k Hk. rewrite (chi_value milne milne _ HI), <- anode_table, chi_of_node by (auto; lra || lia || apply milne_expanding).
    apply milne_table; lia. }
  change (2 + 1)%nat with 3%nat in C. change (2 - 1 + 1)%nat with 2%nat in C. change (2 - 1)%nat with 1%nat in C.
  rewrite !HX in C by lia. rewrite <- !anode_table in C.
  pose proof (ln_anode_step (-3) 256 2) as S2. pose proof (ln_anode_step (-3) 256 1) as S1.
  change (2 + 1)%nat with 3%nat in S2. change (1 + 1)%nat with 2%nat in S1.
  pose proof (ln_step_pos (-3) 256 ltac:(lra) ltac:(lia)) as SP.
  set (d := (0.0 - -3) / INR (256 - 1) * ln 10) in *.
  assert (Q : forall k, anode (-3) 256 (k + 1) = anode (-3) 256 k * exp d).
  { intros k. unfold d, anode, pow10. rewrite <- exp_plus. f_equal. rewrite plus_INR. simpl (INR 1). ring. }
  pose proof (Q 1%nat) as Q1. pose proof (Q 2%nat) as Q2. change (1 + 1)%nat with 2%nat in Q1. change (2 + 1)%nat with 3%nat in Q2.
  pose proof (anode_pos (-3) 256 1) as P1. pose proof (exp_ineq1 d ltac:(lra)) as ED.
  replace (- const_rh * ln (anode (-3) 256 3) - - const_rh * ln (anode (-3) 256 2)) with (- const_rh * d) in C by (rewrite <- S2; ring).
  replace (- const_rh * ln (anode (-3) 256 2) - - const_rh * ln (anode (-3) 256 1)) with (- const_rh * d) in C by (rewrite <- S1; ring).
  rewrite Q2, Q1 in C. assert (Hrh : 0 < const_rh) by (unfold const_rh; lra).
  set (u := anode (-3) 256 1) in *. set (e := exp d) in *.
  assert (W : u * (e - 1) * (e - 1) = 0).
  { replace (u * (e - 1) * (e - 1)) with (- const_rh * d * ((u * e * e - u * e) / (- const_rh * d) - (u * e - u) / (- const_rh * d))) by (field; lra).
    rewrite C. ring. }
  assert (0 < u * (e - 1) * (e - 1)) by (apply Rmult_lt_0_compat; [ apply Rmult_lt_0_compat | ]; lra). lra.
Qed.
