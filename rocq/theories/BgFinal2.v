(** * Growth, inverse distance and table-parameter properties at the level of the public functions *)
From Coquelicot Require Import Coquelicot.
From Verif Require Import Np NpLemmas Core Ode OdeSpec OdeProofs Interp InterpProofs Background BgSpec
  BgAlgebra BgTables BgGrowth BgPositive BgProofs BgFinal.
Opaque chi_table growth_table_ODE growth_table_gamma logspace.

Definition gtab_of (c : cosmology) : list R :=
  if _gamma_growth c then snd (growth_table_gamma c (-3) 128) else snd (fst (growth_table_ODE c (-3) 128)).
Notation atab128 := (logspace (-3) 0.0 128).

Lemma gtab_length c : length (gtab_of c) = 128%nat.
Proof.
  unfold gtab_of. destruct (_gamma_growth c); [ apply gamma_table_length | ].
  now destruct (ODE_table_el c (-3) 128 ltac:(lia)) as (_ & L & _).
Qed.
Lemma atab128_incr : incr atab128.
Proof. apply logspace_incr; [ lra | lia ]. Qed.

Lemma growth_default_tab c : fst (growth_default c) = (atab128, gtab_of c).
Proof.
  unfold growth_default, gtab_of. destruct (_gamma_growth c).
  - pose proof (gamma_table_fst c (-3) 128) as E. destruct (growth_table_gamma c (-3) 128). simpl in *. now subst.
  - destruct (ODE_table_el c (-3) 128 ltac:(lia)) as (E & _). destruct (growth_table_ODE c (-3) 128) as [[? ?] ?]. simpl in *. now subst.
Qed.

Definition D_of (c : cosmology) (a : R) : R := clip (interp1 a atab128 (gtab_of c)) 0.0 1.0.
Lemma growth_factor_arr c0 c v : inv_ws c0 c -> fst (growth_factor c (Array1 v)) = Ok (map (D_of c0) v).
Proof.
  intros HI. rewrite (proj1 (growth_inv c0 c (Array1 v) HI)). unfold growth_value.
  pose proof (growth_default_tab c0) as E. destruct (growth_default c0) as [[at_ g] o]. simpl fst in E.
  injection E as -> ->. simpl. rewrite map_map. reflexivity.
Qed.
Lemma D_value c0 c a : inv_ws c0 c -> D c a = D_of c0 a.
Proof. intros HI. unfold D. rewrite (growth_factor_arr c0 c [a] HI). reflexivity. Qed.
Lemma growth_map c v : reachable c -> fst (growth_factor c (Array1 v)) = Ok (map (D c) v).
Proof.
  intros Hr. destruct (inv_reach c Hr) as (c0 & HI & _). rewrite (growth_factor_arr c0 c v HI). f_equal.
  apply map_ext. intros a. now rewrite (D_value c0 c a HI).
Qed.

Lemma clip01 x : 0 <= clip x 0.0 1.0 <= 1.
Proof.
  unfold clip. assert (0 <= Rmax x 0.0) by (eapply Rle_trans; [ | apply Rmax_r ]; lra).
  split; [ apply Rmin_glb; lra | eapply Rle_trans; [ apply Rmin_r | lra ]].
Qed.
Lemma clip_id x : 0 <= x <= 1 -> clip x 0.0 1.0 = x.
Proof. intros H. unfold clip. rewrite Rmax_left by lra. apply Rmin_left; lra. Qed.
Lemma clip_mono x y : x <= y -> clip x 0.0 1.0 <= clip y 0.0 1.0.
Proof. intros H. unfold clip. apply Rle_min_compat_r, Rle_max_compat_r, H. Qed.

Lemma D_node c i : (1 <= i < 128)%nat -> 0 <= el (gtab_of c) i <= 1 -> D_of c (table_node 128 i) = el (gtab_of c) i.
Proof.
  intros Hi Hr. unfold D_of. rewrite <- anode_table, <- (logspace_el (-3) 128 i) by lia.
  rewrite interp1_node; rewrite ?length_logspace, ?gtab_length; auto; try lia; [ now apply clip_id | apply atab128_incr ].
Qed.
Lemma node_last : table_node 128 127 = 1.
Proof. rewrite <- anode_table. change 127%nat with (128 - 1)%nat. apply anode_last; lia. Qed.

(** what the parametrisation must provide: the final table value is not zero *)
Definition growth_nonzero (c : cosmology) : Prop :=
  _gamma_growth c = false -> fst (nth 127 (ode_y c (-3) 128) (0, 0)) <> 0.

Lemma gtab_last c : growth_nonzero c -> el (gtab_of c) 127 = 1.
Proof.
  intros Hn. unfold gtab_of. destruct (_gamma_growth c) eqn:E.
  - change 127%nat with (128 - 1)%nat. apply gamma_table_last; lia.
  - destruct (ODE_table_el c (-3) 128 ltac:(lia)) as (_ & _ & _ & G & _). rewrite G by lia.
    change (128 - 1)%nat with 127%nat. unfold Rdiv. apply Rinv_r. now apply Hn.
Qed.

Lemma growth_nonzero_ws c0 c : inv_ws c0 c -> growth_nonzero c -> growth_nonzero c0.
Proof. intros (x & y & -> & _) H. exact H. Qed.

Lemma growth_normalised c : reachable c ->
  (forall v, fst (growth_factor c (Array1 v)) = Ok (map (D c) v)) /\
  (forall a, 0 <= D c a <= 1) /\ (growth_nonzero c -> D c 1 = 1).
Proof.
  intros Hr. split; [ intros; now apply growth_map | ]. destruct (inv_reach c Hr) as (c0 & HI & _).
  split; [ intros a; rewrite (D_value c0 c a HI); apply clip01 | ].
  intros Hn. pose proof (gtab_last c0 (growth_nonzero_ws c0 c HI Hn)) as L.
  rewrite (D_value c0 c 1 HI). rewrite <- node_last at 1. rewrite D_node; [ exact L | lia | lra ].
Qed.

(** ** Einstein-de Sitter *)
Lemma eds_gtab c i : einstein_de_sitter c -> (i < 128)%nat -> el (gtab_of c) i = anode (-3) 128 i.
Proof.
  intros HE Hi. unfold gtab_of. destruct (_gamma_growth c).
  - apply eds_gamma_table; auto; lia.
  - exact (proj1 (eds_ODE_table c (-3) 128 HE ltac:(lra) ltac:(lia) i Hi)).
Qed.
Lemma eds_D c a : einstein_de_sitter c -> 0 <= a <= 1 -> D_of c a = a.
Proof.
  intros HE Ha. unfold D_of. rewrite (interp1_affine a atab128 (gtab_of c) 1 0).
  - rewrite clip_id; lra.
  - rewrite length_logspace; lia.
  - now rewrite gtab_length, length_logspace.
  - intros i Hi. apply incr_neq; [ apply atab128_incr | assumption ].
  - intros i Hi. rewrite length_logspace in Hi. rewrite eds_gtab, logspace_el by assumption. ring.
Qed.

Lemma rate_arr c0 c v : inv_ws c0 c ->
  fst (growth_rate c (Array1 v)) =
  Ok (map (fun a => if _gamma_growth c0 then growth_rate_gamma1 c0 a
                    else interp1 a atab128 (snd (growth_table_ODE c0 (-3) 128))) v).
Proof.
  intros HI. rewrite (proj1 (rate_inv c0 c (Array1 v) HI)). destruct (_gamma_growth c0); [ reflexivity | ].
  destruct (ODE_table_el c0 (-3) 128 ltac:(lia)) as (E & _). destruct (growth_table_ODE c0 (-3) 128) as [[? ?] ?].
  simpl in *. now subst.
Qed.
Lemma rate_map c v : reachable c -> fst (growth_rate c (Array1 v)) = Ok (map (f_growth c) v).
Proof.
  intros Hr. destruct (inv_reach c Hr) as (c0 & HI & _). rewrite (rate_arr c0 c v HI). f_equal. apply map_ext. intros a.
  unfold f_growth. rewrite (rate_arr c0 c [a] HI). reflexivity.
Qed.
Lemma rate_value c0 c a : inv_ws c0 c -> f_growth c a =
  (if _gamma_growth c0 then growth_rate_gamma1 c0 a else interp1 a atab128 (snd (growth_table_ODE c0 (-3) 128))).
Proof. intros HI. unfold f_growth. rewrite (rate_arr c0 c [a] HI). reflexivity. Qed.

Lemma eds_f c0 c a : inv_ws c0 c -> einstein_de_sitter c0 -> 0 < a -> f_growth c a = 1.
Proof.
  intros HI HE Ha. rewrite (rate_value c0 c a HI). destruct (_gamma_growth c0); [ now apply eds_rate | ].
  destruct (ODE_table_el c0 (-3) 128 ltac:(lia)) as (_ & _ & L & _).
  rewrite (interp1_affine a atab128 _ 0 1); [ lra | rewrite length_logspace; lia | now rewrite L, length_logspace | | ].
  - intros i Hi. apply incr_neq; [ apply atab128_incr | assumption ].
  - intros i Hi. rewrite length_logspace in Hi. destruct (eds_ODE_table c0 (-3) 128 HE ltac:(lra) ltac:(lia) i Hi) as [_ ->]. ring.
Qed.
Lemma eds_exact c : reachable c -> einstein_de_sitter c ->
  (forall a, 0 <= a <= 1 -> D c a = a) /\ (forall a, 0 < a -> f_growth c a = 1).
Proof.
  intros Hr HE. destruct (inv_reach c Hr) as (c0 & HI & _).
  assert (HE0 : einstein_de_sitter c0) by (destruct HI as (x & y & -> & _); exact HE).
  split; intros a Ha; [ rewrite (D_value c0 c a HI); now apply eds_D | now apply (eds_f c0) ].
Qed.

(** ** gamma growth *)
Lemma gamma_growth_properties c : reachable c -> _gamma_growth c = true ->
  (forall a b, a <= b -> D c a <= D c b) /\ D c 1 = 1 /\
  (forall i, (1 <= i < 128)%nat -> 0 < D c (table_node 128 i)) /\
  (physical c -> forall a, 0 < a -> f_growth c a = Rpower (Omega_m_a c a) (gamma_of c) /\ 0 < f_growth c a).
Proof.
  intros Hr Hg. destruct (inv_reach c Hr) as (c0 & HI & _ & _ & EG & _). rewrite EG in Hg.
  assert (T : gtab_of c0 = snd (growth_table_gamma c0 (-3) 128)) by (unfold gtab_of; now rewrite Hg).
  repeat split.
  - intros a b Hab. rewrite !(D_value c0 c _ HI). unfold D_of. apply clip_mono.
    apply interp1_monotone; rewrite ?length_logspace, ?gtab_length; auto; try lia; [ apply atab128_incr | ].
    intros k H1 Hk. rewrite T. apply gamma_table_mono; [ lra | lia | lia ].
  - apply growth_normalised; [ assumption | ]. intros F. rewrite EG in F. congruence.
  - intros i Hi. rewrite (D_value c0 c _ HI). destruct (gamma_table_range c0 (-3) 128 i ltac:(lra) ltac:(lia) ltac:(lia)) as [G1 G2].
    rewrite D_node; rewrite ?T; auto; lra.
  - rewrite (rate_value c0 c a HI), Hg. unfold growth_rate_gamma1.
    assert (E : Omega_m_a c a = Omega_m_a c0 a /\ gamma_of c = gamma_of c0) by (destruct HI as (x & y & -> & _); split; reflexivity).
    destruct E as [<- <-]. apply rpow_pos. apply Omega_m_a_range; assumption.
  - rewrite (rate_value c0 c a HI), Hg. unfold growth_rate_gamma1.
    assert (E : Omega_m_a c a = Omega_m_a c0 a /\ gamma_of c = gamma_of c0) by (destruct HI as (x & y & -> & _); split; reflexivity).
    destruct E as [<- <-]. rewrite rpow_pos; [ apply exp_pos | ]. apply Omega_m_a_range; assumption.
Qed.

(** ** ODE growth of physical cosmologies *)
Lemma ode_growth_properties c : reachable c -> _gamma_growth c = false -> physical c -> moderate c ->
  growth_nonzero c /\ (forall a b, a <= b -> D c a <= D c b) /\
  (forall i, (1 <= i < 128)%nat -> 0 < D c (table_node 128 i) /\ 0 < f_growth c (table_node 128 i)) /\
  (forall i, (1 <= i)%nat -> (i + 1 < 128)%nat -> D c (table_node 128 i) < D c (table_node 128 (i + 1))).
Proof.
  intros Hr Hg HP HM. destruct (inv_reach c Hr) as (c0 & HI & _ & _ & EG & _). rewrite EG in Hg.
  assert (HP0 : physical c0) by (destruct HI as (x & y & -> & _); exact HP).
  assert (HM0 : moderate c0) by (destruct HI as (x & y & -> & _); exact HM).
  pose proof (ode_positive c0 (-3) 128 HP0 HM0 ltac:(lra) ltac:(lia) default_step) as POS.
  destruct (ODE_table_el c0 (-3) 128 ltac:(lia)) as (_ & LG & LF & G & F). change (128 - 1)%nat with 127%nat in *.
  assert (T : gtab_of c0 = snd (fst (growth_table_ODE c0 (-3) 128))) by (unfold gtab_of; now rewrite Hg).
  destruct (POS 127%nat ltac:(lia)) as (PL & _ & _).
  set (last := fst (nth 127 (ode_y c0 (-3) 128) (0, 0))) in *.
  assert (INC : forall i, (i + 1 < 128)%nat -> el (gtab_of c0) i < el (gtab_of c0) (i + 1)).
  { intros i Hi. rewrite T, !G by lia. destruct (POS i ltac:(lia)) as (_ & _ & Lt). specialize (Lt Hi).
    unfold Rdiv. apply Rmult_lt_compat_r; [ now apply Rinv_0_lt_compat | exact Lt ]. }
  assert (Hn0 : growth_nonzero c0) by (intros _; fold last; lra).
  assert (UP : forall i, (i < 128)%nat -> el (gtab_of c0) i <= 1).
  { intros i Hi. rewrite <- (gtab_last c0 Hn0).
    assert (forall d k, (k + d = 127)%nat -> el (gtab_of c0) k <= el (gtab_of c0) 127) as X.
    { induction d as [ | d IH]; intros k Hk; [ replace k with 127%nat by lia; lra | ].
      specialize (IH (k + 1)%nat ltac:(lia)). specialize (INC k ltac:(lia)). lra. }
    apply (X (127 - i)%nat). lia. }
  assert (PG : forall i, (i < 128)%nat -> 0 < el (gtab_of c0) i).
  { intros i Hi. rewrite T, G by assumption. destruct (POS i Hi) as (P & _). now apply Rdiv_lt_0_compat. }
  split; [ destruct HI as (x & y & -> & _); exact Hn0 | ].
  split; [ | split ].
  - intros a b Hab. rewrite !(D_value c0 c _ HI). unfold D_of. apply clip_mono.
    apply interp1_monotone; rewrite ?length_logspace, ?gtab_length; auto; try lia; [ apply atab128_incr | ].
    intros k H1 Hk. left. apply INC. lia.
  - intros i Hi. rewrite (D_value c0 c _ HI), (rate_value c0 c _ HI), Hg. split.
    + rewrite D_node; [ apply PG; lia | lia | ]. split; [ left; apply PG; lia | apply UP; lia ].
    + rewrite <- anode_table, <- (logspace_el (-3) 128 i) by lia.
      rewrite interp1_node; rewrite ?length_logspace, ?LF; auto; try lia; [ | apply atab128_incr ].
      rewrite F by lia. destruct (POS i ltac:(lia)) as (P1 & P2 & _).
      apply Rdiv_lt_0_compat; [ apply Rmult_lt_0_compat; [ now apply Rdiv_lt_0_compat | apply anode_pos ] | now apply Rdiv_lt_0_compat ].
  - intros i H1 Hi. rewrite !(D_value c0 c _ HI).
    rewrite !D_node; [ now apply INC | lia | | lia | ]; (split; [ left; apply PG; lia | apply UP; lia ]).
Qed.

(** ** scalar arguments *)
Lemma growth_factor_scalar c a : fst (growth_factor c (Scalar a)) = Err ValueError.
Proof.
  unfold growth_factor, growth_factor_gamma, growth_factor_ODE.
  destruct (_gamma_growth c);
    [ destruct (growth_cache_gamma c (-3) 128) as [[[? ?] ?] ?] | destruct (growth_cache_ODE c (-3) 128) as [[[? ?] ?] ?] ]; reflexivity.
Qed.
Lemma growth_rate_scalar c a : reachable c -> _gamma_growth c = false -> fst (growth_rate c (Scalar a)) = Err ValueError.
Proof.
  intros Hr Hg. destruct (inv_reach c Hr) as (c0 & HI & _ & _ & EG & _). rewrite EG in Hg.
  rewrite (proj1 (rate_inv c0 c (Scalar a) HI)), Hg. destruct (growth_table_ODE c0 (-3) 128) as [[? ?] ?]. reflexivity.
Qed.
Lemma scalar_distances c a : reachable c ->
  fst (rcd_default c (Scalar a)) = [chi c a] /\ fst (transverse_comoving_distance c (Scalar a)) = [f_k c a] /\
  fst (angular_diameter_distance c (Scalar a)) = [a * f_k c a] /\
  (_gamma_growth c = true -> fst (growth_rate c (Scalar a)) = Ok [f_growth c a]).
Proof.
  intros Hr. destruct (inv_reach c Hr) as (c0 & HI & _ & _ & EG & _). repeat split.
  - rewrite (proj1 (rcd_inv c0 c (Scalar a) HI)), (chi_value c0 c a HI). reflexivity.
  - rewrite (proj1 (trans_inv c0 c (Scalar a) HI)), (trans_value c0 c a HI), (chi_value c0 c a HI). reflexivity.
  - rewrite (proj1 (ang_inv c0 c (Scalar a) HI)), (trans_value c0 c a HI), (chi_value c0 c a HI). reflexivity.
  - intros Hg. rewrite EG in Hg. rewrite (proj1 (rate_inv c0 c (Scalar a) HI)), (rate_value c0 c a HI), Hg. reflexivity.
Qed.
