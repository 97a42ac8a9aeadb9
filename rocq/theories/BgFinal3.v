(** * Table parameters and the inverse distance *)
From Coquelicot Require Import Coquelicot.
From Verif Require Import Np NpLemmas Core Ode OdeSpec OdeProofs Interp InterpProofs IntegrateSpec Background BgSpec
  BgAlgebra BgTables BgGrowth BgPositive BgProofs BgFinal.
Opaque chi_table growth_table_ODE growth_table_gamma logspace.

(** ** calls that do not touch the distance table *)
Definition growth_only (k : call) : Prop := match k with Growth _ | Rate _ => True | _ => False end.
Lemma growth_ws_chi c a : ws_chi (snd (growth_factor c a)) = ws_chi c.
Proof.
  unfold growth_factor, growth_factor_gamma, growth_factor_ODE, growth_cache_gamma, growth_cache_ODE.
  destruct (_gamma_growth c); destruct (ws_growth c) as [[[? ?] ?] | ];
    [ reflexivity | destruct (growth_table_gamma c (-3) 128); reflexivity
    | reflexivity | destruct (growth_table_ODE c (-3) 128) as [[? ?] ?]; reflexivity ].
Qed.
Lemma run1_ws_chi k c : growth_only k -> ws_chi (snd (run1 k c)) = ws_chi c.
Proof.
  destruct k as [a | a | a | a | a | a]; simpl; try contradiction; intros _; [ apply growth_ws_chi | ].
  unfold growth_rate, growth_rate_ODE. destruct (_gamma_growth c) eqn:Eg; [ reflexivity | ].
  assert (X : forall c', (match ws_growth c' with Some (at_, _, Some ft) => (interp a at_ ft, c') | _ => (Err KeyError, c') end)
              = (fst (match ws_growth c' with Some (at_, _, Some ft) => (interp a at_ ft, c') | _ => (Err KeyError, c') end), c')).
  { intros c'. destruct (ws_growth c') as [[[? ?] [ | ]] | ]; reflexivity. }
  cbv zeta. rewrite X. simpl snd. destruct (ws_growth c); [ reflexivity | ].
  pose proof (growth_ws_chi c (Array1 [1.0])) as G. unfold growth_factor in G. rewrite Eg in G. exact G.
Qed.
Lemma run_ws_chi hist : forall c, Forall growth_only hist -> ws_chi (run hist c) = ws_chi c.
Proof.
  induction hist as [ | k hist IH]; intros c HF; [ reflexivity | ]. inversion HF as [ | ? ? Hk HF']. subst.
  simpl. change (fold_left (fun c0 k0 => snd (run1 k0 c0)) hist (snd (run1 k c))) with (run hist (snd (run1 k c))).
  rewrite IH by assumption. now apply run1_ws_chi.
Qed.

Lemma requested_table c0 hist a la n : fresh c0 -> Forall growth_only hist ->
  fst (radial_comoving_distance (run hist c0) a la n) = map (chi_of c0 la n) (atleast_1d a).
Proof.
  intros Hf HF. pose proof (run_ws_chi hist c0 HF) as W.
  pose proof (run_inv c0 hist c0 (inv_fresh c0 Hf)) as (x & y & E & _).
  rewrite E in *. clear E. simpl in W. destruct Hf as [Hf _]. rewrite Hf in W. subst x.
  unfold radial_comoving_distance, chi_cache. simpl ws_chi. cbv iota. rewrite chi_table_ws.
  unfold chi_of. destruct (chi_table c0 la n) as [at_ ct]. reflexivity.
Qed.
Lemma requested_table_nodes c0 la n i : expanding c0 -> la < 0 -> (3 <= n)%nat -> (1 <= i)%nat -> (i + 1 < n)%nat ->
  chi_of c0 la n (anode la n i) - chi_of c0 la n (anode la n (i + 1)) =
  simpson (fun x => 2997.92458 / (exp x * sqrt (Esqr c0 (exp x)))) (ln (anode la n i)) (ln (anode la n (i + 1))) 2.
Proof.
  intros HE Hla Hn H1 H2. rewrite !chi_of_node by (auto; lia). rewrite !chi_table_el by lia.
  rewrite Nat.add_1_r. change (Rsum (S i) ?g) with (Rsum i g + g i).
  rewrite simpson2. unfold chistep, qstep. rewrite Nat.add_1_r.
  assert (HG : forall x, dchioverda c0 (exp x) * exp x = 2997.92458 / (exp x * sqrt (Esqr c0 (exp x)))).
  { intros x. unfold dchioverda, const_rh. pose proof (exp_pos x).
    assert (0 < sqrt (Esqr c0 (exp x))) by (apply sqrt_lt_R0, HE; assumption).
    generalize (2997.92458). intros k. field. split; lra. }
  rewrite !HG. lra.
Qed.

(** ** a universe without matter: distance = - R_H ln a *)
Definition milne : cosmology := make_cosmology 0 0 1 1 1 1 (-1) 0 None.
Lemma milne_fresh : fresh milne.
Proof. split; reflexivity. Qed.
Lemma milne_E a : 0 < a -> Esqr milne a = / a ^ 2.
Proof.
  intros Ha. unfold Esqr, Omega_m, Omega_k, Omega_de, Omega, Omega_m. simpl _Omega_b. simpl _Omega_c. simpl _Omega_k.
  replace (1.0 - 1 - (0 + 0)) with 0 by lra. ring.
Qed.
Lemma milne_expanding : expanding milne.
Proof. intros a Ha. rewrite milne_E by assumption. apply Rinv_0_lt_compat, pow_lt, Ha. Qed.
Lemma milne_rate x : dchioverda milne (exp x) * exp x = const_rh.
Proof.
  pose proof (exp_pos x). unfold dchioverda. rewrite milne_E by assumption.
  rewrite sqrt_inv, sqrt_pow2 by lra. field. lra.
Qed.
Lemma milne_table la n i : (i < n)%nat -> (2 <= n)%nat -> el (snd (chi_table milne la n)) i = - const_rh * ln (anode la n i).
Proof.
  intros Hi Hn. rewrite chi_table_el by assumption.
  assert (S : forall k, Rsum k (chistep milne la n) = const_rh * (ln (anode la n k) - ln (anode la n 0))).
  { induction k as [ | k IH]; [ simpl; ring | ]. change (Rsum (S k) ?g) with (Rsum k g + g k). rewrite IH. unfold chistep.
    rewrite (qstep_ext _ (fun _ => const_rh)) by (intros x; apply milne_rate). rewrite qstep_const, Nat.add_1_r. ring. }
  rewrite !S, anode_last, ln_1 by assumption. ring.
Qed.

Lemma node170 : anode (-3) 256 170 = pow10 (-1).
Proof.
  unfold anode. f_equal. replace (INR 170) with 170 by (rewrite INR_IZR_INZ; reflexivity).
  replace (INR (256 - 1)) with 255 by (rewrite INR_IZR_INZ; reflexivity). lra.
Qed.
Lemma pow10_m1 : pow10 (-1) = / 10.
Proof. unfold pow10. replace (-1 * ln 10) with (- ln 10) by ring. rewrite exp_Ropp, exp_ln by lra. reflexivity. Qed.
Lemma milne_256 : chi_of milne (-3) 256 (pow10 (-1)) = const_rh * ln 10.
Proof.
  rewrite <- node170, chi_of_node by (apply milne_expanding || lra || lia).
  rewrite milne_table, node170, ln_pow10 by lia. ring.
Qed.
Lemma milne_3 : chi_of milne (-3) 3 (pow10 (-1)) <> const_rh * ln 10.
Proof.
  pose proof ln10_pos as L. assert (Hrh : 0 < const_rh) by (unfold const_rh; lra).
  destruct (chi_table_length milne (-3) 3) as [L1 L2].
  assert (A1 : anode (-3) 3 1 = pow10 (-1.5)) by (unfold anode; f_equal; simpl INR; lra).
  assert (A2 : anode (-3) 3 2 = 1) by (apply (anode_last (-3) 3); lia).
  assert (X1 : pow10 (-1.5) < / 10) by (rewrite <- pow10_m1; apply pow10_lt; lra).
  pose proof (pow10_pos (-1.5)) as X0.
  unfold chi_of. rewrite chi_table_fst in *.
  rewrite (interp1_incr _ _ _ 1); rewrite ?L1, ?L2; auto; try lia.
  2: { apply logspace_incr; [ lra | lia ]. }
  2: { rewrite !logspace_el by lia. simpl Nat.add. rewrite A1, A2, pow10_m1. lra. }
  unfold cell, line. rewrite !logspace_el, !milne_table by lia. simpl Nat.add. rewrite A1, A2, ln_1, ln_pow10, pow10_m1.
  set (x0 := pow10 (-1.5)) in *. replace (-1.5) with (-3 / 2) by lra.
  replace (- const_rh * (-3 / 2 * ln 10) + (- const_rh * 0 - - const_rh * (-3 / 2 * ln 10)) / (1 - x0) * (/ 10 - x0))
    with (const_rh * ln 10 * ((27 / 20) / (1 - x0))) by (field; lra).
  assert (P : 1 < (27 / 20) / (1 - x0)).
  { apply Rmult_lt_reg_r with (1 - x0); [ lra | ]. unfold Rdiv. rewrite Rmult_assoc, Rinv_l; lra. }
  unfold clip_lo. assert (Q : 0 < const_rh * ln 10) by (now apply Rmult_lt_0_compat).
  rewrite Rmax_left by nra. nra.
Qed.
Lemma table_parameters_ignored :
  exists c hist a la n, fresh c /\ la < 0 /\ (3 <= n)%nat /\
    fst (radial_comoving_distance (run hist c) a la n) <> fst (radial_comoving_distance c a la n).
Proof.
  exists milne, [Radial (Scalar 1)], (Scalar (pow10 (-1))), (-3), 3%nat.
  split; [ apply milne_fresh | split; [ lra | split; [ lia | ]]].
  pose proof (requested_table milne [] (Scalar (pow10 (-1))) (-3) 3 milne_fresh (Forall_nil _)) as E2. simpl run in E2. rewrite E2. clear E2.
  assert (E1 : fst (radial_comoving_distance (run [Radial (Scalar 1)] milne) (Scalar (pow10 (-1))) (-3) 3) = [chi_of milne (-3) 256 (pow10 (-1))]).
  { unfold run, fold_left, run1, rcd_default, radial_comoving_distance, chi_cache.
    change (ws_chi milne) with (@None (list R * list R)). cbv iota zeta.
    unfold chi_of. destruct (chi_table milne (-3) 256) as [at_ ct]. reflexivity. }
  rewrite E1. simpl. intros H. injection H as H. rewrite milne_256 in H. apply milne_3. now symmetry.
Qed.

(** ** the inverse *)
Definition inv_of (c : cosmology) (x : R) : R := interp1 x (snd (chi_table c (-3) 256)) (fst (chi_table c (-3) 256)).
Lemma a_of_chi_value c0 c v : inv_ws c0 c -> fst (a_of_chi c v) = map (inv_of c0) (atleast_1d v).
Proof. intros HI. now rewrite (proj1 (aofchi_inv c0 c v HI)). Qed.

Lemma inverse_at_nodes c i : reachable c -> expanding c -> (1 <= i < 256)%nat ->
  fst (a_of_chi c (Scalar (chi c (table_node 256 i)))) = [table_node 256 i].
Proof.
  intros Hr HE Hi. destruct (inv_reach c Hr) as (c0 & HI & EE & _).
  assert (HE0 : expanding c0) by (intros t Ht; rewrite <- EE; now apply HE).
  rewrite (a_of_chi_value c0 c _ HI), (chi_value c0 c _ HI). simpl. f_equal. unfold inv_of.
  rewrite <- anode_table. apply chi_inverse_node; auto; lra || lia.
Qed.

Lemma inverse_error c i x : reachable c -> expanding c -> (2 <= i)%nat -> (i + 1 < 256)%nat ->
  let a := table_node 256 in let X := fun k => chi c (a k) in
  let slope := fun k => (a (k + 1)%nat - a k) / (X (k + 1)%nat - X k) in
  X (i + 1)%nat <= x <= X i ->
  exists y k, fst (a_of_chi c (Scalar x)) = [y] /\ (i - 1 <= k <= i + 1)%nat /\ (k + 1 < 256)%nat /\
    y = line (X k) (a k) (X (k + 1)%nat) (a (k + 1)%nat) x /\
    Rabs (y - line (X i) (a i) (X (i + 1)%nat) (a (i + 1)%nat) x) <= Rabs (slope k - slope i) * ((X i - X (i + 1)%nat) / 2).
Proof.
  intros Hr HE H2 Hi a X sl Hx. destruct (inv_reach c Hr) as (c0 & HI & EE & _).
  assert (HE0 : expanding c0) by (intros t Ht; rewrite <- EE; now apply HE).
  destruct (chi_table_length c0 (-3) 256) as [L1 L2].
  assert (HX : forall k, (1 <= k < 256)%nat -> X k = el (snd (chi_table c0 (-3) 256)) k).
  { intros k Hk. unfold X, a. rewrite (chi_value c0 c _ HI), <- anode_table. apply chi_of_node; auto; lra || lia. }
  assert (HA : forall k, (k < 256)%nat -> a k = el (fst (chi_table c0 (-3) 256)) k).
  { intros k Hk. unfold a. rewrite <- anode_table, chi_table_fst. symmetry. now apply logspace_el. }
  rewrite !HX in Hx by lia.
  destruct (interp1_decr x (snd (chi_table c0 (-3) 256)) (fst (chi_table c0 (-3) 256)) i) as (k & K1 & K2 & K3 & K4 & K5);
    rewrite ?L1, ?L2 in *; auto; try lia.
  { apply chi_table_decr; auto; lra || lia. }
  exists (inv_of c0 x), k. rewrite (a_of_chi_value c0 c _ HI). unfold sl.
  split; [ reflexivity | split; [ lia | split; [ lia | ]]].
  rewrite !HX, !HA by lia. split; [ exact K4 | exact K5 ].
Qed.

Lemma inverse_not_interpolant :
  exists c i x, fresh c /\ expanding c /\ (2 <= i)%nat /\ (i + 1 < 256)%nat /\
    let a := table_node 256 in let X := fun k => chi c (a k) in
    X (i + 1)%nat <= x <= X i /\
    fst (a_of_chi c (Scalar x)) <> [line (X i) (a i) (X (i + 1)%nat) (a (i + 1)%nat) x].
Proof.
  set (T := chi_table milne (-3) 256).
  set (x := (3 * el (snd T) 2 + el (snd T) 3) / 4).
  exists milne, 2%nat, x. split; [ apply milne_fresh | split; [ apply milne_expanding | split; [ lia | split; [ lia | ]]]].
  intros a X. pose proof (inv_fresh milne milne_fresh) as HI.
  destruct (chi_table_length milne (-3) 256) as [L1 L2]. fold T in L1, L2.
  assert (HX : forall k, (1 <= k < 256)%nat -> X k = el (snd T) k).
  { intros k Hk. unfold X, a. rewrite (chi_value milne milne _ HI), <- anode_table. apply chi_of_node; auto; lra || lia || apply milne_expanding. }
  assert (HA : forall k, (k < 256)%nat -> a k = el (fst T) k).
  { intros k Hk. unfold a, T. rewrite <- anode_table, chi_table_fst. symmetry. now apply logspace_el. }
  assert (Hd : decr (snd T)) by (apply chi_table_decr; [ apply milne_expanding | lra | lia ]).
  assert (D23 : el (snd T) 3 < el (snd T) 2) by (apply Hd; rewrite L2; lia).
  change (2 + 1)%nat with 3%nat. rewrite !HX, !HA by lia.
  split; [ unfold x; lra | ].
  rewrite (a_of_chi_value milne milne _ HI). simpl atleast_1d. simpl map. intros E. injection E as E.
  unfold inv_of in E. fold T in E.
  rewrite interp1_decr_raw in E by (rewrite ?L1, ?L2; auto; lia). rewrite L2 in E.
  assert (NR : nearest x (snd T) = 2%nat).
  { destruct (nearest_decr x (snd T) 2 Hd ltac:(rewrite L2; lia) ltac:(change (2 + 1)%nat with 3%nat; unfold x; lra)) as [[N | N] _]; [ exact N | ].
    exfalso. assert (Hne : snd T <> []) by (intros Z; rewrite Z in L2; discriminate L2).
    destruct (nearest_spec x (snd T) Hne) as [_ Hmin]. specialize (Hmin 2%nat ltac:(rewrite L2; lia)).
    rewrite N in Hmin. change (2 + 1)%nat with 3%nat in Hmin.
    rewrite (Rabs_right (x - el (snd T) 3)) in Hmin by (unfold x; lra).
    rewrite (Rabs_left1 (x - el (snd T) 2)) in Hmin by (unfold x; lra). unfold x in Hmin. lra. }
  assert (RR : near1 x (snd T) = 2%nat) by (unfold near1; rewrite NR, L2; reflexivity).
  rewrite RR in E. change (if (2 <? 256 - 2)%nat then (2 - 1)%nat else (256 - 2)%nat) with 1%nat in E.
  change (line (el (snd T) 2) (el (fst T) 2) (el (snd T) 3) (el (fst T) 3) x) with (cell (snd T) (fst T) (1 + 1) x) in E.
  assert (N1 : el (snd T) 1 <> el (snd T) (1 + 1)) by (apply decr_neq; [ assumption | rewrite L2; lia ]).
  assert (N2 : el (snd T) (1 + 1) <> el (snd T) (1 + 2)) by (assert (N3 := decr_neq _ Hd 2%nat ltac:(rewrite L2; lia)); exact N3).
  pose proof (cell_diff_left (snd T) (fst T) 1 x N1 N2) as CD. rewrite E in CD.
  assert (Z : (slope (snd T) (fst T) (1 + 1) - slope (snd T) (fst T) 1) * (x - el (snd T) (1 + 1)) = 0) by (rewrite <- CD; ring).
  clear CD E. apply Rmult_integral in Z. destruct Z as [Z | Z].
  - unfold slope in Z. change (1 + 1 + 1)%nat with 3%nat in Z. change (1 + 1)%nat with 2%nat in Z.
    unfold T in Z. rewrite chi_table_fst, !logspace_el, !milne_table in Z by lia.
    pose proof (ln_anode_step (-3) 256 2) as S2. pose proof (ln_anode_step (-3) 256 1) as S1.
    change (2 + 1)%nat with 3%nat in S2. change (1 + 1)%nat with 2%nat in S1.
    pose proof (ln_step_pos (-3) 256 ltac:(lra) ltac:(lia)) as SP.
    set (d := (0.0 - -3) / INR (256 - 1) * ln 10) in *.
    assert (Q : forall k, anode (-3) 256 (k + 1) = anode (-3) 256 k * exp d).
    { intros k. unfold d, anode, pow10. rewrite <- exp_plus. f_equal. rewrite plus_INR. simpl (INR 1). ring. }
    pose proof (Q 1%nat) as Q1. pose proof (Q 2%nat) as Q2. change (1 + 1)%nat with 2%nat in Q1. change (2 + 1)%nat with 3%nat in Q2.
    pose proof (anode_pos (-3) 256 1) as P1. pose proof (exp_ineq1 d ltac:(lra)) as ED.
    replace (- const_rh * ln (anode (-3) 256 3) - - const_rh * ln (anode (-3) 256 2)) with (- const_rh * d) in Z by (rewrite <- S2; ring).
    replace (- const_rh * ln (anode (-3) 256 2) - - const_rh * ln (anode (-3) 256 1)) with (- const_rh * d) in Z by (rewrite <- S1; ring).
    rewrite Q2, Q1 in Z. assert (Hrh : 0 < const_rh) by (unfold const_rh; lra).
    set (u := anode (-3) 256 1) in *. set (e := exp d) in *.
    assert (W : u * (e - 1) * (e - 1) = 0).
    { replace (u * (e - 1) * (e - 1)) with (- const_rh * d * ((u * e * e - u * e) / (- const_rh * d) - (u * e - u) / (- const_rh * d))) by (field; lra).
      rewrite Z. ring. }
    assert (0 < u * (e - 1) * (e - 1)) by (apply Rmult_lt_0_compat; [ apply Rmult_lt_0_compat | ]; lra). lra.
  - change (1 + 1)%nat with 2%nat in Z. unfold x in Z. lra.
Qed.
