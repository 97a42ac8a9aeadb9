(** * Proofs about the growth tables, for any number of nodes *)
From Coquelicot Require Import Coquelicot.
From Verif Require Import Np NpLemmas Core Ode OdeSpec OdeProofs Interp InterpProofs Background BgSpec BgAlgebra BgTables.

(** ** gamma parametrisation *)
Lemma rpow_nonneg x y : 0 <= rpow x y.
Proof. unfold rpow. destruct (Req_EM_T x 0); [ destruct (Req_EM_T y 0); lra | left; apply exp_pos ]. Qed.
Lemma rpow_pos x y : 0 < x -> rpow x y = Rpower x y.
Proof. intros H. unfold rpow. destruct (Req_EM_T x 0); [ lra | reflexivity ]. Qed.
Lemma rpow_1 y : rpow 1 y = 1.
Proof. rewrite rpow_pos by lra. unfold Rpower. rewrite ln_1, Rmult_0_r. apply exp_0. Qed.

Definition gstep (c : cosmology) (la : R) (n : nat) : nat -> R := qstep (fun x => growth_rate_gamma1 c (exp x)) la n.

Lemma gamma_table_fst c la n : fst (growth_table_gamma c la n) = logspace la 0.0 n.
Proof. reflexivity. Qed.
Lemma gamma_table_length c la n : length (snd (growth_table_gamma c la n)) = n.
Proof.
  unfold growth_table_gamma. simpl snd. rewrite !map_length. apply (quad_length (fun x => growth_rate_gamma1 c (exp x))).
Qed.
Lemma gamma_table_el c la n i : (i < n)%nat ->
  el (snd (growth_table_gamma c la n)) i = exp (Rsum i (gstep c la n) - Rsum (n - 1) (gstep c la n)).
Proof.
  intros Hi. unfold growth_table_gamma. simpl snd.
  set (q := odeint1 (fun _ loga => growth_rate_gamma1 c (exp loga)) (ln (el (logspace la 0.0 n) 0)) (map ln (logspace la 0.0 n))).
  assert (Hq : length q = n) by (apply (quad_length (fun x => growth_rate_gamma1 c (exp x)))).
  assert (He : length (map exp q) = n) by (now rewrite map_length).
  unfold el at 1. rewrite (nth_map_lt _ (map exp q) i 0) by lia.
  rewrite lastR_el, He by lia. unfold el at 1. rewrite !(nth_map_lt exp q _ 0) by lia.
  fold (el q i). fold (el q (n - 1)). unfold q. rewrite !(quad_el (fun x => growth_rate_gamma1 c (exp x))) by lia.
  fold (gstep c la n). unfold Rdiv. rewrite <- exp_Ropp, <- exp_plus. f_equal. lra.
Qed.
Lemma gstep_nonneg c la n j : la < 0 -> (2 <= n)%nat -> 0 <= gstep c la n j.
Proof.
  intros Hla Hn. unfold gstep, qstep. rewrite ln_anode_step. pose proof (ln_step_pos la n Hla Hn).
  set (s := ln (anode la n j)). set (t := ln (anode la n (j + 1))).
  pose proof (rpow_nonneg (Omega_m_a c (exp s)) (gamma_of c)). pose proof (rpow_nonneg (Omega_m_a c (exp t)) (gamma_of c)).
  pose proof (rpow_nonneg (Omega_m_a c (exp ((s + t) / 2))) (gamma_of c)).
  fold (growth_rate_gamma1 c (exp s)) in *. fold (growth_rate_gamma1 c (exp t)) in *.
  fold (growth_rate_gamma1 c (exp ((s + t) / 2))) in *.
  apply Rmult_le_pos; lra.
Qed.
Lemma Rsum_le_mono f i j : (forall k, 0 <= f k) -> (i <= j)%nat -> Rsum i f <= Rsum j f.
Proof.
  intros Hf Hij. induction j as [ | j IH]; [ replace i with 0%nat by lia; simpl; lra | ].
  destruct (Nat.eq_dec i (S j)) as [-> | Hne]; [ lra | ].
  change (Rsum (S j) f) with (Rsum j f + f j). pose proof (Hf j). specialize (IH ltac:(lia)). lra.
Qed.
Lemma gamma_table_mono c la n i j : la < 0 -> (2 <= n)%nat -> (i <= j < n)%nat ->
  el (snd (growth_table_gamma c la n)) i <= el (snd (growth_table_gamma c la n)) j.
Proof.
  intros Hla Hn Hij. rewrite !gamma_table_el by lia.
  assert (Rsum i (gstep c la n) <= Rsum j (gstep c la n)) by (apply Rsum_le_mono; [ intros k; now apply gstep_nonneg | lia ]).
  destruct (Req_dec (Rsum i (gstep c la n)) (Rsum j (gstep c la n))) as [-> | ]; [ lra | ].
  left; apply exp_increasing; lra.
Qed.
Lemma gamma_table_last c la n : (2 <= n)%nat -> el (snd (growth_table_gamma c la n)) (n - 1) = 1.
Proof. intros Hn. rewrite gamma_table_el by lia. rewrite <- exp_0. f_equal. ring. Qed.
Lemma gamma_table_range c la n i : la < 0 -> (2 <= n)%nat -> (i < n)%nat ->
  0 < el (snd (growth_table_gamma c la n)) i <= 1.
Proof.
  intros Hla Hn Hi. split.
  - rewrite gamma_table_el by lia. apply exp_pos.
  - rewrite <- (gamma_table_last c la n) by lia. apply gamma_table_mono; auto; lia.
Qed.

(** ** ODE parametrisation *)
Definition ode_y (c : cosmology) (la : R) (n : nat) : list (R * R) :=
  odeint2 (D_derivs c) (anode la n 0, 1) (logspace la 0.0 n).

Lemma ode_y_spec c la n : (1 <= n)%nat ->
  length (ode_y c la n) = n /\ nth 0 (ode_y c la n) (0, 0) = (anode la n 0, 1) /\
  forall i, (i + 1 < n)%nat -> forall k,
    pvec (nth (i + 1) (ode_y c la n) (0, 0)) k =
    rk4_vec (lift (D_derivs c)) (pvec (nth i (ode_y c la n) (0, 0))) (anode la n i) (anode la n (i + 1)) k.
Proof.
  intros Hn. assert (Hl := length_logspace la n).
  destruct (odeint2_spec (D_derivs c) (anode la n 0, 1) (logspace la 0.0 n)) as (L & H0 & HS).
  { intros E. rewrite E in Hl. simpl in Hl. lia. }
  fold (ode_y c la n) in *. rewrite Hl in *. split; [ assumption | split; [ assumption | ]].
  intros i Hi k. rewrite HS by assumption. now rewrite !logspace_el by lia.
Qed.

Lemma ODE_table_el c la n : (1 <= n)%nat ->
  let T := growth_table_ODE c la n in let y := ode_y c la n in
  let last := fst (nth (n - 1) y (0, 0)) in
  fst (fst T) = logspace la 0.0 n /\ length (snd (fst T)) = n /\ length (snd T) = n /\
  (forall i, (i < n)%nat -> el (snd (fst T)) i = fst (nth i y (0, 0)) / last) /\
  (forall i, (i < n)%nat -> el (snd T) i = snd (nth i y (0, 0)) / last * anode la n i / (fst (nth i y (0, 0)) / last)).
Proof.
  intros Hn T y last. destruct (ode_y_spec c la n Hn) as (Hy & _ & _). fold y in Hy.
  assert (ET : T = (logspace la 0.0 n, map (fun v => v / lastR (map fst y)) (map fst y),
     vdiv (vmul (map (fun v => v / lastR (map fst y)) (map snd y)) (logspace la 0.0 n)) (map (fun v => v / lastR (map fst y)) (map fst y)))).
  { unfold T, growth_table_ODE, y, ode_y. rewrite logspace_el by lia. replace (1.0) with 1 by lra. reflexivity. }
  assert (EL : lastR (map fst y) = last).
  { rewrite lastR_el by (rewrite map_length; lia). rewrite map_length, Hy. unfold el.
    now rewrite (nth_map_lt fst y _ (0, 0)) by lia. }
  rewrite ET, EL. cbn [fst snd]. split; [ reflexivity | ].
  assert (L1 : length (map (fun v => v / last) (map fst y)) = n) by (now rewrite !map_length).
  assert (L2 : length (vmul (map (fun v => v / last) (map snd y)) (logspace la 0.0 n)) = n).
  { unfold vmul. rewrite length_map2, !map_length, length_logspace. lia. }
  split; [ exact L1 | split; [ unfold vdiv; rewrite length_map2; lia | ]].
  assert (G : forall i, (i < n)%nat -> el (map (fun v => v / last) (map fst y)) i = fst (nth i y (0, 0)) / last).
  { intros i Hi. unfold el. rewrite map_map, (nth_map_lt _ y i (0, 0)) by lia. reflexivity. }
  split; [ exact G | ]. intros i Hi. unfold el, vdiv. rewrite (nth_map2 _ _ _ i 0 0) by lia.
  fold (el (map (fun v => v / last) (map fst y)) i). rewrite G by assumption.
  unfold vmul. rewrite (nth_map2 _ _ _ i 0 0) by (rewrite ?map_length, ?length_logspace; lia).
  fold (el (logspace la 0.0 n) i). rewrite logspace_el by assumption.
  rewrite map_map, (nth_map_lt _ y i (0, 0)) by lia. reflexivity.
Qed.

(** ** Einstein-de Sitter *)
Lemma eds_de c : einstein_de_sitter c -> Omega_de c = 0.
Proof. intros [H1 H2]. pose proof (fractions_today c). lra. Qed.
Lemma eds_fractions c a : einstein_de_sitter c -> 0 < a -> Omega_m_a c a = 1 /\ Omega_de_a c a = 0.
Proof.
  intros HE Ha. pose proof (eds_de c HE) as Hd. destruct HE as [H1 H2].
  unfold Omega_m_a, Omega_de_a, Esqr. rewrite Hd, H1, H2. assert (0 < / a ^ 3) by (apply Rinv_0_lt_compat, pow_lt, Ha).
  split; field; nra.
Qed.
Lemma eds_derivs c y x : einstein_de_sitter c -> 0 < x ->
  D_derivs c y x = (snd y, - (1.5 / x) * snd y + 1.5 / x ^ 2 * fst y).
Proof.
  intros HE Hx. unfold D_derivs. destruct (eds_fractions c x HE Hx) as [-> ->].
  f_equal. replace (1.5) with (3 / 2) by lra. replace (2.0) with 2 by lra. replace (0.5) with (1 / 2) by lra.
  field. lra.
Qed.
Lemma eds_step c s t k : einstein_de_sitter c -> 0 < s < t ->
  rk4_vec (lift (D_derivs c)) (pvec (s, 1)) s t k = pvec (t, 1) k.
Proof.
  intros HE Hst. unfold rk4_vec, lift.
  assert (K : forall x j, 0 < x -> pvec (D_derivs c (x, 1) x) j = pvec (1, 0) j).
  { intros x j Hx. rewrite eds_derivs by assumption. unfold pvec. destruct (Nat.eqb j 0); simpl; [ reflexivity | ].
    field. lra. }
  set (h := t - s).
  assert (E1 : forall j, pvec (D_derivs c (pvec (s, 1) 0%nat, pvec (s, 1) 1%nat) s) j = pvec (1, 0) j).
  { intros j. apply (K s). lra. }
  assert (E2 : forall j, pvec (D_derivs c (pvec (s, 1) 0%nat + h / 2 * pvec (1, 0) 0%nat, pvec (s, 1) 1%nat + h / 2 * pvec (1, 0) 1%nat) (s + h / 2)) j = pvec (1, 0) j).
  { intros j. unfold pvec at 2 3 4 5. cbn [Nat.eqb fst snd].
    replace (s + h / 2 * 1) with (s + h / 2) by ring. replace (1 + h / 2 * 0) with 1 by ring. apply K. unfold h; lra. }
  assert (E4 : forall j, pvec (D_derivs c (pvec (s, 1) 0%nat + h * pvec (1, 0) 0%nat, pvec (s, 1) 1%nat + h * pvec (1, 0) 1%nat) t) j = pvec (1, 0) j).
  { intros j. unfold pvec at 2 3 4 5. cbn [Nat.eqb fst snd].
    replace (s + h * 1) with t by (unfold h; ring). replace (1 + h * 0) with 1 by ring. apply K. lra. }
  cbv zeta. rewrite !E1, !E2, !E4. unfold pvec. destruct (Nat.eqb k 0); simpl; unfold h; field.
Qed.
Lemma eds_ode c la n : einstein_de_sitter c -> la < 0 -> (2 <= n)%nat ->
  forall i, (i < n)%nat -> nth i (ode_y c la n) (0, 0) = (anode la n i, 1).
Proof.
  intros HE Hla Hn. destruct (ode_y_spec c la n ltac:(lia)) as (_ & H0 & HS).
  induction i as [ | i IH]; intros Hi; [ exact H0 | ]. specialize (IH ltac:(lia)).
  specialize (HS i ltac:(lia)). rewrite IH in HS. rewrite Nat.add_1_r in HS.
  assert (Hst : 0 < anode la n i < anode la n (S i)) by (split; [ apply anode_pos | apply anode_lt; auto ]).
  pose proof (HS 0%nat) as P0. pose proof (HS 1%nat) as P1.
  rewrite (eds_step c _ _ _ HE Hst) in P0. rewrite (eds_step c _ _ _ HE Hst) in P1. unfold pvec in P0, P1; simpl in P0, P1.
  destruct (nth (S i) (ode_y c la n) (0, 0)) as [u v]. simpl in *. congruence.
Qed.
Lemma eds_ODE_table c la n : einstein_de_sitter c -> la < 0 -> (2 <= n)%nat -> forall i, (i < n)%nat ->
  el (snd (fst (growth_table_ODE c la n))) i = anode la n i /\ el (snd (growth_table_ODE c la n)) i = 1.
Proof.
  intros HE Hla Hn i Hi. destruct (ODE_table_el c la n ltac:(lia)) as (_ & _ & _ & G & F).
  pose proof (anode_pos la n i).
  rewrite G, F, !(eds_ode c la n HE Hla Hn) by lia. simpl fst. simpl snd. rewrite anode_last by lia.
  split; field; lra.
Qed.
Lemma eds_rate c a : einstein_de_sitter c -> 0 < a -> growth_rate_gamma1 c a = 1.
Proof. intros HE Ha. unfold growth_rate_gamma1. destruct (eds_fractions c a HE Ha) as [-> _]. apply rpow_1. Qed.
Lemma eds_gamma_table c la n i : einstein_de_sitter c -> (2 <= n)%nat -> (i < n)%nat ->
  el (snd (growth_table_gamma c la n)) i = anode la n i.
Proof.
  intros HE Hn Hi. rewrite gamma_table_el by assumption.
  assert (S : forall k, Rsum k (gstep c la n) = ln (anode la n k) - ln (anode la n 0)).
  { induction k as [ | k IH]; [ simpl; ring | ]. change (Rsum (S k) (gstep c la n)) with (Rsum k (gstep c la n) + gstep c la n k).
    rewrite IH. unfold gstep. rewrite (qstep_ext _ (fun _ => 1)) by (intros x; apply eds_rate; [ assumption | apply exp_pos ]).
    rewrite qstep_const, Nat.add_1_r. ring. }
  rewrite !S, anode_last, ln_1 by lia.
  replace (ln (anode la n i) - ln (anode la n 0) - (0 - ln (anode la n 0))) with (ln (anode la n i)) by ring.
  apply exp_ln, anode_pos.
Qed.
