(** * The growth tables converge to the solution of the growth equation *)
From Coq Require Import Ranalysis5.
From Coquelicot Require Import Coquelicot.
From Verif Require Import Np NpLemmas Core Interp Ode OdeSpec OdeProofs NumFinal Background BgSpec BgAlgebra BgTables BgGrowth OdeConvSpec OdeConv GrowthConvSpec RedshiftShape.
Opaque chi_table growth_table_gamma logspace.

Section Coefficients.
Variable c : cosmology.
Hypothesis HE : expanding c.

Definition Xd (a : R) : R := -3 * Omega_m c / a ^ 4 - 2 * Omega_k c / a ^ 3 + Omega_de c * exp (f_de c a) * (-3 * (1 + w c a) / a).
Lemma Esqr_is_derive a : 0 < a -> is_derive (Esqr c) a (Xd a).
Proof.
  intros Ha. pose proof (f_de_derivative c a Ha) as D. unfold Esqr, Xd. set (F := f_de c) in *. set (F' := -3 * (1 + w c a) / a) in *. clearbody F F'.
  generalize (Omega_m c) (Omega_k c) (Omega_de c). intros m k l.
  auto_derive; [ repeat split; try (apply Rgt_not_eq; apply pow_lt; exact Ha); try (apply Rgt_not_eq; repeat apply Rmult_lt_0_compat; lra); try (now exists F') | ].
  replace (Derive (fun x => F x) a) with F' by (symmetry; apply is_derive_unique; exact D). field. lra.
Qed.
Definition qc (a : R) : R := 3 / a + Xd a / (2 * Esqr c a).
Definition rc (a : R) : R := 3 / 2 * Omega_m_a c a / a ^ 2.
Lemma derivs_eq y a : 0 < a -> D_derivs c y a = (snd y, - qc a * snd y + rc a * fst y).
Proof.
  intros Ha. unfold D_derivs. f_equal. f_equal; [ f_equal; f_equal | f_equal ].
  - pose proof (HE a Ha) as P. unfold qc, Omega_m_a, Omega_de_a, Xd.
    assert (K : Omega_k c * / a ^ 2 = Esqr c a - Omega_m c * / a ^ 3 - Omega_de c * exp (f_de c a)) by (unfold Esqr; ring).
    assert (K' : -2 * Omega_k c / a ^ 3 = - 2 / a * (Esqr c a - Omega_m c * / a ^ 3 - Omega_de c * exp (f_de c a))) by (rewrite <- K; field; lra).
    replace (-3 * Omega_m c / a ^ 4 - 2 * Omega_k c / a ^ 3) with (-3 * Omega_m c / a ^ 4 + -2 * Omega_k c / a ^ 3) by (field; lra). rewrite K'.
    generalize dependent (Esqr c a). intros X P _ _. generalize (exp (f_de c a)) (w c a) (Omega_m c) (Omega_de c). intros F W m l.
    replace 2.0 with 2 by lra. replace 0.5 with (1 / 2) by lra. replace 1.0 with 1 by lra. replace 3.0 with 3 by lra. field. lra.
  - unfold rc. replace 1.5 with (3 / 2) by lra. field. lra.
Qed.
Lemma Esqr_cont a : 0 < a -> continuous (Esqr c) a.
Proof. intros Ha. apply (ex_derive_continuous (V := R_NormedModule)). exists (Xd a). now apply Esqr_is_derive. Qed.
Lemma Xd_cont a : 0 < a -> continuous Xd a.
Proof.
  intros Ha. apply (ex_derive_continuous (V := R_NormedModule)). pose proof (f_de_derivative c a Ha) as D. unfold Xd, w. set (F := f_de c) in *.
  assert (D' : ex_derive F a) by (eexists; exact D). clearbody F. clear D. generalize (Omega_m c) (Omega_k c) (Omega_de c) (_w0 c) (_wa c) (1.0). intros m k l w0 wa one.
  auto_derive; repeat split; try assumption; try (apply Rgt_not_eq; apply pow_lt; exact Ha); try (apply Rgt_not_eq; repeat apply Rmult_lt_0_compat; lra); lra.
Qed.
Lemma qc_cont a : 0 < a -> continuous qc a.
Proof.
  intros Ha. unfold qc. apply (continuous_plus (V := R_NormedModule) (fun a => 3 / a) (fun a => Xd a / (2 * Esqr c a))).
  - apply (ex_derive_continuous (V := R_NormedModule)). auto_derive. lra.
  - apply (continuous_mult (K := R_AbsRing) Xd (fun a => / (2 * Esqr c a))); [ now apply Xd_cont | ].
    apply continuous_Rinv_comp; [ | pose proof (HE a Ha); lra ]. apply (continuous_mult (K := R_AbsRing) (fun _ => 2) (Esqr c)); [ apply continuous_const | now apply Esqr_cont ].
Qed.
Lemma rc_cont a : 0 < a -> continuous rc a.
Proof.
  intros Ha. unfold rc, Omega_m_a. pose proof (HE a Ha) as P. apply (ex_derive_continuous (V := R_NormedModule)). pose proof (Esqr_is_derive a Ha) as D.
  assert (D' : ex_derive (Esqr c) a) by (eexists; exact D). set (X := Esqr c) in *. clearbody X. clear D. generalize (Omega_m c). intros m.
  auto_derive; repeat split; try assumption; try lra; try (apply Rgt_not_eq; apply pow_lt; exact Ha); try (apply Rgt_not_eq; repeat apply Rmult_lt_0_compat; lra).
Qed.
Lemma Derive_Esqr a : 0 < a -> Derive (Esqr c) a = Xd a.
Proof. intros Ha. apply is_derive_unique. now apply Esqr_is_derive. Qed.

(** bounded coefficients on [a0, 1] *)
Lemma bounded_on f a b : a <= b -> (forall x, a <= x <= b -> continuous f x) -> exists M, 0 <= M /\ forall x, a <= x <= b -> Rabs (f x) <= M.
Proof.
  intros Hab Hc. destruct (continuity_ab_maj (fun x => Rabs (f x)) a b Hab) as (m & Hm & Hm').
  - intros x Hx. apply continuity_pt_filterlim. apply (continuous_comp f Rabs); [ now apply Hc | apply continuous_Rabs ].
  - exists (Rabs (f m)). split; [ apply Rabs_pos | exact Hm ].
Qed.
Lemma derivs_lipschitz a0 : 0 < a0 <= 1 -> exists L, lipschitz2 (D_derivs c) L a0 1.
Proof.
  intros Ha. destruct (bounded_on qc a0 1 ltac:(lra)) as (Q & Q0 & HQ); [ intros; apply qc_cont; lra | ].
  destruct (bounded_on rc a0 1 ltac:(lra)) as (S & S0 & HS); [ intros; apply rc_cont; lra | ].
  exists (1 + Q + S). split; [ lra | ]. intros t [p q] [p' q'] Ht. rewrite !derivs_eq by lra. unfold dist2. simpl.
  specialize (HQ t Ht). specialize (HS t Ht).
  replace (- qc t * q + rc t * p - (- qc t * q' + rc t * p')) with (- (qc t * (q - q')) + rc t * (p - p')) by ring.
  pose proof (Rabs_triang (- (qc t * (q - q'))) (rc t * (p - p'))) as T. rewrite Rabs_Ropp, !Rabs_mult in T.
  pose proof (Rabs_pos (q - q')). pose proof (Rabs_pos (p - p')). nra.
Qed.

Section Solution.
Variables (a0 : R) (u v : R -> R).
Hypothesis Ha0 : 0 < a0 < 1.
Hypothesis Sol : growth_solution c a0 u v.

Lemma sol_solves : solves2 (D_derivs c) u v a0 1.
Proof.
  intros t Ht. destruct Sol as (_ & _ & S). destruct (S t Ht) as [Su Sv]. rewrite derivs_eq by lra. simpl. split; [ exact Su | ].
  rewrite Derive_Esqr in Sv by lra. exact Sv.
Qed.
Lemma sol_cont t : a0 <= t <= 1 -> continuous u t /\ continuous v t.
Proof. intros Ht. destruct Sol as (_ & _ & S). destruct (S t Ht) as [Su Sv]. split; apply (ex_derive_continuous (V := R_NormedModule)); eexists; eassumption. Qed.
Lemma sol_rhs_cont t : a0 <= t <= 1 ->
  continuity_pt (fun t => fst (D_derivs c (u t, v t) t)) t /\ continuity_pt (fun t => snd (D_derivs c (u t, v t) t)) t.
Proof.
  intros Ht. destruct (sol_cont t Ht) as [Cu Cv]. split; apply continuity_pt_filterlim; [ exact Cv | ].
  change (continuous (fun t => snd (D_derivs c (u t, v t) t)) t).
  apply (continuous_ext_loc _ (fun t => - qc t * v t + rc t * u t)).
  - exists (mkposreal a0 (proj1 Ha0)). intros x Hx. unfold ball in Hx. simpl in Hx. unfold AbsRing_ball, abs, minus, plus, opp in Hx. simpl in Hx. apply Rabs_def2 in Hx.
    rewrite derivs_eq by lra. reflexivity.
  - apply (continuous_plus (V := R_NormedModule)).
    + apply (continuous_mult (K := R_AbsRing)); [ | exact Cv ]. apply (continuous_opp (V := R_NormedModule)). apply qc_cont. lra.
    + apply (continuous_mult (K := R_AbsRing)); [ | exact Cu ]. apply rc_cont. lra.
Qed.

(** positivity: a^3 E D D' does not decrease *)
Lemma E_derive a : 0 < a -> is_derive (fun a => a ^ 3 * sqrt (Esqr c a)) a (a ^ 3 * sqrt (Esqr c a) * qc a).
Proof.
  intros Ha. pose proof (HE a Ha) as P. pose proof (Esqr_is_derive a Ha) as D. unfold qc. set (X := Esqr c) in *. set (X' := Xd a) in *. clearbody X X'.
  auto_derive; [ split; [ eexists; exact D | split; [ exact P | exact I ]] | ]. replace (Derive (fun x => X x) a) with X' by (symmetry; apply is_derive_unique; exact D).
  set (s := sqrt (X a)). assert (S : 0 < s) by (now apply sqrt_lt_R0). assert (E : X a = s * s) by (unfold s; rewrite sqrt_sqrt; lra). rewrite E. field. lra.
Qed.
Lemma product_pos t : 0 <= Omega_m c -> a0 <= t <= 1 -> 0 < u t * v t.
Proof.
  intros Hm Ht. set (P := fun a => a ^ 3 * sqrt (Esqr c a)). set (G := fun a => P a * (u a * v a)).
  assert (PP : forall a, 0 < a -> 0 < P a) by (intros a Ha; unfold P; apply Rmult_lt_0_compat; [ now apply pow_lt | apply sqrt_lt_R0; now apply HE ]).
  assert (DG : forall a, a0 <= a <= 1 -> is_derive G a (P a * (v a ^ 2 + rc a * u a ^ 2))).
  { intros a Ha. destruct (sol_solves a Ha) as [Su Sv]. rewrite derivs_eq in Su, Sv by lra. cbn [fst snd] in Su, Sv.
    pose proof (E_derive a ltac:(lra)) as DP. change (is_derive P a (P a * qc a)) in DP. unfold G. clearbody P.
    auto_derive; [ repeat split; eexists; eassumption | ].
    replace (Derive (fun x => P x) a) with (P a * qc a) by (symmetry; apply is_derive_unique; exact DP). replace (Derive (fun x => u x) a) with (v a) by (symmetry; apply is_derive_unique; exact Su).
    replace (Derive (fun x => v x) a) with (- qc a * v a + rc a * u a) by (symmetry; apply is_derive_unique; exact Sv). ring. }
  assert (R0 : forall a, a0 <= a <= 1 -> 0 <= rc a).
  { intros a Ha. unfold rc, Omega_m_a. pose proof (HE a ltac:(lra)). assert (0 < / a ^ 3) by (apply Rinv_0_lt_compat, pow_lt; lra). assert (0 < / a ^ 2) by (apply Rinv_0_lt_compat, pow_lt; lra).
    assert (0 < / Esqr c a) by (now apply Rinv_0_lt_compat). unfold Rdiv. repeat apply Rmult_le_pos; lra. }
  assert (G a0 <= G t).
  { destruct (MVT_gen G a0 t (fun a => P a * (v a ^ 2 + rc a * u a ^ 2))) as (xi & Hxi & E).
    - rewrite Rmin_left, Rmax_right by lra. intros x Hx. apply DG. lra.
    - rewrite Rmin_left, Rmax_right by lra. intros x Hx. apply derivable_continuous_pt. eexists. apply is_derive_Reals. apply DG. lra.
    - rewrite Rmin_left, Rmax_right in Hxi by lra. pose proof (PP xi ltac:(lra)). pose proof (R0 xi ltac:(lra)). pose proof (pow2_ge_0 (v xi)). pose proof (pow2_ge_0 (u xi)).
      assert (0 <= P xi * (v xi ^ 2 + rc xi * u xi ^ 2)) by (apply Rmult_le_pos; [ lra | ]; assert (0 <= rc xi * u xi ^ 2) by (now apply Rmult_le_pos); lra).
      assert (0 <= P xi * (v xi ^ 2 + rc xi * u xi ^ 2) * (t - a0)) by (apply Rmult_le_pos; lra). lra. }
  assert (0 < G a0). { unfold G. destruct Sol as (-> & -> & _). apply Rmult_lt_0_compat; [ apply PP; lra | lra ]. }
  unfold G in *. pose proof (PP t ltac:(lra)). apply Rmult_lt_reg_l with (P t); lra.
Qed.
Lemma sol_pos t : 0 <= Omega_m c -> a0 <= t <= 1 -> 0 < u t /\ 0 < v t.
Proof.
  intros Hm Ht. assert (U : 0 < u t).
  { destruct (Rlt_or_le 0 (u t)) as [H | H]; [ exact H | exfalso ]. pose proof (product_pos t Hm Ht) as Pt.
    destruct (Rle_lt_or_eq_dec _ _ H) as [H' | H']; [ | rewrite H' in Pt; lra ].
    assert (A : a0 < t). { destruct (Rle_lt_or_eq_dec a0 t (proj1 Ht)) as [A | A]; [ exact A | ]. destruct Sol as (E & _). rewrite <- A, E in H'. lra. }
    destruct (Ranalysis5.IVT_interv (fun x => - u x) a0 t) as (z & Hz & Ez).
    - intros x Hx. apply continuity_pt_opp. apply continuity_pt_filterlim. apply (sol_cont x). lra.
    - exact A.
    - destruct Sol as (-> & _). lra.
    - lra.
    - pose proof (product_pos z Hm ltac:(lra)) as Pz. replace (u z) with 0 in Pz by lra. lra. }
  split; [ exact U | ]. pose proof (product_pos t Hm Ht) as Pt. apply Rmult_lt_reg_l with (u t); lra.
Qed.
Lemma sol_incr s t : 0 <= Omega_m c -> a0 <= s -> s <= t <= 1 -> u s <= u t.
Proof.
  intros Hm Hs Ht. destruct (MVT_gen u s t v) as (xi & Hxi & E).
  - rewrite Rmin_left, Rmax_right by lra. intros x Hx. apply Sol. lra.
  - rewrite Rmin_left, Rmax_right by lra. intros x Hx. apply continuity_pt_filterlim. apply (sol_cont x). lra.
  - rewrite Rmin_left, Rmax_right in Hxi by lra. pose proof (proj2 (sol_pos xi Hm ltac:(lra))). assert (0 <= v xi * (t - s)) by (apply Rmult_le_pos; lra). lra.
Qed.
End Solution.
End Coefficients.

(** ** The grids of the tables *)
Lemma anode_0 la n : anode la n 0 = pow10 la.
Proof. unfold anode. f_equal. simpl. lra. Qed.
Lemma pow10_lt1 la : la < 0 -> 0 < pow10 la < 1.
Proof. intros H. split; [ apply pow10_pos | ]. rewrite <- pow10_0. now apply pow10_lt. Qed.
Lemma anode_le1 la n i : la < 0 -> (2 <= n)%nat -> (i < n)%nat -> pow10 la <= anode la n i <= 1.
Proof.
  intros Hla Hn Hi. rewrite <- (anode_last la n Hn), <- (anode_0 la n).
  split; [ destruct (Nat.eq_dec i 0) as [-> | N]; [ lra | left; apply anode_lt; auto; lia ] | destruct (Nat.eq_dec i (n - 1)) as [-> | N]; [ lra | left; apply anode_lt; auto; lia ] ].
Qed.
Lemma anode_gap la n i : la < 0 -> (2 <= n)%nat -> (i + 1 < n)%nat -> anode la n (i + 1) - anode la n i <= - la / INR (n - 1) * ln 10.
Proof.
  intros Hla Hn Hi. pose proof (ln_anode_step la n i) as S. pose proof (anode_le1 la n (i + 1) Hla Hn ltac:(lia)) as B. pose proof (anode_pos la n i) as P0. pose proof (anode_pos la n (i + 1)) as P1.
  replace (- la / INR (n - 1) * ln 10) with (ln (anode la n (i + 1)) - ln (anode la n i)) by (rewrite S; unfold Rdiv; f_equal; f_equal; lra).
  set (x := anode la n i) in *. set (y := anode la n (i + 1)) in *.
  (* ln x - ln y <= x/y - 1 <= x - y *)
  assert (H : ln (x / y) <= x / y - 1). { pose proof (exp_ineq1_le (ln (x / y))) as H. rewrite exp_ln in H by (now apply Rdiv_lt_0_compat). lra. }
  rewrite RedshiftShape.ln_quot in H by assumption.
  assert (Hxy : x < y) by (unfold x, y; apply anode_lt; auto; lia).
  assert (G : x / y - 1 <= x - y). { apply Rmult_le_reg_r with y; [ exact P1 | ]. replace ((x / y - 1) * y) with (x - y) by (field; lra). nra. }
  lra.
Qed.
Lemma anode_convex la n i : la < 0 -> (2 <= n)%nat -> anode la n (i + 1) - anode la n i <= anode la n (i + 2) - anode la n (i + 1).
Proof.
  intros Hla Hn. set (d := (0.0 - la) / INR (n - 1)).
  assert (E : forall j, anode la n (j + 1) = anode la n j * pow10 d).
  { intros j. unfold anode. fold d. unfold pow10. rewrite plus_INR. simpl (INR 1). rewrite <- exp_plus. f_equal. ring. }
  replace (i + 2)%nat with (i + 1 + 1)%nat by lia. rewrite (E (i + 1)%nat), (E i). pose proof (anode_pos la n i). pose proof (pow10_pos d).
  pose proof (Rmult_le_pos _ _ (Rlt_le _ _ (anode_pos la n i)) (Rle_0_sqr (pow10 d - 1))) as Q. unfold Rsqr in Q. lra.
Qed.
Lemma fine_mesh la h : la < 0 -> 0 < h -> exists N, (3 <= N)%nat /\ forall n, (N <= n)%nat -> - la / INR (n - 1) * ln 10 <= h.
Proof.
  intros Hla Hh. pose proof ln10_pos as L10. destruct (nfloor_ex (- la * ln 10 / h)) as [N' [_ HN]]; [ apply Rmult_le_pos; [ apply Rmult_le_pos; lra | left; now apply Rinv_0_lt_compat ] | ]. rewrite <- S_INR in HN. set (N := S N') in *. exists (N + 3)%nat. split; [ lia | ]. intros n Hn.
  assert (Hm : INR N <= INR (n - 1)) by (apply le_INR; lia).
  assert (P : 0 < INR (n - 1)) by (apply lt_0_INR; lia).
  apply Rmult_le_reg_r with (INR (n - 1)); [ exact P | ]. replace (- la / INR (n - 1) * ln 10 * INR (n - 1)) with (- la * ln 10) by (field; lra).
  apply Rmult_le_reg_r with (/ h); [ now apply Rinv_0_lt_compat | ]. replace (h * INR (n - 1) * / h) with (INR (n - 1)) by (field; lra). unfold Rdiv in HN. lra.
Qed.
Lemma logspace_grid la n h : la < 0 -> (3 <= n)%nat -> - la / INR (n - 1) * ln 10 <= h -> grid (logspace la 0.0 n) (pow10 la) 1 h.
Proof.
  intros Hla Hn Hh. pose proof (length_logspace la n) as Ll. split; [ intros E; rewrite E in Ll; simpl in Ll; lia | ]. rewrite Ll. split; [ rewrite logspace_el by lia; apply anode_0 | ]. split.
  - intros i Hi. rewrite !logspace_el by lia. split; [ left; pose proof (anode_lt la n i (i + 1) Hla ltac:(lia) ltac:(lia)); lra | ].
    apply Rle_trans with (2 := Hh). apply anode_gap; auto; lia.
  - rewrite logspace_el by lia. rewrite anode_last by lia. lra.
Qed.

(** ** Linear interpolation in a table that is close to F *)
Lemma locate la n q : la < 0 -> (3 <= n)%nat -> pow10 la <= q <= 1 -> exists i, (i + 1 < n)%nat /\ anode la n i <= q <= anode la n (i + 1).
Proof.
  intros Hla Hn Hq. assert (G : forall k, (k + 1 < n)%nat -> q <= anode la n (k + 1) -> exists i, (i + 1 < n)%nat /\ anode la n i <= q <= anode la n (i + 1)).
  { induction k as [ | k IH ]; intros Hk H; [ exists 0%nat; rewrite anode_0; split; [ lia | lra ] | ].
    destruct (Rle_lt_dec q (anode la n (k + 1))) as [H' | H']; [ apply IH; [ lia | exact H' ] | ]. exists (S k). replace (S k) with (k + 1)%nat by lia. replace (S k + 1)%nat with (k + 1 + 1)%nat in H by lia. split; [ lia | lra ]. }
  apply (G (n - 2)%nat); [ lia | ]. replace (n - 2 + 1)%nat with (n - 1)%nat by lia. rewrite anode_last by lia. lra.
Qed.
Lemma cell_close x0 x1 y0 y1 x F e : x0 < x1 -> -1 <= (x - x0) / (x1 - x0) <= 1 -> Rabs (y0 - F) <= e -> Rabs (y1 - F) <= e -> Rabs (line x0 y0 x1 y1 x - F) <= 3 * e.
Proof.
  intros Hx Ht H0 H1. unfold line. set (th := (x - x0) / (x1 - x0)) in *.
  replace (y0 + (y1 - y0) / (x1 - x0) * (x - x0) - F) with ((1 - th) * (y0 - F) + th * (y1 - F)) by (unfold th; field; lra).
  apply Rle_trans with (1 := Rabs_triang _ _). rewrite !Rabs_mult. pose proof (Rabs_pos (y0 - F)). pose proof (Rabs_pos (y1 - F)).
  assert (A : Rabs (1 - th) <= 2) by (apply Rabs_le; lra). assert (B : Rabs th <= 1) by (apply Rabs_le; lra). pose proof (Rabs_pos (1 - th)). pose proof (Rabs_pos th). nra.
Qed.
Lemma table_interp la n fp F e e' h : la < 0 -> (3 <= n)%nat -> length fp = n -> - la / INR (n - 1) * ln 10 <= h ->
  (forall i, (i < n)%nat -> Rabs (el fp i - F (anode la n i)) <= e) ->
  (forall s t, pow10 la <= s <= 1 -> pow10 la <= t <= 1 -> Rabs (s - t) <= 2 * h -> Rabs (F s - F t) <= e') ->
  forall q, pow10 la <= q <= 1 -> Rabs (interp1 q (logspace la 0.0 n) fp - F q) <= 3 * (e + e').
Proof.
  intros Hla Hn Lf Hh Ht HF q Hq. pose proof (length_logspace la n) as Ll.
  destruct (interp_increasing [q] (logspace la 0.0 n) fp) as (wl & Ew & _ & C1 & C0 & _); [ lia | lia | apply logspace_incr; auto; lia | ].
  injection Ew as <-. change (el [q] 0) with q in *.
  assert (Close : forall j, (j < n)%nat -> Rabs (anode la n j - q) <= 2 * h -> Rabs (el fp j - F q) <= e + e').
  { intros j Hj Hd. replace (el fp j - F q) with ((el fp j - F (anode la n j)) + (F (anode la n j) - F q)) by ring. apply Rle_trans with (1 := Rabs_triang _ _).
    apply Rplus_le_compat; [ now apply Ht | ]. apply HF; [ apply anode_le1; auto; lia | exact Hq | exact Hd ]. }
  assert (Gap : forall j, (j + 1 < n)%nat -> 0 < anode la n (j + 1) - anode la n j <= h).
  { intros j Hj. split; [ pose proof (anode_lt la n j (j + 1) Hla ltac:(lia) ltac:(lia)); lra | apply Rle_trans with (2 := Hh); apply anode_gap; auto; lia ]. }
  destruct (locate la n q Hla Hn Hq) as (i & Hi & Hqi).
  destruct i as [ | i ].
  - specialize (C0 0%nat ltac:(simpl; lia)). rewrite logspace_el in C0 by lia. specialize (C0 (proj2 Hqi)). unfold el in C0 at 1. simpl in C0. rewrite C0.
    unfold cell. simpl (1 + 1)%nat. rewrite !logspace_el by lia. simpl (0 + 1)%nat in *.
    pose proof (Gap 0%nat ltac:(lia)) as G0. pose proof (Gap 1%nat ltac:(lia)) as G1. pose proof (anode_convex la n 0 Hla ltac:(lia)) as Cx. cbn [Nat.add] in G0, G1, Cx, Hqi.
    apply cell_close; [ lra | | apply Close; [ lia | ] | apply Close; [ lia | ] ].
    + assert (P : 0 < anode la n 2 - anode la n 1) by lra. change (el [q] 0) with q. split; [ apply Rmult_le_reg_r with (1 := P) | apply Rmult_le_reg_r with (1 := P) ]; replace ((q - anode la n 1) / (anode la n 2 - anode la n 1) * (anode la n 2 - anode la n 1)) with (q - anode la n 1) by (field; lra); lra.
    + apply Rabs_le. lra.
    + apply Rabs_le. lra.
  - pose proof (Gap (S i) Hi) as G1. specialize (C1 0%nat (S i) ltac:(simpl; lia) ltac:(lia)). rewrite Ll in C1. specialize (C1 Hi). rewrite !logspace_el in C1 by lia. specialize (C1 Hqi).
    unfold el in C1 at 1. simpl nth in C1. rewrite C1. unfold cell. rewrite !logspace_el by lia.
    apply cell_close; [ lra | | apply Close; [ lia | ] | apply Close; [ lia | ] ].
    + assert (P : 0 < anode la n (S i + 1) - anode la n (S i)) by lra. change (el [q] 0) with q. split; [ apply Rmult_le_reg_r with (1 := P) | apply Rmult_le_reg_r with (1 := P) ];
        replace ((q - anode la n (S i)) / (anode la n (S i + 1) - anode la n (S i)) * (anode la n (S i + 1) - anode la n (S i))) with (q - anode la n (S i)) by (field; lra); lra.
    + apply Rabs_le. lra.
    + apply Rabs_le. lra.
Qed.

(** ** Tables that converge at their nodes converge between them *)
Lemma tables_uniform la (fp : nat -> list R) F : la < 0 -> (forall n, (1 <= n)%nat -> length (fp n) = n) ->
  (forall t, pow10 la <= t <= 1 -> continuity_pt F t) ->
  (forall e, 0 < e -> exists N, forall n, (N <= n)%nat -> forall i, (i < n)%nat -> Rabs (el (fp n) i - F (anode la n i)) < e) ->
  forall eps, 0 < eps -> exists N, (3 <= N)%nat /\ forall n, (N <= n)%nat -> forall q, pow10 la <= q <= 1 -> Rabs (interp1 q (logspace la 0.0 n) (fp n) - F q) < eps.
Proof.
  intros Hla Hl Hc Hn eps He. assert (He8 : 0 < eps / 8) by lra.
  destruct (@Heine_cor2 F (pow10 la) 1 Hc (mkposreal _ He8)) as [[d Hd] Hm]. simpl in Hm.
  destruct (fine_mesh la (d / 4) Hla ltac:(lra)) as (N1 & H3 & H1). destruct (Hn (eps / 8) He8) as (N2 & H2).
  exists (N1 + N2)%nat. split; [ lia | ]. intros n Hnn q Hq.
  apply Rle_lt_trans with (3 * (eps / 8 + eps / 8)); [ | lra ].
  apply table_interp with (h := d / 4); auto; try lia.
  - apply Hl. lia.
  - apply H1. lia.
  - intros i Hi. left. apply H2; lia.
  - intros s t Hs Ht Hst. left. apply Hm; auto. lra.
Qed.

Lemma quotient_close P Q p U d : 0 < p <= U -> 0 < d -> d <= U / 2 -> Rabs (P - p) <= d -> Rabs (Q - U) <= d -> 0 < Q /\ Rabs (P / Q - p / U) <= 4 * d / U.
Proof.
  intros Hp Hd Hd2 HP HQ. assert (Q0 : U / 2 <= Q) by (apply Rabs_def2 in HQ || apply Rabs_le_between in HQ; lra). split; [ lra | ].
  replace (P / Q - p / U) with (((P - p) * U - p * (Q - U)) / (Q * U)) by (field; lra).
  unfold Rdiv. rewrite Rabs_mult. rewrite (Rabs_pos_eq (/ (Q * U))) by (left; apply Rinv_0_lt_compat, Rmult_lt_0_compat; lra).
  assert (A : Rabs ((P - p) * U - p * (Q - U)) <= 2 * d * U).
  { apply Rle_trans with (1 := Rabs_triang _ _). rewrite Rabs_Ropp, !Rabs_mult. rewrite (Rabs_pos_eq U), (Rabs_pos_eq p) by lra. pose proof (Rabs_pos (P - p)). pose proof (Rabs_pos (Q - U)). nra. }
  apply Rmult_le_reg_r with (Q * U); [ apply Rmult_lt_0_compat; lra | ]. rewrite Rmult_assoc, Rinv_l, Rmult_1_r by (apply Rgt_not_eq, Rmult_lt_0_compat; lra).
  apply Rle_trans with (1 := A). replace (4 * d * / U * (Q * U)) with (4 * d * Q) by (field; lra). nra.
Qed.
Lemma rate_close a V P y u a0 M d : 0 < a0 <= u -> 0 < a <= 1 -> 0 <= M -> Rabs y <= M -> 0 < d -> d <= a0 / 2 -> Rabs (V - y) <= d -> Rabs (P - u) <= d ->
  0 < P /\ Rabs (V * a / P - a * y / u) <= (2 / a0 + 2 * M / (a0 * a0)) * d.
Proof.
  intros Hu Ha HM Hy Hd Hd2 HV HP. assert (P0 : a0 / 2 <= P) by (apply Rabs_le_between in HP; lra). split; [ lra | ].
  replace (V * a / P - a * y / u) with (a * ((V - y) * / P - y * (P - u) * / (P * u))) by (field; lra).
  rewrite Rabs_mult, (Rabs_pos_eq a) by lra.
  assert (IP : 0 < / P <= 2 / a0). { split; [ apply Rinv_0_lt_compat; lra | ]. replace (2 / a0) with (/ (a0 / 2)) by (field; lra). apply Rinv_le_contravar; lra. }
  assert (IU : 0 < / u <= / a0). { split; [ apply Rinv_0_lt_compat; lra | ]. apply Rinv_le_contravar; lra. }
  assert (A : Rabs ((V - y) * / P - y * (P - u) * / (P * u)) <= d * (2 / a0) + M * d * (2 / a0 * / a0)).
  { apply Rle_trans with (1 := Rabs_triang _ _). rewrite Rabs_Ropp. rewrite Rinv_mult_distr by lra. rewrite !Rabs_mult. rewrite (Rabs_pos_eq (/ P)), (Rabs_pos_eq (/ u)) by lra.
    apply Rplus_le_compat; [ apply Rmult_le_compat; try lra; apply Rabs_pos | ].
    apply Rmult_le_compat; [ apply Rmult_le_pos; apply Rabs_pos | apply Rmult_le_pos; lra | apply Rmult_le_compat; auto; apply Rabs_pos | apply Rmult_le_compat; lra ]. }
  replace ((2 / a0 + 2 * M / (a0 * a0)) * d) with (d * (2 / a0) + M * d * (2 / a0 * / a0)) by (field; lra).
  pose proof (Rabs_pos ((V - y) * / P - y * (P - u) * / (P * u))). nra.
Qed.

Section Tables.
Variables (c : cosmology) (la : R) (u v : R -> R).
Hypothesis HE : expanding c.
Hypothesis Hm : 0 <= Omega_m c.
Hypothesis Hla : la < 0.
Hypothesis Sol : growth_solution c (pow10 la) u v.
Let a0 := pow10 la.
Lemma a0_in : 0 < a0 < 1. Proof. apply pow10_lt1. exact Hla. Qed.

Lemma nodes_converge e : 0 < e -> exists N, (3 <= N)%nat /\ forall n, (N <= n)%nat -> forall i, (i < n)%nat ->
  Rabs (fst (nth i (ode_y c la n) (0, 0)) - u (anode la n i)) < e /\ Rabs (snd (nth i (ode_y c la n) (0, 0)) - v (anode la n i)) < e.
Proof.
  intros He. pose proof a0_in as A. destruct (derivs_lipschitz c HE a0 ltac:(lra)) as (L & HL).
  destruct (odeint2_converges (D_derivs c) u v L a0 1 ltac:(lra) HL (sol_solves c HE a0 u v A Sol) (fun t Ht => sol_rhs_cont c HE a0 u v A Sol t Ht) e He) as (h & Hh & H).
  destruct (fine_mesh la h Hla Hh) as (N & H3 & HN). exists N. split; [ exact H3 | ]. intros n Hn i Hi.
  specialize (H (logspace la 0.0 n) (logspace_grid la n h Hla ltac:(lia) (HN n Hn)) i). rewrite length_logspace in H. specialize (H Hi).
  destruct Sol as (E0 & E1 & _). fold a0 in E0, E1. rewrite E0, E1 in H. unfold ode_y. rewrite anode_0. fold a0. rewrite logspace_el in H by lia.
  unfold dist2 in H. cbn [fst snd] in H.
  match type of H with Rabs ?x + Rabs ?y < _ => pose proof (Rabs_pos x); pose proof (Rabs_pos y) end. lra.
Qed.
Lemma u_bounds t : a0 <= t <= 1 -> a0 <= u t <= u 1.
Proof.
  intros Ht. pose proof a0_in as A. split.
  - replace a0 with (u a0) by (destruct Sol as (E0 & _); exact E0). apply (sol_incr c HE a0 u v A Sol); auto; lra.
  - apply (sol_incr c HE a0 u v A Sol); auto; lra.
Qed.
Lemma table_nodes_g e : 0 < e -> exists N, forall n, (N <= n)%nat -> forall i, (i < n)%nat ->
  Rabs (el (snd (fst (growth_table_ODE c la n))) i - u (anode la n i) / u 1) < e.
Proof.
  intros He. pose proof a0_in as A. pose proof (u_bounds 1 ltac:(lra)) as U1. set (U := u 1) in *.
  set (d := Rmin (U / 2) (e * U / 8)). assert (Hd : 0 < d) by (unfold d; apply Rmin_pos; [ lra | apply Rmult_lt_0_compat; [ apply Rmult_lt_0_compat | ]; lra ]).
  assert (D1 : d <= U / 2) by apply Rmin_l. assert (D2 : d <= e * U / 8) by apply Rmin_r.
  destruct (nodes_converge d Hd) as (N & H3 & HN). exists N. intros n Hn i Hi.
  destruct (ODE_table_el c la n ltac:(lia)) as (_ & _ & _ & G & _). rewrite G by exact Hi.
  destruct (HN n Hn i Hi) as [Ei _]. destruct (HN n Hn (n - 1)%nat ltac:(lia)) as [El _]. rewrite anode_last in El by lia. fold U in El.
  pose proof (u_bounds _ (anode_le1 la n i Hla ltac:(lia) Hi)) as Ub. fold U in Ub.
  destruct (quotient_close (fst (nth i (ode_y c la n) (0, 0))) (fst (nth (n - 1) (ode_y c la n) (0, 0))) (u (anode la n i)) U d ltac:(lra) Hd D1 ltac:(lra) ltac:(lra)) as [_ B].
  apply Rle_lt_trans with (1 := B). apply Rmult_lt_reg_r with U; [ lra | ]. replace (4 * d / U * U) with (4 * d) by (field; lra).
  assert (0 < e * U) by (apply Rmult_lt_0_compat; lra). lra.
Qed.
Lemma table_nodes_f e : 0 < e -> exists N, forall n, (N <= n)%nat -> forall i, (i < n)%nat ->
  Rabs (el (snd (growth_table_ODE c la n)) i - anode la n i * v (anode la n i) / u (anode la n i)) < e.
Proof.
  intros He. pose proof a0_in as A.
  destruct (bounded_on v a0 1 ltac:(lra)) as (M & M0 & HM); [ intros x Hx; apply (sol_cont c a0 u v Sol x Hx) | ].
  set (K := 2 / a0 + 2 * M / (a0 * a0)). assert (HK : 0 < K). { unfold K. assert (0 < 2 / a0) by (apply Rdiv_lt_0_compat; lra). assert (0 <= 2 * M / (a0 * a0)) by (apply Rmult_le_pos; [ lra | left; apply Rinv_0_lt_compat, Rmult_lt_0_compat; lra ]). lra. }
  set (d := Rmin (a0 / 2) (e / (2 * K))). assert (Hd : 0 < d) by (unfold d; apply Rmin_pos; [ lra | apply Rdiv_lt_0_compat; lra ]).
  assert (D1 : d <= a0 / 2) by apply Rmin_l. assert (D2 : d <= e / (2 * K)) by apply Rmin_r.
  destruct (nodes_converge d Hd) as (N & H3 & HN). exists N. intros n Hn i Hi.
  destruct (ODE_table_el c la n ltac:(lia)) as (_ & _ & _ & _ & F). rewrite F by exact Hi.
  destruct (HN n Hn i Hi) as [Ei Vi]. destruct (HN n Hn (n - 1)%nat ltac:(lia)) as [El _]. rewrite anode_last in El by lia.
  pose proof (anode_le1 la n i Hla ltac:(lia) Hi) as Ai. fold a0 in Ai. pose proof (u_bounds _ Ai) as Ub. pose proof (u_bounds 1 ltac:(lra)) as U1.
  destruct (rate_close (anode la n i) (snd (nth i (ode_y c la n) (0, 0))) (fst (nth i (ode_y c la n) (0, 0))) (v (anode la n i)) (u (anode la n i)) a0 M d ltac:(lra) ltac:(lra) M0 (HM _ Ai) Hd D1 ltac:(lra) ltac:(lra)) as [P B].
  assert (Q : 0 < fst (nth (n - 1) (ode_y c la n) (0, 0))) by (apply Rabs_def2 in El; lra).
  replace (snd (nth i (ode_y c la n) (0, 0)) / fst (nth (n - 1) (ode_y c la n) (0, 0)) * anode la n i / (fst (nth i (ode_y c la n) (0, 0)) / fst (nth (n - 1) (ode_y c la n) (0, 0))))
    with (snd (nth i (ode_y c la n) (0, 0)) * anode la n i / fst (nth i (ode_y c la n) (0, 0))) by (field; lra).
  apply Rle_lt_trans with (1 := B). fold K. apply Rle_lt_trans with (K * (e / (2 * K))); [ apply Rmult_le_compat_l; lra | ]. replace (K * (e / (2 * K))) with (e / 2) by (field; lra). lra.
Qed.
Lemma ucont t : a0 <= t <= 1 -> continuity_pt (fun t => u t / u 1) t /\ continuity_pt (fun t => t * v t / u t) t.
Proof.
  intros Ht. pose proof a0_in as A. destruct (sol_cont c a0 u v Sol t Ht) as [Cu Cv]. pose proof (u_bounds t Ht) as B. pose proof (u_bounds 1 ltac:(lra)) as B1. split; apply continuity_pt_filterlim.
  - apply (continuous_mult (K := R_AbsRing) u (fun _ => / u 1)); [ exact Cu | apply continuous_const ].
  - apply (continuous_mult (K := R_AbsRing) (fun t => t * v t) (fun t => / u t)); [ apply (continuous_mult (K := R_AbsRing) (fun t => t) v); [ apply continuous_id | exact Cv ] | ].
    apply continuous_Rinv_comp; [ exact Cu | lra ].
Qed.

Lemma cache_none n : ws_growth c = None -> growth_cache_ODE c la n = ((fst (fst (growth_table_ODE c la n)), snd (fst (growth_table_ODE c la n)), Some (snd (growth_table_ODE c la n))),
   set_ws_growth c (fst (fst (growth_table_ODE c la n)), snd (fst (growth_table_ODE c la n)), Some (snd (growth_table_ODE c la n)))).
Proof. intros E. unfold growth_cache_ODE. rewrite E. destruct (growth_table_ODE c la n) as [[? ?] ?]. reflexivity. Qed.

Lemma growth_converges : ws_growth c = None -> forall eps, 0 < eps -> exists N, forall n, (N <= n)%nat -> forall q, (forall x, In x q -> a0 <= x <= 1) ->
  let r := growth_factor_ODE c (Array1 q) la n in
  (exists g, fst r = Ok g /\ length g = length q /\ forall k, (k < length q)%nat -> Rabs (el g k - u (el q k) / u 1) < eps) /\
  (exists f, fst (growth_rate_ODE (snd r) (Array1 q)) = Ok f /\ length f = length q /\ forall k, (k < length q)%nat -> Rabs (el f k - el q k * v (el q k) / u (el q k)) < eps).
Proof.
  intros Hw eps He. pose proof a0_in as A.
  destruct (tables_uniform la (fun n => snd (fst (growth_table_ODE c la n))) (fun t => u t / u 1) Hla) with (eps := eps) as (N1 & K1 & H1); [ | intros t Ht; now apply ucont | exact table_nodes_g | exact He | ].
  { intros n Hn. now destruct (ODE_table_el c la n Hn) as (_ & L & _). }
  destruct (tables_uniform la (fun n => snd (growth_table_ODE c la n)) (fun t => t * v t / u t) Hla) with (eps := eps) as (N2 & K2 & H2); [ | intros t Ht; now apply ucont | exact table_nodes_f | exact He | ].
  { intros n Hn. now destruct (ODE_table_el c la n Hn) as (_ & _ & L & _). }
  exists (N1 + N2)%nat. intros n Hn q Hq. destruct (ODE_table_el c la n ltac:(lia)) as (Ea & _).
  cbv zeta. unfold growth_factor_ODE. rewrite cache_none by exact Hw. cbn [fst snd interp bind]. rewrite Ea. split.
  - eexists. split; [ reflexivity | ]. split; [ now rewrite !map_length | ]. intros k Hk. rewrite map_map. unfold el at 1. rewrite (nth_map_lt _ _ _ 0) by exact Hk. fold (el q k).
    assert (Hin : a0 <= el q k <= 1) by (apply Hq, nth_In; exact Hk). specialize (H1 n ltac:(lia) (el q k) Hin).
    pose proof (u_bounds _ Hin) as Ub. pose proof (u_bounds 1 ltac:(lra)) as U1.
    assert (T : 0 <= u (el q k) / u 1 <= 1). { split; [ left; apply Rdiv_lt_0_compat; lra | ]. apply Rmult_le_reg_r with (u 1); [ lra | ]. replace (u (el q k) / u 1 * u 1) with (u (el q k)) by (field; lra). lra. }
    set (T' := u (el q k) / u 1) in *. set (I := interp1 (el q k) (logspace la 0.0 n) (snd (fst (growth_table_ODE c la n)))) in *.
    apply Rabs_def2 in H1. apply Rabs_def1; unfold clip, Rmin, Rmax; replace 0.0 with 0 by lra; replace 1.0 with 1 by lra; repeat destruct Rle_dec; lra.
  - unfold growth_rate_ODE. simpl ws_growth. cbn [fst interp]. eexists. split; [ reflexivity | ]. split; [ now rewrite !map_length | ]. intros k Hk.
    unfold el at 1. rewrite (nth_map_lt _ _ _ 0) by exact Hk. fold (el q k). apply (H2 n ltac:(lia)). apply Hq, nth_In. exact Hk.
Qed.
End Tables.
