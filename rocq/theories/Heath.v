(** * Heath's closed form solves the growth equation of a universe with a cosmological constant *)
From Coquelicot Require Import Coquelicot.
From Verif Require Import Np NpLemmas Core Background BgSpec BgAlgebra GrowthConvSpec GrowthConv.

Section Heath.
Variable c : cosmology.
Hypothesis HE : expanding c.
Hypothesis Hw0 : _w0 c = -1.
Hypothesis Hwa : _wa c = 0.
Variable a0 : R.
Hypothesis Ha0 : 0 < a0.
Let m := Omega_m c.
Let k := Omega_k c.
Let l := Omega_de c.

Lemma Esqr_lambda a : Esqr c a = m * / a ^ 3 + k * / a ^ 2 + l.
Proof. unfold Esqr, f_de. rewrite Hw0, Hwa. replace (-3.0 * (1.0 + -1 + 0) * ln a + 3.0 * 0 * (a - 1.0)) with 0 by (replace 1.0 with 1 by lra; ring). rewrite exp_0. unfold m, k, l. ring. Qed.
Definition E1 (a : R) : R := (-3 * m / a ^ 4 - 2 * k / a ^ 3) / (2 * E_of c a).
Definition X2 (a : R) : R := 12 * m / a ^ 5 + 6 * k / a ^ 4.
Lemma E_pos a : 0 < a -> 0 < E_of c a. Proof. intros Ha. apply sqrt_lt_R0. now apply HE. Qed.
Lemma E_sq a : 0 < a -> E_of c a * E_of c a = Esqr c a. Proof. intros Ha. apply sqrt_sqrt. left. now apply HE. Qed.
Lemma X_derive a : 0 < a -> is_derive (Esqr c) a (-3 * m / a ^ 4 - 2 * k / a ^ 3).
Proof.
  intros Ha. apply (is_derive_ext (fun a => m * / a ^ 3 + k * / a ^ 2 + l)); [ intros t; now rewrite Esqr_lambda | ].
  auto_derive; [ repeat split; apply Rgt_not_eq; repeat apply Rmult_lt_0_compat; lra | field; lra ].
Qed.
Lemma E_is_derive a : 0 < a -> is_derive (E_of c) a (E1 a).
Proof.
  intros Ha. pose proof (X_derive a Ha) as D. pose proof (HE a Ha) as P. unfold E1. pose proof (E_pos a Ha) as EP. unfold E_of in *.
  set (X := Esqr c) in *. set (X' := -3 * m / a ^ 4 - 2 * k / a ^ 3) in *. clearbody X X'.
  auto_derive; [ split; [ eexists; exact D | split; [ exact P | exact I ]] | ].
  replace (Derive (fun x => X x) a) with X' by (symmetry; apply is_derive_unique; exact D). field. lra.
Qed.
Let g (x : R) : R := / (x * E_of c x) ^ 3.
Lemma g_cont x : 0 < x -> continuous g x.
Proof.
  intros Hx. apply (ex_derive_continuous (V := R_NormedModule)). pose proof (E_is_derive x Hx) as D. pose proof (E_pos x Hx) as P. unfold g. set (E := E_of c) in *.
  assert (D' : ex_derive E x) by (eexists; exact D). clear D. clearbody E. auto_derive. repeat split; [ exact D' | ]. apply Rgt_not_eq. repeat apply Rmult_lt_0_compat; lra.
Qed.
Lemma I_derive a : 0 < a -> is_derive (heath_integral c a0) a (g a).
Proof.
  intros Ha. unfold heath_integral. apply (is_derive_RInt (V := R_CompleteNormedModule) g _ a0 a); [ | now apply g_cont ].
  exists (mkposreal a Ha). intros b Hb. unfold ball in Hb. simpl in Hb. unfold AbsRing_ball, abs, minus, plus, opp in Hb. simpl in Hb. apply Rabs_def2 in Hb.
  apply (RInt_correct (V := R_CompleteNormedModule)). apply (ex_RInt_continuous (V := R_CompleteNormedModule)). intros z Hz. apply g_cont.
  apply Rlt_le_trans with (Rmin a0 b); [ apply Rmin_pos; lra | apply Hz ].
Qed.
Let A := a0 / E_of c a0.
Let B := (1 - a0 * Derive (E_of c) a0 / E_of c a0) * (a0 ^ 3 * Esqr c a0).
Let v (a : R) : R := E1 a * (A + B * heath_integral c a0 a) + B / (a ^ 3 * Esqr c a).
Lemma heath_derive a : 0 < a -> is_derive (heath c a0) a (v a).
Proof.
  intros Ha. pose proof (E_is_derive a Ha) as DE. pose proof (I_derive a Ha) as DI. pose proof (E_pos a Ha) as P. pose proof (E_sq a Ha) as S.
  unfold heath. fold A B. unfold v. rewrite <- S. clearbody A B.
  set (E := E_of c) in *. set (I := heath_integral c a0) in *. set (E' := E1 a) in *. unfold g in DI. clearbody E I E'.
  auto_derive; [ repeat split; eexists; eassumption | ].
  replace (Derive (fun x => E x) a) with E' by (symmetry; apply is_derive_unique; exact DE). replace (Derive (fun x => I x) a) with (/ (a * E a) ^ 3) by (symmetry; apply is_derive_unique; exact DI).
  field. lra.
Qed.
Lemma v_derive a : 0 < a -> is_derive v a (- (3 / a + Derive (Esqr c) a / (2 * Esqr c a)) * v a + 3 / 2 * Omega_m_a c a / a ^ 2 * heath c a0 a).
Proof.
  intros Ha. pose proof (E_is_derive a Ha) as DE. pose proof (I_derive a Ha) as DI. pose proof (X_derive a Ha) as DX. pose proof (E_pos a Ha) as P. pose proof (E_sq a Ha) as S.
  rewrite (is_derive_unique _ _ _ DX). unfold Omega_m_a. fold m. pose proof (HE a Ha) as PX.
  unfold heath. fold A B. unfold v, E1. unfold E1 in DE. clearbody A B. unfold g in DI.
  set (X := Esqr c) in *. set (E := E_of c) in *. set (I := heath_integral c a0) in *. clearbody X E I.
  auto_derive.
  - repeat split; try (apply Rgt_not_eq; repeat apply Rmult_lt_0_compat; lra); try (eexists; eassumption).
  - replace (Derive (fun x => E x) a) with ((-3 * m / a ^ 4 - 2 * k / a ^ 3) / (2 * E a)) by (symmetry; apply is_derive_unique; exact DE).
    replace (Derive (fun x => I x) a) with (/ (a * E a) ^ 3) by (symmetry; apply is_derive_unique; exact DI).
    replace (Derive (fun x => X x) a) with (-3 * m / a ^ 4 - 2 * k / a ^ 3) by (symmetry; apply is_derive_unique; exact DX).
    rewrite <- S. field. lra.
Qed.
Lemma heath_at_a0 : heath c a0 a0 = a0 /\ v a0 = 1.
Proof.
  pose proof (E_pos a0 Ha0) as P. pose proof (E_sq a0 Ha0) as S. pose proof (HE a0 Ha0) as PX.
  assert (I0 : heath_integral c a0 a0 = 0) by (unfold heath_integral; exact (RInt_point (V := R_CompleteNormedModule) a0 g)).
  split.
  - unfold heath. rewrite I0. field. lra.
  - unfold v. rewrite I0. unfold A, B. rewrite (is_derive_unique _ _ _ (E_is_derive a0 Ha0)). field. lra.
Qed.
Theorem heath_solves : growth_solution c a0 (heath c a0) (Derive (heath c a0)).
Proof.
  destruct heath_at_a0 as [U0 V0].
  assert (DV : forall a, 0 < a -> Derive (heath c a0) a = v a) by (intros a Ha; apply is_derive_unique; now apply heath_derive).
  split; [ exact U0 | ]. split; [ rewrite DV; auto | ]. intros a Ha. rewrite DV by lra. split; [ apply heath_derive; lra | ].
  apply (is_derive_ext_loc v); [ | apply v_derive; lra ].
  assert (P : 0 < a) by lra. exists (mkposreal a P). intros b Hb. unfold ball in Hb. simpl in Hb. unfold AbsRing_ball, abs, minus, plus, opp in Hb. simpl in Hb. apply Rabs_def2 in Hb.
  symmetry. apply DV. lra.
Qed.
End Heath.
