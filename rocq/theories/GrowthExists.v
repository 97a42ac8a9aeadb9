(** * The growth equation has exactly one solution *)
From Coquelicot Require Import Coquelicot.
From Verif Require Import Np NpLemmas Core Background BgSpec BgAlgebra GrowthConvSpec GrowthConv Picard.

Lemma clip_in x lo hi : lo <= hi -> lo <= clip x lo hi <= hi.
Proof. intros H. unfold clip, Rmin, Rmax. repeat destruct Rle_dec; lra. Qed.
Lemma clip_cont lo hi t : continuous (fun x => clip x lo hi) t.
Proof.
  apply (continuous_ext (fun x => ((x + lo + Rabs (x - lo)) / 2 + hi - Rabs ((x + lo + Rabs (x - lo)) / 2 - hi)) / 2)).
  - intros x. unfold clip, Rmin, Rmax. destruct (Rle_dec x lo); [ rewrite (Rabs_left1 (x - lo)) by lra | rewrite (Rabs_pos_eq (x - lo)) by lra ];
      destruct Rle_dec; first [ rewrite Rabs_left1 by lra | rewrite Rabs_pos_eq by lra ]; lra.
  - assert (A : forall f : R -> R, (forall s : R, continuous f s) -> forall s : R, continuous (fun x => Rabs (f x)) s) by (intros f Hf s; apply (continuous_comp f Rabs); [ apply Hf | apply continuous_Rabs ]).
    assert (C1 : forall s : R, continuous (fun x => (x + lo + Rabs (x - lo)) / 2) s).
    { intros s. apply (continuous_mult (K := R_AbsRing) (fun x => x + lo + Rabs (x - lo)) (fun _ => / 2)); [ | apply continuous_const ].
      apply (continuous_plus (V := R_NormedModule) (fun x => x + lo) (fun x => Rabs (x - lo))).
      - apply (continuous_plus (V := R_NormedModule) (fun x => x) (fun _ => lo)); [ apply continuous_id | apply continuous_const ].
      - apply A. intros z. apply (continuous_minus (V := R_NormedModule) (fun x => x) (fun _ => lo)); [ apply continuous_id | apply continuous_const ]. }
    set (f := fun x => (x + lo + Rabs (x - lo)) / 2) in *.
    apply (continuous_mult (K := R_AbsRing) (fun x => f x + hi - Rabs (f x - hi)) (fun _ => / 2)); [ | apply continuous_const ].
    apply (continuous_minus (V := R_NormedModule) (fun x => f x + hi) (fun x => Rabs (f x - hi))).
    + apply (continuous_plus (V := R_NormedModule) f (fun _ => hi)); [ apply C1 | apply continuous_const ].
    + apply A. intros z. apply (continuous_minus (V := R_NormedModule) f (fun _ => hi)); [ apply C1 | apply continuous_const ].
Qed.

Section Exists.
Variable c : cosmology.
Hypothesis HE : expanding c.
Variable a0 : R.
Hypothesis Ha0 : 0 < a0 <= 1.
Let k (t : R) : R := clip t (a0 / 2) 2.
Lemma k_in t : a0 / 2 <= k t <= 2. Proof. apply clip_in. lra. Qed.
Lemma k_id t : a0 <= t <= 1 -> k t = t. Proof. intros H. unfold k, clip. rewrite Rmax_left, Rmin_left by lra. reflexivity. Qed.
Lemma sol_exists : exists u v, growth_solution c a0 u v.
Proof.
  destruct (bounded_on (qc c) (a0 / 2) 2 ltac:(lra)) as (Q & Q0 & HQ); [ intros; apply qc_cont; auto; lra | ].
  destruct (bounded_on (rc c) (a0 / 2) 2 ltac:(lra)) as (S & S0 & HS); [ intros; apply rc_cont; auto; lra | ].
  destruct (linear_exists (fun t => - qc c (k t)) (fun t => rc c (k t)) (Q + S) a0 (fun b : bool => if b then a0 else 1)) as (u & v & U0 & V0 & D).
  - lra.
  - intros t. apply (continuous_opp (V := R_NormedModule) (fun t => qc c (k t))). apply (continuous_comp k (qc c)); [ apply clip_cont | apply qc_cont; auto; pose proof (k_in t); lra ].
  - intros t. apply (continuous_comp k (rc c)); [ apply clip_cont | apply rc_cont; auto; pose proof (k_in t); lra ].
  - intros t. rewrite Rabs_Ropp. pose proof (HQ _ (k_in t)). lra.
  - intros t. pose proof (HS _ (k_in t)). lra.
  - exists u, v. split; [ exact U0 | ]. split; [ exact V0 | ]. intros a Ha. destruct (D a) as [Du Dv]. split; [ exact Du | ].
    rewrite (k_id a Ha) in Dv. rewrite Derive_Esqr by (auto; lra). exact Dv.
Qed.
Lemma sol_unique u v u' v' : growth_solution c a0 u v -> growth_solution c a0 u' v' -> forall a, a0 <= a <= 1 -> u' a = u a /\ v' a = v a.
Proof.
  intros (U0 & V0 & D) (U0' & V0' & D') a Ha.
  destruct (bounded_on (qc c) a0 1 ltac:(lra)) as (Q & Q0 & HQ); [ intros; apply qc_cont; auto; lra | ].
  destruct (bounded_on (rc c) a0 1 ltac:(lra)) as (S & S0 & HS); [ intros; apply rc_cont; auto; lra | ].
  set (L := 1 + 2 * Q + S). set (e := fun t => ((u t - u' t) ^ 2 + (v t - v' t) ^ 2) * exp (- L * t)).
  set (e' := fun t => (2 * (u t - u' t) * (v t - v' t) + 2 * (v t - v' t) * (- qc c t * (v t - v' t) + rc c t * (u t - u' t)) - L * ((u t - u' t) ^ 2 + (v t - v' t) ^ 2)) * exp (- L * t)).
  assert (De : forall t, a0 <= t <= 1 -> is_derive e t (e' t)).
  { intros t Ht. destruct (D t Ht) as [Du Dv]. destruct (D' t Ht) as [Du' Dv']. rewrite Derive_Esqr in Dv, Dv' by (auto; lra). fold (qc c t) in Dv, Dv'. fold (rc c t) in Dv, Dv'.
    unfold e, e'. auto_derive; [ repeat split; eexists; eassumption | ].
    replace (Derive (fun x => u x) t) with (v t) by (symmetry; apply is_derive_unique; exact Du). replace (Derive (fun x => u' x) t) with (v' t) by (symmetry; apply is_derive_unique; exact Du').
    replace (Derive (fun x => v x) t) with (- qc c t * v t + rc c t * u t) by (symmetry; apply is_derive_unique; exact Dv).
    replace (Derive (fun x => v' x) t) with (- qc c t * v' t + rc c t * u' t) by (symmetry; apply is_derive_unique; exact Dv'). unfold Rminus. ring. }
  assert (Ne : forall t, a0 <= t <= 1 -> e' t <= 0).
  { intros t Ht. unfold e'. pose proof (exp_pos (- L * t)). specialize (HQ t Ht). specialize (HS t Ht). apply Rabs_le_between in HQ. apply Rabs_le_between in HS.
    set (x := u t - u' t) in *. set (y := v t - v' t) in *. set (q := qc c t) in *. set (s := rc c t) in *. unfold L.
    assert (F : 2 * x * y + 2 * y * (- q * y + s * x) - (1 + 2 * Q + S) * (x ^ 2 + y ^ 2) <= 0).
    { pose proof (Rle_0_sqr (x - y)) as A1. unfold Rsqr in A1. pose proof (Rle_0_sqr x) as X2. pose proof (Rle_0_sqr y) as Y2. unfold Rsqr in X2, Y2.
      assert (A2 : - q * (y * y) <= Q * (y * y)) by (apply Rmult_le_compat_r; lra).
      assert (A3 : 2 * s * (x * y) <= S * (x * x + y * y)).
      { pose proof (Rle_0_sqr (x + y)) as A4. unfold Rsqr in A4. destruct (Rle_lt_dec 0 (x * y)); nra. }
      assert (A5 : 0 <= Q * (x * x)) by (apply Rmult_le_pos; lra). lra. }
    rewrite <- (Rmult_0_l (exp (- (1 + 2 * Q + S) * t))). apply Rmult_le_compat_r; [ left; apply exp_pos | exact F ]. }
  assert (Z : e a <= e a0).
  { destruct (Req_dec a a0) as [-> | N]; [ lra | ]. destruct (MVT_gen e a0 a e') as (xi & Hxi & E).
    - rewrite Rmin_left, Rmax_right by lra. intros x Hx. apply De. lra.
    - rewrite Rmin_left, Rmax_right by lra. intros x Hx. apply derivable_continuous_pt. eexists. apply is_derive_Reals. apply De. lra.
    - rewrite Rmin_left, Rmax_right in Hxi by lra. pose proof (Ne xi ltac:(lra)). assert (e' xi * (a - a0) <= 0) by nra. lra. }
  unfold e in Z. rewrite U0, V0, U0', V0' in Z. replace (((a0 - a0) ^ 2 + (1 - 1) ^ 2) * exp (- L * a0)) with 0 in Z by ring.
  pose proof (exp_pos (- L * a)). pose proof (pow2_ge_0 (u a - u' a)). pose proof (pow2_ge_0 (v a - v' a)).
  assert (Z' : (u a - u' a) ^ 2 + (v a - v' a) ^ 2 <= 0) by (apply Rmult_le_reg_r with (exp (- L * a)); lra).
  assert (X1 : (u a - u' a) ^ 2 = 0) by lra. assert (X2 : (v a - v' a) ^ 2 = 0) by lra.
  split; apply Rminus_diag_uniq_sym; [ destruct (Req_dec (u a - u' a) 0) as [E | E] | destruct (Req_dec (v a - v' a) 0) as [E | E] ]; auto; exfalso; apply (pow_nonzero _ 2) in E; lra.
Qed.
End Exists.
Theorem growth_solution_unique c a0 : expanding c -> 0 < a0 <= 1 ->
  exists u v, growth_solution c a0 u v /\ forall u' v', growth_solution c a0 u' v' -> forall a, a0 <= a <= 1 -> u' a = u a /\ v' a = v a.
Proof.
  intros HE Ha. destruct (sol_exists c HE a0 Ha) as (u & v & S). exists u, v. split; [ exact S | ]. intros u' v' S' a Hx. now apply (sol_unique c HE a0 Ha).
Qed.
