(** * odeint converges to the solution *)
From Coquelicot Require Import Coquelicot.
From Verif Require Import Np NpLemmas Ode OdeSpec OdeProofs OdeConvSpec.

Lemma mono_chain t h : (forall i, (i + 1 < length t)%nat -> 0 <= el t (i + 1) - el t i <= h) ->
  forall i j, (i <= j < length t)%nat -> el t i <= el t j.
Proof.
  intros H i j [Hij Hj]. induction j as [ | j IH ]; [ replace i with 0%nat by lia; lra | ].
  destruct (Nat.eq_dec i (S j)) as [-> | N]; [ lra | ]. specialize (IH ltac:(lia) ltac:(lia)). specialize (H j ltac:(lia)). rewrite Nat.add_1_r in H. lra.
Qed.

Section Conv.
Variables (V : Type) (add : V -> V -> V) (scl : R -> V -> V) (d : V -> V -> R).
Hypothesis d_pos : forall u v, 0 <= d u v.
Hypothesis d_refl : forall u, d u u = 0.
Hypothesis d_tri : forall u v w, d u w <= d u v + d v w.
Hypothesis d_sym : forall u v, d u v = d v u.
Hypothesis d_add : forall u v u' v', d (add u v) (add u' v') <= d u u' + d v v'.
Hypothesis d_scl : forall c u v, d (scl c u) (scl c v) <= Rabs c * d u v.
Hypothesis mean_k : forall h k, scl (1.0 / 6.0 * h) (add (add (add k (scl 2 k)) (scl 2 k)) k) = scl h k.
Variables (f : V -> R -> V) (L a b h w : R) (Y : R -> V).
Hypothesis L0 : 0 <= L.
Hypothesis Lh : L * h <= 1.
Hypothesis w0 : 0 <= w.
Hypothesis lip : forall t u v, a <= t <= b -> d (f u t) (f v t) <= L * d u v.
Hypothesis modulus : forall s s', a <= s -> s <= s' <= b -> s' - s <= h ->
  d (f (Y s') s') (f (Y s) s) <= w /\ d (add (Y s) (scl (s' - s) (f (Y s) s))) (Y s') <= (s' - s) * w.

Let stp := step V add scl f.

Lemma stable y z s t : a <= s -> s <= t <= b -> t - s <= h -> d (stp y s t) (stp z s t) <= (1 + 2 * L * (t - s)) * d y z.
Proof.
  intros Hs Ht Hh. set (e := t - s) in *. assert (He : 0 <= e) by (unfold e; lra). assert (Le : L * e <= 1) by nra.
  unfold stp, step, rk4. simpl. fold e.
  set (k1 := f y s). set (j1 := f z s). assert (D1 : d k1 j1 <= L * d y z) by (apply lip; lra).
  set (dl := d y z) in *. assert (P := d_pos y z). fold dl in P.
  assert (A2 : Rabs (e / 2) = e / 2) by (apply Rabs_right; lra). assert (A1 : Rabs e = e) by (apply Rabs_right; lra).
  set (k2 := f (add y (scl (e / 2) k1)) (s + e / 2)). set (j2 := f (add z (scl (e / 2) j1)) (s + e / 2)).
  assert (M : a <= s + e / 2 <= b) by (unfold e in *; lra).
  assert (LP : 0 <= L * e) by nra.
  assert (E1 : d (scl (e / 2) k1) (scl (e / 2) j1) <= e / 2 * d k1 j1) by (rewrite <- A2 at 3; apply d_scl).
  assert (F1 : e / 2 * d k1 j1 <= (L * e) / 2 * dl) by nra.
  assert (D2 : d k2 j2 <= L * (3 / 2 * dl)).
  { apply Rle_trans with (L * d (add y (scl (e / 2) k1)) (add z (scl (e / 2) j1))); [ now apply lip | ]. apply Rmult_le_compat_l; [ exact L0 | ].
    pose proof (d_add y (scl (e / 2) k1) z (scl (e / 2) j1)). fold dl in H. nra. }
  set (k3 := f (add y (scl (e / 2) k2)) (s + e / 2)). set (j3 := f (add z (scl (e / 2) j2)) (s + e / 2)).
  assert (E2 : d (scl (e / 2) k2) (scl (e / 2) j2) <= e / 2 * d k2 j2) by (rewrite <- A2 at 3; apply d_scl).
  assert (F2 : e / 2 * d k2 j2 <= (L * e) * (3 / 4) * dl) by nra.
  assert (D3 : d k3 j3 <= L * (7 / 4 * dl)).
  { apply Rle_trans with (L * d (add y (scl (e / 2) k2)) (add z (scl (e / 2) j2))); [ now apply lip | ]. apply Rmult_le_compat_l; [ exact L0 | ].
    pose proof (d_add y (scl (e / 2) k2) z (scl (e / 2) j2)). fold dl in H. nra. }
  set (k4 := f (add y (scl e k3)) t). set (j4 := f (add z (scl e j3)) t).
  assert (E3 : d (scl e k3) (scl e j3) <= e * d k3 j3) by (rewrite <- A1 at 3; apply d_scl).
  assert (F3 : e * d k3 j3 <= (L * e) * (7 / 4) * dl) by nra.
  assert (D4 : d k4 j4 <= L * (11 / 4 * dl)).
  { apply Rle_trans with (L * d (add y (scl e k3)) (add z (scl e j3))); [ apply lip; lra | ]. apply Rmult_le_compat_l; [ exact L0 | ].
    pose proof (d_add y (scl e k3) z (scl e j3)). fold dl in H. nra. }
  apply Rle_trans with (1 := d_add _ _ _ _). fold dl.
  apply Rle_trans with (dl + Rabs (1.0 / 6.0 * e) * d (add (add (add k1 (scl 2 k2)) (scl 2 k3)) k4) (add (add (add j1 (scl 2 j2)) (scl 2 j3)) j4)); [ apply Rplus_le_compat_l; apply d_scl | ].
  rewrite Rabs_right by lra.
  assert (S : d (add (add (add k1 (scl 2 k2)) (scl 2 k3)) k4) (add (add (add j1 (scl 2 j2)) (scl 2 j3)) j4) <= L * dl * 12).
  { assert (T2 : forall u v, d (scl 2 u) (scl 2 v) <= 2 * d u v) by (intros; pose proof (d_scl 2 u v); rewrite Rabs_right in H by lra; exact H).
    pose proof (d_add (add (add k1 (scl 2 k2)) (scl 2 k3)) k4 (add (add j1 (scl 2 j2)) (scl 2 j3)) j4).
    pose proof (d_add (add k1 (scl 2 k2)) (scl 2 k3) (add j1 (scl 2 j2)) (scl 2 j3)).
    pose proof (d_add k1 (scl 2 k2) j1 (scl 2 j2)). pose proof (T2 k2 j2). pose proof (T2 k3 j3). nra. }
  assert (0 <= 1.0 / 6.0 * e) by lra. nra.
Qed.

Lemma consistent s t : a <= s -> s <= t <= b -> t - s <= h -> d (stp (Y s) s t) (Y t) <= 3 * (t - s) * w.
Proof.
  intros Hs Ht Hh. set (e := t - s) in *. assert (He : 0 <= e) by (unfold e; lra). assert (Le : L * e <= 1) by nra. assert (LP : 0 <= L * e) by nra.
  unfold stp, step, rk4. simpl. fold e. set (k1 := f (Y s) s). set (m := s + e / 2). assert (M : s <= m <= t) by (unfold m, e in *; lra).
  assert (A2 : Rabs (e / 2) = e / 2) by (apply Rabs_right; lra). assert (A1 : Rabs e = e) by (apply Rabs_right; lra).
  destruct (modulus s m ltac:(lra) ltac:(lra) ltac:(unfold m, e in *; lra)) as [Gm Ym]. replace (m - s) with (e / 2) in Ym by (unfold m; lra). fold k1 in Gm, Ym.
  destruct (modulus s t ltac:(lra) ltac:(lra) ltac:(unfold e in *; lra)) as [Gt Yt]. fold e in Yt. fold k1 in Gt, Yt.
  set (k2 := f (add (Y s) (scl (e / 2) k1)) m).
  assert (D2 : d k2 k1 <= 3 / 2 * w).
  { pose proof (d_tri k2 (f (Y m) m) k1). assert (d k2 (f (Y m) m) <= L * d (add (Y s) (scl (e / 2) k1)) (Y m)) by (apply lip; lra). nra. }
  set (k3 := f (add (Y s) (scl (e / 2) k2)) m).
  assert (D3 : d k3 k1 <= 9 / 4 * w).
  { pose proof (d_tri k3 (f (Y m) m) k1). assert (B : d k3 (f (Y m) m) <= L * d (add (Y s) (scl (e / 2) k2)) (Y m)) by (apply lip; lra).
    assert (C : d (add (Y s) (scl (e / 2) k2)) (Y m) <= e * (5 / 4) * w).
    { pose proof (d_tri (add (Y s) (scl (e / 2) k2)) (add (Y s) (scl (e / 2) k1)) (Y m)). pose proof (d_add (Y s) (scl (e / 2) k2) (Y s) (scl (e / 2) k1)). rewrite d_refl in H1.
      pose proof (d_scl (e / 2) k2 k1). rewrite A2 in H2. nra. }
    assert (L * d (add (Y s) (scl (e / 2) k2)) (Y m) <= L * (e * (5 / 4) * w)) by (apply Rmult_le_compat_l; assumption). nra. }
  set (k4 := f (add (Y s) (scl e k3)) t).
  assert (D4 : d k4 k1 <= 17 / 4 * w).
  { pose proof (d_tri k4 (f (Y t) t) k1). assert (B : d k4 (f (Y t) t) <= L * d (add (Y s) (scl e k3)) (Y t)) by (apply lip; lra).
    assert (C : d (add (Y s) (scl e k3)) (Y t) <= e * (13 / 4) * w).
    { pose proof (d_tri (add (Y s) (scl e k3)) (add (Y s) (scl e k1)) (Y t)). pose proof (d_add (Y s) (scl e k3) (Y s) (scl e k1)). rewrite d_refl in H1.
      pose proof (d_scl e k3 k1). rewrite A1 in H2. nra. }
    assert (L * d (add (Y s) (scl e k3)) (Y t) <= L * (e * (13 / 4) * w)) by (apply Rmult_le_compat_l; assumption). nra. }
  apply Rle_trans with (1 := d_tri _ (add (Y s) (scl e k1)) _).
  assert (S : d (add (add (add k1 (scl 2 k2)) (scl 2 k3)) k4) (add (add (add k1 (scl 2 k1)) (scl 2 k1)) k1) <= 12 * w).
  { assert (T2 : forall u v, d (scl 2 u) (scl 2 v) <= 2 * d u v) by (intros; pose proof (d_scl 2 u v); rewrite Rabs_right in H by lra; exact H).
    pose proof (d_add (add (add k1 (scl 2 k2)) (scl 2 k3)) k4 (add (add k1 (scl 2 k1)) (scl 2 k1)) k1).
    pose proof (d_add (add k1 (scl 2 k2)) (scl 2 k3) (add k1 (scl 2 k1)) (scl 2 k1)).
    pose proof (d_add k1 (scl 2 k2) k1 (scl 2 k1)). rewrite d_refl in H1. pose proof (T2 k2 k1). pose proof (T2 k3 k1). nra. }
  pose proof (d_add (Y s) (scl (1.0 / 6.0 * e) (add (add (add k1 (scl 2 k2)) (scl 2 k3)) k4)) (Y s) (scl e k1)) as Q. rewrite d_refl in Q.
  pose proof (d_scl (1.0 / 6.0 * e) (add (add (add k1 (scl 2 k2)) (scl 2 k3)) k4) (add (add (add k1 (scl 2 k1)) (scl 2 k1)) k1)) as Q'.
  rewrite mean_k in Q'. rewrite Rabs_right in Q' by lra. assert (0 <= 1.0 / 6.0 * e) by lra. nra.
Qed.

(** the nodes of a run *)
Lemma global t (z : nat -> V) : (0 < length t)%nat -> el t 0 = a -> z 0%nat = Y a ->
  (forall i, (i + 1 < length t)%nat -> 0 <= el t (i + 1) - el t i <= h) -> el t (length t - 1) <= b ->
  (forall i, (i + 1 < length t)%nat -> z (i + 1)%nat = stp (z i) (el t i) (el t (i + 1))) ->
  forall i, (i < length t)%nat -> d (z i) (Y (el t i)) <= 3 * w * (el t i - a) * exp (2 * L * (el t i - a)).
Proof.
  intros Hl Ha Hz Hg Hb Hs i. induction i as [ | i IH ]; intros Hi.
  - rewrite Hz, Ha, d_refl. rewrite Rminus_diag_eq by reflexivity. lra.
  - pose proof (mono_chain t h Hg) as MC. pose proof (MC 0%nat i ltac:(lia)) as M0. rewrite Ha in M0. pose proof (MC (i + 1)%nat (length t - 1)%nat ltac:(lia)) as M1.
    specialize (IH ltac:(lia)). specialize (Hg i ltac:(lia)). replace (S i) with (i + 1)%nat by lia. rewrite Hs by lia.
    assert (Hst : el t i <= el t (i + 1) <= b) by lra.
    set (s := el t i) in *. set (s' := el t (i + 1)) in *. set (e := s' - s) in *.
    apply Rle_trans with (1 := d_tri _ (stp (Y s) s s') _).
    pose proof (stable (z i) (Y s) s s' M0 Hst (proj2 Hg)) as St.
    pose proof (consistent s s' M0 Hst (proj2 Hg)) as Co. fold e in St, Co.
    replace (s' - a) with (s - a + e) by (unfold e; lra). replace (exp (2 * L * (s - a + e))) with (exp (2 * L * (s - a)) * exp (2 * L * e)) by (rewrite <- exp_plus; f_equal; ring).
    set (X := exp (2 * L * (s - a))) in *. assert (HX : 1 <= X) by (unfold X; pose proof (exp_ineq1_le (2 * L * (s - a))); assert (0 <= 2 * L * (s - a)) by (apply Rmult_le_pos; lra); lra).
    set (Z := exp (2 * L * e)). assert (HZ : 1 + 2 * L * e <= Z) by apply exp_ineq1_le.
    assert (HL : 0 <= 2 * L * e) by (apply Rmult_le_pos; lra).
    apply Rle_trans with (Z * (3 * w * (s - a) * X) + 3 * e * w).
    { apply Rplus_le_compat; [ | exact Co ]. apply Rle_trans with (1 := St). apply Rmult_le_compat; [ lra | apply d_pos | exact HZ | exact IH ]. }
    assert (1 <= X * Z) by nra. assert (0 <= 3 * e * w) by (apply Rmult_le_pos; lra).
    assert (3 * e * w * 1 <= 3 * e * w * (X * Z)) by (apply Rmult_le_compat_l; assumption). lra.
Qed.
End Conv.

(** ** One number *)
Lemma node_in t a b h : grid t a b h -> forall i, (i < length t)%nat -> a <= el t i <= b.
Proof.
  intros (Hne & Ha & Hg & Hb) i Hi. pose proof (mono_chain t h Hg) as MC. pose proof (MC 0%nat i ltac:(lia)). pose proof (MC i (length t - 1)%nat ltac:(lia)). lra.
Qed.
Lemma mvt_step y g a b w h : (forall t, a <= t <= b -> is_derive y t (g t)) ->
  (forall s t, a <= s <= b -> a <= t <= b -> Rabs (s - t) <= h -> Rabs (g s - g t) <= w) ->
  forall s s', a <= s -> s <= s' <= b -> s' - s <= h -> Rabs (y s + (s' - s) * g s - y s') <= (s' - s) * w.
Proof.
  intros Hy Hg s s' Hs Hs' Hh. destruct (MVT_gen y s s' g) as (xi & Hxi & E).
  - rewrite Rmin_left, Rmax_right by lra. intros x Hx. apply Hy. lra.
  - rewrite Rmin_left, Rmax_right by lra. intros x Hx. apply derivable_continuous_pt. exists (g x). apply is_derive_Reals. apply Hy. lra.
  - rewrite Rmin_left, Rmax_right in Hxi by lra. replace (y s + (s' - s) * g s - y s') with ((s' - s) * (g s - g xi)) by lra.
    rewrite Rabs_mult, Rabs_right by lra. apply Rmult_le_compat_l; [ lra | ]. apply Hg; try lra. rewrite Rabs_minus_sym, Rabs_right by lra. lra.
Qed.

Lemma odeint1_error f y L a b h w t : lipschitz f L a b -> solves f y a b -> L * h <= 1 -> grid t a b h ->
  (forall s s', a <= s <= b -> a <= s' <= b -> Rabs (s - s') <= h -> Rabs (f (y s) s - f (y s') s') <= w) ->
  forall i, (i < length t)%nat -> Rabs (el (odeint1 f (y a) t) i - y (el t i)) <= 3 * w * (el t i - a) * exp (2 * L * (el t i - a)).
Proof.
  intros [L0 Hl] Hy Lh Hg Hm i Hi. pose proof (node_in t a b h Hg) as Nd. pose proof Hg as (Hne & Ha & Hst & Hb).
  destruct (odeint1_spec f (y a) t Hne) as (Len & H0 & HS).
  assert (Hab : a <= a <= b) by (specialize (Nd 0%nat ltac:(lia)); lra).
  destruct (Rlt_or_le h 0) as [Hh | Hh].
  { (* a single node *)
    assert (i = 0)%nat as ->. { destruct i; [ reflexivity | ]. specialize (Hst 0%nat ltac:(lia)). lra. }
    rewrite H0, Ha. rewrite !Rminus_diag_eq by reflexivity. rewrite Rabs_R0. lra. }
  assert (w0 : 0 <= w). { apply Rle_trans with (2 := Hm a a Hab Hab ltac:(rewrite Rminus_diag_eq by reflexivity; rewrite Rabs_R0; exact Hh)). apply Rabs_pos. }
  apply (global R Rplus Rmult (fun u v => Rabs (u - v))) with (f := f) (b := b) (h := h) (z := fun i => el (odeint1 f (y a) t) i); try assumption.
  - intros; apply Rabs_pos.
  - intros u. rewrite Rminus_diag_eq by reflexivity. apply Rabs_R0.
  - intros u v x. replace (u - x) with ((u - v) + (v - x)) by ring. apply Rabs_triang.
  - intros. replace (u + v - (u' + v')) with ((u - u') + (v - v')) by ring. apply Rabs_triang.
  - intros. rewrite <- Rabs_mult. right. f_equal. ring.
  - intros e k. lra.
  - intros s s' Hs Hs' Hh'. split.
    + apply Hm; try lra. rewrite Rabs_right by lra. lra.
    + exact (mvt_step y (fun t => f (y t) t) a b w h Hy Hm s s' Hs Hs' Hh').
  - lia.
  - intros j Hj. rewrite HS by exact Hj. symmetry. apply step_R.
Qed.

(** ** Two numbers *)
Lemma dist2_nn p q : 0 <= dist2 p q.
Proof. unfold dist2. pose proof (Rabs_pos (fst p - fst q)). pose proof (Rabs_pos (snd p - snd q)). lra. Qed.
Lemma pvec_inj p q : (forall k, pvec p k = pvec q k) -> p = q.
Proof. intros H. destruct p, q. pose proof (H 0%nat). pose proof (H 1%nat). unfold pvec in *. simpl in *. congruence. Qed.

Lemma odeint2_error f u v L a b h w t : lipschitz2 f L a b -> solves2 f u v a b -> L * h <= 1 -> grid t a b h ->
  (forall s s', a <= s <= b -> a <= s' <= b -> Rabs (s - s') <= h -> dist2 (f (u s, v s) s) (f (u s', v s') s') <= w) ->
  forall i, (i < length t)%nat ->
    dist2 (nth i (odeint2 f (u a, v a) t) (0, 0)) (u (el t i), v (el t i)) <= 2 * (3 * w * (el t i - a) * exp (2 * L * (el t i - a))).
Proof.
  intros [L0 Hl] Hy Lh Hg Hm i Hi. pose proof (node_in t a b h Hg) as Nd. pose proof Hg as (Hne & Ha & Hst & Hb).
  destruct (odeint2_spec f (u a, v a) t Hne) as (Len & H0 & HS).
  assert (Hab : a <= a <= b) by (specialize (Nd 0%nat ltac:(lia)); lra).
  destruct (Rlt_or_le h 0) as [Hh | Hh].
  { assert (i = 0)%nat as ->. { destruct i; [ reflexivity | ]. specialize (Hst 0%nat ltac:(lia)). lra. }
    rewrite H0, Ha. unfold dist2. simpl. rewrite !Rminus_diag_eq by reflexivity. rewrite Rabs_R0. lra. }
  assert (w0 : 0 <= w). { apply Rle_trans with (2 := Hm a a Hab Hab ltac:(rewrite Rminus_diag_eq by reflexivity; rewrite Rabs_R0; exact Hh)). apply dist2_nn. }
  replace (2 * (3 * w * (el t i - a) * exp (2 * L * (el t i - a)))) with (3 * (2 * w) * (el t i - a) * exp (2 * L * (el t i - a))) by ring.
  apply (global (R * R) padd pscl dist2) with (f := f) (b := b) (h := h) (z := fun i => nth i (odeint2 f (u a, v a) t) (0, 0)) (Y := fun s => (u s, v s)); try assumption.
  - intros; apply dist2_nn.
  - intros [p q]. unfold dist2. simpl. rewrite !Rminus_diag_eq by reflexivity. rewrite Rabs_R0. lra.
  - intros [p q] [p' q'] [p'' q'']. unfold dist2. simpl. pose proof (Rabs_triang (p - p') (p' - p'')). pose proof (Rabs_triang (q - q') (q' - q'')).
    replace (p - p' + (p' - p'')) with (p - p'') in * by ring. replace (q - q' + (q' - q'')) with (q - q'') in * by ring. lra.
  - intros [p q] [x y] [p' q'] [x' y']. unfold dist2, padd. simpl. pose proof (Rabs_triang (p - p') (x - x')). pose proof (Rabs_triang (q - q') (y - y')).
    replace (p - p' + (x - x')) with (p + x - (p' + x')) in * by ring. replace (q - q' + (y - y')) with (q + y - (q' + y')) in * by ring. lra.
  - intros r [p q] [p' q']. unfold dist2, pscl. simpl. rewrite <- !Rmult_minus_distr_l, !Rabs_mult. lra.
  - intros e [p q]. unfold pscl, padd. simpl. f_equal; lra.
  - lra.
  - intros s s' Hs Hs' Hh'. split.
    + apply Rle_trans with w; [ | lra ]. apply Hm; try lra. rewrite Rabs_right by lra. lra.
    + unfold dist2, padd, pscl. simpl.
      assert (M1 : Rabs (u s + (s' - s) * fst (f (u s, v s) s) - u s') <= (s' - s) * w).
      { apply (mvt_step u (fun t => fst (f (u t, v t) t)) a b w h); try assumption; [ intros x Hx; now apply Hy | ]. intros p q Hp Hq Hpq. specialize (Hm p q Hp Hq Hpq). unfold dist2 in Hm.
        pose proof (Rabs_pos (snd (f (u p, v p) p) - snd (f (u q, v q) q))). lra. }
      assert (M2 : Rabs (v s + (s' - s) * snd (f (u s, v s) s) - v s') <= (s' - s) * w).
      { apply (mvt_step v (fun t => snd (f (u t, v t) t)) a b w h); try assumption; [ intros x Hx; now apply Hy | ]. intros p q Hp Hq Hpq. specialize (Hm p q Hp Hq Hpq). unfold dist2 in Hm.
        pose proof (Rabs_pos (fst (f (u p, v p) p) - fst (f (u q, v q) q))). lra. }
      lra.
  - lia.
  - intros j Hj. apply pvec_inj. intros k. rewrite HS by exact Hj. symmetry. apply step_R2.
Qed.

(** ** Rates and limits *)
Theorem odeint1_rate f y L K a b h t : lipschitz f L a b -> solves f y a b ->
  (forall s s', a <= s <= b -> a <= s' <= b -> Rabs (f (y s) s - f (y s') s') <= K * Rabs (s - s')) ->
  0 <= h -> L * h <= 1 -> grid t a b h ->
  forall i, (i < length t)%nat -> Rabs (el (odeint1 f (y a) t) i - y (el t i)) <= 3 * (K * h) * (b - a) * exp (2 * L * (b - a)).
Proof.
  intros Hl Hy HK Hh Lh Hg i Hi. pose proof (node_in t a b h Hg i Hi) as Nd.
  assert (K0 : 0 <= K \/ a = b).
  { destruct (Rle_lt_or_eq_dec a b ltac:(lra)) as [ab | ab]; [ left | now right ]. specialize (HK b a ltac:(lra) ltac:(lra)). pose proof (Rabs_pos (f (y b) b - f (y a) a)).
    rewrite (Rabs_right (b - a)) in HK by lra. apply Rmult_le_reg_r with (b - a); lra. }
  destruct K0 as [K0 | Eab].
  2:{ assert (i = 0 \/ el t i = a)%nat as E by (right; lra). pose proof (odeint1_error f y L a b h (Rabs K * h) t Hl Hy Lh Hg) as E1.
      assert (el t i = a) as -> by lra.
      pose proof (E1 ltac:(intros s s' Hs Hs' _; replace s' with s by lra; rewrite Rminus_diag_eq by reflexivity; rewrite Rabs_R0; apply Rmult_le_pos; [ apply Rabs_pos | exact Hh ]) i Hi) as E2.
      replace (el t i) with a in E2 by lra. rewrite (Rminus_diag_eq a a) in E2 by reflexivity. rewrite <- Eab. rewrite (Rminus_diag_eq a a) by reflexivity. lra. }
  apply Rle_trans with (3 * (K * h) * (el t i - a) * exp (2 * L * (el t i - a))).
  - apply (odeint1_error f y L a b h); try assumption. intros s s' Hs Hs' H. apply Rle_trans with (1 := HK s s' Hs Hs'). now apply Rmult_le_compat_l.
  - assert (P : 0 <= 3 * (K * h)) by (apply Rmult_le_pos; [ lra | now apply Rmult_le_pos ]).
    assert (E : exp (2 * L * (el t i - a)) <= exp (2 * L * (b - a))).
    { destruct (Rle_lt_or_eq_dec (2 * L * (el t i - a)) (2 * L * (b - a))) as [H | H]; [ apply Rmult_le_compat_l; destruct Hl; lra | left; now apply exp_increasing | rewrite H; lra ]. }
    apply Rmult_le_compat; [ apply Rmult_le_pos; lra | left; apply exp_pos | apply Rmult_le_compat_l; lra | exact E ].
Qed.

Lemma small_factor E T L : 0 < E -> 0 <= T -> exists w, 0 < w /\ 2 * (3 * w * T * exp (2 * L * T)) < E.
Proof.
  intros HE HT. set (Q := 6 * T * exp (2 * L * T)). assert (HQ : 0 <= Q) by (unfold Q; apply Rmult_le_pos; [ lra | left; apply exp_pos ]).
  exists (E / (Q + 1) / 2). assert (P : 0 < E / (Q + 1)) by (apply Rdiv_lt_0_compat; lra). split; [ lra | ].
  replace (2 * (3 * (E / (Q + 1) / 2) * T * exp (2 * L * T))) with (E / (Q + 1) / 2 * Q) by (unfold Q; field; fold Q; lra).
  assert (E1 : E / (Q + 1) * (Q + 1) = E) by (field; lra). nra.
Qed.
Lemma error_at_b w T L s : 0 <= w -> 0 <= L -> 0 <= s <= T -> 3 * w * s * exp (2 * L * s) <= 3 * w * T * exp (2 * L * T).
Proof.
  intros Hw HL Hs. apply Rmult_le_compat; [ apply Rmult_le_pos; lra | left; apply exp_pos | apply Rmult_le_compat_l; lra | ].
  destruct (Rle_lt_or_eq_dec (2 * L * s) (2 * L * T)) as [H | H]; [ apply Rmult_le_compat_l; lra | left; now apply exp_increasing | rewrite H; lra ].
Qed.

Theorem odeint1_converges f y L a b : a <= b -> lipschitz f L a b -> solves f y a b ->
  (forall t, a <= t <= b -> continuity_pt (fun t => f (y t) t) t) ->
  forall eps, 0 < eps -> exists h, 0 < h /\ forall t, grid t a b h ->
    forall i, (i < length t)%nat -> Rabs (el (odeint1 f (y a) t) i - y (el t i)) < eps.
Proof.
  intros Hab Hl Hy Hc eps He. destruct (small_factor eps (b - a) L He ltac:(lra)) as (w & Hw & Hs).
  destruct (@Heine_cor2 _ a b Hc (mkposreal w Hw)) as [dl Hd]. destruct dl as [dl Hdl]. simpl in Hd.
  destruct Hl as [L0 Hl].
  set (h := Rmin (dl / 2) (/ (L + 1))). assert (Lp : 0 < / (L + 1)) by (apply Rinv_0_lt_compat; lra).
  assert (Hh : 0 < h) by (unfold h; apply Rmin_pos; lra). exists h. split; [ exact Hh | ].
  intros t Hg i Hi. pose proof (node_in t a b h Hg i Hi) as Nd.
  assert (Lh : L * h <= 1).
  { apply Rle_trans with (L * / (L + 1)); [ apply Rmult_le_compat_l; [ lra | apply Rmin_r ] | ]. apply Rmult_le_reg_r with (L + 1); [ lra | ]. rewrite Rmult_assoc, Rinv_l by lra. lra. }
  apply Rle_lt_trans with (1 := odeint1_error f y L a b h w t (conj L0 Hl) Hy Lh Hg
    ltac:(intros s s' Hs1 Hs2 Hss; left; apply Hd; [ exact Hs1 | exact Hs2 | ]; pose proof (Rmin_l (dl / 2) (/ (L + 1))); fold h in H; lra) i Hi).
  pose proof (error_at_b w (b - a) L (el t i - a) ltac:(lra) L0 ltac:(lra)).
  assert (0 <= 3 * w * (b - a) * exp (2 * L * (b - a))) by (apply Rmult_le_pos; [ apply Rmult_le_pos; lra | left; apply exp_pos ]). lra.
Qed.

Theorem odeint2_converges f u v L a b : a <= b -> lipschitz2 f L a b -> solves2 f u v a b ->
  (forall t, a <= t <= b -> continuity_pt (fun t => fst (f (u t, v t) t)) t /\ continuity_pt (fun t => snd (f (u t, v t) t)) t) ->
  forall eps, 0 < eps -> exists h, 0 < h /\ forall t, grid t a b h ->
    forall i, (i < length t)%nat -> dist2 (nth i (odeint2 f (u a, v a) t) (0, 0)) (u (el t i), v (el t i)) < eps.
Proof.
  intros Hab Hl Hy Hc eps He. destruct (small_factor eps (b - a) L He ltac:(lra)) as (w & Hw & Hs).
  assert (Hw2 : 0 < w / 2) by lra.
  destruct (@Heine_cor2 _ a b (fun t H => proj1 (Hc t H)) (mkposreal _ Hw2)) as [[d1 Hd1] Hm1]. simpl in Hm1.
  destruct (@Heine_cor2 _ a b (fun t H => proj2 (Hc t H)) (mkposreal _ Hw2)) as [[d2 Hd2] Hm2]. simpl in Hm2.
  destruct Hl as [L0 Hl].
  set (dl := Rmin d1 d2). assert (Hdl : 0 < dl) by (unfold dl; now apply Rmin_pos).
  set (h := Rmin (dl / 2) (/ (L + 1))). assert (Lp : 0 < / (L + 1)) by (apply Rinv_0_lt_compat; lra).
  assert (Hh : 0 < h) by (unfold h; apply Rmin_pos; lra). exists h. split; [ exact Hh | ].
  intros t Hg i Hi. pose proof (node_in t a b h Hg i Hi) as Nd.
  assert (Lh : L * h <= 1).
  { apply Rle_trans with (L * / (L + 1)); [ apply Rmult_le_compat_l; [ lra | apply Rmin_r ] | ]. apply Rmult_le_reg_r with (L + 1); [ lra | ]. rewrite Rmult_assoc, Rinv_l by lra. lra. }
  assert (HM : forall s s', a <= s <= b -> a <= s' <= b -> Rabs (s - s') <= h -> dist2 (f (u s, v s) s) (f (u s', v s') s') <= w).
  { intros s s' Hs1 Hs2 Hss. pose proof (Rmin_l (dl / 2) (/ (L + 1))) as M. fold h in M. pose proof (Rmin_l d1 d2) as M1. pose proof (Rmin_r d1 d2) as M2. fold dl in M1, M2.
    specialize (Hm1 s s' Hs1 Hs2 ltac:(lra)). specialize (Hm2 s s' Hs1 Hs2 ltac:(lra)). unfold dist2. lra. }
  apply Rle_lt_trans with (1 := odeint2_error f u v L a b h w t (conj L0 Hl) Hy Lh Hg HM i Hi).
  pose proof (error_at_b w (b - a) L (el t i - a) ltac:(lra) L0 ltac:(lra)). lra.
Qed.
