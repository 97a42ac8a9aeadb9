(** * Proofs about odeint *)
From Verif Require Import Np NpLemmas Ode OdeSpec.

Section Scan.
  Variables (V : Type) (add : V -> V -> V) (scl : R -> V -> V) (fn : V -> R -> V).
  Definition step (y : V) (s t : R) : V := snd (rk4 add scl fn (y, s) t).
  Lemma scan_rk4 ts : forall y0 t0 d,
    length (snd (scan (rk4 add scl fn) (y0, t0) ts)) = length ts /\
    ((0 < length ts)%nat -> nth 0 (snd (scan (rk4 add scl fn) (y0, t0) ts)) d = step y0 t0 (el ts 0)) /\
    (forall i, (S i < length ts)%nat ->
       nth (S i) (snd (scan (rk4 add scl fn) (y0, t0) ts)) d =
       step (nth i (snd (scan (rk4 add scl fn) (y0, t0) ts)) d) (el ts i) (el ts (S i))).
  Proof.
    induction ts as [ | t ts IH]; intros y0 t0 d.
    - simpl; split; [ reflexivity | split; intros; lia ].
    - simpl. set (y1 := add _ _). specialize (IH y1 t d).
      destruct (scan (rk4 add scl fn) (y1, t) ts) as [c2 ys]. simpl in *.
      destruct IH as (IL & I0 & IS). split; [ now rewrite IL | split; [ reflexivity | ]].
      intros [ | i] Hi.
      + rewrite I0 by lia. reflexivity.
      + rewrite IS by lia. reflexivity.
  Qed.
End Scan.

Lemma step_R fn y s t : step R Rplus Rmult fn y s t = rk4_num fn y s t.
Proof. unfold step, rk4_num, rk4; simpl. replace (1.0 / 6.0) with (1 / 6) by lra. field. Qed.

Lemma odeint1_spec fn y0 t : t <> [] ->
  length (odeint1 fn y0 t) = length t /\ el (odeint1 fn y0 t) 0 = y0 /\
  forall i, (i + 1 < length t)%nat ->
    el (odeint1 fn y0 t) (i + 1) = rk4_num fn (el (odeint1 fn y0 t) i) (el t i) (el t (i + 1)).
Proof.
  intros Hne. unfold odeint1, odeint. destruct (scan_rk4 R Rplus Rmult fn t y0 (el t 0) 0) as (L & H0 & HS).
  assert (Hl : (0 < length t)%nat) by (destruct t; [ congruence | simpl; lia ]).
  split; [ exact L | split ].
  - unfold el at 1. rewrite H0 by assumption. rewrite step_R. unfold rk4_num.
    replace (el t 0 - el t 0) with 0 by ring. field.
  - intros i Hi. rewrite Nat.add_1_r in *. unfold el at 1. rewrite HS by lia. rewrite step_R. reflexivity.
Qed.

(** pairs as two-entry vectors *)
Definition pvec (p : R * R) (i : nat) : R := if Nat.eqb i 0 then fst p else snd p.
Definition lift (fn : R * R -> R -> R * R) (y : nat -> R) (t : R) : nat -> R := pvec (fn (y 0%nat, y 1%nat) t).

Lemma step_R2 fn y s t i : pvec (step (R * R) padd pscl fn y s t) i = rk4_vec (lift fn) (pvec y) s t i.
Proof.
  destruct y as [y1 y2]. unfold step, rk4_vec, rk4, padd, pscl, lift. simpl.
  unfold pvec; destruct (Nat.eqb i 0); simpl; replace (1.0 / 6.0) with (1 / 6) by lra; field.
Qed.

Lemma odeint2_spec fn y0 t : t <> [] ->
  length (odeint2 fn y0 t) = length t /\ nth 0 (odeint2 fn y0 t) (0, 0) = y0 /\
  forall i, (i + 1 < length t)%nat -> forall k,
    pvec (nth (i + 1) (odeint2 fn y0 t) (0, 0)) k =
    rk4_vec (lift fn) (pvec (nth i (odeint2 fn y0 t) (0, 0))) (el t i) (el t (i + 1)) k.
Proof.
  intros Hne. unfold odeint2, odeint. destruct (scan_rk4 _ padd pscl fn t y0 (el t 0) (0, 0)) as (L & H0 & HS).
  assert (Hl : (0 < length t)%nat) by (destruct t; [ congruence | simpl; lia ]).
  split; [ exact L | split ].
  - rewrite H0 by assumption. unfold step, rk4, padd, pscl; simpl.
    replace (el t 0 - el t 0) with 0 by ring. destruct y0; simpl. f_equal; rewrite Rmult_0_r, Rmult_0_l; apply Rplus_0_r.
  - intros i Hi k. rewrite Nat.add_1_r in *. rewrite HS by lia. apply step_R2.
Qed.

(** right-hand sides that do not depend on y *)
Lemma rk4_quadrature g y s t :
  rk4_num (fun _ => g) y s t = y + (t - s) / 6 * (g s + 4 * g ((s + t) / 2) + g t).
Proof. unfold rk4_num. replace (s + (t - s) / 2) with ((s + t) / 2) by field. field. Qed.

Lemma rk4_linear lam y s t :
  let z := lam * (t - s) in
  rk4_num (fun y _ => lam * y) y s t = (1 + z + z ^ 2 / 2 + z ^ 3 / 6 + z ^ 4 / 24) * y.
Proof. intros z. unfold rk4_num, z. field. Qed.

(** quadrature: the table is a cumulative sum *)
Lemma odeint1_sum g y0 t : t <> [] -> forall i, (i < length t)%nat ->
  el (odeint1 (fun _ => g) y0 t) i =
  y0 + Rsum i (fun j => (el t (j + 1) - el t j) / 6 * (g (el t j) + 4 * g ((el t j + el t (j + 1)) / 2) + g (el t (j + 1)))).
Proof.
  intros Hne. destruct (odeint1_spec (fun _ => g) y0 t Hne) as (L & H0 & HS).
  induction i as [ | i IH]; intros Hi.
  - rewrite H0. simpl. ring.
  - replace (S i) with (i + 1)%nat by lia. rewrite HS by lia. rewrite rk4_quadrature, IH by lia.
    rewrite (Nat.add_1_r i). change (Rsum (S i) ?g) with (Rsum i g + g i). cbv beta. rewrite (Nat.add_1_r i). ring.
Qed.
