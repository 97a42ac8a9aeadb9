(** * Proofs about quadratures between arrays *)
From Coq Require Import Reals Lra Lia ZArith String List.
From Coquelicot Require Import Coquelicot.
From Verif Require Import Np NpLemmas Interp Integrate IntegrateSpec SimpsProofs Spline Nd NdSpec NdProofs NzArr NzArrProofs PowerNd PowerNdSpec NdBroadcast SplineNd SplineNdProofs RombFn QuadNd.
Import ListNotations.
Local Open Scope R_scope.

Lemma fits_antisym t s : fits t s -> fits s t -> t = s.
Proof. intros A B. rewrite <- (rev_involutive t), <- (rev_involutive s). f_equal. now apply under_antisym. Qed.
Lemma fits_refl s : fits s s.
Proof. apply under_refl. Qed.
Lemma nrep_get s x : fits (shp x) s -> nrep s x (fun i => get x (bidx (shp x) i)).
Proof. intros H. now split. Qed.

Section Bounds.
Context (f : R -> R) (F : nd -> nd) (HF : forall x, elementwise f x (F x)) (a b : nd) (s : list nat) (HB : bshape (shp a) (shp b) = Some s).
Let A (i : list nat) := get a (bidx (shp a) i).
Let B (i : list nat) := get b (bidx (shp b) i).
Lemma difference : exists d, bop2 Rminus b a = Ok d /\ has s d (fun i => B i - A i).
Proof.
  destruct (bshape_fits _ _ _ HB) as [Fa Fb]. destruct (nrep_bop s Rminus b a _ _ (nrep_get s b Fb) (nrep_get s a Fa)) as (z & E & Hz & F1 & F2).
  exists z. split; [ exact E | ]. assert (Sz : shp z = s) by exact (exact_shape _ _ _ _ HB F2 F1 (proj1 Hz)). split; [ exact Sz | ]. exact (nrep_self s z _ Sz Hz).
Qed.
Lemma simps_bounds N : Nat.even N = true -> (2 <= N)%nat -> exists r, simps_nd F a b N = Ok r /\ shp r = s /\ forall i, inside s i -> get r i = simpson f (A i) (B i) N.
Proof.
  intros He HN. unfold simps_nd. rewrite (even_mod N He). destruct difference as (d & Ed & Hd). rewrite Ed. cbn [bind]. cbv zeta. unfold linspace_nd. rewrite HB. cbn [bind].
  set (x := Nd ((N + 1)%nat :: s) _). destruct (HF x) as [Sy Hy]. destruct (even_half N He) as [M EM].
  assert (Vy : forall j i, (j <= N)%nat -> inside s i -> get (F x) (j :: i) = f (node (A i) (B i) N j)).
  { intros j i Hj Hi. rewrite Hy by (constructor; [ lia | exact Hi ]). unfold x. cbn [get hd tl]. f_equal. fold (A i) (B i). rewrite linspace_node. unfold el. rewrite nth_tab by lia. reflexivity. }
  unfold x in Sy at 2. cbn [shp] in Sy. rewrite Sy.
  assert (D1 : ((N + 1) / 2 = M)%nat) by (subst N; symmetry; apply (Nat.div_unique _ 2 M 1); lia).
  assert (D2 : ((N + 1 - 1) / 2 = M)%nat) by (replace (N + 1 - 1)%nat with N by lia; subst N; rewrite Nat.mul_comm; now apply Nat.div_mul).
  rewrite D1, D2.
  assert (E2 : forall st, (st <= 2)%nat -> has (M :: s) (every2 st M (F x)) (fun i => f (node (A (tl i)) (B (tl i)) N (st + 2 * hd 0%nat i)))).
  { intros st Hst. split; [ cbn [every2 shp]; now rewrite Sy | ]. intros i Hi. inversion Hi as [ | ? j ? i' Hj Hi']; subst i. cbn [every2 get hd tl]. apply Vy; [ lia | exact Hi' ]. }
  destruct (has_bop (M :: s) Rplus _ _ _ _ (E2 0%nat ltac:(lia)) (has_uop _ (fun u => 4 * u) _ _ (E2 1%nat ltac:(lia)))) as (p & Ep & Hp). rewrite Ep. cbn [bind].
  destruct (has_bop (M :: s) Rplus _ _ _ _ Hp (E2 2%nat ltac:(lia))) as (q & Eq & Hq). rewrite Eq. cbn [bind].
  assert (Hs : has s (sum_first q) (fun i => Rsum M (fun j => f (node (A i) (B i) N (2 * j)) + 4 * f (node (A i) (B i) N (2 * j + 1)) + f (node (A i) (B i) N (2 * j + 2))))).
  { destruct Hq as [Sq Vq]. split; [ cbn [sum_first shp]; now rewrite Sq | ]. intros i Hi. cbn [sum_first get]. rewrite Sq. cbn [hd]. rewrite vsum_tab. apply Rsum_ext. intros j Hj.
    rewrite Vq by (constructor; assumption). cbn [hd tl]. rewrite (Nat.add_comm 1 (2 * j)), (Nat.add_comm 2 (2 * j)). reflexivity. }
  destruct (has_bop s Rmult _ _ _ _ (has_uop _ (fun u => u / 3) _ _ (has_uop _ (fun u => u / INR N) _ _ Hd)) Hs) as (r & Er & Hr). exists r. split; [ exact Er | ].
  split; [ exact (proj1 Hr) | ]. intros i Hi. rewrite (proj2 Hr i Hi). unfold simpson. replace (N / 2)%nat with M by (rewrite <- D2; f_equal; lia). reflexivity.
Qed.
Lemma simps_bounds_exact c N : f = poly c 3 -> Nat.even N = true -> (2 <= N)%nat -> exists r, simps_nd F a b N = Ok r /\ shp r = s /\ forall i, inside s i -> get r i = RInt (poly c 3) (A i) (B i).
Proof.
  intros Ef He HN. destruct (simps_bounds N He HN) as (r & E & S & V). exists r. split; [ exact E | split; [ exact S | ] ]. intros i Hi. rewrite (V i Hi), Ef, poly_int_RInt. now apply simpson_cubic.
Qed.

Lemma bop_err h x y e : bop2 h x y = Err e -> e = TypeError.
Proof. unfold bop2. intros H. destruct (bshape (shp x) (shp y)); congruence. Qed.
Lemma scan_err n : forall state x k e, scan_rows state x k n = Err e -> e = TypeError.
Proof.
  assert (T : forall y x k e, scan_step y x k = Err e -> e = TypeError).
  { intros y x k e. unfold scan_step. destruct (bop2 Rminus (uop1 (fun u => 4.0 ^ (k + 1) * u) x) y) as [r | e'] eqn:E; cbn [bind]; [ intros H; destruct (list_eq_dec Nat.eq_dec (shp r) (shp x)); congruence | ]. intros H. injection H as <-. exact (bop_err _ _ _ _ E). }
  induction n as [ | n IH]; intros state x k e; cbn [scan_rows]; destruct (scan_step (row state k) x k) as [x' | e'] eqn:E; cbn [bind]; try discriminate; try (intros H; injection H as <-; exact (T _ _ _ _ E)).
  destruct (scan_rows state x' (k + 1) n) as [l | e'] eqn:E'; cbn [bind]; [ discriminate | ]. intros H. injection H as <-. exact (IH _ _ _ _ E').
Qed.
Lemma romb_bounds d rest : s <> [] -> (1 <= d)%nat -> romb_nd F a b d rest = Err TypeError.
Proof.
  intros Ns Hd. unfold romb_nd. destruct difference as (r & Er & Hr). rewrite Er. cbn [bind]. cbv zeta. destruct (bshape_fits _ _ _ HB) as [Fa Fb].
  assert (Nr : forall g, nrep s (uop1 g r) (fun i => g (get r (bidx (shp r) i)))) by (intros g; apply nrep_uop; apply nrep_get; rewrite (proj1 Hr); apply fits_refl).
  assert (Nr0 : nrep s r (fun i => get r (bidx (shp r) i))) by (apply nrep_get; rewrite (proj1 Hr); apply fits_refl).
  destruct (nrep_bop s Rplus (F a) (F b) _ _ (nrep_get s (F a) ltac:(rewrite (proj1 (HF a)); exact Fa)) (nrep_get s (F b) ltac:(rewrite (proj1 (HF b)); exact Fb))) as (o & Eo & Ho & _). rewrite Eo. cbn [bind].
  destruct (nrep_bop s Rmult r (uop1 (fun u => 0.5 * u) o) _ _ Nr0 (nrep_uop _ _ _ _ Ho)) as (t & Et & Ht & _). rewrite Et. cbn [bind]. destruct d as [ | d]; [ lia | ].
  destruct (nrep_bop s Rplus a (uop1 (fun u => 0.5 * u) (uop1 (fun u => u / INR 1) r)) _ _ (nrep_get s a Fa) (nrep_uop _ _ _ _ (Nr _))) as (lox & El & Hl & _). rewrite El. cbn [bind].
  assert (Fv : fits (shp (vec [0])) s).
  { unfold fits. cbn [vec shp length rev app]. destruct (rev s) as [ | n w] eqn:E; [ | simpl; tauto ]. destruct Ns. rewrite <- (rev_involutive s), E. reflexivity. }
  destruct (nrep_bop s Rmult (uop1 (fun u => u / INR 1) r) (vec [0]) _ _ (Nr _) (nrep_get s _ Fv)) as (hi & Eh & Hh & _). rewrite Eh. cbn [bind].
  destruct (nrep_bop s Rplus lox hi _ _ Hl Hh) as (pt & Ep & Hp & _). rewrite Ep. cbn [bind].
  destruct (nrep_bop s Rmult r (uop1 (fun u => u + vsum (flat (F pt))) (uop1 (fun u => 0.5 * u) o)) _ _ Nr0 (nrep_uop _ _ _ _ (nrep_uop _ _ _ _ Ho))) as (x & Ex & Hx & Fx & _). rewrite Ex. cbn [bind].
  assert (Sx : shp x = s). { apply fits_antisym; [ exact (proj1 Hx) | ]. rewrite (proj1 Hr) in Fx. exact Fx. }
  match goal with |- bind ?X _ = _ => destruct X as [l | e] eqn:E; cbn [bind] end; [ | f_equal; exact (scan_err _ _ _ _ _ E) ].
  unfold prepend. cbn [uop1 shp]. unfold atleast1. cbn [uop1 shp]. rewrite Sx. destruct s as [ | n w]; [ now destruct Ns | ]. cbn [uop1 shp]. rewrite Sx. cbn [tl].
  destruct (list_eq_dec Nat.eq_dec w (n :: w)) as [C | C]; [ | reflexivity ]. apply (f_equal (@length nat)) in C. cbn in C. lia.
Qed.
End Bounds.
