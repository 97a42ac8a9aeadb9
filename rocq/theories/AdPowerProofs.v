(** * Forward-mode differentiation of the transfer functions and the linear power spectrum *)
From Coquelicot Require Import Coquelicot.
From Verif Require Import Np NpLemmas Core Ode Interp Integrate IntegrateSpec RombProofs Background BgSpec BgPositive BgGrowth Transfer TransferProofs
  Power PowerProofs GradSpec Ad AdSpec AdProofs AdBg AdGrowth AdPower.

(** ** at exact reals *)
Section AtR.
Variables (c : cosmology).
Let g := lift_cosmo c.
Lemma R_eisenhu k : geisenhu num_R g k = eisenhu c k. Proof. reflexivity. Qed.
Lemma R_eisenhu_osc k : geisenhu_osc num_R g k = eisenhu_osc c k. Proof. reflexivity. Qed.
Lemma R_romb_loop f a b fuel : forall i o st err, gromb_loop num_R f a b fuel i o st = fst (romb_loop f a b fuel i o st err).
Proof.
  induction fuel as [ | n IH]; intros i o st err; [ reflexivity | ]. cbn [gromb_loop romb_loop]. cbv zeta.
  rewrite (IH _ _ _ (Rabs (el st (i - 1) - el (romb_row ((b - a) * (o + difftrapn f a b (2 ^ i)) / INR (2 ^ i)) st) i))). reflexivity.
Qed.
Lemma R_romb f a b n : gromb num_R f a b (S n) = Power.romb_value f a b (S n).
Proof.
  unfold gromb, Power.romb_value, romb. rewrite (R_romb_loop f a b (S n) 1 _ _ 0).
  change (gdifftrap1 num_R f a b) with (difftrap1 f a b). change (nmul num_R (cst num_R (b - a)) (difftrap1 f a b)) with ((b - a) * difftrap1 f a b).
  destruct (romb_loop f a b (S n) 1 _ _ 0) as [[i st] err]. reflexivity.
Qed.
Lemma romberg_ext f h a b : (forall x, f x = h x) -> forall k i, romberg f a b i k = romberg h a b i k.
Proof.
  intros E. induction k as [ | k IH]; intros i; destruct i; cbn [romberg]; rewrite ?IH; try reflexivity;
    unfold trapezoid; f_equal; apply Rsum_ext; intros; now rewrite !E.
Qed.
Lemma R_sigmasqr (T : transfer) (GT : gtransfer (A := R)) Rr kmin kmax : (forall k, GT g k = T c k) ->
  gsigmasqr num_R g Rr GT kmin kmax = sigmasqr c Rr T kmin kmax.
Proof.
  intros E. unfold gsigmasqr, sigmasqr. rewrite R_romb. cbn [nmul cst num_R]. f_equal.
  unfold Power.romb_value. rewrite !RombProofs.romb_value by lia. cbn [fst].
  assert (EF : forall x, gint_sigma num_R g Rr GT x = int_sigma c Rr T x).
  { intros x. unfold gint_sigma, int_sigma. cbv zeta. rewrite E. reflexivity. }
  now apply romberg_ext.
Qed.
End AtR.

(** ** quadratures are linear, on dual numbers as well *)
Section Quad.
Local Notation N := num_dual.
Lemma dmulc k x : nmul N (cst N k) x = (k * fst x, k * snd x).
Proof. cbn [nmul cst num_dual fst snd]. f_equal. ring. Qed.
Lemma ddivc k x : ndiv N x (cst N k) = (fst x / k, snd x / k).
Proof. cbn [ndiv cst num_dual fst snd]. f_equal. unfold Rdiv. ring. Qed.
Lemma dpair (x y : dual) : fst x = fst y -> snd x = snd y -> x = y.
Proof. destruct x, y; cbn; congruence. Qed.
(** a component of a dual number that commutes with sums and with products and quotients by constants *)
Definition linear_part (p : dual -> R) : Prop :=
  p (cst N 0) = 0 /\ (forall x y, p (nadd N x y) = p x + p y) /\ (forall x y, p (nsub N x y) = p x - p y) /\
  (forall k x, p (nmul N (cst N k) x) = k * p x) /\ (forall k x, p (ndiv N x (cst N k)) = p x / k).
Lemma fst_linear : linear_part fst.
Proof. repeat split. Qed.
Lemma snd_linear : linear_part snd.
Proof. split; [ reflexivity | split; [ reflexivity | split; [ reflexivity | split ]]]; intros k x; [ now rewrite dmulc | now rewrite ddivc ]. Qed.
Section Part.
Variable p : dual -> R.
Hypothesis HP : linear_part p.
Lemma p_sum l : p (gsum N l) = vsum (map p l).
Proof. destruct HP as (P0 & PA & _). induction l as [ | x l IH]; [ exact P0 | ]. cbn [gsum fold_right map vsum] in *. rewrite PA. now f_equal. Qed.
Lemma p_difftrapn f a b n : p (gdifftrapn N f a b n) = difftrapn (fun x => p (f x)) a b n.
Proof. unfold gdifftrapn, difftrapn. cbv zeta. rewrite p_sum, map_map. reflexivity. Qed.
Lemma p_scan l : forall x k, map p (snd (scan (gromb_scan N) (x, k) l)) = snd (scan romb_scan (p x, k) (map p l)).
Proof.
  destruct HP as (P0 & PA & PS & PM & PD). induction l as [ | y l IH]; intros x k; [ reflexivity | ].
  cbn [scan map gromb_scan romb_scan]. specialize (IH (gromberg_diff N y x (k + 1)) (k + 1)%nat).
  assert (E : p (gromberg_diff N y x (k + 1)) = romberg_diff (p y) (p x) (k + 1)) by (unfold gromberg_diff, romberg_diff; now rewrite PD, PS, PM).
  rewrite E in IH. destruct (scan (gromb_scan N) _ l), (scan romb_scan _ (map p l)). cbn [snd map] in *. now rewrite E, IH.
Qed.
Lemma map_removelast (l : list dual) : map p (removelast l) = removelast (map p l).
Proof. induction l as [ | x [ | y l] IH]; [ reflexivity | reflexivity | ]. cbn [removelast map] in *. now rewrite IH. Qed.
Lemma p_loop f a b fuel : forall i o st, let r := gromb_loop N f a b fuel i o st in let r' := gromb_loop num_R (fun x => p (f x)) a b fuel i (p o) (map p st) in
  fst r = fst r' /\ map p (snd r) = snd r'.
Proof.
  induction fuel as [ | n IH]; intros i o st; [ split; reflexivity | ]. cbn [gromb_loop]. cbv zeta in *.
  destruct HP as (P0 & PA & PS & PM & PD).
  destruct (IH (i + 1)%nat (nadd N o (gdifftrapn N f a b (2 ^ i)))
    (gromb_row N (ndiv N (nmul N (cst N (b - a)) (nadd N o (gdifftrapn N f a b (2 ^ i)))) (cst N (INR (2 ^ i)))) st)) as [E1 E2].
  rewrite E1, E2. rewrite PA, p_difftrapn. change (gdifftrapn num_R (fun x => p (f x)) a b (2 ^ i)) with (difftrapn (fun x => p (f x)) a b (2 ^ i)).
  assert (ER : forall x, map p (gromb_row N x st) = gromb_row num_R (p x) (map p st)).
  { intros x. unfold gromb_row. cbn [map]. f_equal. rewrite p_scan, map_removelast. reflexivity. }
  rewrite ER, PD, PM, PA, p_difftrapn. split; reflexivity.
Qed.
Lemma p_romb f a b n : p (gromb N f a b (S n)) = romberg (fun x => p (f x)) a b (S n) (S n).
Proof.
  assert (E : p (gromb N f a b (S n)) = gromb num_R (fun x => p (f x)) a b (S n)).
  { unfold gromb. destruct (p_loop f a b (S n) 1 (gdifftrap1 N f a b) (repeat (nmul N (cst N (b - a)) (gdifftrap1 N f a b)) (S n + 1))) as [E1 E2].
    destruct HP as (P0 & PA & PS & PM & PD).
    assert (EO : p (gdifftrap1 N f a b) = gdifftrap1 num_R (fun x => p (f x)) a b) by (unfold gdifftrap1; rewrite PM, PA; reflexivity).
    assert (ERp : forall x m, map p (repeat x m) = repeat (p x) m) by (intros x m; induction m as [ | m IHm]; [ reflexivity | cbn [repeat map]; now rewrite IHm ]).
    rewrite ERp, PM, EO in E1, E2. change ((b - a) * gdifftrap1 num_R (fun x => p (f x)) a b) with (nmul num_R (cst num_R (b - a)) (gdifftrap1 num_R (fun x => p (f x)) a b)) in E1, E2.
    destruct (gromb_loop N f a b (S n) 1 _ _) as [i st], (gromb_loop num_R _ a b (S n) 1 _ _) as [i' st'].
    cbn [fst snd] in *. subst i' st'. change (cst num_R 0) with 0. transitivity (nth i (map p st) (p (cst N 0))); [ symmetry; apply map_nth | now rewrite P0 ]. }
  rewrite E, R_romb. unfold Power.romb_value. now rewrite RombProofs.romb_value by lia.
Qed.
End Part.
Lemma derive_trapezoid t (f : R -> R -> R) fd a b n : (forall x, is_derive (fun s => f s x) t (fd x)) -> is_derive (fun s => trapezoid (f s) a b n) t (trapezoid fd a b n).
Proof.
  intros HD. unfold trapezoid. apply (is_derive_scal (fun s => Rsum n (fun i => (f s (node a b n i) + f s (node a b n (i + 1))) / 2))).
  apply (is_derive_Rsum n (fun i s => (f s (node a b n i) + f s (node a b n (i + 1))) / 2)).
  intros j _. apply (is_derive_ext (fun s => / 2 * (f s (node a b n j) + f s (node a b n (j + 1))))); [ intros s; unfold Rdiv; apply Rmult_comm | ].
  unfold Rdiv. rewrite Rmult_comm. apply (is_derive_scal (fun s => f s (node a b n j) + f s (node a b n (j + 1)))).
  apply (is_derive_plus (V := R_NormedModule)); apply HD.
Qed.
Lemma derive_romberg t (f : R -> R -> R) fd a b : (forall x, is_derive (fun s => f s x) t (fd x)) -> forall k i, is_derive (fun s => romberg (f s) a b i k) t (romberg fd a b i k).
Proof.
  intros HD. induction k as [ | k IH]; intros i; [ apply derive_trapezoid; exact HD | ]. destruct i as [ | i]; [ apply (derive_trapezoid t f fd a b 1), HD | ].
  cbn [romberg]. set (q := 4 ^ S k). apply (is_derive_ext (fun s => / (q - 1) * (q * romberg (f s) a b (S i) k - romberg (f s) a b i k))); [ intros s; unfold Rdiv; apply Rmult_comm | ].
  unfold Rdiv. rewrite Rmult_comm. apply (is_derive_scal (fun s => q * romberg (f s) a b (S i) k - romberg (f s) a b i k)).
  apply (is_derive_minus (V := R_NormedModule)); [ apply (is_derive_scal (fun s => romberg (f s) a b (S i) k)) | ]; apply IH.
Qed.
Lemma t_romb t f fd a b n : (forall x, tangent_of (fun s => f s x) t (fd x)) ->
  tangent_of (fun s => Power.romb_value (f s) a b (S n)) t (gromb N fd a b (S n)).
Proof.
  intros HT. apply (t_ext t (fun s => romberg (f s) a b (S n) (S n))); [ intros s; unfold Power.romb_value; now rewrite RombProofs.romb_value by lia | ].
  split; [ rewrite (p_romb fst fst_linear) | rewrite (p_romb snd snd_linear) ].
  - apply romberg_ext. intros x. apply HT.
  - apply (derive_romberg t f (fun x => snd (fd x))). intros x. apply HT.
Qed.
End Quad.
