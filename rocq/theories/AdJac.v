(** * Numbers with several tangents, and the relations that make the value and the linearity of forward mode visible *)
From Verif Require Import Np NpLemmas Core Ode Interp Integrate Background Transfer Power Redshift Bias Sparse Likelihood Probes AngularCl SparseSpec GradSpec Ad AdPower AdProbes AdHalofit AdLike AdParam AdParamCl AdJacSpec.
Local Open Scope R_scope.

(** ** the value *)
Definition rv (x : R) (d : dual) : Prop := x = fst d.
Lemma rv_num : num_rel rv num_R num_dual.
Proof. unfold rv. constructor; cbn [cst val nadd nsub nmul ndiv nneg nexp nln nsqrt nsin ncos nsinh nabs nipow npow nmax nmin num_R num_dual fst]; intros; subst; reflexivity. Qed.
Lemma rv_cosmo c d : cosmo_rel rv (lift_cosmo c) (dual_cosmo c d).
Proof. constructor; cbn; try reflexivity. destruct (_gamma c); [ reflexivity | exact I ]. Qed.
Lemma rv_list v x : Forall2 rv v x <-> v = map fst x.
Proof.
  split; [ induction 1; cbn [map]; [ reflexivity | now rewrite H, IHForall2 ] | ]. intros ->. induction x; cbn [map]; constructor; [ reflexivity | assumption ].
Qed.
Lemma rv_mat v x : Forall2 (Forall2 rv) v x <-> v = map (map fst) x.
Proof.
  split; [ induction 1; cbn [map]; [ reflexivity | now rewrite IHForall2, (proj1 (rv_list _ _) H) ] | ]. intros ->. induction x; cbn [map]; constructor; [ now apply rv_list | assumption ].
Qed.
Lemma tab_el n (v : list R) : length v = n -> tab n (el v) = v.
Proof. intros E. apply (nth_ext _ _ 0 0); rewrite length_tab; [ now symmetry | ]. intros i Hi. now rewrite nth_tab. Qed.
Lemma f2_tab_lt {X Y} (r : X -> Y -> Prop) n f g : (forall i, (i < n)%nat -> r (f i) (g i)) -> Forall2 r (tab n f) (tab n g).
Proof.
  intros HF. unfold tab. assert (G : forall i, In i (seq 0 n) -> r (f i) (g i)) by (intros i Hi; apply in_seq in Hi; apply HF; lia).
  induction (seq 0 n) as [ | z l IH]; cbn [map]; constructor; [ apply G; now left | apply IH; intros; apply G; now right ].
Qed.
Lemma len_map2 {X Y Z} (f : X -> Y -> Z) l : forall m, length (map2 f l m) = Nat.min (length l) (length m).
Proof. induction l as [ | x l IH]; intros [ | y m]; cbn [map2 length Nat.min]; try reflexivity. now rewrite IH. Qed.
Lemma map_tab {X Y} (f : X -> Y) n g : map f (tab n g) = tab n (fun i => f (g i)).
Proof. unfold tab. apply map_map. Qed.
Lemma rv_linalg la : linalg_sized la -> linalg_rel rv (linalg_R la) (linalg_dual la).
Proof.
  intros HS. constructor; unfold linalg_R, linalg_dual; cbn [ga_inv ga_logdet ga_cho_solve].
  - intros n m m' H. apply rv_mat in H. apply rv_mat. subst m. rewrite map_tab. set (P := la_inv la n (map (map fst) m')).
    destruct (proj1 (HS n (map (map fst) m'))) as [L1 L2]. fold P in L1, L2.
    transitivity (tab n (fun i => nth i P [])).
    { apply (nth_ext _ _ [] []); [ rewrite length_tab; exact L1 | ]. rewrite L1. intros i Hi. now rewrite nth_tab. }
    unfold tab at 1 2. apply map_ext_in. intros i Hi. apply in_seq in Hi. rewrite map_tab. cbn [fst]. symmetry. apply tab_el.
    apply L2, nth_In. rewrite L1. lia.
  - intros n m m' H. apply rv_mat in H. subst m. reflexivity.
  - intros n m m' v v' H1 H2. apply rv_mat in H1. apply rv_list in H2. apply rv_list. subst m v. rewrite map_tab. cbn [fst]. symmetry. apply tab_el. now apply HS.
Qed.

(** ** several tangents at once: jax.vmap of jax.jvp over tangents, which is how jax.jacfwd runs *)
Definition many : Type := R * (nat -> R).
Definition num_many : num many :=
  Num many (fun x => (x, fun _ => 0)) fst
    (fun x y => (fst x + fst y, fun q => snd x q + snd y q))
    (fun x y => (fst x - fst y, fun q => snd x q - snd y q))
    (fun x y => (fst x * fst y, fun q => snd x q * fst y + fst x * snd y q))
    (fun x y => (fst x / fst y, fun q => snd x q / fst y - snd y q * fst x / fst y ^ 2))
    (fun x => (- fst x, fun q => - snd x q))
    (fun x => (exp (fst x), fun q => snd x q * exp (fst x)))
    (fun x => (ln (fst x), fun q => snd x q / fst x))
    (fun x => (sqrt (fst x), fun q => snd x q * (0.5 / sqrt (fst x))))
    (fun x => (sin (fst x), fun q => snd x q * cos (fst x)))
    (fun x => (cos (fst x), fun q => - (snd x q * sin (fst x))))
    (fun x => (sinh (fst x), fun q => snd x q * cosh (fst x)))
    (fun x => (Rabs (fst x), fun q => snd x q * Rsgn (fst x)))
    (fun x z => (ipow (fst x) z, fun q => snd x q * (IZR z * ipow (fst x) (z - 1))))
    (fun x y => (rpow (fst x) (fst y), fun q => snd x q * (fst y * rpow (fst x) (fst y - 1)) + snd y q * (ln (fst x) * rpow (fst x) (fst y))))
    (fun x y => (Rmax (fst x) (fst y), fun q => sel3 (fst x) (fst y) (snd x q) (snd y q)))
    (fun x y => (Rmin (fst x) (fst y), fun q => sel3 (- fst x) (- fst y) (snd x q) (snd y q))).
Definition many_cosmo (c : cosmology) (d : nat -> direction) : gcosmo many :=
  GCosmo (_Omega_c c, fun q => dOmega_c (d q)) (_Omega_b c, fun q => dOmega_b (d q)) (_h c, fun q => dh (d q)) (_n_s c, fun q => dn_s (d q)) (_sigma8 c, fun q => dsigma8 (d q))
    (_Omega_k c, fun q => dOmega_k (d q)) (_w0 c, fun q => dw0 (d q)) (_wa c, fun q => dwa (d q)) (match _gamma c with Some g => Some (g, fun _ => 0) | None => None end).
Definition linalg_many (la : linalg) : glinalg many :=
  let values := map (map (fst (A := R) (B := nat -> R))) in let tangents := fun q => map (map (fun x : many => snd x q)) in
  GLinalg many
    (fun n M => let P := la_inv la n (values M) in
       tab n (fun i => tab n (fun j => (el2 P i j, fun q => (- el2 (mmul n (mmul n P (tangents q M)) P) i j)%R))))
    (fun n M => (snd (la_slogdet la n (values M)), fun q => trace n (mmul n (la_inv la n (values M)) (tangents q M))))
    (fun n M r => let y := la_cho_solve la n (values M) (map fst r) in
       tab n (fun i => (el y i, fun q => el (la_cho_solve la n (values M) (vsub (map (fun x => snd x q) r) (mv (tangents q M) y))) i))).

Definition comb (k : nat) (w : nat -> R) (d : nat -> direction) : direction :=
  Direction (Rsum k (fun q => w q * dOmega_c (d q))) (Rsum k (fun q => w q * dOmega_b (d q))) (Rsum k (fun q => w q * dh (d q))) (Rsum k (fun q => w q * dn_s (d q)))
    (Rsum k (fun q => w q * dsigma8 (d q))) (Rsum k (fun q => w q * dOmega_k (d q))) (Rsum k (fun q => w q * dw0 (d q))) (Rsum k (fun q => w q * dwa (d q))).
Section Combination.
Variables (k : nat) (w : nat -> R).
Definition rw (x : many) (d : dual) : Prop := fst x = fst d /\ snd d = Rsum k (fun q => w q * snd x q).
Lemma lin2 (f g h : nat -> R) a b : (forall q, h q = a * f q + b * g q) -> Rsum k (fun q => w q * h q) = a * Rsum k (fun q => w q * f q) + b * Rsum k (fun q => w q * g q).
Proof. intros E. rewrite <- !Rsum_scal, <- Rsum_plus. apply Rsum_ext. intros q _. rewrite E. ring. Qed.
Lemma lin1 (f h : nat -> R) a : (forall q, h q = a * f q) -> Rsum k (fun q => w q * h q) = a * Rsum k (fun q => w q * f q).
Proof. intros E. rewrite <- !Rsum_scal. apply Rsum_ext. intros q _. rewrite E. ring. Qed.
Lemma rw_num : num_rel rw num_many num_dual.
Proof.
  unfold rw. constructor; cbn [cst val nadd nsub nmul ndiv nneg nexp nln nsqrt nsin ncos nsinh nabs nipow npow nmax nmin num_many num_dual fst snd].
  - intros x. split; [ reflexivity | ]. symmetry. apply Rsum_0_ext. intros; ring.
  - now intros x y [E _].
  - intros x y x' y' [-> ->] [-> ->]. split; [ reflexivity | ]. etransitivity; [ | symmetry; apply (lin2 (snd x) (snd x') _ 1 1); intros; ring ]; ring.
  - intros x y x' y' [-> ->] [-> ->]. split; [ reflexivity | ]. etransitivity; [ | symmetry; apply (lin2 (snd x) (snd x') _ 1 (-1)); intros; ring ]; ring.
  - intros x y x' y' [-> ->] [-> ->]. split; [ reflexivity | ]. etransitivity; [ | symmetry; apply (lin2 (snd x) (snd x') _ (fst y') (fst y)); intros; ring ]; ring.
  - intros x y x' y' [-> ->] [-> ->]. split; [ reflexivity | ]. etransitivity; [ | symmetry; apply (lin2 (snd x) (snd x') _ (/ fst y') (- (fst y / fst y' ^ 2))); intros; unfold Rdiv; ring ]; unfold Rdiv; ring.
  - intros x y [-> ->]. split; [ reflexivity | ]. etransitivity; [ | symmetry; apply (lin1 (snd x) _ (-1)); intros; ring ]; ring.
  - intros x y [-> ->]. split; [ reflexivity | ]. etransitivity; [ | symmetry; apply (lin1 (snd x) _ (exp (fst y))); intros; ring ]; ring.
  - intros x y [-> ->]. split; [ reflexivity | ]. etransitivity; [ | symmetry; apply (lin1 (snd x) _ (/ fst y)); intros; unfold Rdiv; ring ]; unfold Rdiv; ring.
  - intros x y [-> ->]. split; [ reflexivity | ]. etransitivity; [ | symmetry; apply (lin1 (snd x) _ (0.5 / sqrt (fst y))); intros; unfold Rdiv; ring ]; unfold Rdiv; ring.
  - intros x y [-> ->]. split; [ reflexivity | ]. etransitivity; [ | symmetry; apply (lin1 (snd x) _ (cos (fst y))); intros; ring ]; ring.
  - intros x y [-> ->]. split; [ reflexivity | ]. etransitivity; [ | symmetry; apply (lin1 (snd x) _ (- sin (fst y))); intros; ring ]; ring.
  - intros x y [-> ->]. split; [ reflexivity | ]. etransitivity; [ | symmetry; apply (lin1 (snd x) _ (cosh (fst y))); intros; ring ]; ring.
  - intros x y [-> ->]. split; [ reflexivity | ]. etransitivity; [ | symmetry; apply (lin1 (snd x) _ (Rsgn (fst y))); intros; ring ]; ring.
  - intros z x y [-> ->]. split; [ reflexivity | ]. etransitivity; [ | symmetry; apply (lin1 (snd x) _ (IZR z * ipow (fst y) (z - 1))); intros; ring ]; ring.
  - intros x y x' y' [-> ->] [-> ->]. split; [ reflexivity | ].
    etransitivity; [ | symmetry; apply (lin2 (snd x) (snd x') _ (fst y' * rpow (fst y) (fst y' - 1)) (ln (fst y) * rpow (fst y) (fst y'))); intros; ring ]; ring.
  - intros x y x' y' [-> ->] [-> ->]. split; [ reflexivity | ]. unfold sel3. destruct (Rlt_dec (fst y') (fst y)); [ reflexivity | ]. destruct (Rlt_dec (fst y) (fst y')); [ reflexivity | ].
    etransitivity; [ | symmetry; apply (lin2 (snd x) (snd x') _ (/ 2) (/ 2)); intros; field ]; field.
  - intros x y x' y' [-> ->] [-> ->]. split; [ reflexivity | ]. unfold sel3. destruct (Rlt_dec (- fst y') (- fst y)); [ reflexivity | ]. destruct (Rlt_dec (- fst y) (- fst y')); [ reflexivity | ].
    etransitivity; [ | symmetry; apply (lin2 (snd x) (snd x') _ (/ 2) (/ 2)); intros; field ]; field.
Qed.
Lemma rw_cosmo c d : cosmo_rel rw (many_cosmo c d) (dual_cosmo c (comb k w d)).
Proof.
  constructor; try (split; reflexivity). unfold many_cosmo, dual_cosmo; cbn [ggamma]. destruct (_gamma c); [ | exact I ]. split; [ reflexivity | ]. cbn [snd]. symmetry. apply Rsum_0_ext. intros; ring.
Qed.
Lemma rw_values x y : Forall2 rw x y -> map fst x = map fst y.
Proof. induction 1 as [ | a b x y [E _] Q IH]; cbn [map]; [ reflexivity | now rewrite E, IH ]. Qed.
Lemma rw_values2 x y : Forall2 (Forall2 rw) x y -> map (map fst) x = map (map fst) y.
Proof. induction 1 as [ | a b x y E Q IH]; cbn [map]; [ reflexivity | now rewrite (rw_values _ _ E), IH ]. Qed.
Lemma rw_tangents x y : Forall2 rw x y -> forall i, el (map snd y) i = Rsum k (fun q => w q * el (map (fun u => snd u q) x) i).
Proof.
  induction 1 as [ | a b x y [_ E] Q IH]; intros i.
  - destruct i; cbn [map el nth]; unfold el; cbn [nth]; symmetry; apply Rsum_0_ext; intros; ring.
  - destruct i as [ | i]; unfold el in *; cbn [map nth]; [ exact E | apply IH ].
Qed.
Lemma rw_tangents2 x y : Forall2 (Forall2 rw) x y -> forall i j, el2 (map (map snd) y) i j = Rsum k (fun q => w q * el2 (map (map (fun u => snd u q)) x) i j).
Proof.
  induction 1 as [ | a b x y E Q IH]; intros i j.
  - unfold el2. destruct i, j; cbn [map nth]; symmetry; apply Rsum_0_ext; intros; ring.
  - destruct i as [ | i]; unfold el2 in *; cbn [map nth]; [ apply (rw_tangents _ _ E) | apply IH ].
Qed.
Lemma el2_tab n F i j : (i < n)%nat -> (j < n)%nat -> el2 (tab n (fun i => tab n (fun j => F i j))) i j = F i j.
Proof. intros Hi Hj. unfold el2. rewrite !nth_tab by assumption. reflexivity. Qed.
Lemma vsum_tab_lin n (f : nat -> R) (g : nat -> nat -> R) : (forall i, (i < n)%nat -> f i = Rsum k (fun q => w q * g q i)) -> Np.vsum (tab n f) = Rsum k (fun q => w q * Np.vsum (tab n (g q))).
Proof.
  intros E. rewrite vsum_tab. rewrite (Rsum_ext n _ (fun i => Rsum k (fun q => w q * g q i))) by exact E. rewrite Rsum_swap. apply Rsum_ext. intros q _. rewrite Rsum_scal, vsum_tab. reflexivity.
Qed.
Lemma mmul_lin_l n P T (U : nat -> list (list R)) i j : (i < n)%nat -> (j < n)%nat -> (forall i j, (i < n)%nat -> (j < n)%nat -> el2 T i j = Rsum k (fun q => w q * el2 (U q) i j)) -> el2 (mmul n P T) i j = Rsum k (fun q => w q * el2 (mmul n P (U q)) i j).
Proof.
  intros Hi Hj E. unfold mmul. rewrite el2_tab by assumption. rewrite (Rsum_ext k _ (fun q => w q * Np.vsum (tab n (fun l => el2 P i l * el2 (U q) l j)%R))) by (intros; now rewrite el2_tab).
  apply vsum_tab_lin. intros l Hl. rewrite E, <- Rsum_scal by assumption. apply Rsum_ext. intros; ring.
Qed.
Lemma mmul_lin_r n P T (U : nat -> list (list R)) i j : (i < n)%nat -> (j < n)%nat -> (forall i j, (i < n)%nat -> (j < n)%nat -> el2 T i j = Rsum k (fun q => w q * el2 (U q) i j)) -> el2 (mmul n T P) i j = Rsum k (fun q => w q * el2 (mmul n (U q) P) i j).
Proof.
  intros Hi Hj E. unfold mmul. rewrite el2_tab by assumption. rewrite (Rsum_ext k _ (fun q => w q * Np.vsum (tab n (fun l => el2 (U q) i l * el2 P l j)%R))) by (intros; now rewrite el2_tab).
  apply vsum_tab_lin. intros l Hl. rewrite E, <- Rsum_scal_r by assumption. apply Rsum_ext. intros; ring.
Qed.
Lemma vdot_lin a b : Forall2 rw a b -> forall y, vdot (map snd b) y = Rsum k (fun q => w q * vdot (map (fun u => snd u q) a) y).
Proof.
  induction 1 as [ | u v a b [_ E] Q IH]; intros y; [ | destruct y as [ | z y]].
  - symmetry. apply Rsum_0_ext. intros. unfold vdot, vmul, Np.vsum. cbn. ring.
  - symmetry. apply Rsum_0_ext. intros. unfold vdot, vmul, Np.vsum. cbn. ring.
  - specialize (IH y). unfold vdot, vmul, Np.vsum in *. cbn [map map2 fold_right] in *. rewrite IH, E, <- Rsum_scal_r, <- Rsum_plus. apply Rsum_ext. intros; ring.
Qed.
Lemma mv_lin m m' : Forall2 (Forall2 rw) m m' -> forall y i, el (mv (map (map snd) m') y) i = Rsum k (fun q => w q * el (mv (map (map (fun u => snd u q)) m) y) i).
Proof.
  induction 1 as [ | u v a b E Q IH]; intros y i.
  - destruct i; unfold el, mv; cbn [map nth]; symmetry; apply Rsum_0_ext; intros; ring.
  - destruct i as [ | i]; unfold el, mv in *; cbn [map nth]; [ now apply vdot_lin | apply IH ].
Qed.
Lemma el_vsub u v i : el (vsub u v) i = if (Nat.ltb i (length u) && Nat.ltb i (length v))%bool then el u i - el v i else 0.
Proof.
  revert v i. induction u as [ | x u IH]; intros v i; [ destruct i; reflexivity | ]. destruct v as [ | y v]; [ destruct i; cbn; try reflexivity; now rewrite Bool.andb_false_r | ].
  destruct i as [ | i]; [ reflexivity | ]. exact (IH v i).
Qed.
Lemma rw_linalg la : solve_linear la -> linalg_rel rw (linalg_many la) (linalg_dual la).
Proof.
  intros HS. constructor; unfold linalg_many, linalg_dual; cbn [ga_inv ga_logdet ga_cho_solve].
  - intros n m m' H. rewrite (rw_values2 _ _ H).
    assert (G : forall i j, (i < n)%nat -> (j < n)%nat -> rw (el2 (la_inv la n (map (map fst) m')) i j, fun q => - el2 (mmul n (mmul n (la_inv la n (map (map fst) m')) (map (map (fun x : many => snd x q)) m)) (la_inv la n (map (map fst) m'))) i j)
        (el2 (la_inv la n (map (map fst) m')) i j, - el2 (mmul n (mmul n (la_inv la n (map (map fst) m')) (map (map snd) m')) (la_inv la n (map (map fst) m'))) i j)).
    { intros i j Hi Hj. split; [ reflexivity | ]. cbn [snd].
      rewrite (mmul_lin_r n _ _ (fun q => mmul n (la_inv la n (map (map fst) m')) (map (map (fun x : many => snd x q)) m))); try assumption.
      - match goal with |- - ?u = _ => replace (- u) with (-1 * u) by ring end. rewrite <- Rsum_scal. apply Rsum_ext. intros; ring.
      - intros a b Ha Hb. apply mmul_lin_l; try assumption. intros. now apply rw_tangents2. }
    apply f2_tab_lt. intros i Hi. apply f2_tab_lt. intros j Hj. now apply G.
  - intros n m m' H. rewrite (rw_values2 _ _ H). split; [ reflexivity | ]. cbn [snd]. unfold trace. apply vsum_tab_lin. intros i Hi. apply mmul_lin_l; try assumption. intros. now apply rw_tangents2.
  - intros n m m' v v' H H'. pose proof (f2_len rw _ _ H') as L1. pose proof (f2_len _ _ _ H) as L2. rewrite (rw_values2 _ _ H), (rw_values _ _ H'). apply f2_tab. intros i. split; [ reflexivity | ]. cbn [snd].
    set (y := la_cho_solve la n (map (map fst) m') (map fst v')).
    apply (HS n (map (map fst) m') k w (fun q => vsub (map (fun x => snd x q) v) (mv (map (map (fun x : many => snd x q)) m) y))).
    + intros q. unfold vsub. rewrite !len_map2. unfold mv. rewrite !map_length. unfold many, dual in *. rewrite L1, L2. reflexivity.
    + intros j. rewrite el_vsub. unfold mv at 1. rewrite !map_length.
      rewrite (Rsum_ext k _ (fun q => w q * (if (Nat.ltb j (length v') && Nat.ltb j (length m'))%bool then el (map (fun x => snd x q) v) j - el (mv (map (map (fun x : many => snd x q)) m) y) j else 0))).
      2:{ intros q _. rewrite el_vsub. unfold mv at 1. rewrite !map_length. unfold many, dual in *. rewrite L1, L2. reflexivity. }
      unfold many, dual in *. destruct (Nat.ltb j (length v') && Nat.ltb j (length m'))%bool; [ | symmetry; apply Rsum_0_ext; intros; ring ].
      rewrite (rw_tangents _ _ H'), (mv_lin _ _ H), <- Rsum_minus. apply Rsum_ext. intros; ring.
Qed.
End Combination.
