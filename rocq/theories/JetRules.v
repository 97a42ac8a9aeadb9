(** * Numbers with first and second derivatives follow curves

    [jet_of f t z]: f is differentiable near t, z holds the value of f at t, its derivative (twice) and its second derivative. *)
From Coquelicot Require Import Coquelicot.
From Verif Require Import Np NpLemmas Core Background BgSpec GradSpec Ad AdSpec AdProofs AdRel AdPower AdProbes AdLike AdOver FinRules.

Local Notation M := num_dual.
Local Notation NO := (num_over num_dual).
Local Notation T := tangent_of.
Definition jet_of (f : R -> R) (t : R) (z : dual * dual) : Prop :=
  exists f' : R -> R, locally t (fun s : R => is_derive f s (f' s)) /\ T f t (fst z) /\ T f' t (snd z).

Lemma here f s l : is_derive f s l -> T f s (f s, l). Proof. intros H. split; [ reflexivity | exact H ]. Qed.
Lemma T_continuous f t x : T f t x -> continuous f t.
Proof. intros [_ D]. apply (ex_derive_continuous (V := R_NormedModule)). now exists (snd x). Qed.
Lemma away f t x : T f t x -> f t <> 0 -> locally t (fun s => f s <> 0).
Proof. intros H E. apply (T_continuous f t x H (fun y => y <> 0)). now apply (open_neq 0). Qed.
Lemma above f t x : T f t x -> 0 < f t -> locally t (fun s => 0 < f s).
Proof. intros H E. apply (T_continuous f t x H (fun y => 0 < y)). now apply (open_gt 0). Qed.
Lemma below0 f t x : T f t x -> f t < 0 -> locally t (fun s => f s < 0).
Proof. intros H E. apply (T_continuous f t x H (fun y => y < 0)). now apply (open_lt 0). Qed.

Section Rules.
Variable t : R.
Local Notation J f z := (jet_of f t z).
Lemma j_vval f x : J f x -> val NO x = f t. Proof. intros (f' & _ & [E _] & _). exact E. Qed.
Lemma j_continuous f x : J f x -> continuous f t. Proof. intros (f' & _ & H & _). exact (T_continuous f t _ H). Qed.
Lemma j_cst x : J (fun _ => x) (cst NO x).
Proof.
  exists (fun _ => 0). split; [ apply filter_forall; intros s; apply (is_derive_const (V := R_NormedModule)) | ].
  split; [ exact (t_cst t x) | exact (t_cst t 0) ].
Qed.
Lemma j_loc f g z : locally t (fun s => f s = g s) -> J f z -> J g z.
Proof.
  intros E (f' & L & A & B). exists f'. split; [ | split; [ exact (t_loc t f g _ E A) | exact B ]].
  generalize (filter_and _ _ (locally_locally t _ E) L). apply filter_imp. intros s [E' D]. exact (is_derive_ext_loc f g s _ E' D).
Qed.
Lemma j_add f g x y : J f x -> J g y -> J (fun s => f s + g s) (nadd NO x y).
Proof.
  intros (f' & Lf & Af & Bf) (g' & Lg & Ag & Bg). exists (fun s => f' s + g' s).
  split; [ | split; [ exact (t_add t f g _ _ Af Ag) | exact (t_add t f' g' _ _ Bf Bg) ]].
  generalize (filter_and _ _ Lf Lg). apply filter_imp. intros s [Df Dg]. exact (proj2 (t_add s f g _ _ (here _ _ _ Df) (here _ _ _ Dg))).
Qed.
Lemma j_sub f g x y : J f x -> J g y -> J (fun s => f s - g s) (nsub NO x y).
Proof.
  intros (f' & Lf & Af & Bf) (g' & Lg & Ag & Bg). exists (fun s => f' s - g' s).
  split; [ | split; [ exact (t_sub t f g _ _ Af Ag) | exact (t_sub t f' g' _ _ Bf Bg) ]].
  generalize (filter_and _ _ Lf Lg). apply filter_imp. intros s [Df Dg]. exact (proj2 (t_sub s f g _ _ (here _ _ _ Df) (here _ _ _ Dg))).
Qed.
Lemma j_mul f g x y : J f x -> J g y -> J (fun s => f s * g s) (nmul NO x y).
Proof.
  intros (f' & Lf & Af & Bf) (g' & Lg & Ag & Bg). exists (fun s => f' s * g s + f s * g' s).
  split; [ | split; [ exact (t_mul t f g _ _ Af Ag) | apply (t_add t (fun s => f' s * g s) (fun s => f s * g' s)); apply t_mul; assumption ]].
  generalize (filter_and _ _ Lf Lg). apply filter_imp. intros s [Df Dg]. exact (proj2 (t_mul s f g _ _ (here _ _ _ Df) (here _ _ _ Dg))).
Qed.
Lemma j_div f g x y : g t <> 0 -> J f x -> J g y -> J (fun s => f s / g s) (ndiv NO x y).
Proof.
  intros H0 (f' & Lf & Af & Bf) (g' & Lg & Ag & Bg). exists (fun s => f' s / g s - g' s * (f s / ipow (g s) 2)).
  split; [ | split; [ exact (t_div t f g _ _ H0 Af Ag) | ]].
  - generalize (filter_and _ _ (away _ _ _ Ag H0) (filter_and _ _ Lf Lg)). apply filter_imp. intros s (Ns & Df & Dg).
    assert (E := proj2 (t_div s f g _ _ Ns (here _ _ _ Df) (here _ _ _ Dg))). cbn [ndiv num_dual fst snd] in E.
    replace (f' s / g s - g' s * (f s / ipow (g s) 2)) with (f' s / g s - g' s * f s / g s ^ 2); [ exact E | ]. cbn [ipow]. change (Pos.to_nat 2) with 2%nat. field. exact Ns.
  - apply (t_sub t (fun s => f' s / g s) (fun s => g' s * (f s / ipow (g s) 2))); [ apply t_div; assumption | ].
    apply (t_mul t g' (fun s => f s / ipow (g s) 2)); [ exact Bg | ]. apply (t_div t f (fun s => ipow (g s) 2)); [ | exact Af | apply t_ipow; [ now left | exact Ag ] ].
    cbn [ipow]. now apply pow_nonzero.
Qed.
Lemma j_neg f x : J f x -> J (fun s => - f s) (nneg NO x).
Proof.
  intros (f' & Lf & Af & Bf). exists (fun s => - f' s). split; [ | split; [ exact (t_neg t f _ Af) | exact (t_neg t f' _ Bf) ]].
  generalize Lf. apply filter_imp. intros s Df. exact (proj2 (t_neg s f _ (here _ _ _ Df))).
Qed.
Lemma j_exp f x : J f x -> J (fun s => exp (f s)) (nexp NO x).
Proof.
  intros (f' & Lf & Af & Bf). exists (fun s => f' s * exp (f s)). split; [ | split; [ exact (t_exp t f _ Af) | apply (t_mul t f' (fun s => exp (f s))); [ exact Bf | now apply t_exp ] ]].
  generalize Lf. apply filter_imp. intros s Df. exact (proj2 (t_exp s f _ (here _ _ _ Df))).
Qed.
Lemma j_ln f x : 0 < f t -> J f x -> J (fun s => ln (f s)) (nln NO x).
Proof.
  intros P (f' & Lf & Af & Bf). exists (fun s => f' s / f s). split; [ | split; [ exact (t_ln t f _ P Af) | apply (t_div t f' f); [ lra | exact Bf | exact Af ] ]].
  generalize (filter_and _ _ (above _ _ _ Af P) Lf). apply filter_imp. intros s [Ps Df]. exact (proj2 (t_ln s f _ Ps (here _ _ _ Df))).
Qed.
Lemma j_sqrt f x : 0 < f t -> J f x -> J (fun s => sqrt (f s)) (nsqrt NO x).
Proof.
  intros P (f' & Lf & Af & Bf). exists (fun s => f' s * (0.5 / sqrt (f s))). split; [ | split; [ exact (t_sqrt t f _ P Af) | ]].
  - generalize (filter_and _ _ (above _ _ _ Af P) Lf). apply filter_imp. intros s [Ps Df]. exact (proj2 (t_sqrt s f _ Ps (here _ _ _ Df))).
  - apply (t_mul t f' (fun s => 0.5 / sqrt (f s))); [ exact Bf | ]. apply (t_div t (fun _ => 0.5) (fun s => sqrt (f s))); [ apply Rgt_not_eq, sqrt_lt_R0, P | apply t_cst | now apply t_sqrt ].
Qed.
Lemma j_sin f x : J f x -> J (fun s => sin (f s)) (nsin NO x).
Proof.
  intros (f' & Lf & Af & Bf). exists (fun s => f' s * cos (f s)). split; [ | split; [ exact (t_sin t f _ Af) | apply (t_mul t f' (fun s => cos (f s))); [ exact Bf | now apply t_cos ] ]].
  generalize Lf. apply filter_imp. intros s Df. exact (proj2 (t_sin s f _ (here _ _ _ Df))).
Qed.
Lemma j_cos f x : J f x -> J (fun s => cos (f s)) (ncos NO x).
Proof.
  intros (f' & Lf & Af & Bf). exists (fun s => - (f' s * sin (f s))).
  split; [ | split; [ exact (t_cos t f _ Af) | apply (t_neg t (fun s => f' s * sin (f s))); apply (t_mul t f' (fun s => sin (f s))); [ exact Bf | now apply t_sin ] ]].
  generalize Lf. apply filter_imp. intros s Df. exact (proj2 (t_cos s f _ (here _ _ _ Df))).
Qed.
Lemma j_sinh f x : J f x -> J (fun s => sinh (f s)) (nsinh NO x).
Proof.
  intros (f' & Lf & Af & Bf). exists (fun s => f' s * ((exp (f s) + exp (- f s)) / 2)). split; [ | split; [ exact (t_sinh t f _ Af) | ]].
  - generalize Lf. apply filter_imp. intros s Df. exact (proj2 (t_sinh s f _ (here _ _ _ Df))).
  - apply (t_mul t f' (fun s => (exp (f s) + exp (- f s)) / 2)); [ exact Bf | ]. apply (t_div t (fun s => exp (f s) + exp (- f s)) (fun _ => 2)); [ lra | | apply t_cst ].
    apply (t_add t (fun s => exp (f s))); [ now apply t_exp | ]. apply (t_exp t (fun s => - f s)). now apply t_neg.
Qed.
Lemma j_abs f x : f t <> 0 -> J f x -> J (fun s => Rabs (f s)) (nabs NO x).
Proof.
  intros P (f' & Lf & Af & Bf). exists (fun s => f' s * Rsgn (f s)). split; [ | split; [ exact (t_abs t f _ P Af) | ]].
  - generalize (filter_and _ _ (away _ _ _ Af P) Lf). apply filter_imp. intros s [Ps Df]. exact (proj2 (t_abs s f _ Ps (here _ _ _ Df))).
  - apply (t_mul t f' (fun s => Rsgn (f s))); [ exact Bf | ]. cbn [val num_dual]. rewrite (proj1 Af).
    apply (t_loc t (fun _ => Rsgn (f t))); [ | apply t_cst ]. destruct (Rdichotomy _ _ P) as [L | L].
    + generalize (below0 _ _ _ Af L). apply filter_imp. intros s Ls. unfold Rsgn. destruct (Rlt_dec (f t) 0); [ | lra ]. destruct (Rlt_dec (f s) 0); lra.
    + generalize (above _ _ _ Af L). apply filter_imp. intros s Ls. unfold Rsgn. destruct (Rlt_dec (f t) 0); [ lra | ]. destruct (Rlt_dec 0 (f t)); [ | lra ]. destruct (Rlt_dec (f s) 0); [ lra | ]. destruct (Rlt_dec 0 (f s)); lra.
Qed.
Lemma j_ipow z f x : f t <> 0 \/ (0 < z)%Z -> J f x -> J (fun s => ipow (f s) z) (nipow NO x z).
Proof.
  intros P (f' & Lf & Af & Bf). exists (fun s => f' s * (IZR z * ipow (f s) (z - 1))). split; [ | split; [ exact (t_ipow t z f _ P Af) | ]].
  - assert (PL : locally t (fun s => f s <> 0 \/ (0 < z)%Z)).
    { destruct P as [P | P]; [ generalize (away _ _ _ Af P); apply filter_imp; now left | apply filter_forall; now right ]. }
    generalize (filter_and _ _ PL Lf). apply filter_imp. intros s [Ps Df]. exact (proj2 (t_ipow s z f _ Ps (here _ _ _ Df))).
  - apply (t_mul t f' (fun s => IZR z * ipow (f s) (z - 1))); [ exact Bf | ]. apply (t_mul t (fun _ => IZR z) (fun s => ipow (f s) (z - 1))); [ apply t_cst | ].
    destruct (Z.eq_dec z 1) as [-> | NE].
    + change (1 - 1)%Z with 0%Z. cbn [ipow nipow num_dual]. destruct (t_cst t 1) as [E D]. split; [ reflexivity | ]. cbn [fst snd].
      replace (snd (fst x) * (0 * _)) with 0 by ring. exact D.
    + apply t_ipow; [ | exact Af ]. destruct P as [P | P]; [ now left | right; lia ].
Qed.
Lemma j_pow f g x y : 0 < f t -> J f x -> J g y -> J (fun s => rpow (f s) (g s)) (npow NO x y).
Proof.
  intros P (f' & Lf & Af & Bf) (g' & Lg & Ag & Bg). exists (fun s => f' s * (g s * rpow (f s) (g s - 1)) + g' s * (ln (f s) * rpow (f s) (g s))).
  split; [ | split; [ exact (t_pow t f g _ _ P Af Ag) | ]].
  - generalize (filter_and _ _ (above _ _ _ Af P) (filter_and _ _ Lf Lg)). apply filter_imp. intros s (Ps & Df & Dg). exact (proj2 (t_pow s f g _ _ Ps (here _ _ _ Df) (here _ _ _ Dg))).
  - apply (t_add t (fun s => f' s * (g s * rpow (f s) (g s - 1))) (fun s => g' s * (ln (f s) * rpow (f s) (g s)))).
    + apply (t_mul t f' (fun s => g s * rpow (f s) (g s - 1))); [ exact Bf | ]. apply (t_mul t g (fun s => rpow (f s) (g s - 1))); [ exact Ag | ].
      apply (t_pow t f (fun s => g s - 1)); [ exact P | exact Af | ]. apply (t_sub t g (fun _ => 1)); [ exact Ag | apply t_cst ].
    + apply (t_mul t g' (fun s => ln (f s) * rpow (f s) (g s))); [ exact Bg | ]. apply (t_mul t (fun s => ln (f s)) (fun s => rpow (f s) (g s))); [ now apply t_ln | now apply t_pow ].
Qed.
Lemma j_max f g x y : f t <> g t -> J f x -> J g y -> J (fun s => Rmax (f s) (g s)) (nmax NO x y).
Proof.
  intros P (f' & Lf & Af & Bf) (g' & Lg & Ag & Bg). assert (TD := t_sub t f g _ _ Af Ag).
  exists (fun s => sel3 (f s) (g s) (f' s) (g' s)).
  assert (NEQ : locally t (fun s => f s <> g s)).
  { generalize (away (fun s => f s - g s) t _ TD ltac:(cbv beta; lra)). apply filter_imp. intros s Hs E. rewrite E in Hs. lra. }
  split; [ | split; [ exact (t_max t f g _ _ P Af Ag) | ]].
  - generalize (filter_and _ _ NEQ (filter_and _ _ Lf Lg)). apply filter_imp. intros s (Ps & Df & Dg). exact (proj2 (t_max s f g _ _ Ps (here _ _ _ Df) (here _ _ _ Dg))).
  - cbn [nmax num_over snd fst]. unfold nsel. cbn [val num_dual]. rewrite (proj1 Af), (proj1 Ag). destruct (Rdichotomy _ _ P) as [L | L].
    + destruct (Rlt_dec (g t) (f t)); [ lra | ]. destruct (Rlt_dec (f t) (g t)); [ | lra ]. apply (t_loc t g'); [ | exact Bg ].
      generalize (below0 (fun s => f s - g s) t _ TD ltac:(cbv beta; lra)). apply filter_imp. intros s Hs. unfold sel3. destruct (Rlt_dec (g s) (f s)); [ lra | ]. destruct (Rlt_dec (f s) (g s)); lra.
    + destruct (Rlt_dec (g t) (f t)); [ | lra ]. apply (t_loc t f'); [ | exact Bf ].
      generalize (above (fun s => f s - g s) t _ TD ltac:(cbv beta; lra)). apply filter_imp. intros s Hs. unfold sel3. destruct (Rlt_dec (g s) (f s)); lra.
Qed.
Lemma j_min f g x y : f t <> g t -> J f x -> J g y -> J (fun s => Rmin (f s) (g s)) (nmin NO x y).
Proof.
  intros P (f' & Lf & Af & Bf) (g' & Lg & Ag & Bg). assert (TD := t_sub t f g _ _ Af Ag).
  exists (fun s => sel3 (- f s) (- g s) (f' s) (g' s)).
  assert (NEQ : locally t (fun s => f s <> g s)).
  { generalize (away (fun s => f s - g s) t _ TD ltac:(cbv beta; lra)). apply filter_imp. intros s Hs E. rewrite E in Hs. lra. }
  split; [ | split; [ exact (t_min t f g _ _ P Af Ag) | ]].
  - generalize (filter_and _ _ NEQ (filter_and _ _ Lf Lg)). apply filter_imp. intros s (Ps & Df & Dg). exact (proj2 (t_min s f g _ _ Ps (here _ _ _ Df) (here _ _ _ Dg))).
  - cbn [nmin num_over snd fst]. unfold nsel. cbn [val num_dual]. rewrite (proj1 Af), (proj1 Ag). destruct (Rdichotomy _ _ P) as [L | L].
    + destruct (Rlt_dec (- g t) (- f t)); [ | lra ]. apply (t_loc t f'); [ | exact Bf ].
      generalize (below0 (fun s => f s - g s) t _ TD ltac:(cbv beta; lra)). apply filter_imp. intros s Hs. unfold sel3. destruct (Rlt_dec (- g s) (- f s)); lra.
    + destruct (Rlt_dec (- g t) (- f t)); [ lra | ]. destruct (Rlt_dec (- f t) (- g t)); [ | lra ]. apply (t_loc t g'); [ | exact Bg ].
      generalize (above (fun s => f s - g s) t _ TD ltac:(cbv beta; lra)). apply filter_imp. intros s Hs. unfold sel3. destruct (Rlt_dec (- g s) (- f s)); [ lra | ]. destruct (Rlt_dec (- f s) (- g s)); lra.
Qed.
(** two numbers that follow the same curve are equal *)
Lemma T_unique f x y : T f t x -> T f t y -> x = y.
Proof.
  intros [A1 B1] [A2 B2]. destruct x as [x x'], y as [y y']. cbn [fst snd] in *. f_equal; [ congruence | ].
  rewrite <- (is_derive_unique _ _ _ B1). now apply is_derive_unique.
Qed.
Lemma j_unique f x y : J f x -> J f y -> x = y.
Proof.
  intros (f' & L & A & B) (g' & L' & A' & B'). destruct x as [x x'], y as [y y']. cbn [fst snd] in *. f_equal; [ exact (T_unique f _ _ A A') | ].
  apply (T_unique g'); [ | exact B' ]. apply (t_loc t f'); [ | exact B ]. generalize (filter_and _ _ L L'). apply filter_imp. intros s [D D'].
  rewrite <- (is_derive_unique _ _ _ D). now apply is_derive_unique.
Qed.
Lemma nsel_same a (u : dual) : nsel M a a u u = u.
Proof.
  unfold nsel. destruct (Rlt_dec a a); [ lra | ]. destruct u as [u u']. cbn. f_equal; field.
Qed.
Lemma j_max_same f x y : J f x -> J f y -> J f (nmax NO x y).
Proof.
  intros Hx Hy. assert (E := j_unique f x y Hx Hy). subst y. destruct Hx as (f' & L & A & B). exists f'. split; [ exact L | ]. split; [ now apply t_max_same | ].
  cbn [nmax num_over snd]. rewrite nsel_same. exact B.
Qed.
Lemma j_min_same f x y : J f x -> J f y -> J f (nmin NO x y).
Proof.
  intros Hx Hy. assert (E := j_unique f x y Hx Hy). subst y. destruct Hx as (f' & L & A & B). exists f'. split; [ exact L | ]. split.
  - cbn [nmin num_over fst]. destruct A as [A1 A2]. split; [ cbn [nmin num_dual fst]; rewrite Rmin_left; [ exact A1 | lra ] | ]. cbn [nmin num_dual snd]. unfold sel3.
    destruct (Rlt_dec _ _); [ lra | ]. replace ((snd (fst x) + snd (fst x)) / 2) with (snd (fst x)) by field. exact A2.
  - cbn [nmin num_over snd]. rewrite nsel_same. exact B.
Qed.
End Rules.
Global Instance jets : follows NO :=
  Follows (dual * dual) NO jet_of j_vval j_continuous (fun x => eq_refl) j_cst j_loc j_add j_sub j_mul j_div j_neg j_exp j_ln j_sqrt j_sin j_cos j_sinh j_abs j_ipow j_pow j_max j_max_same j_min j_min_same.
