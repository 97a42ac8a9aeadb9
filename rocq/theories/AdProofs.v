(** * Forward-mode differentiation: the programs at R, and the logical relation *)
From Coquelicot Require Import Coquelicot.
From Verif Require Import Np NpLemmas Core Ode OdeProofs Interp Integrate Background BgSpec BgGrowth BgGrad GradSpec Ad AdSpec.

(** ** at R the programs are the model *)
Section AtR.
Variables (c : cosmology).
Let g := lift_cosmo c.
Lemma R_Esqr a : gEsqr num_R g a = Esqr c a. Proof. reflexivity. Qed.
Lemma R_H a : gH num_R g a = H c a. Proof. reflexivity. Qed.
Lemma R_Omega_m_a a : gOmega_m_a num_R g a = Omega_m_a c a. Proof. reflexivity. Qed.
Lemma R_Omega_de_a a : gOmega_de_a num_R g a = Omega_de_a c a. Proof. reflexivity. Qed.
Lemma R_interp x xp fp : ginterp1 num_R x xp fp = interp1 x xp fp. Proof. reflexivity. Qed.
Lemma R_table am n : gchi_table num_R g am n = (fst (chi_table c am n), snd (chi_table c am n)).
Proof. unfold gchi_table, chi_table. cbv zeta. unfold fst, snd. rewrite map_id. reflexivity. Qed.
Lemma R_chi a : ws_chi c = None -> gchi num_R g a = chi c a.
Proof.
  intros F. unfold gchi. rewrite R_table. unfold chi, rcd_default, radial_comoving_distance, chi_cache. rewrite F. cbv zeta.
  destruct (chi_table c (-3) 256) as [x y]. reflexivity.
Qed.
Lemma R_f_k a : ws_chi c = None -> gf_k num_R g a = f_k c a.
Proof.
  intros F. unfold gf_k. rewrite R_chi by exact F. unfold f_k, transverse_comoving_distance. unfold chi.
  unfold rcd_default, radial_comoving_distance, chi_cache. rewrite F. cbv zeta. destruct (chi_table c (-3) 256) as [x y]. reflexivity.
Qed.
Lemma R_growth_ODE am n : ggrowth_ODE num_R g am n = growth_table_ODE c am n.
Proof. unfold ggrowth_ODE, growth_table_ODE. cbv zeta. rewrite map_id. reflexivity. Qed.
Lemma R_growth_gamma v am n : _gamma c = Some v -> ggrowth_gamma num_R g v am n = growth_table_gamma c am n.
Proof.
  intros E. unfold ggrowth_gamma, growth_table_gamma. cbv zeta. rewrite map_id. unfold growth_rate_gamma1, gamma_of. rewrite E. reflexivity.
Qed.
Lemma R_D a : ws_growth c = None -> _gamma_growth c = match _gamma c with Some _ => true | None => false end -> gD num_R g a = D c a.
Proof.
  intros F G. unfold gD, D, growth_factor. rewrite G. change (ggamma g) with (_gamma c). destruct (_gamma c) as [v | ] eqn:E.
  - rewrite (R_growth_gamma v) by exact E. unfold growth_factor_gamma, growth_cache_gamma. rewrite F. destruct (growth_table_gamma c (-3) 128) as [x y]. reflexivity.
  - rewrite R_growth_ODE. unfold growth_factor_ODE, growth_cache_ODE. rewrite F. destruct (growth_table_ODE c (-3) 128) as [[x y] z]. reflexivity.
Qed.
Lemma R_f a : ws_growth c = None -> _gamma_growth c = match _gamma c with Some _ => true | None => false end -> gf num_R g a = f_growth c a.
Proof.
  intros F G. unfold gf, f_growth, growth_rate. rewrite G. change (ggamma g) with (_gamma c). destruct (_gamma c) as [v | ] eqn:E.
  - unfold growth_rate_gamma1, gamma_of. rewrite E. reflexivity.
  - rewrite R_growth_ODE. unfold growth_rate_ODE. rewrite F. unfold growth_factor_ODE, growth_cache_ODE. rewrite F.
    destruct (growth_table_ODE c (-3) 128) as [[x y] z]. reflexivity.
Qed.
End AtR.

(** ** the rules are derivatives *)
Ltac req := match goal with |- @eq _ ?u ?v => change (@eq R u v) end; cbv beta; unfold plus, minus, opp, mult, scal, zero, one; simpl; unfold mult; simpl.
Section Rules.
Variable t : R.
Local Notation T f d := (tangent_of f t d).
Lemma t_cst x : T (fun _ => x) (cst num_dual x).
Proof. split; [ reflexivity | apply (is_derive_const (V := R_NormedModule)) ]. Qed.
Lemma t_id : T (fun s => s) (t, 1).
Proof. split; [ reflexivity | apply (is_derive_id (K := R_AbsRing)) ]. Qed.
Lemma t_ext f g d : (forall s, f s = g s) -> T f d -> T g d.
Proof. intros E [A B]. split; [ now rewrite A, E | now apply (is_derive_ext f) ]. Qed.
Lemma t_loc f g d : locally t (fun s => f s = g s) -> T f d -> T g d.
Proof. intros E [A B]. split; [ rewrite A; now apply (locally_singleton _ _ E) | now apply (is_derive_ext_loc f) ]. Qed.
Lemma t_add f g x y : T f x -> T g y -> T (fun s => f s + g s) (nadd num_dual x y).
Proof. intros [A1 B1] [A2 B2]. split; [ simpl; now rewrite A1, A2 | now apply (is_derive_plus (V := R_NormedModule)) ]. Qed.
Lemma t_sub f g x y : T f x -> T g y -> T (fun s => f s - g s) (nsub num_dual x y).
Proof. intros [A1 B1] [A2 B2]. split; [ simpl; now rewrite A1, A2 | now apply (is_derive_minus (V := R_NormedModule)) ]. Qed.
Lemma t_mul f g x y : T f x -> T g y -> T (fun s => f s * g s) (nmul num_dual x y).
Proof.
  intros [A1 B1] [A2 B2]. split; [ simpl; now rewrite A1, A2 | ]. simpl. rewrite A1, A2.
  apply (is_derive_mult f g); [ exact B1 | exact B2 | exact Rmult_comm ].
Qed.
Lemma t_div f g x y : g t <> 0 -> T f x -> T g y -> T (fun s => f s / g s) (ndiv num_dual x y).
Proof.
  intros Hg [A1 B1] [A2 B2]. split; [ simpl; now rewrite A1, A2 | ]. cbn [ndiv num_dual snd fst]. rewrite A1, A2.
  evar_last; [ apply (is_derive_div f g t (snd x) (snd y)); assumption | ]. req. field. exact Hg.
Qed.
Lemma t_neg f x : T f x -> T (fun s => - f s) (nneg num_dual x).
Proof. intros [A B]. split; [ simpl; now rewrite A | now apply (is_derive_opp (V := R_NormedModule)) ]. Qed.
Lemma t_comp (u u' : R -> R) f x : is_derive u (f t) (u' (f t)) -> T f x -> T (fun s => u (f s)) (u (fst x), snd x * u' (fst x)).
Proof.
  intros Hu [A B]. split; [ cbn [fst]; now rewrite A | ]. cbn [snd]. rewrite A.
  apply (is_derive_comp u f t (u' (f t)) (snd x)); assumption.
Qed.
Lemma t_exp f x : T f x -> T (fun s => exp (f s)) (nexp num_dual x).
Proof. intros Hf. apply (t_comp exp exp); [ apply is_derive_exp | exact Hf ]. Qed.
Lemma t_ln f x : 0 < f t -> T f x -> T (fun s => ln (f s)) (nln num_dual x).
Proof. intros P Hf. apply (t_comp ln (fun y => / y)); [ now apply is_derive_ln | exact Hf ]. Qed.
Lemma t_sqrt f x : 0 < f t -> T f x -> T (fun s => sqrt (f s)) (nsqrt num_dual x).
Proof.
  intros P Hf. apply (t_comp sqrt (fun y => 0.5 / sqrt y)); [ | exact Hf ].
  evar_last; [ apply (is_derive_sqrt (fun y => y) (f t) 1); [ apply (is_derive_id (K := R_AbsRing)) | exact P ] | ].
  req. replace 0.5 with (/ 2) by lra. field. apply Rgt_not_eq, sqrt_lt_R0, P.
Qed.
Lemma t_sin f x : T f x -> T (fun s => sin (f s)) (nsin num_dual x).
Proof. intros Hf. apply (t_comp sin cos); [ apply is_derive_sin | exact Hf ]. Qed.
Lemma t_cos f x : T f x -> T (fun s => cos (f s)) (ncos num_dual x).
Proof.
  intros Hf. pose proof (t_comp cos (fun y => - sin y) f x (is_derive_cos (f t)) Hf) as [A B].
  split; [ exact A | ]. cbn [ncos num_dual snd]. evar_last; [ exact B | ]. req. ring.
Qed.
Lemma t_sinh f x : T f x -> T (fun s => sinh (f s)) (nsinh num_dual x).
Proof. intros Hf. apply (t_comp sinh cosh); [ apply sinh_derive | exact Hf ]. Qed.
Lemma t_abs f x : f t <> 0 -> T f x -> T (fun s => Rabs (f s)) (nabs num_dual x).
Proof.
  intros P Hf. apply (t_comp Rabs Rsgn); [ | exact Hf ].
  evar_last; [ apply (is_derive_Rabs (fun y => y) (f t) 1); [ apply (is_derive_id (K := R_AbsRing)) | exact P ] | ].
  req. unfold Rsgn. rewrite Rmult_1_r. destruct (Rlt_dec (f t) 0) as [L | L]; [ now apply sign_eq_m1 | ].
  destruct (Rlt_dec 0 (f t)) as [L' | L']; [ now apply sign_eq_1 | exfalso; apply P; lra ].
Qed.
Lemma ipow_derive x z : x <> 0 \/ (0 < z)%Z -> is_derive (fun y => ipow y z) x (IZR z * ipow x (z - 1)).
Proof.
  intros Hx. destruct z as [ | p | p].
  - apply (is_derive_ext (fun _ => 1)); [ reflexivity | ]. evar_last; [ apply (is_derive_const (V := R_NormedModule)) | ]. req. ring.
  - assert (E : ipow x (Z.pos p - 1) = x ^ Init.Nat.pred (Pos.to_nat p)).
    { destruct (Pos.succ_pred_or p) as [-> | E]; [ reflexivity | ].
      replace (Z.pos p - 1)%Z with (Z.pos (Pos.pred p)) by lia. cbn [ipow]. f_equal. lia. }
    rewrite E. evar_last; [ apply (is_derive_pow (fun y => y) (Pos.to_nat p) x 1); apply (is_derive_id (K := R_AbsRing)) | ].
    match goal with |- @eq _ ?u ?v => change (@eq R u v) end. rewrite INR_IZR_INZ, positive_nat_Z. ring.
  - destruct Hx as [Hx | Hx]; [ | lia ].
    change (is_derive (fun y => / (y ^ Pos.to_nat p)) x (IZR (Z.neg p) * ipow x (Z.neg p - 1))).
    evar_last; [ apply (is_derive_inv (fun y => y ^ Pos.to_nat p) x); [ apply (is_derive_pow (fun y => y) (Pos.to_nat p) x 1); apply (is_derive_id (K := R_AbsRing)) | now apply pow_nonzero ] | ].
    match goal with |- @eq _ ?u ?v => change (@eq R u v) end. replace (Z.neg p - 1)%Z with (Z.neg (Pos.succ p)) by lia. cbn [ipow]. rewrite INR_IZR_INZ, positive_nat_Z.
    rewrite Pos2Nat.inj_succ. change (IZR (Z.neg p)) with (- IZR (Z.pos p)). 
    assert (E : x ^ Pos.to_nat p = x * x ^ Init.Nat.pred (Pos.to_nat p)) by (change (x ^ Pos.to_nat p = x ^ S (Init.Nat.pred (Pos.to_nat p))); f_equal; lia).
    change (x ^ S (Pos.to_nat p)) with (x * x ^ Pos.to_nat p). rewrite E.
    set (u := x ^ Init.Nat.pred (Pos.to_nat p)). assert (u <> 0) by now apply pow_nonzero. field. split; assumption.
Qed.
Lemma t_ipow z f x : f t <> 0 \/ (0 < z)%Z -> T f x -> T (fun s => ipow (f s) z) (nipow num_dual x z).
Proof. intros P Hf. apply (t_comp (fun y => ipow y z) (fun y => IZR z * ipow y (z - 1))); [ now apply ipow_derive | exact Hf ]. Qed.
Lemma t_pow f g x y : 0 < f t -> T f x -> T g y -> T (fun s => rpow (f s) (g s)) (npow num_dual x y).
Proof.
  intros P Hf Hg. apply (t_loc (fun s => exp (g s * ln (f s)))).
  - assert (C : continuous f t) by (apply (ex_derive_continuous (V := R_NormedModule)); exists (snd x); apply Hf).
    specialize (C (fun y => 0 < y) (open_gt 0 _ P)). apply (filter_imp (fun s => 0 < f s)); [ | exact C ].
    intros s Hs. rewrite rpow_pos by exact Hs. reflexivity.
  - destruct (t_exp _ _ (t_mul _ _ _ _ Hg (t_ln _ _ P Hf))) as [A B]. destruct Hf as [Ef Df], Hg as [Eg Dg]. cbn [npow num_dual].
    assert (RP : rpow (f t) (g t) = exp (g t * ln (f t))) by (now rewrite rpow_pos).
    split; [ cbn [fst]; now rewrite Ef, Eg | ]. cbn [snd] in *. evar_last; [ exact B | ]. simpl. rewrite Ef, Eg, RP.
    rewrite rpow_pos by exact P. unfold Rpower. replace ((g t - 1) * ln (f t)) with (g t * ln (f t) + - ln (f t)) by ring.
    rewrite exp_plus, exp_Ropp, exp_ln by exact P. req. field. lra.
Qed.
Lemma t_max f g x y : f t <> g t -> T f x -> T g y -> T (fun s => Rmax (f s) (g s)) (nmax num_dual x y).
Proof.
  intros NE Hf Hg. assert (Cf : continuous f t) by (apply (ex_derive_continuous (V := R_NormedModule)); exists (snd x); apply Hf).
  assert (Cg : continuous g t) by (apply (ex_derive_continuous (V := R_NormedModule)); exists (snd y); apply Hg).
  assert (Cd : continuous (fun s => f s - g s) t) by (now apply (continuous_minus (V := R_NormedModule))).
  destruct Hf as [Ef Df], Hg as [Eg Dg].
  unfold tangent_of. cbn [nmax num_dual fst snd]. unfold sel3. rewrite Ef, Eg. split; [ reflexivity | ].
  destruct (Rlt_dec (g t) (f t)) as [L | L].
  - assert (L0 : 0 < f t - g t) by lra. specialize (Cd (fun y => 0 < y) (open_gt 0 _ L0)). apply (is_derive_ext_loc f); [ | exact Df ].
    apply (filter_imp (fun s => 0 < f s - g s)); [ | exact Cd ]. intros s Hs. rewrite Rmax_left by lra. reflexivity.
  - destruct (Rlt_dec (f t) (g t)) as [L' | L']; [ | exfalso; apply NE; lra ].
    assert (L0 : f t - g t < 0) by lra. specialize (Cd (fun y => y < 0) (open_lt 0 _ L0)). apply (is_derive_ext_loc g); [ | exact Dg ].
    apply (filter_imp (fun s => f s - g s < 0)); [ | exact Cd ]. intros s Hs. rewrite Rmax_right by lra. reflexivity.
Qed.
(** at a tie of two curves that stay together *)
Lemma t_max_same f x y : T f x -> T f y -> T f (nmax num_dual x y).
Proof.
  intros [A1 B1] [A2 B2]. assert (E : snd x = snd y) by (rewrite <- (is_derive_unique _ _ _ B1); now apply is_derive_unique).
  split; cbn [nmax num_dual fst snd]; [ rewrite A1, A2; apply Rmax_left; lra | ]. unfold sel3. rewrite A1, A2.
  destruct (Rlt_dec (f t) (f t)); [ lra | ]. rewrite E. replace ((snd y + snd y) / 2) with (snd y) by field. exact B2.
Qed.
Lemma t_min f g x y : f t <> g t -> T f x -> T g y -> T (fun s => Rmin (f s) (g s)) (nmin num_dual x y).
Proof.
  intros NE Hf Hg. assert (NE' : - f t <> - g t) by (intros E; apply NE; lra).
  destruct (t_neg _ _ (t_max (fun s => - f s) (fun s => - g s) _ _ NE' (t_neg _ _ Hf) (t_neg _ _ Hg))) as [A B].
  assert (M : forall s, - Rmax (- f s) (- g s) = Rmin (f s) (g s)) by (intros s; unfold Rmax, Rmin; destruct (Rle_dec (- f s) (- g s)), (Rle_dec (f s) (g s)); lra).
  split.
  - cbn [nmin num_dual fst]. destruct Hf as [-> _], Hg as [-> _]. reflexivity.
  - apply (is_derive_ext (fun s => - Rmax (- f s) (- g s))); [ exact M | ]. cbn [nmin num_dual snd]. evar_last; [ exact B | ].
    cbn [nneg nmax num_dual fst snd]. unfold sel3. cbn [fst snd]. req. destruct (Rlt_dec (- fst y) (- fst x)); [ lra | ]. destruct (Rlt_dec (- fst x) (- fst y)); lra.
Qed.
End Rules.
