(** * The order of two differentiations does not matter

    Two runs side by side: tangents (e, d) and tangents (d, e); [swaps] says that the second holds the numbers of the first
    with the two tangents exchanged. *)
From Coquelicot Require Import Coquelicot.
From Verif Require Import Np NpLemmas Core Background BgSpec GradSpec Ad AdSpec AdProofs AdRel AdPower AdProbes AdLike AdParam AdOver FinRules FinBg JetRules.
Local Open Scope R_scope.
Local Notation hyper := (dual * dual)%type.
Local Notation NO := (num_over num_dual).

(** two arithmetics side by side; comparisons look at the first *)
Definition num_both {A B} (N : num A) (M : num B) : num (A * B) :=
  Num (A * B) (fun x => (cst N x, cst M x)) (fun p => val N (fst p))
    (fun x y => (nadd N (fst x) (fst y), nadd M (snd x) (snd y)))
    (fun x y => (nsub N (fst x) (fst y), nsub M (snd x) (snd y)))
    (fun x y => (nmul N (fst x) (fst y), nmul M (snd x) (snd y)))
    (fun x y => (ndiv N (fst x) (fst y), ndiv M (snd x) (snd y)))
    (fun x => (nneg N (fst x), nneg M (snd x)))
    (fun x => (nexp N (fst x), nexp M (snd x)))
    (fun x => (nln N (fst x), nln M (snd x)))
    (fun x => (nsqrt N (fst x), nsqrt M (snd x)))
    (fun x => (nsin N (fst x), nsin M (snd x)))
    (fun x => (ncos N (fst x), ncos M (snd x)))
    (fun x => (nsinh N (fst x), nsinh M (snd x)))
    (fun x => (nabs N (fst x), nabs M (snd x)))
    (fun x z => (nipow N (fst x) z, nipow M (snd x) z))
    (fun x y => (npow N (fst x) (fst y), npow M (snd x) (snd y)))
    (fun x y => (nmax N (fst x) (fst y), nmax M (snd x) (snd y)))
    (fun x y => (nmin N (fst x) (fst y), nmin M (snd x) (snd y))).
Local Notation N2 := (num_both NO NO).
Definition left_of (p : hyper * hyper) (z : hyper) : Prop := fst p = z.
Definition right_of (p : hyper * hyper) (z : hyper) : Prop := snd p = z /\ fst (fst (fst p)) = fst (fst z).
Lemma left_num : num_rel left_of N2 NO.
Proof. unfold left_of. constructor; cbn [cst val nadd nsub nmul ndiv nneg nexp nln nsqrt nsin ncos nsinh nabs nipow npow nmax nmin num_both fst snd]; intros; subst; reflexivity. Qed.
Lemma right_num : num_rel right_of N2 NO.
Proof.
  unfold right_of. constructor; cbn [cst val nadd nsub nmul ndiv nneg nexp nln nsqrt nsin ncos nsinh nabs nipow npow nmax nmin num_both num_over num_dual fst snd];
    intros; repeat match goal with H : _ /\ _ |- _ => let E := fresh in let V := fresh in destruct H as [E V]; rewrite ?E; cbn [fst snd] in V end; try split; subst;
    cbn [fst snd]; try reflexivity; congruence.
Qed.
Definition swap (z : hyper) : hyper := ((fst (fst z), fst (snd z)), (snd (fst z), snd (snd z))).
Ltac sw := unfold swap; repeat match goal with H : hyper |- _ => destruct H as [[? ?] [? ?]] | H : (dual * dual)%type |- _ => destruct H as [[? ?] [? ?]] end;
  unfold num_over, num_dual, ncosh, nsel, sel3; cbn [cst val nadd nsub nmul ndiv nneg nexp nln nsqrt nsin ncos nsinh nabs nipow npow nmax nmin fst snd].
Ltac parts := refine (f_equal2 (@pair dual dual) (f_equal2 (@pair R R) _ _) (f_equal2 (@pair R R) _ _)).
Ltac sw_eq := sw; parts; unfold Rdiv; try ring.
Lemma sw_add x y : swap (nadd NO x y) = nadd NO (swap x) (swap y). Proof. sw_eq. Qed.
Lemma sw_sub x y : swap (nsub NO x y) = nsub NO (swap x) (swap y). Proof. sw_eq. Qed.
Lemma sw_mul x y : swap (nmul NO x y) = nmul NO (swap x) (swap y). Proof. sw_eq. Qed.
Lemma sw_div x y : swap (ndiv NO x y) = ndiv NO (swap x) (swap y).
Proof. sw. change (2 - 1)%Z with 1%Z. cbn [ipow]. change (Pos.to_nat 2) with 2%nat. change (Pos.to_nat 1) with 1%nat. parts; unfold Rdiv; ring. Qed.
Lemma sw_neg x : swap (nneg NO x) = nneg NO (swap x). Proof. sw_eq. Qed.
Lemma sw_exp x : swap (nexp NO x) = nexp NO (swap x). Proof. sw_eq. Qed.
Lemma sw_ln x : swap (nln NO x) = nln NO (swap x). Proof. sw_eq. Qed.
Lemma sw_sqrt x : swap (nsqrt NO x) = nsqrt NO (swap x). Proof. sw_eq. Qed.
Lemma sw_sin x : swap (nsin NO x) = nsin NO (swap x). Proof. sw_eq. Qed.
Lemma sw_cos x : swap (ncos NO x) = ncos NO (swap x). Proof. sw_eq. Qed.
Lemma sw_sinh x : swap (nsinh NO x) = nsinh NO (swap x).
Proof. sw. unfold cosh. parts; try field. Qed.
Lemma sw_abs x : swap (nabs NO x) = nabs NO (swap x). Proof. sw_eq. Qed.
Lemma sw_ipow x z : swap (nipow NO x z) = nipow NO (swap x) z. Proof. sw_eq. Qed.
Lemma sw_max x y : swap (nmax NO x y) = nmax NO (swap x) (swap y).
Proof. sw. destruct (Rlt_dec _ _); [ reflexivity | ]. destruct (Rlt_dec _ _); [ reflexivity | ]. sw_eq. Qed.
Lemma sw_min x y : swap (nmin NO x y) = nmin NO (swap x) (swap y).
Proof. sw. destruct (Rlt_dec _ _); [ reflexivity | ]. destruct (Rlt_dec _ _); [ reflexivity | ]. sw_eq. Qed.
Lemma rpow_step x y : 0 < x -> rpow x (y - 1) = rpow x y * / x.
Proof.
  intros P. unfold rpow. destruct (Req_EM_T x 0); [ lra | ]. replace ((y - 1) * ln x) with (y * ln x + - ln x) by ring. rewrite exp_plus, exp_Ropp, exp_ln by exact P. reflexivity.
Qed.
Lemma sw_pow x y : 0 < fst (fst x) -> swap (npow NO x y) = npow NO (swap x) (swap y).
Proof.
  sw. intros P. rewrite !rpow_step by exact P. parts; unfold Rdiv; ring.
Qed.
Definition swaps (f : R -> R) (t : R) (p : hyper * hyper) : Prop := tangent_of f t (fst (fst p)) /\ snd p = swap (fst p).
Section Rules.
Variable t : R.
Local Notation W f z := (swaps f t z).
Ltac two := intros; repeat match goal with H : swaps _ _ _ |- _ => let A := fresh "A" in let E := fresh "E" in destruct H as [A E] end; split; cbn [num_both nadd nsub nmul ndiv nneg nexp nln nsqrt nsin ncos nsinh nabs nipow npow nmax nmin fst snd];
  repeat match goal with E : snd ?x = swap _ |- _ = _ => rewrite E; clear E end.
Lemma w_val f x : W f x -> val N2 x = f t. Proof. intros [[E _] _]. exact E. Qed.
Lemma w_continuous f x : W f x -> continuous f t. Proof. intros [H _]. exact (T_continuous f t _ H). Qed.
Lemma w_cst x : W (fun _ => x) (cst N2 x). Proof. split; [ exact (t_cst t x) | reflexivity ]. Qed.
Lemma w_loc f g z : locally t (fun s => f s = g s) -> W f z -> W g z. Proof. intros L [A E]. split; [ exact (t_loc t f g _ L A) | exact E ]. Qed.
Lemma w_add f g x y : W f x -> W g y -> W (fun s => f s + g s) (nadd N2 x y). Proof. two; [ now apply (t_add t f g) | now rewrite sw_add ]. Qed.
Lemma w_sub f g x y : W f x -> W g y -> W (fun s => f s - g s) (nsub N2 x y). Proof. two; [ now apply (t_sub t f g) | now rewrite sw_sub ]. Qed.
Lemma w_mul f g x y : W f x -> W g y -> W (fun s => f s * g s) (nmul N2 x y). Proof. two; [ now apply (t_mul t f g) | now rewrite sw_mul ]. Qed.
Lemma w_div f g x y : g t <> 0 -> W f x -> W g y -> W (fun s => f s / g s) (ndiv N2 x y). Proof. two; [ now apply (t_div t f g) | now rewrite sw_div ]. Qed.
Lemma w_neg f x : W f x -> W (fun s => - f s) (nneg N2 x). Proof. two; [ now apply (t_neg t f) | now rewrite sw_neg ]. Qed.
Lemma w_exp f x : W f x -> W (fun s => exp (f s)) (nexp N2 x). Proof. two; [ now apply (t_exp t f) | now rewrite sw_exp ]. Qed.
Lemma w_ln f x : 0 < f t -> W f x -> W (fun s => ln (f s)) (nln N2 x). Proof. two; [ now apply (t_ln t f) | now rewrite sw_ln ]. Qed.
Lemma w_sqrt f x : 0 < f t -> W f x -> W (fun s => sqrt (f s)) (nsqrt N2 x). Proof. two; [ now apply (t_sqrt t f) | now rewrite sw_sqrt ]. Qed.
Lemma w_sin f x : W f x -> W (fun s => sin (f s)) (nsin N2 x). Proof. two; [ now apply (t_sin t f) | now rewrite sw_sin ]. Qed.
Lemma w_cos f x : W f x -> W (fun s => cos (f s)) (ncos N2 x). Proof. two; [ now apply (t_cos t f) | now rewrite sw_cos ]. Qed.
Lemma w_sinh f x : W f x -> W (fun s => sinh (f s)) (nsinh N2 x). Proof. two; [ now apply (t_sinh t f) | now rewrite sw_sinh ]. Qed.
Lemma w_abs f x : f t <> 0 -> W f x -> W (fun s => Rabs (f s)) (nabs N2 x). Proof. two; [ now apply (t_abs t f) | now rewrite sw_abs ]. Qed.
Lemma w_ipow z f x : f t <> 0 \/ (0 < z)%Z -> W f x -> W (fun s => ipow (f s) z) (nipow N2 x z). Proof. two; [ now apply (t_ipow t z f) | now rewrite sw_ipow ]. Qed.
Lemma w_pow f g x y : 0 < f t -> W f x -> W g y -> W (fun s => rpow (f s) (g s)) (npow N2 x y).
Proof.
  intros P [A E] [A' E']. split; cbn [num_both npow fst snd]; [ now apply (t_pow t f g) | ]. rewrite E, E', sw_pow; [ reflexivity | ]. exact (eq_ind_r (fun v => 0 < v) P (proj1 A)).
Qed.
Lemma w_max f g x y : f t <> g t -> W f x -> W g y -> W (fun s => Rmax (f s) (g s)) (nmax N2 x y). Proof. two; [ now apply (t_max t f g) | now rewrite sw_max ]. Qed.
Lemma w_min f g x y : f t <> g t -> W f x -> W g y -> W (fun s => Rmin (f s) (g s)) (nmin N2 x y). Proof. two; [ now apply (t_min t f g) | now rewrite sw_min ]. Qed.
Lemma w_max_same f x y : W f x -> W f y -> W f (nmax N2 x y). Proof. two; [ now apply (t_max_same t f) | now rewrite sw_max ]. Qed.
Lemma w_min_same f x y : W f x -> W f y -> W f (nmin N2 x y).
Proof.
  intros [A E] [A' E']. split; cbn [num_both nmin fst snd]; [ | now rewrite E, E', sw_min ]. cbn [num_over nmin fst]. rewrite (T_unique t f _ _ A' A). set (u := fst (fst x)) in *. clearbody u.
  destruct A as [A1 A2]. split; cbn [nmin num_dual fst snd]; [ rewrite Rmin_left; [ exact A1 | lra ] | ]. unfold sel3.
  destruct (Rlt_dec _ _); [ lra | ]. replace ((snd u + snd u) / 2) with (snd u) by field. exact A2.
Qed.
End Rules.
Global Instance swapped : follows N2 :=
  Follows (hyper * hyper) N2 swaps w_val w_continuous (fun x => eq_refl) w_cst w_loc w_add w_sub w_mul w_div w_neg w_exp w_ln w_sqrt w_sin w_cos w_sinh w_abs w_ipow w_pow w_max w_max_same w_min w_min_same.
(** the parameters of the two runs *)
Definition both_cosmo (c : cosmology) (e d : direction) : gcosmo (hyper * hyper) :=
  let p (x t s : R) : hyper * hyper := (((x, t), (s, 0)), ((x, s), (t, 0))) in
  GCosmo (p (_Omega_c c) (dOmega_c e) (dOmega_c d)) (p (_Omega_b c) (dOmega_b e) (dOmega_b d)) (p (_h c) (dh e) (dh d)) (p (_n_s c) (dn_s e) (dn_s d))
    (p (_sigma8 c) (dsigma8 e) (dsigma8 d)) (p (_Omega_k c) (dOmega_k e) (dOmega_k d)) (p (_w0 c) (dw0 e) (dw0 d)) (p (_wa c) (dwa e) (dwa d))
    (match _gamma c with Some g => Some (cst N2 g) | None => None end).
Lemma left_cosmo c e d : cosmo_rel left_of (both_cosmo c e d) (twice_cosmo c e d).
Proof. constructor; try reflexivity. unfold both_cosmo, twice_cosmo; cbn [ggamma]. destruct (_gamma c); reflexivity. Qed.
Lemma right_cosmo c e d : cosmo_rel right_of (both_cosmo c e d) (twice_cosmo c d e).
Proof. constructor; try (split; reflexivity). unfold both_cosmo, twice_cosmo; cbn [ggamma]. destruct (_gamma c); [ split; reflexivity | exact I ]. Qed.
Lemma line_swap x t s : swaps (fun u => x + u * t) 0 (((x, t), (s, 0)), ((x, s), (t, 0))).
Proof. split; [ | reflexivity ]. split; cbn [fst snd]; [ ring | ]. auto_derive; [ exact I | ring ]. Qed.
Lemma both_moves c e d : fin_moves (FLN := swapped) (displaced c e) 0 (both_cosmo c e d).
Proof.
  unfold fin_moves. split; [ intros s; split; [ now split | reflexivity ] | ].
  repeat (split; [ apply line_swap | ]). unfold both_cosmo, displaced, make_cosmology. cbn [ggamma _gamma]. destruct (_gamma c) as [v | ]; [ | reflexivity ].
  exists (fun _ => v). split; [ reflexivity | apply (w_cst 0 v) ].
Qed.
