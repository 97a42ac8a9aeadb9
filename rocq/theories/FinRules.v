(** * Arithmetic in floating point that follows curves

    Numbers N with values and tangents in floating point (infinities and NaN included) whose rules, on the numbers called finite, are
    those of exact dual numbers.  [fin_of f t x]: x is finite, and holds the value and the derivative of f at t. *)
From Coquelicot Require Import Coquelicot.
From Verif Require Import Np NpLemmas Core Background BgSpec GradSpec Ad AdSpec AdProofs AdRel.

Local Notation M := num_dual.
(** finite numbers, and what they hold *)
Class floats {A : Type} (N : num A) : Type := Floats {
  fl_ok : A -> Prop;
  fl_rd : A -> dual;
  fl_val x : fl_ok x -> val N x = fst (fl_rd x);
  fl_cst a : fl_ok (cst N a) /\ fl_rd (cst N a) = cst M a;
  fl_add x y : fl_ok x -> fl_ok y -> fl_ok (nadd N x y) /\ fl_rd (nadd N x y) = nadd M (fl_rd x) (fl_rd y);
  fl_sub x y : fl_ok x -> fl_ok y -> fl_ok (nsub N x y) /\ fl_rd (nsub N x y) = nsub M (fl_rd x) (fl_rd y);
  fl_mul x y : fl_ok x -> fl_ok y -> fl_ok (nmul N x y) /\ fl_rd (nmul N x y) = nmul M (fl_rd x) (fl_rd y);
  fl_div x y : fl_ok x -> fl_ok y -> fst (fl_rd y) <> 0 -> fl_ok (ndiv N x y) /\ fl_rd (ndiv N x y) = ndiv M (fl_rd x) (fl_rd y);
  fl_neg x : fl_ok x -> fl_ok (nneg N x) /\ fl_rd (nneg N x) = nneg M (fl_rd x);
  fl_exp x : fl_ok x -> fl_ok (nexp N x) /\ fl_rd (nexp N x) = nexp M (fl_rd x);
  fl_ln x : fl_ok x -> 0 < fst (fl_rd x) -> fl_ok (nln N x) /\ fl_rd (nln N x) = nln M (fl_rd x);
  fl_sqrt x : fl_ok x -> 0 < fst (fl_rd x) -> fl_ok (nsqrt N x) /\ fl_rd (nsqrt N x) = nsqrt M (fl_rd x);
  fl_sin x : fl_ok x -> fl_ok (nsin N x) /\ fl_rd (nsin N x) = nsin M (fl_rd x);
  fl_cos x : fl_ok x -> fl_ok (ncos N x) /\ fl_rd (ncos N x) = ncos M (fl_rd x);
  fl_sinh x : fl_ok x -> fl_ok (nsinh N x) /\ fl_rd (nsinh N x) = nsinh M (fl_rd x);
  fl_abs x : fl_ok x -> fl_ok (nabs N x) /\ fl_rd (nabs N x) = nabs M (fl_rd x);
  fl_ipow x z : fl_ok x -> fst (fl_rd x) <> 0 \/ (0 < z)%Z -> fl_ok (nipow N x z) /\ fl_rd (nipow N x z) = nipow M (fl_rd x) z;
  fl_pow x y : fl_ok x -> fl_ok y -> 0 < fst (fl_rd x) \/ fst (fl_rd x) = 0 /\ 1 <= fst (fl_rd y) -> fl_ok (npow N x y) /\ fl_rd (npow N x y) = npow M (fl_rd x) (fl_rd y);
  fl_max x y : fl_ok x -> fl_ok y -> fl_ok (nmax N x y) /\ fl_rd (nmax N x y) = nmax M (fl_rd x) (fl_rd y);
  fl_min x y : fl_ok x -> fl_ok y -> fl_ok (nmin N x y) /\ fl_rd (nmin N x y) = nmin M (fl_rd x) (fl_rd y) }.

(** [fin_of f t x]: the number x follows the curve f at t.  For the arithmetic above: x is finite and holds the value and the derivative of f at t.
    The programs over a number type preserve any relation with the following rules. *)
Class follows {A : Type} (N : num A) : Type := Follows {
  fin_of : (R -> R) -> R -> A -> Prop;
  ft_vval t f x : fin_of f t x -> val N x = f t;
  ft_continuous t f x : fin_of f t x -> continuous f t;
  ft_vcst x : val N (cst N x) = x;
  ft_cst t x : fin_of (fun _ => x) t (cst N x);
  ft_loc t f g d : locally t (fun s => f s = g s) -> fin_of f t d -> fin_of g t d;
  ft_add t f g x y : fin_of f t x -> fin_of g t y -> fin_of (fun s => f s + g s) t (nadd N x y);
  ft_sub t f g x y : fin_of f t x -> fin_of g t y -> fin_of (fun s => f s - g s) t (nsub N x y);
  ft_mul t f g x y : fin_of f t x -> fin_of g t y -> fin_of (fun s => f s * g s) t (nmul N x y);
  ft_div t f g x y : g t <> 0 -> fin_of f t x -> fin_of g t y -> fin_of (fun s => f s / g s) t (ndiv N x y);
  ft_neg t f x : fin_of f t x -> fin_of (fun s => - f s) t (nneg N x);
  ft_exp t f x : fin_of f t x -> fin_of (fun s => exp (f s)) t (nexp N x);
  ft_ln t f x : 0 < f t -> fin_of f t x -> fin_of (fun s => ln (f s)) t (nln N x);
  ft_sqrt t f x : 0 < f t -> fin_of f t x -> fin_of (fun s => sqrt (f s)) t (nsqrt N x);
  ft_sin t f x : fin_of f t x -> fin_of (fun s => sin (f s)) t (nsin N x);
  ft_cos t f x : fin_of f t x -> fin_of (fun s => cos (f s)) t (ncos N x);
  ft_sinh t f x : fin_of f t x -> fin_of (fun s => sinh (f s)) t (nsinh N x);
  ft_abs t f x : f t <> 0 -> fin_of f t x -> fin_of (fun s => Rabs (f s)) t (nabs N x);
  ft_ipow t z f x : f t <> 0 \/ (0 < z)%Z -> fin_of f t x -> fin_of (fun s => ipow (f s) z) t (nipow N x z);
  ft_pow t f g x y : 0 < f t -> fin_of f t x -> fin_of g t y -> fin_of (fun s => rpow (f s) (g s)) t (npow N x y);
  ft_max t f g x y : f t <> g t -> fin_of f t x -> fin_of g t y -> fin_of (fun s => Rmax (f s) (g s)) t (nmax N x y);
  ft_max_same t f x y : fin_of f t x -> fin_of f t y -> fin_of f t (nmax N x y);
  ft_min t f g x y : f t <> g t -> fin_of f t x -> fin_of g t y -> fin_of (fun s => Rmin (f s) (g s)) t (nmin N x y);
  ft_min_same t f x y : fin_of f t x -> fin_of f t y -> fin_of f t (nmin N x y) }.
Section Rules.
Context {A : Type} {N : num A} {FL : floats N}.
Definition fl_of (f : R -> R) (t : R) (x : A) : Prop := fl_ok x /\ tangent_of f t (fl_rd x).
Variable t : R.
Local Notation T f d := (fl_of f t d).
Lemma fl_t_val f x : T f x -> fst (fl_rd x) = f t. Proof. intros [_ [E _]]. exact E. Qed.
Lemma fl_t_vval f x : T f x -> val N x = f t. Proof. intros [F [E _]]. rewrite fl_val by exact F. exact E. Qed.
Lemma fl_t_vcst x : val N (cst N x) = x. Proof. destruct (fl_cst x) as [F E]. rewrite fl_val by exact F. now rewrite E. Qed.
Lemma fl_t_cst x : T (fun _ => x) (cst N x). Proof. destruct (fl_cst x) as [F E]. split; [ exact F | rewrite E; exact (t_cst t x) ]. Qed.
Lemma fl_t_ext f g d : (forall s, f s = g s) -> T f d -> T g d. Proof. intros E [F B]. split; [ exact F | exact (t_ext t f g _ E B) ]. Qed.
Lemma fl_t_loc f g d : locally t (fun s => f s = g s) -> T f d -> T g d. Proof. intros E [F B]. split; [ exact F | exact (t_loc t f g _ E B) ]. Qed.
Lemma fl_t_add f g x y : T f x -> T g y -> T (fun s => f s + g s) (nadd N x y).
Proof. intros [F1 T1] [F2 T2]. destruct (fl_add x y F1 F2) as [F E]. split; [ exact F | rewrite E; now apply t_add ]. Qed.
Lemma fl_t_sub f g x y : T f x -> T g y -> T (fun s => f s - g s) (nsub N x y).
Proof. intros [F1 T1] [F2 T2]. destruct (fl_sub x y F1 F2) as [F E]. split; [ exact F | rewrite E; now apply t_sub ]. Qed.
Lemma fl_t_mul f g x y : T f x -> T g y -> T (fun s => f s * g s) (nmul N x y).
Proof. intros [F1 T1] [F2 T2]. destruct (fl_mul x y F1 F2) as [F E]. split; [ exact F | rewrite E; now apply t_mul ]. Qed.
Lemma fl_t_div f g x y : g t <> 0 -> T f x -> T g y -> T (fun s => f s / g s) (ndiv N x y).
Proof. intros H0 [F1 T1] [F2 T2]. destruct (fl_div x y F1 F2) as [F E]; [ now rewrite (proj1 T2) | ]. split; [ exact F | rewrite E; now apply t_div ]. Qed.
Lemma fl_t_neg f x : T f x -> T (fun s => - f s) (nneg N x).
Proof. intros [F1 T1]. destruct (fl_neg x F1) as [F E]. split; [ exact F | rewrite E; now apply t_neg ]. Qed.
Lemma fl_t_exp f x : T f x -> T (fun s => exp (f s)) (nexp N x).
Proof. intros [F1 T1]. destruct (fl_exp x F1) as [F E]. split; [ exact F | rewrite E; now apply t_exp ]. Qed.
Lemma fl_t_ln f x : 0 < f t -> T f x -> T (fun s => ln (f s)) (nln N x).
Proof. intros P [F1 T1]. destruct (fl_ln x F1) as [F E]; [ now rewrite (proj1 T1) | ]. split; [ exact F | rewrite E; now apply t_ln ]. Qed.
Lemma fl_t_sqrt f x : 0 < f t -> T f x -> T (fun s => sqrt (f s)) (nsqrt N x).
Proof. intros P [F1 T1]. destruct (fl_sqrt x F1) as [F E]; [ now rewrite (proj1 T1) | ]. split; [ exact F | rewrite E; now apply t_sqrt ]. Qed.
Lemma fl_t_sin f x : T f x -> T (fun s => sin (f s)) (nsin N x).
Proof. intros [F1 T1]. destruct (fl_sin x F1) as [F E]. split; [ exact F | rewrite E; now apply t_sin ]. Qed.
Lemma fl_t_cos f x : T f x -> T (fun s => cos (f s)) (ncos N x).
Proof. intros [F1 T1]. destruct (fl_cos x F1) as [F E]. split; [ exact F | rewrite E; now apply t_cos ]. Qed.
Lemma fl_t_sinh f x : T f x -> T (fun s => sinh (f s)) (nsinh N x).
Proof. intros [F1 T1]. destruct (fl_sinh x F1) as [F E]. split; [ exact F | rewrite E; now apply t_sinh ]. Qed.
Lemma fl_t_abs f x : f t <> 0 -> T f x -> T (fun s => Rabs (f s)) (nabs N x).
Proof. intros P [F1 T1]. destruct (fl_abs x F1) as [F E]. split; [ exact F | rewrite E; now apply t_abs ]. Qed.
Lemma fl_t_ipow z f x : f t <> 0 \/ (0 < z)%Z -> T f x -> T (fun s => ipow (f s) z) (nipow N x z).
Proof. intros P [F1 T1]. destruct (fl_ipow x z F1) as [F E]; [ now rewrite (proj1 T1) | ]. split; [ exact F | rewrite E; now apply t_ipow ]. Qed.
Lemma fl_t_pow f g x y : 0 < f t -> T f x -> T g y -> T (fun s => rpow (f s) (g s)) (npow N x y).
Proof. intros P [F1 T1] [F2 T2]. destruct (fl_pow x y F1 F2) as [F E]; [ left; now rewrite (proj1 T1) | ]. split; [ exact F | rewrite E; now apply t_pow ]. Qed.
Lemma fl_t_max f g x y : f t <> g t -> T f x -> T g y -> T (fun s => Rmax (f s) (g s)) (nmax N x y).
Proof. intros NE [F1 T1] [F2 T2]. destruct (fl_max x y F1 F2) as [F E]. split; [ exact F | rewrite E; now apply t_max ]. Qed.
Lemma fl_t_max_same f x y : T f x -> T f y -> T f (nmax N x y).
Proof. intros [F1 T1] [F2 T2]. destruct (fl_max x y F1 F2) as [F E]. split; [ exact F | rewrite E; now apply t_max_same ]. Qed.
Lemma fl_t_min f g x y : f t <> g t -> T f x -> T g y -> T (fun s => Rmin (f s) (g s)) (nmin N x y).
Proof. intros NE [F1 T1] [F2 T2]. destruct (fl_min x y F1 F2) as [F E]. split; [ exact F | rewrite E; now apply t_min ]. Qed.
Lemma fl_t_continuous f x : T f x -> continuous f t.
Proof. intros [_ [_ D]]. apply (ex_derive_continuous (V := R_NormedModule)). now exists (snd (fl_rd x)). Qed.
Lemma fl_t_min_same f x y : T f x -> T f y -> T f (nmin N x y).
Proof.
  intros [F1 [A1 B1]] [F2 [A2 B2]]. destruct (fl_min x y F1 F2) as [F E]. split; [ exact F | ]. rewrite E.
  assert (E2 : snd (fl_rd x) = snd (fl_rd y)) by (rewrite <- (is_derive_unique _ _ _ B1); now apply is_derive_unique).
  split; cbn [nmin num_dual fst snd]; [ rewrite A1, A2; apply Rmin_left; lra | ]. unfold sel3. rewrite A1, A2.
  rewrite E2. replace ((snd (fl_rd y) + snd (fl_rd y)) / 2) with (snd (fl_rd y)) by field. destruct (Rlt_dec _ _); exact B2 || (destruct (Rlt_dec _ _); exact B2).
Qed.
End Rules.
Definition floats_follows {A : Type} {N : num A} (FL : floats N) : follows N :=
  Follows A N fl_of fl_t_vval fl_t_continuous fl_t_vcst fl_t_cst fl_t_loc fl_t_add fl_t_sub fl_t_mul fl_t_div fl_t_neg fl_t_exp fl_t_ln fl_t_sqrt fl_t_sin fl_t_cos fl_t_sinh fl_t_abs fl_t_ipow fl_t_pow fl_t_max fl_t_max_same fl_t_min fl_t_min_same.
Global Existing Instance floats_follows.
Coercion floats_follows : floats >-> follows.
Arguments fin_of {A N FL} _ _ _ : rename.
Arguments ft_cst {A N FL} _ _ : rename.
Lemma ft_ext {A : Type} {N : num A} {FL : follows N} t f g d : (forall s, f s = g s) -> fin_of f t d -> fin_of g t d.
Proof. intros E. apply ft_loc. apply filter_forall. exact E. Qed.
