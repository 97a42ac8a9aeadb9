(** * Programs over numbers treat all types of numbers alike

    Two types of numbers related by [r]: related inputs give related outputs, for every program of Ad.v, AdPower.v, AdProbes.v,
    AdHalofit.v and AdLike.v. *)
From Coq Require Import String.
From Verif Require Import Np Core Ode Interp Integrate Background Transfer Power Redshift Bias Sparse Likelihood Probes AngularCl Ad AdPower AdProbes AdHalofit AdLike.

Record num_rel {A B} (r : A -> B -> Prop) (N : num A) (M : num B) : Prop := NumRel {
  nr_cst : forall x, r (cst N x) (cst M x);
  nr_val : forall x y, r x y -> val N x = val M y;
  nr_add : forall x y x' y', r x y -> r x' y' -> r (nadd N x x') (nadd M y y');
  nr_sub : forall x y x' y', r x y -> r x' y' -> r (nsub N x x') (nsub M y y');
  nr_mul : forall x y x' y', r x y -> r x' y' -> r (nmul N x x') (nmul M y y');
  nr_div : forall x y x' y', r x y -> r x' y' -> r (ndiv N x x') (ndiv M y y');
  nr_neg : forall x y, r x y -> r (nneg N x) (nneg M y);
  nr_exp : forall x y, r x y -> r (nexp N x) (nexp M y);
  nr_ln : forall x y, r x y -> r (nln N x) (nln M y);
  nr_sqrt : forall x y, r x y -> r (nsqrt N x) (nsqrt M y);
  nr_sin : forall x y, r x y -> r (nsin N x) (nsin M y);
  nr_cos : forall x y, r x y -> r (ncos N x) (ncos M y);
  nr_sinh : forall x y, r x y -> r (nsinh N x) (nsinh M y);
  nr_abs : forall x y, r x y -> r (nabs N x) (nabs M y);
  nr_ipow : forall z x y, r x y -> r (nipow N x z) (nipow M y z);
  nr_pow : forall x y x' y', r x y -> r x' y' -> r (npow N x x') (npow M y y');
  nr_max : forall x y x' y', r x y -> r x' y' -> r (nmax N x x') (nmax M y y');
  nr_min : forall x y x' y', r x y -> r x' y' -> r (nmin N x x') (nmin M y y') }.
Record cosmo_rel {A B} (r : A -> B -> Prop) (c : gcosmo A) (c' : gcosmo B) : Prop := CosmoRel {
  cr_Omega_c : r (gOmega_c c) (gOmega_c c'); cr_Omega_b : r (gOmega_b c) (gOmega_b c'); cr_h : r (gh c) (gh c'); cr_n_s : r (gn_s c) (gn_s c');
  cr_sigma8 : r (gsigma8 c) (gsigma8 c'); cr_Omega_k : r (gOmega_k c) (gOmega_k c'); cr_w0 : r (gw0 c) (gw0 c'); cr_wa : r (gwa c) (gwa c');
  cr_gamma : match ggamma c, ggamma c' with Some g, Some g' => r g g' | None, None => True | _, _ => False end }.
Definition pair_rel {A B A' B'} (r : A -> B -> Prop) (r' : A' -> B' -> Prop) (p : A * A') (q : B * B') : Prop := r (fst p) (fst q) /\ r' (snd p) (snd q).
Definition res_rel {A B} (r : A -> B -> Prop) (x : res A) (y : res B) : Prop :=
  match x, y with Ok a, Ok b => r a b | Err e, Err e' => e = e' | _, _ => False end.
Definition arr_rel {A B} (r : A -> B -> Prop) (x : garr A) (y : garr B) : Prop :=
  match x, y with
  | G0 a, G0 b => r a b
  | G1 n u, G1 n' v => n = n' /\ Forall2 r u v
  | G2 a b m, G2 a' b' m' => a = a' /\ b = b' /\ Forall2 (Forall2 r) m m'
  | G3 a b n s, G3 a' b' n' s' => a = a' /\ b = b' /\ n = n' /\ Forall2 (Forall2 (Forall2 r)) s s'
  | GN d, GN d' => d = d'
  | _, _ => False
  end.
Record linalg_rel {A B} (r : A -> B -> Prop) (ga : glinalg A) (gb : glinalg B) : Prop := LinalgRel {
  lr_inv : forall n m m', Forall2 (Forall2 r) m m' -> Forall2 (Forall2 r) (ga_inv ga n m) (ga_inv gb n m');
  lr_logdet : forall n m m', Forall2 (Forall2 r) m m' -> r (ga_logdet ga n m) (ga_logdet gb n m');
  lr_cho : forall n m m' v v', Forall2 (Forall2 r) m m' -> Forall2 r v v' -> Forall2 r (ga_cho_solve ga n m v) (ga_cho_solve gb n m' v') }.

(** ** lists *)
Section Lists.
Context {X Y X' Y' X2 Y2 : Type} (r : X -> Y -> Prop) (r' : X' -> Y' -> Prop) (r2 : X2 -> Y2 -> Prop).
Lemma f2_map (F : X -> X') (G : Y -> Y') l m : (forall x y, r x y -> r' (F x) (G y)) -> Forall2 r l m -> Forall2 r' (map F l) (map G m).
Proof. intros HF. induction 1; cbn [map]; constructor; auto. Qed.
Lemma f2_mapc {Z} (F : Z -> X) (G : Z -> Y) L : (forall q, r (F q) (G q)) -> Forall2 r (map F L) (map G L).
Proof. intros HF. induction L; cbn [map]; constructor; auto. Qed.
Lemma f2_tab (F : nat -> X) (G : nat -> Y) n : (forall q, r (F q) (G q)) -> Forall2 r (tab n F) (tab n G).
Proof. intros HF. now apply f2_mapc. Qed.
Lemma f2_map2 (F : X -> X' -> X2) (G : Y -> Y' -> Y2) l m l' m' : (forall x y x' y', r x y -> r' x' y' -> r2 (F x x') (G y y')) -> Forall2 r l m -> Forall2 r' l' m' -> Forall2 r2 (map2 F l l') (map2 G m m').
Proof. intros HF H1. revert l' m'. induction H1; intros l'' m'' H2; destruct H2; cbn [map2]; constructor; auto. Qed.
Lemma f2_nth dx dy l m i : r dx dy -> Forall2 r l m -> r (nth i l dx) (nth i m dy).
Proof. intros HD H1. revert i. induction H1; intros [ | i]; cbn [nth]; auto. Qed.
Lemma f2_len l m : Forall2 r l m -> length l = length m.
Proof. induction 1; cbn [length]; congruence. Qed.
Lemma f2_getZ dx dy l m z : r dx dy -> Forall2 r l m -> r (getZ dx l z) (getZ dy m z).
Proof. intros HD H1. unfold getZ. rewrite (f2_len _ _ H1). now apply f2_nth. Qed.
Lemma f2_app l m l' m' : Forall2 r l m -> Forall2 r l' m' -> Forall2 r (l ++ l') (m ++ m').
Proof. intros H1 H2. now apply Forall2_app. Qed.
Lemma f2_fold (F : X -> X' -> X') (G : Y -> Y' -> Y') l m z z' : (forall x y u v, r x y -> r' u v -> r' (F x u) (G y v)) -> r' z z' -> Forall2 r l m -> r' (fold_right F z l) (fold_right G z' m).
Proof. intros HF HZ. induction 1; cbn [fold_right]; auto. Qed.
Lemma f2_foldl {Z} (F : X -> Z -> X) (G : Y -> Z -> Y) (L : list Z) z z' : (forall x y u, r x y -> r (F x u) (G y u)) -> r z z' -> r (fold_left F L z) (fold_left G L z').
Proof. intros HF. revert z z'. induction L; intros z z' HZ; cbn [fold_left]; auto. Qed.
Lemma f2_tl l m : Forall2 r l m -> Forall2 r (tl l) (tl m).
Proof. intros []; cbn [tl]; auto. Qed.
Lemma f2_skipn n l m : Forall2 r l m -> Forall2 r (skipn n l) (skipn n m).
Proof. revert l m. induction n as [ | n IH]; intros l m H1; [ exact H1 | ]. destruct H1; cbn [skipn]; auto. Qed.
Lemma f2_firstn n l m : Forall2 r l m -> Forall2 r (firstn n l) (firstn n m).
Proof. revert l m. induction n as [ | n IH]; intros l m H1; [ constructor | ]. destruct H1; cbn [firstn]; constructor; auto. Qed.
Lemma f2_removelast l m : Forall2 r l m -> Forall2 r (removelast l) (removelast m).
Proof.
  induction 1 as [ | x y l m P Q IH]; [ constructor | ]. destruct Q as [ | x' y' l m P' Q]; [ constructor | ].
  change (Forall2 r (x :: removelast (x' :: l)) (y :: removelast (y' :: m))). now constructor.
Qed.
Lemma f2_evens_both l m : Forall2 r l m -> Forall2 r (evens l) (evens m) /\ forall x y, r x y -> Forall2 r (evens (x :: l)) (evens (y :: m)).
Proof.
  induction 1 as [ | x y l m P Q [IH1 IH2]]; split.
  - constructor.
  - intros; cbn [evens]; auto.
  - now apply IH2.
  - intros x' y' P'. cbn [evens]. now constructor.
Qed.
Lemma f2_evens l m : Forall2 r l m -> Forall2 r (evens l) (evens m).
Proof. intros H1. now apply f2_evens_both. Qed.
Lemma f2_repeat x y n : r x y -> Forall2 r (repeat x n) (repeat y n).
Proof. intros P. induction n; cbn [repeat]; auto. Qed.
Lemma f2_concat l m : Forall2 (Forall2 r) l m -> Forall2 r (concat l) (concat m).
Proof. induction 1; cbn [concat]; [ constructor | now apply Forall2_app ]. Qed.
Lemma f2_same (L : list X) (rr : X -> X -> Prop) : (forall x, rr x x) -> Forall2 rr L L.
Proof. intros HR. induction L; auto. Qed.
End Lists.
Lemma f2_odds {X Y} (r : X -> Y -> Prop) l m : Forall2 r l m -> Forall2 r (odds l) (odds m).
Proof. intros H1. now apply f2_evens, f2_tl. Qed.
Lemma f2_chunk {X Y} (r : X -> Y -> Prop) n b : forall l m, Forall2 r l m -> Forall2 (Forall2 r) (chunk n b l) (chunk n b m).
Proof. induction b as [ | b IH]; intros l m H1; cbn [chunk]; constructor; [ now apply f2_firstn | now apply IH, f2_skipn ]. Qed.
Lemma f2_stack1 {X Y} (r : X -> Y -> Prop) dx dy n l m : r dx dy -> Forall2 (Forall2 r) l m -> Forall2 (Forall2 r) (stack1 dx n l) (stack1 dy n m).
Proof. intros HD H1. unfold stack1. apply f2_tab. intros q. apply (f2_map (Forall2 r)); [ | exact H1 ]. intros x y P. now apply f2_nth. Qed.
Lemma f2_scan {S S' X X' Y Y'} (rs : S -> S' -> Prop) (rx : X -> X' -> Prop) (ry : Y -> Y' -> Prop) (F : S -> X -> S * Y) (G : S' -> X' -> S' * Y') xs xs' :
  (forall s s' x x', rs s s' -> rx x x' -> pair_rel rs ry (F s x) (G s' x')) -> Forall2 rx xs xs' ->
  forall s s', rs s s' -> pair_rel rs (Forall2 ry) (scan F s xs) (scan G s' xs').
Proof.
  intros HF. induction 1 as [ | x x' xs xs' P Q IH]; intros s s' HS; cbn [scan]; [ split; [ exact HS | constructor ] | ].
  pose proof (HF s s' x x' HS P) as [K1 K2]. destruct (F s x) as [s1 y], (G s' x') as [s1' y']. cbn [fst snd] in K1, K2.
  specialize (IH s1 s1' K1). destruct (scan F s1 xs) as [s2 ys], (scan G s1' xs') as [s2' ys']. destruct IH as [K3 K4]. split; cbn [fst snd]; auto.
Qed.
Lemma f2_odeint {V W} (r : V -> W -> Prop) add scl fn add' scl' fn' y0 y0' t :
  (forall u v u' v', r u v -> r u' v' -> r (add u u') (add' v v')) -> (forall h u v, r u v -> r (scl h u) (scl' h v)) -> (forall x u v, r u v -> r (fn u x) (fn' v x)) -> r y0 y0' ->
  Forall2 r (odeint add scl fn y0 t) (odeint add' scl' fn' y0' t).
Proof.
  intros HA HS HF H0. unfold odeint. refine (proj2 (f2_scan (pair_rel r eq) eq r _ _ t t _ _ (y0, el t 0) (y0', el t 0) _)).
  - intros [y tp] [y' tp'] x x' [K1 K2] <-. cbn [fst snd] in K1, K2. subst tp'. unfold rk4. cbv zeta. unfold pair_rel. cbn [fst snd].
    assert (KK : r (add y (scl (1.0 / 6.0 * (x - tp)) (add (add (add (fn y tp) (scl 2 (fn (add y (scl ((x - tp) / 2) (fn y tp))) (tp + (x - tp) / 2)))) (scl 2 (fn (add y (scl ((x - tp) / 2) (fn (add y (scl ((x - tp) / 2) (fn y tp))) (tp + (x - tp) / 2)))) (tp + (x - tp) / 2)))) (fn (add y (scl (x - tp) (fn (add y (scl ((x - tp) / 2) (fn (add y (scl ((x - tp) / 2) (fn y tp))) (tp + (x - tp) / 2)))) (tp + (x - tp) / 2)))) x))))
             (add' y' (scl' (1.0 / 6.0 * (x - tp)) (add' (add' (add' (fn' y' tp) (scl' 2 (fn' (add' y' (scl' ((x - tp) / 2) (fn' y' tp))) (tp + (x - tp) / 2)))) (scl' 2 (fn' (add' y' (scl' ((x - tp) / 2) (fn' (add' y' (scl' ((x - tp) / 2) (fn' y' tp))) (tp + (x - tp) / 2)))) (tp + (x - tp) / 2)))) (fn' (add' y' (scl' (x - tp) (fn' (add' y' (scl' ((x - tp) / 2) (fn' (add' y' (scl' ((x - tp) / 2) (fn' y' tp))) (tp + (x - tp) / 2)))) (tp + (x - tp) / 2)))) x))))) by (repeat first [ assumption | apply HA | apply HS | apply HF ]).
    split; [ split; [ exact KK | reflexivity ] | exact KK ].
  - now apply f2_same.
  - split; [ exact H0 | reflexivity ].
Qed.
(** ** results *)
Lemma rel_bind {X Y X' Y'} (r : X -> Y -> Prop) (r' : X' -> Y' -> Prop) x y F G : res_rel r x y -> (forall a b, r a b -> res_rel r' (F a) (G b)) -> res_rel r' (bind x F) (bind y G).
Proof. destruct x, y; cbn [res_rel bind]; intros H1 H2; try contradiction; auto. Qed.
Lemma rel_bindc {Z X Y} (r : X -> Y -> Prop) (x : res Z) F G : (forall z, res_rel r (F z) (G z)) -> res_rel r (bind x F) (bind x G).
Proof. destruct x; cbn [res_rel bind]; auto. Qed.
Lemma rel_mapM {Z X Y} (r : X -> Y -> Prop) (F : Z -> res X) (G : Z -> res Y) L : (forall q, res_rel r (F q) (G q)) -> res_rel (Forall2 r) (mapM F L) (mapM G L).
Proof.
  intros HF. induction L as [ | q L IH]; cbn [mapM]; [ constructor | ]. apply (rel_bind r); [ apply HF | ]. intros a b P.
  apply (rel_bind (Forall2 r)); [ exact IH | ]. intros. cbn [res_rel]. now constructor.
Qed.
Lemma rel_bcast {X Y X' Y' X2 Y2} (r : X -> Y -> Prop) (r' : X' -> Y' -> Prop) (r2 : X2 -> Y2 -> Prop) F G l m l' m' :
  (forall x y x' y', r x y -> r' x' y' -> r2 (F x x') (G y y')) -> Forall2 r l m -> Forall2 r' l' m' -> res_rel (Forall2 r2) (bcast F l l') (bcast G m m').
Proof.
  intros HF H1 H2. unfold bcast. rewrite (f2_len r _ _ H1), (f2_len r' _ _ H2). destruct (Nat.eqb (length m) (length m')); [ now apply (f2_map2 r r') | ].
  assert (S1 : forall x' y', r' x' y' -> Forall2 r2 (map (fun x => F x x') l) (map (fun y => G y y') m)) by (intros; apply (f2_map r); auto).
  assert (S2 : forall x y, r x y -> Forall2 r2 (map (fun x' => F x x') l') (map (fun y' => G y y') m')) by (intros; apply (f2_map r'); auto).
  destruct H1 as [ | x y l m P Q]; [ | destruct Q as [ | x1 y1 l m P1 Q1]]; (destruct H2 as [ | x' y' l' m' P' Q']; [ | destruct Q' as [ | x1' y1' l' m' P1' Q1']]); cbn [res_rel]; auto.
Qed.

(** ** programs *)
Section Programs.
Context {A B : Type} (N : num A) (M : num B) (r : A -> B -> Prop) (HR : num_rel r N M).
Local Notation V := (Forall2 r).
Local Notation W := (Forall2 (Forall2 r)).
Definition transfer_rel (c : gcosmo A) (c' : gcosmo B) (T : gcosmo A -> A -> A) (T' : gcosmo B -> B -> B) : Prop := forall k k', r k k' -> r (T c k) (T' c' k').
Definition spectrum_rel (c : gcosmo A) (c' : gcosmo B) (P : gspectrum A) (P' : gspectrum B) : Prop := forall k k' a a', r k k' -> r a a' -> r (P c k a) (P' c' k' a').
Ltac op := first [ assumption | match goal with
  | |- r (cst N _) _ => apply (nr_cst r N M HR)
  | |- r (nadd N _ _) _ => apply (nr_add r N M HR)
  | |- r (nsub N _ _) _ => apply (nr_sub r N M HR)
  | |- r (nmul N _ _) _ => apply (nr_mul r N M HR)
  | |- r (ndiv N _ _) _ => apply (nr_div r N M HR)
  | |- r (npow N _ _) _ => apply (nr_pow r N M HR)
  | |- r (nmax N _ _) _ => apply (nr_max r N M HR)
  | |- r (nmin N _ _) _ => apply (nr_min r N M HR)
  | |- r (nipow N _ _) _ => apply (nr_ipow r N M HR)
  | |- r (nneg N _) _ => apply (nr_neg r N M HR)
  | |- r (nexp N _) _ => apply (nr_exp r N M HR)
  | |- r (nln N _) _ => apply (nr_ln r N M HR)
  | |- r (nsqrt N _) _ => apply (nr_sqrt r N M HR)
  | |- r (nsin N _) _ => apply (nr_sin r N M HR)
  | |- r (ncos N _) _ => apply (nr_cos r N M HR)
  | |- r (nsinh N _) _ => apply (nr_sinh r N M HR)
  | |- r (nabs N _) _ => apply (nr_abs r N M HR)
  end ].
Section Cosmo.
Variables (c : gcosmo A) (c' : gcosmo B) (HC : cosmo_rel r c c').
Ltac cop := first [ op | match goal with
  | |- r (gOmega_c c) _ => apply (cr_Omega_c r c c' HC)
  | |- r (gOmega_b c) _ => apply (cr_Omega_b r c c' HC)
  | |- r (gh c) _ => apply (cr_h r c c' HC)
  | |- r (gn_s c) _ => apply (cr_n_s r c c' HC)
  | |- r (gsigma8 c) _ => apply (cr_sigma8 r c c' HC)
  | |- r (gOmega_k c) _ => apply (cr_Omega_k r c c' HC)
  | |- r (gw0 c) _ => apply (cr_w0 r c c' HC)
  | |- r (gwa c) _ => apply (cr_wa r c c' HC)
  end ].
Ltac go := repeat cop.
Lemma p_Omega_m : r (gOmega_m N c) (gOmega_m M c'). Proof. unfold gOmega_m. go. Qed.
Lemma p_Omega_de : r (gOmega_de N c) (gOmega_de M c'). Proof. unfold gOmega_de, gOmega. repeat first [ apply p_Omega_m | cop ]. Qed.
Lemma p_curv : gcurv N c = gcurv M c'.
Proof. unfold gcurv. now rewrite (nr_val r N M HR _ _ (cr_Omega_k r c c' HC)). Qed.
Lemma p_sqrtk : r (gsqrtk N c) (gsqrtk M c'). Proof. unfold gsqrtk. go. Qed.
Lemma p_w a a' : r a a' -> r (gw N c a) (gw M c' a'). Proof. intros. unfold gw. go. Qed.
Lemma p_f_de a a' : r a a' -> r (gf_de N c a) (gf_de M c' a'). Proof. intros. unfold gf_de. go. Qed.
Lemma p_Esqr a a' : r a a' -> r (gEsqr N c a) (gEsqr M c' a').
Proof. intros. unfold gEsqr. repeat first [ apply p_Omega_m | apply p_Omega_de | apply p_f_de | cop ]. Qed.
Lemma p_H a a' : r a a' -> r (gH N c a) (gH M c' a'). Proof. intros. unfold gH. repeat first [ apply p_Esqr | cop ]. Qed.
Lemma p_Omega_m_a a a' : r a a' -> r (gOmega_m_a N c a) (gOmega_m_a M c' a').
Proof. intros. unfold gOmega_m_a. repeat first [ apply p_Omega_m | apply p_Esqr | cop ]. Qed.
Lemma p_Omega_de_a a a' : r a a' -> r (gOmega_de_a N c a) (gOmega_de_a M c' a').
Proof. intros. unfold gOmega_de_a. repeat first [ apply p_Omega_de | apply p_Esqr | apply p_f_de | cop ]. Qed.
Lemma p_dchioverda a a' : r a a' -> r (gdchioverda N c a) (gdchioverda M c' a').
Proof. intros. unfold gdchioverda. repeat first [ apply p_Esqr | cop ]. Qed.
Lemma p_interp x x' xp xp' fp fp' : r x x' -> V xp xp' -> V fp fp' -> r (ginterp1 N x xp fp) (ginterp1 M x' xp' fp').
Proof.
  intros H1 H2 H3. pose proof (nr_val r N M HR) as HV.
  assert (G : forall l l' z, V l l' -> r (getZ (cst N 0) l z) (getZ (cst M 0) l' z)) by (intros; apply f2_getZ; [ apply (nr_cst r N M HR) | assumption ]).
  unfold ginterp1. cbv zeta. rewrite (f2_len r _ _ H2), (HV _ _ H1).
  assert (E : map (fun p => ((val M x' - val N p) ^ 2)%R) xp = map (fun p => ((val M x' - val M p) ^ 2)%R) xp').
  { clear - H2 HV. induction H2; cbn [map]; [ reflexivity | ]. rewrite (HV _ _ H). congruence. }
  rewrite E. set (i := clipZ _ _ _). rewrite !(HV _ _ (G xp xp' _ H2)). set (j := (i + copysign1 _)%Z).
  repeat first [ assumption | apply G | op ].
Qed.
Lemma p_cst_list l : V (map (cst N) l) (map (cst M) l).
Proof. apply f2_mapc. apply (nr_cst r N M HR). Qed.
Lemma p_last l l' : V l l' -> r (glast N l) (glast M l').
Proof. intros. unfold glast. apply f2_getZ; [ apply (nr_cst r N M HR) | assumption ]. Qed.
Lemma p_chi_table am n : pair_rel V V (gchi_table N c am n) (gchi_table M c' am n).
Proof.
  unfold gchi_table. cbv zeta. split; cbn [fst snd]; [ apply p_cst_list | ].
  set (u := odeint _ _ _ _ _). set (v := odeint (nadd M) _ _ _ _).
  assert (K : V u v). { unfold u, v. apply f2_odeint; intros; repeat first [ apply p_dchioverda | op ]. }
  apply (f2_map r); [ | exact K ]. intros. repeat first [ apply p_last | op ].
Qed.
Lemma p_chi a a' : r a a' -> r (gchi N c a) (gchi M c' a').
Proof.
  intros. unfold gchi. pose proof (p_chi_table (-3) 256) as [K1 K2]. destruct (gchi_table N c (-3) 256), (gchi_table M c' (-3) 256). cbn [fst snd] in K1, K2.
  op; [ now apply p_interp | op ].
Qed.
Lemma p_a_of_chi a a' : r a a' -> r (ga_of_chi N c a) (ga_of_chi M c' a').
Proof.
  intros. unfold ga_of_chi. pose proof (p_chi_table (-3) 256) as [K1 K2]. destruct (gchi_table N c (-3) 256), (gchi_table M c' (-3) 256). cbn [fst snd] in K1, K2.
  now apply p_interp.
Qed.
Lemma p_f_k a a' : r a a' -> r (gf_k N c a) (gf_k M c' a').
Proof. intros. unfold gf_k. cbv zeta. rewrite p_curv. destruct (clipZ (gcurv M c' + 1) 0 2) as [ | [ | | ] | ]; repeat first [ apply p_sqrtk | apply p_chi | op ]. Qed.
Lemma p_d_A a a' : r a a' -> r (gd_A N c a) (gd_A M c' a'). Proof. intros. unfold gd_A. repeat first [ apply p_f_k | op ]. Qed.
Lemma p_growth_ODE am n : pair_rel (pair_rel V V) V (ggrowth_ODE N c am n) (ggrowth_ODE M c' am n).
Proof.
  unfold ggrowth_ODE. cbv zeta. set (u := odeint _ _ _ _ _). set (v := odeint _ _ (gD_derivs M c') _ _).
  assert (K : Forall2 (pair_rel r r) u v).
  { unfold u, v. apply f2_odeint.
    - intros p q p' q' [? ?] [? ?]. split; cbn [fst snd]; op; assumption.
    - intros h p q [? ?]. split; cbn [fst snd]; repeat op.
    - intros x p q [? ?]. unfold gD_derivs. cbv zeta. split; cbn [fst snd]; [ assumption | ]. repeat first [ apply p_Omega_m_a | apply p_Omega_de_a | apply p_w | op ].
    - split; cbn [fst snd]; op. }
  assert (K1 : V (map fst u) (map fst v)) by (apply (f2_map (pair_rel r r)); [ now intros ? ? [] | exact K ]).
  assert (K2 : V (map snd u) (map snd v)) by (apply (f2_map (pair_rel r r)); [ now intros ? ? [] | exact K ]).
  assert (L : forall l l', V l l' -> V (map (fun x => ndiv N x (glast N (map fst u))) l) (map (fun x => ndiv M x (glast M (map fst v))) l')).
  { intros l l' HL. apply (f2_map r); [ | exact HL ]. intros. repeat first [ apply p_last | op ]. }
  split; [ split | ]; cbn [fst snd]; [ apply p_cst_list | now apply L | ].
  apply (f2_map2 r r); [ intros; op; assumption | | now apply L ]. apply (f2_map2 r r); [ intros; op; assumption | now apply L | apply p_cst_list ].
Qed.
Lemma p_rate_gamma g g' a a' : r g g' -> r a a' -> r (grate_gamma N c g a) (grate_gamma M c' g' a').
Proof. intros. unfold grate_gamma. repeat first [ apply p_Omega_m_a | op ]. Qed.
Lemma p_growth_gamma g g' am n : r g g' -> pair_rel V V (ggrowth_gamma N c g am n) (ggrowth_gamma M c' g' am n).
Proof.
  intros HG. unfold ggrowth_gamma. cbv zeta. set (u := odeint _ _ _ _ _). set (v := odeint (nadd M) _ _ _ _).
  assert (K : V u v). { unfold u, v. apply f2_odeint; intros; repeat first [ apply p_rate_gamma | op ]. }
  assert (K2 : V (map (nexp N) u) (map (nexp M) v)) by (apply (f2_map r); [ intros; op; assumption | exact K ]).
  split; cbn [fst snd]; [ apply p_cst_list | ]. apply (f2_map r); [ | exact K2 ]. intros. repeat first [ apply p_last | op ].
Qed.
Lemma p_clip01 x x' : r x x' -> r (gclip01 N x) (gclip01 M x'). Proof. intros. unfold gclip01. repeat op. Qed.
Lemma p_D a a' : r a a' -> r (gD N c a) (gD M c' a').
Proof.
  intros. unfold gD. pose proof (cr_gamma r c c' HC) as HG. destruct (ggamma c) as [g | ], (ggamma c') as [g' | ]; try contradiction.
  - pose proof (p_growth_gamma g g' (-3) 128 HG) as [K1 K2]. destruct (ggrowth_gamma N c g (-3) 128), (ggrowth_gamma M c' g' (-3) 128). cbn [fst snd] in *. now apply p_clip01, p_interp.
  - pose proof (p_growth_ODE (-3) 128) as [[K1 K2] K3]. destruct (ggrowth_ODE N c (-3) 128) as [[? ?] ?], (ggrowth_ODE M c' (-3) 128) as [[? ?] ?]. cbn [fst snd] in *. now apply p_clip01, p_interp.
Qed.
Lemma p_f a a' : r a a' -> r (gf N c a) (gf M c' a').
Proof.
  intros. unfold gf. pose proof (cr_gamma r c c' HC) as HG. destruct (ggamma c) as [g | ], (ggamma c') as [g' | ]; try contradiction.
  - now apply p_rate_gamma.
  - pose proof (p_growth_ODE (-3) 128) as [[K1 K2] K3]. destruct (ggrowth_ODE N c (-3) 128) as [[? ?] ?], (ggrowth_ODE M c' (-3) 128) as [[? ?] ?]. cbn [fst snd] in *. now apply p_interp.
Qed.
(** quadrature *)
Lemma p_sum v v' : V v v' -> r (gsum N v) (gsum M v').
Proof. intros. unfold gsum. apply (f2_fold r r); [ intros; op; assumption | op | assumption ]. Qed.
Lemma p_romb f f' a b n : (forall x, r (f x) (f' x)) -> r (gromb N f a b n) (gromb M f' a b n).
Proof.
  intros HF. unfold gromb. cbv zeta.
  assert (H1 : r (gdifftrap1 N f a b) (gdifftrap1 M f' a b)) by (unfold gdifftrap1; repeat first [ apply HF | op ]).
  assert (Hn : forall k, r (gdifftrapn N f a b k) (gdifftrapn M f' a b k)) by (intros k; unfold gdifftrapn; cbv zeta; apply p_sum, f2_mapc, HF).
  assert (HL : forall fuel i o o' s s', r o o' -> V s s' -> pair_rel eq V (gromb_loop N f a b fuel i o s) (gromb_loop M f' a b fuel i o' s')).
  { induction fuel as [ | fuel IH]; intros i o o' s s' Ho Hs; cbn [gromb_loop]; [ now split | ]. cbv zeta.
    set (x := ndiv N _ _). set (x' := ndiv M _ _). assert (Hx : r x x') by (unfold x, x'; repeat first [ apply Hn | op ]).
    apply IH; [ op; [ exact Ho | apply Hn ] | ]. unfold gromb_row. constructor; [ exact Hx | ].
    refine (proj2 (f2_scan (pair_rel r eq) r r _ _ _ _ _ (f2_removelast r _ _ Hs) (x, 0%nat) (x', 0%nat) _)); [ | now split ].
    intros [y k] [y' k'] z z' [K1 K2] Hz. cbn [fst snd] in K1, K2. subst k'. unfold gromb_scan, gromberg_diff. unfold pair_rel. cbn [fst snd]. split; [ split; [ | reflexivity ] | ]; repeat op. }
  specialize (HL n 1%nat (gdifftrap1 N f a b) (gdifftrap1 M f' a b) (repeat (nmul N (cst N (b - a)) (gdifftrap1 N f a b)) (n + 1)) (repeat (nmul M (cst M (b - a)) (gdifftrap1 M f' a b)) (n + 1)) H1 ltac:(apply f2_repeat; repeat op)).
  destruct (gromb_loop N f a b n 1 _ _) as [i s], (gromb_loop M f' a b n 1 _ _) as [i' s']. destruct HL as [K1 K2]. cbn [fst snd] in K1, K2. subst i'.
  apply f2_nth; [ op | exact K2 ].
Qed.
Lemma p_sinc x x' : r x x' -> r (gsinc N x) (gsinc M x').
Proof. intros H. unfold gsinc. rewrite (nr_val r N M HR _ _ H). destruct (Req_EM_T (val M x') 0); repeat op. Qed.
(** transfer functions *)
Ltac tr0 := repeat first [ assumption | cop | apply p_Omega_m ].
Lemma p_w_m : r (g_w_m N c) (g_w_m M c'). Proof. unfold g_w_m. tr0. Qed.
Lemma p_w_b : r (g_w_b N c) (g_w_b M c'). Proof. unfold g_w_b. tr0. Qed.
Lemma p_fb : r (g_fb N c) (g_fb M c'). Proof. unfold g_fb. tr0. Qed.
Lemma p_fc : r (g_fc N c) (g_fc M c'). Proof. unfold g_fc. tr0. Qed.
Ltac tr1 := repeat first [ assumption | cop | apply p_Omega_m | apply p_w_m | apply p_w_b | apply p_fb | apply p_fc ].
Lemma p_k_eq : r (g_k_eq N c) (g_k_eq M c'). Proof. unfold g_k_eq. tr1. Qed.
Lemma p_z_eq : r (g_z_eq N c) (g_z_eq M c'). Proof. unfold g_z_eq. tr1. Qed.
Lemma p_z_d : r (g_z_d N c) (g_z_d M c'). Proof. unfold g_z_d. cbv zeta. tr1. Qed.
Ltac tr2 := repeat first [ assumption | cop | apply p_Omega_m | apply p_w_m | apply p_w_b | apply p_fb | apply p_fc | apply p_k_eq | apply p_z_eq | apply p_z_d ].
Lemma p_R_d : r (g_R_d N c) (g_R_d M c'). Proof. unfold g_R_d. tr2. Qed.
Lemma p_R_eq : r (g_R_eq N c) (g_R_eq M c'). Proof. unfold g_R_eq. tr2. Qed.
Lemma p_sh_d : r (g_sh_d N c) (g_sh_d M c'). Proof. unfold g_sh_d. repeat first [ apply p_R_d | apply p_R_eq | progress tr2 ]. Qed.
Lemma p_k_silk : r (g_k_silk N c) (g_k_silk M c'). Proof. unfold g_k_silk. tr2. Qed.
Lemma p_alpha_gamma : r (g_alpha_gamma N c) (g_alpha_gamma M c'). Proof. unfold g_alpha_gamma. tr2. Qed.
Lemma p_gamma_eff k k' : r k k' -> r (g_gamma_eff N c k) (g_gamma_eff M c' k').
Proof. intros. unfold g_gamma_eff. repeat first [ apply p_sh_d | apply p_alpha_gamma | progress tr2 ]. Qed.
Lemma p_eisenhu k k' : r k k' -> r (geisenhu N c k) (geisenhu M c' k').
Proof. intros. unfold geisenhu. cbv zeta. repeat first [ apply p_gamma_eff | progress tr2 ]. Qed.
Lemma p_T_tilde k k' x x' y y' : r k k' -> r x x' -> r y y' -> r (g_T_tilde N c k x y) (g_T_tilde M c' k' x' y').
Proof. intros. unfold g_T_tilde. cbv zeta. tr2. Qed.
Lemma p_alpha_c : r (g_alpha_c N c) (g_alpha_c M c'). Proof. unfold g_alpha_c. cbv zeta. tr2. Qed.
Lemma p_beta_c : r (g_beta_c N c) (g_beta_c M c'). Proof. unfold g_beta_c. cbv zeta. tr2. Qed.
Lemma p_Tc k k' : r k k' -> r (g_Tc N c k) (g_Tc M c' k').
Proof. intros. unfold g_Tc. cbv zeta. repeat first [ apply p_T_tilde | apply p_sh_d | apply p_alpha_c | apply p_beta_c | progress tr2 ]. Qed.
Lemma p_alpha_b : r (g_alpha_b N c) (g_alpha_b M c'). Proof. unfold g_alpha_b. cbv zeta. repeat first [ apply p_sh_d | apply p_R_d | progress tr2 ]. Qed.
Lemma p_beta_b : r (g_beta_b N c) (g_beta_b M c'). Proof. unfold g_beta_b. tr2. Qed.
Lemma p_tilde_s k k' : r k k' -> r (g_tilde_s N c k) (g_tilde_s M c' k').
Proof. intros. unfold g_tilde_s. cbv zeta. repeat first [ apply p_sh_d | progress tr2 ]. Qed.
Lemma p_Tb k k' : r k k' -> r (g_Tb N c k) (g_Tb M c' k').
Proof. intros. unfold g_Tb. repeat first [ apply p_sinc | apply p_T_tilde | apply p_tilde_s | apply p_sh_d | apply p_alpha_b | apply p_beta_b | apply p_k_silk | progress tr2 ]. Qed.
Lemma p_eisenhu_osc k k' : r k k' -> r (geisenhu_osc N c k) (geisenhu_osc M c' k').
Proof. intros. unfold geisenhu_osc. repeat first [ apply p_Tb | apply p_Tc | progress tr2 ]. Qed.
(** power spectra *)
Section Spectra.
Variables (T : gcosmo A -> A -> A) (T' : gcosmo B -> B -> B) (HT : transfer_rel c c' T T').
Lemma p_primordial k k' : r k k' -> r (gprimordial N c k) (gprimordial M c' k'). Proof. intros. unfold gprimordial. go. Qed.
Lemma p_sigmasqr Rr kmin kmax : r (gsigmasqr N c Rr T kmin kmax) (gsigmasqr M c' Rr T' kmin kmax).
Proof.
  unfold gsigmasqr. op; [ op | ]. apply p_romb. intros lk. unfold gint_sigma. cbv zeta.
  repeat first [ apply p_primordial | apply HT | op ].
Qed.
Lemma p_linear k k' a a' : r k k' -> r a a' -> r (glinear_matter_power N c k a T) (glinear_matter_power M c' k' a' T').
Proof. intros. unfold glinear_matter_power. cbv zeta. repeat first [ apply p_primordial | apply p_sigmasqr | apply p_D | apply HT | cop ]. Qed.
Lemma p_vadd u u' v v' : V u u' -> V v v' -> V (gvadd N u v) (gvadd M u' v').
Proof. intros. apply (f2_map2 r r); try assumption. intros; op; assumption. Qed.
Lemma p_vmul u u' v v' : V u u' -> V v v' -> V (gvmul N u v) (gvmul M u' v').
Proof. intros. apply (f2_map2 r r); try assumption. intros; op; assumption. Qed.
Lemma p_vdiv u u' v v' : V u u' -> V v v' -> V (gvdiv N u v) (gvdiv M u' v').
Proof. intros. apply (f2_map2 r r); try assumption. intros; op; assumption. Qed.
Lemma p_vscale x x' v v' : r x x' -> V v v' -> V (gvscale N x v) (gvscale M x' v').
Proof. intros. apply (f2_map r); try assumption. intros; op; assumption. Qed.
Lemma p_simps f f' a b n : (forall x, r (f x) (f' x)) -> res_rel r (gsimps N f a b n) (gsimps M f' a b n).
Proof.
  intros HF. unfold gsimps. destruct (Nat.eqb (n mod 2) 1); [ reflexivity | ]. cbv zeta. cbn [res_rel]. op; [ op | ]. apply p_sum.
  assert (K : V (map f (linspace a b (n + 1))) (map f' (linspace a b (n + 1)))) by now apply f2_mapc.
  repeat first [ apply p_vadd | apply p_vscale | apply f2_odds | apply f2_evens | apply f2_removelast | apply f2_skipn | exact K | op ].
Qed.
Lemma p_simps_value f f' a b n : (forall x, r (f x) (f' x)) -> r (gsimps_value N f a b n) (gsimps_value M f' a b n).
Proof. intros HF. unfold gsimps_value. pose proof (p_simps f f' a b n HF) as K. destruct (gsimps N f a b n), (gsimps M f' a b n); try contradiction; [ exact K | op ]. Qed.
Lemma p_clip_lo x x' lo : r x x' -> r (gclip_lo N x lo) (gclip_lo M x' lo). Proof. intros. unfold gclip_lo. repeat op. Qed.
Lemma p_hf_parameters a a' : r a a' -> pair_rel (pair_rel r r) r (ghalofit_parameters N c a T) (ghalofit_parameters M c' a' T').
Proof.
  intros Ha. unfold ghalofit_parameters. cbv zeta.
  assert (Hk : r (gk_nl N c a T) (gk_nl M c' a' T')).
  { unfold gk_nl, gR_nl. op; [ op | ]. apply p_clip_lo. op. apply p_interp; [ op | | apply p_cst_list ].
    unfold ghf_sigma. apply f2_mapc. intros lr. apply p_simps_value. intros lk. unfold ghf_int_sigma. cbv zeta.
    repeat first [ apply p_linear | apply p_D | op ]. }
  assert (Hr : forall lk, r (ghf_res N c a (gk_nl N c a T) T lk) (ghf_res M c' a' (gk_nl M c' a' T') T' lk)).
  { intros lk. unfold ghf_res. cbv zeta. repeat first [ apply p_linear | apply p_D | op ]. }
  assert (H0 : r (gsimps_value N (ghf_dneff N c a (gk_nl N c a T) T) (ln 1e-4) (ln 1e4) 256) (gsimps_value M (ghf_dneff M c' a' (gk_nl M c' a' T') T') (ln 1e-4) (ln 1e4) 256)).
  { apply p_simps_value. intros lk. unfold ghf_dneff. cbv zeta. repeat first [ apply Hr | op ]. }
  assert (H1 : r (gsimps_value N (ghf_dC N c a (gk_nl N c a T) T) (ln 1e-4) (ln 1e4) 256) (gsimps_value M (ghf_dC M c' a' (gk_nl M c' a' T') T') (ln 1e-4) (ln 1e4) 256)).
  { apply p_simps_value. intros lk. unfold ghf_dC. cbv zeta. repeat first [ apply Hr | op ]. }
  split; [ split | ]; cbn [fst snd]; repeat op.
Qed.
Lemma p_assemble k k' p p' n n' co co' f f' : r k k' -> r p p' -> r n n' ->
  r (ghf_a co) (ghf_a co') -> r (ghf_b co) (ghf_b co') -> r (ghf_c co) (ghf_c co') -> r (ghf_gamma co) (ghf_gamma co') -> r (ghf_alpha co) (ghf_alpha co') ->
  r (ghf_beta co) (ghf_beta co') -> r (ghf_mu co) (ghf_mu co') -> r (ghf_nu co) (ghf_nu co') -> pair_rel (pair_rel r r) r f f' ->
  r (ghf_assemble N k p n co f) (ghf_assemble M k' p' n' co' f').
Proof.
  intros. destruct f as [[f1 f2] f3], f' as [[g1 g2] g3]. destruct H10 as [[K1 K2] K3]. cbn [fst snd] in K1, K2, K3. unfold ghf_assemble. cbv zeta beta. repeat op.
Qed.
Lemma p_halofit k k' a a' pr : r k k' -> r a a' -> res_rel r (ghalofit N c k a T pr) (ghalofit M c' k' a' T' pr).
Proof.
  intros Hk Ha. unfold ghalofit. cbv zeta. pose proof (p_hf_parameters a a' Ha) as K. pose proof (p_linear k k' a a' Hk Ha) as HL.
  destruct (ghalofit_parameters N c a T) as [[n1 n2] n3], (ghalofit_parameters M c' a' T') as [[m1 m2] m3]. destruct K as [[K1 K2] K3]. cbn [fst snd] in K1, K2, K3.
  pose proof (p_Omega_m_a a a' Ha) as HO. pose proof (p_Omega_de_a a a' Ha) as HD. pose proof (p_w a a' Ha) as HW.
  destruct (String.eqb pr "smith2003"); [ | destruct (String.eqb pr "takahashi2012"); [ | reflexivity ]]; cbn [res_rel];
    apply p_assemble; try assumption; unfold ghf_smith, ghf_takahashi, ghf_f_smith, ghf_f_takahashi; cbn [ghf_a ghf_b ghf_c ghf_gamma ghf_alpha ghf_beta ghf_mu ghf_nu]; try (split; [ split | ]; cbn [fst snd]); repeat op.
Qed.
End Spectra.
Lemma p_spectrum_linear T T' : transfer_rel c c' T T' -> spectrum_rel c c' (fun c k a => glinear_matter_power N c k a T) (fun c k a => glinear_matter_power M c k a T').
Proof. intros HT k k' a a' Hk Ha. now apply p_linear. Qed.
Lemma p_spectrum_halofit T T' : transfer_rel c c' T T' -> spectrum_rel c c' (ghalofit_default N T) (ghalofit_default M T').
Proof.
  intros HT k k' a a' Hk Ha. unfold ghalofit_default. pose proof (p_halofit T T' HT k k' a a' "takahashi2012" Hk Ha) as K.
  destruct (ghalofit N c k a T "takahashi2012"), (ghalofit M c' k' a' T' "takahashi2012"); try contradiction; [ exact K | op ].
Qed.
End Cosmo.
End Programs.
