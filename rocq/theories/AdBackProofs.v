(** * Reverse mode is the transpose of forward mode: the relation *)
From Verif Require Import Np NpLemmas Core Likelihood SparseSpec GradSpec Ad AdLike AdParam AdParamCl AdJacSpec AdJac AdBack.
Local Open Scope R_scope.

Section Pairing.
Variables (k : nat) (w : nat -> R).
Definition pair_ (f : nat -> R) : R := Rsum k (fun q => w q * f q).
(** the tangent d of a number is the pairing of the input tangents w with what reverse mode sends back *)
Definition rb (x : back) (d : dual) : Prop := fst x = fst d /\ forall u, pair_ (snd x u) = u * snd d.
Lemma pair_plus f g : pair_ (fun q => f q + g q) = pair_ f + pair_ g.
Proof. unfold pair_. rewrite <- Rsum_plus. apply Rsum_ext. intros; ring. Qed.
Lemma pair_0 : pair_ (fun _ => 0) = 0.
Proof. unfold pair_. apply Rsum_0_ext. intros; ring. Qed.
Lemma pair_sum n (F : nat -> nat -> R) : pair_ (fun q => Np.vsum (tab n (fun i => F i q))) = Rsum n (fun i => pair_ (F i)).
Proof.
  unfold pair_. rewrite Rsum_swap. apply Rsum_ext. intros q _. rewrite vsum_tab, Rsum_scal. reflexivity.
Qed.
Lemma rb_num : num_rel rb num_back num_dual.
Proof.
  unfold rb. constructor; cbn [cst val nadd nsub nmul ndiv nneg nexp nln nsqrt nsin ncos nsinh nabs nipow npow nmax nmin num_back num_dual fst snd].
  - intros x. split; [ reflexivity | ]. intros u. rewrite pair_0. ring.
  - now intros x y [E _].
  - intros x y x' y' [-> E] [-> E']. split; [ reflexivity | ]. intros u. rewrite pair_plus, E, E'. ring.
  - intros x y x' y' [-> E] [-> E']. split; [ reflexivity | ]. intros u. rewrite pair_plus, E, E'. ring.
  - intros x y x' y' [-> E] [-> E']. split; [ reflexivity | ]. intros u. rewrite pair_plus, E, E'. ring.
  - intros x y x' y' [-> E] [-> E']. split; [ reflexivity | ]. intros u. rewrite pair_plus, E, E'. unfold Rdiv. ring.
  - intros x y [-> E]. split; [ reflexivity | ]. intros u. rewrite E. ring.
  - intros x y [-> E]. split; [ reflexivity | ]. intros u. rewrite E. ring.
  - intros x y [-> E]. split; [ reflexivity | ]. intros u. rewrite E. unfold Rdiv. ring.
  - intros x y [-> E]. split; [ reflexivity | ]. intros u. rewrite E. ring.
  - intros x y [-> E]. split; [ reflexivity | ]. intros u. rewrite E. ring.
  - intros x y [-> E]. split; [ reflexivity | ]. intros u. rewrite E. ring.
  - intros x y [-> E]. split; [ reflexivity | ]. intros u. rewrite E. ring.
  - intros x y [-> E]. split; [ reflexivity | ]. intros u. rewrite E. ring.
  - intros z x y [-> E]. split; [ reflexivity | ]. intros u. rewrite E. ring.
  - intros x y x' y' [-> E] [-> E']. split; [ reflexivity | ]. intros u. rewrite pair_plus, E, E'. ring.
  - intros x y x' y' [-> E] [-> E']. split; [ reflexivity | ]. intros u. rewrite pair_plus, E, E'. unfold sel3. destruct (Rlt_dec (fst y') (fst y)); [ ring | ]. destruct (Rlt_dec (fst y) (fst y')); [ ring | field ].
  - intros x y x' y' [-> E] [-> E']. split; [ reflexivity | ]. intros u. rewrite pair_plus, E, E'. unfold sel3. destruct (Rlt_dec (- fst y') (- fst y)); [ ring | ]. destruct (Rlt_dec (- fst y) (- fst y')); [ ring | field ].
Qed.
Lemma rb_values x y : Forall2 rb x y -> map fst x = map fst y.
Proof. induction 1 as [ | a b x y [E _] Q IH]; cbn [map]; [ reflexivity | now rewrite E, IH ]. Qed.
Lemma rb_values2 x y : Forall2 (Forall2 rb) x y -> map (map fst) x = map (map fst) y.
Proof. induction 1 as [ | a b x y E Q IH]; cbn [map]; [ reflexivity | now rewrite (rb_values _ _ E), IH ]. Qed.
Lemma rb_nth x y : Forall2 rb x y -> forall i u, pair_ (snd (nth i x bnil) u) = u * el (map snd y) i.
Proof.
  induction 1 as [ | a b x y [_ E] Q IH]; intros i u.
  - destruct i; unfold el; cbn [map nth bnil cst num_back snd]; rewrite pair_0; ring.
  - destruct i as [ | i]; unfold el in *; cbn [map nth]; [ apply E | apply IH ].
Qed.
Lemma rb_nth2 x y : Forall2 (Forall2 rb) x y -> forall i j u, pair_ (snd (nth j (nth i x []) bnil) u) = u * el2 (map (map snd) y) i j.
Proof.
  induction 1 as [ | a b x y E Q IH]; intros i j u.
  - unfold el2. destruct i, j; cbn [map nth bnil cst num_back snd]; rewrite pair_0; ring.
  - destruct i as [ | i]; unfold el2 in *; cbn [map nth]; [ apply (rb_nth _ _ E) | apply IH ].
Qed.
Lemma rb_vdot a b : Forall2 rb a b -> forall v y, pair_ (fun q => Np.vsum (map2 (fun (m : back) yb => snd m (- (v * yb)) q) a y)) = - v * vdot (map snd b) y.
Proof.
  induction 1 as [ | m d a b [_ E] Q IH]; intros v y; [ | destruct y as [ | z y]].
  - unfold vdot, vmul, Np.vsum. cbn. rewrite pair_0. ring.
  - unfold vdot, vmul, Np.vsum. cbn. rewrite pair_0. ring.
  - specialize (IH v y). unfold vdot, vmul, Np.vsum in *. cbn [map map2 fold_right] in *. rewrite pair_plus, E, IH. ring.
Qed.
Lemma rb_mv m m' : Forall2 (Forall2 rb) m m' -> forall a v y, pair_ (fun q => Np.vsum (map2 (fun (m : back) yb => snd m (- (v * yb)) q) (nth a m []) y)) = - v * el (mv (map (map snd) m') y) a.
Proof.
  induction 1 as [ | x z m m' E Q IH]; intros a v y.
  - destruct a; unfold el, mv; cbn [map nth map2]; unfold Np.vsum; cbn; rewrite pair_0; ring.
  - destruct a as [ | a]; unfold el, mv in *; cbn [map nth]; [ now apply rb_vdot | apply IH ].
Qed.
Lemma vsum_tab2 n F : Np.vsum (tab n F) = Rsum n F. Proof. apply vsum_tab. Qed.
Lemma rb_linalg la : solve_linear la -> linalg_rel rb (linalg_back la) (linalg_dual la).
Proof.
  intros HS. constructor; unfold linalg_back, linalg_dual; cbn [ga_inv ga_logdet ga_cho_solve].
  - intros n m m' H. rewrite (rb_values2 _ _ H). set (P := la_inv la n (map (map fst) m')).
    apply f2_tab_lt. intros i Hi. apply f2_tab_lt. intros j Hj. split; [ reflexivity | ]. cbn [snd]. intros u.
    rewrite pair_sum. unfold mmul at 1. rewrite el2_tab by assumption. rewrite vsum_tab2.
    rewrite (Rsum_ext n _ (fun a => Rsum n (fun b => - (el2 P i a * u * el2 P b j) * el2 (map (map snd) m') a b))).
    2:{ intros a Ha. rewrite pair_sum. apply Rsum_ext. intros b Hb. apply (rb_nth2 _ _ H). }
    rewrite Rsum_swap. match goal with |- _ = u * - ?s => replace (u * - s) with (- u * s) by ring end. rewrite <- Rsum_scal. apply Rsum_ext. intros b Hb. unfold mmul. rewrite el2_tab by assumption. rewrite vsum_tab2.
    match goal with |- _ = - u * (?s * ?p) => replace (- u * (s * p)) with ((- u * p) * s) by ring end. rewrite <- Rsum_scal. apply Rsum_ext. intros a Ha. ring.
  - intros n m m' H. rewrite (rb_values2 _ _ H). split; [ reflexivity | ]. cbn [snd]. intros u. rewrite pair_sum. unfold trace. rewrite vsum_tab2, <- Rsum_scal. apply Rsum_ext. intros i Hi.
    rewrite pair_sum. unfold mmul. rewrite el2_tab by assumption. rewrite vsum_tab2, <- Rsum_scal. apply Rsum_ext. intros l Hl. rewrite (rb_nth2 _ _ H). ring.
  - intros n m m' v v' H H'. pose proof (f2_len rb _ _ H') as L1. pose proof (f2_len _ _ _ H) as L2. rewrite (rb_values2 _ _ H), (rb_values _ _ H'). apply f2_tab. intros i. split; [ reflexivity | ]. cbn [snd]. intros u.
    set (y := la_cho_solve la n (map (map fst) m') (map fst v')). set (L := Nat.min (length v) (length m)).
    set (x := vsub (map snd v') (mv (map (map snd) m') y)).
    assert (LX : length x = L) by (unfold x, vsub; rewrite len_map2; unfold mv; rewrite !map_length; unfold L, back, dual in *; now rewrite L1, L2).
    assert (EX : el (la_cho_solve la n (map (map fst) m') x) i = Rsum L (fun a => el x a * el (la_cho_solve la n (map (map fst) m') (unit_vec L a)) i)).
    { apply (HS n (map (map fst) m') L (el x) (unit_vec L) x).
      - intros q. unfold unit_vec. rewrite length_tab. now symmetry.
      - intros j. destruct (Nat.lt_ge_cases j L) as [Hj | Hj].
        + rewrite (Rsum_ext L _ (fun a => if Nat.eqb a j then el x a else 0)).
          2:{ intros a Ha. unfold unit_vec, el at 2. rewrite nth_tab by assumption. rewrite Nat.eqb_sym. destruct (Nat.eqb a j); ring. }
          now rewrite Rsum_delta.
        + transitivity 0; [ unfold el; apply nth_overflow; rewrite LX; exact Hj | ]. symmetry. apply Rsum_0_ext. intros a Ha. unfold el at 2. rewrite (nth_overflow (unit_vec L a)) by (unfold unit_vec; now rewrite length_tab). ring. }
    etransitivity; [ | symmetry; apply (f_equal (fun t => u * t) EX) ]. rewrite pair_sum, <- Rsum_scal. apply Rsum_ext. intros a Ha. cbv zeta.
    rewrite pair_plus, (rb_nth _ _ H'), (rb_mv _ _ H).
    unfold x. rewrite el_vsub. unfold mv at 2. rewrite !map_length.
    assert (B1 : Nat.ltb a (length v') = true) by (apply Nat.ltb_lt; unfold L, back, dual in *; lia).
    assert (B2 : Nat.ltb a (length m') = true) by (apply Nat.ltb_lt; unfold L, back, dual in *; lia).
    unfold dual in *. rewrite B1, B2. cbn [andb]. ring.
Qed.
End Pairing.
