(** * Forward-mode differentiation of the growth functions *)
From Coquelicot Require Import Coquelicot.
From Verif Require Import Np NpLemmas Core Ode OdeSpec OdeProofs Interp InterpProofs Integrate Background BgSpec BgAlgebra BgTables
  BgGrowth BgPositive BgProofs BgFinal BgFinal2 BgGrad GradSpec Ad AdSpec AdProofs AdBg.

Section Growth.
Variables (c : R -> cosmology) (t : R) (g : gcosmo dual).
Hypothesis HM : moves c t g.
Hypothesis HE : expanding (c t).
Local Notation T f d := (tangent_of f t d).
Local Notation N := num_dual.
Local Notation gpadd := (fun u v : dual * dual => (nadd N (fst u) (fst v), nadd N (snd u) (snd v))).
Local Notation gpscl := (fun (h : R) (u : dual * dual) => (nmul N (cst N h) (fst u), nmul N (cst N h) (snd u))).
Let PR (f : R -> R * R) (y : dual * dual) : Prop := T (fun s => fst (f s)) (fst y) /\ T (fun s => snd (f s)) (snd y).

Lemma m_D_derivs x f y : 0 < x -> PR f y -> PR (fun s => D_derivs (c s) (f s) x) (gD_derivs N g y x).
Proof.
  intros Hx [H1 H2]. assert (TX := t_cst t x). assert (PE := HE x Hx).
  assert (TM := m_Omega_m_a c t g HM (fun _ => x) _ TX Hx PE). assert (TDE := m_Omega_de_a c t g HM (fun _ => x) _ TX Hx PE).
  assert (TW := m_w c t g HM (fun _ => x) _ TX). assert (NX : x <> 0) by lra.
  assert (TQ := t_div t _ _ _ _ NX (t_sub t _ _ _ _ (t_cst t 2.0) (t_mul t _ _ _ _ (t_cst t 0.5) (t_add t _ _ _ _ TM (t_mul t _ _ _ _ (t_add t _ _ _ _ (t_cst t 1.0) (t_mul t _ _ _ _ (t_cst t 3.0) TW)) TDE)))) TX).
  assert (TR := t_div t _ _ _ _ NX (t_div t _ _ _ _ NX (t_mul t _ _ _ _ (t_cst t 1.5) TM) TX) TX).
  split; [ exact H2 | ]. exact (t_add t _ _ _ _ (t_mul t _ _ _ _ (t_neg t _ _ TQ) H2) (t_mul t _ _ _ _ TR H1)).
Qed.
Lemma m_ode n : (1 <= n)%nat -> let ts := logspace (-3) 0.0 n in
  let Y := odeint gpadd gpscl (gD_derivs N g) (cst N (el ts 0), cst N 1.0) ts in
  length Y = n /\ forall i, (i < n)%nat -> PR (fun s => nth i (ode_y (c s) (-3) n) (0, 0)) (nth i Y ((0, 0), (0, 0))).
Proof.
  intros Hn ts Y. assert (Lt : length ts = n) by apply length_logspace.
  destruct (odeint_rel PR (fun x => 0 < x) padd pscl gpadd gpscl (fun s => D_derivs (c s)) (gD_derivs N g) (fun _ => (el ts 0, 1.0)) (cst N (el ts 0), cst N 1.0) ts (0, 0) ((0, 0), (0, 0)))
    as (L1 & L2 & M).
  - intros f h x E [A B]. split; [ refine (t_ext t _ _ _ _ A) | refine (t_ext t _ _ _ _ B) ]; intros s; cbv beta; now rewrite E.
  - intros f x h y [A B] [A' B']. split; [ exact (t_add t _ _ _ _ A A') | exact (t_add t _ _ _ _ B B') ].
  - intros h f x [A B]. split; [ exact (t_mul t _ _ _ _ (t_cst t h) A) | exact (t_mul t _ _ _ _ (t_cst t h) B) ].
  - exact m_D_derivs.
  - intros x y Hx Hy. lra.
  - lia.
  - intros i Hi. unfold ts. rewrite logspace_el by lia. apply anode_pos.
  - split; [ apply (t_cst t (el ts 0)) | apply (t_cst t 1.0) ].
  - split; [ unfold Y; now rewrite L2 | ]. intros i Hi. specialize (M i ltac:(lia)).
    unfold ode_y, odeint2. replace (anode (-3) n 0, 1) with (el ts 0, 1.0); [ exact M | ]. f_equal; [ unfold ts; apply logspace_el; lia | lra ].
Qed.

Lemma lm_ext F G FD : (forall s, F s = G s) -> list_moves t F FD -> list_moves t G FD.
Proof. intros E [L M]. split; [ intros s; now rewrite <- E | ]. intros i Hi. refine (t_ext t _ _ _ _ (M i Hi)). intros s; cbv beta. now rewrite E. Qed.
Lemma ode_table_eq s n : (1 <= n)%nat -> let y := ode_y (c s) (-3) n in growth_table_ODE (c s) (-3) n =
  (logspace (-3) 0.0 n, map (fun v => v / lastR (map fst y)) (map fst y),
     vdiv (vmul (map (fun v => v / lastR (map fst y)) (map snd y)) (logspace (-3) 0.0 n)) (map (fun v => v / lastR (map fst y)) (map fst y))).
Proof. intros Hn y. unfold growth_table_ODE, y, ode_y. rewrite logspace_el by lia. replace (1.0) with 1 by lra. reflexivity. Qed.
Lemma m_growth_ODE n : (1 <= n)%nat -> (forall i, (i < n)%nat -> fst (nth i (ode_y (c t) (-3) n) (0, 0)) <> 0) ->
  length (snd (fst (ggrowth_ODE N g (-3) n))) = n /\ list_moves t (fun s => snd (fst (growth_table_ODE (c s) (-3) n))) (snd (fst (ggrowth_ODE N g (-3) n))) /\
  length (snd (ggrowth_ODE N g (-3) n)) = n /\ list_moves t (fun s => snd (growth_table_ODE (c s) (-3) n)) (snd (ggrowth_ODE N g (-3) n)).
Proof.
  intros Hn NZ. destruct (m_ode n Hn) as [LY MY]. unfold ggrowth_ODE. cbv zeta. cbn [fst snd].
  set (Y := odeint gpadd gpscl (gD_derivs N g) (cst N (el (logspace (-3) 0.0 n) 0), cst N 1.0) (logspace (-3) 0.0 n)) in *.
  assert (LO : forall s, length (ode_y (c s) (-3) n) = n) by (intros s; apply ode_y_spec; exact Hn).
  assert (M1 : list_moves t (fun s => map fst (ode_y (c s) (-3) n)) (map fst Y)).
  { split; [ intros s; now rewrite !map_length, LO | ]. rewrite map_length, LY. intros i Hi.
    rewrite (nth_map_lt fst Y i ((0, 0), (0, 0))) by lia. refine (t_ext t _ _ _ _ (proj1 (MY i Hi))).
    intros s. cbv beta. unfold el. now rewrite (nth_map_lt fst _ i (0, 0)) by (rewrite LO; lia). }
  assert (M2 : list_moves t (fun s => map snd (ode_y (c s) (-3) n)) (map snd Y)).
  { split; [ intros s; now rewrite !map_length, LO | ]. rewrite map_length, LY. intros i Hi.
    rewrite (nth_map_lt snd Y i ((0, 0), (0, 0))) by lia. refine (t_ext t _ _ _ _ (proj2 (MY i Hi))).
    intros s. cbv beta. unfold el. now rewrite (nth_map_lt snd _ i (0, 0)) by (rewrite LO; lia). }
  assert (TL := lm_last t _ _ M1 ltac:(rewrite map_length; lia)).
  assert (EL : forall s, lastR (map fst (ode_y (c s) (-3) n)) = fst (nth (n - 1) (ode_y (c s) (-3) n) (0, 0))).
  { intros s. rewrite lastR_el by (rewrite map_length, LO; lia). rewrite map_length, LO. unfold el. now rewrite (nth_map_lt fst _ _ (0, 0)) by (rewrite LO; lia). }
  assert (NL : lastR (map fst (ode_y (c t) (-3) n)) <> 0) by (rewrite EL; apply NZ; lia).
  assert (G1 := lm_map t (fun s v => v / lastR (map fst (ode_y (c s) (-3) n))) (fun v => ndiv N v (glast N (map fst Y))) _ _ M1 (fun i Hi Ti => t_div t _ _ _ _ NL Ti TL)).
  assert (G2 := lm_map t (fun s v => v / lastR (map fst (ode_y (c s) (-3) n))) (fun v => ndiv N v (glast N (map fst Y))) _ _ M2 (fun i Hi Ti => t_div t _ _ _ _ NL Ti TL)).
  assert (G3 := lm_map2 t Rmult (nmul N) _ _ _ _ G2 (lm_cst t (logspace (-3) 0.0 n)) ltac:(rewrite !map_length, length_logspace; exact LY) (fun i Hi Ti Tj => t_mul t _ _ _ _ Ti Tj)).
  split; [ now rewrite !map_length | ]. split.
  - refine (lm_ext _ _ _ _ G1). intros s. rewrite (ode_table_eq s n Hn). reflexivity.
  - split; [ rewrite !length_map2, !map_length, length_logspace, LY; lia | ].
    refine (lm_ext _ _ _ _ (lm_map2 t Rdiv (ndiv N) _ _ _ _ G3 G1 _ _)).
    + intros s. rewrite (ode_table_eq s n Hn). reflexivity.
    + rewrite length_map2, !map_length, length_logspace. lia.
    + intros i Hi Ti Tj. rewrite length_map2, !map_length, length_logspace, LY in Hi. apply t_div; [ | exact Ti | exact Tj ].
      unfold el. rewrite map_map, (nth_map_lt _ _ i (0, 0)) by (rewrite LO; lia).
      apply Rmult_integral_contrapositive_currified; [ apply NZ; lia | now apply Rinv_neq_0_compat ].
Qed.

Lemma m_rate_gamma a ad y yd : T a ad -> 0 < a t -> 0 < Omega_m (c t) -> (forall s, _gamma (c s) = Some (y s)) -> T y yd ->
  T (fun s => growth_rate_gamma1 (c s) (a s)) (grate_gamma N g yd ad).
Proof.
  intros Ha Pa Pm Hy Ty. assert (PE := HE _ Pa).
  refine (t_ext t (fun s => rpow (Omega_m_a (c s) (a s)) (y s)) _ _ _ (t_pow t _ _ _ _ _ (m_Omega_m_a c t g HM a ad Ha Pa PE) Ty)).
  - intros s. unfold growth_rate_gamma1, gamma_of. now rewrite Hy.
  - unfold Omega_m_a. apply Rdiv_lt_0_compat; [ apply Rmult_lt_0_compat; [ exact Pm | apply Rinv_0_lt_compat, pow_lt, Pa ] | exact PE ].
Qed.
Lemma m_growth_gamma n y yd : (1 <= n)%nat -> 0 < Omega_m (c t) -> (forall s, _gamma (c s) = Some (y s)) -> T y yd ->
  length (snd (ggrowth_gamma N g yd (-3) n)) = n /\ list_moves t (fun s => snd (growth_table_gamma (c s) (-3) n)) (snd (ggrowth_gamma N g yd (-3) n)).
Proof.
  intros Hn Pm Hy Ty. unfold ggrowth_gamma, growth_table_gamma. cbv zeta. cbn [snd]. set (ts := map ln (logspace (-3) 0.0 n)).
  assert (Lt : length ts = n) by (unfold ts; now rewrite map_length, length_logspace).
  destruct (odeint1_moves t (fun _ => True) (fun s _ x => growth_rate_gamma1 (c s) (exp x)) (fun _ x => grate_gamma N g yd (nexp N (cst N x))) (fun _ => ln (el (logspace (-3) 0.0 n) 0))
    (cst N (ln (el (logspace (-3) 0.0 n) 0))) ts) as [L M].
  - intros x f z _ _. assert (TX := t_exp t _ _ (t_cst t x)). exact (m_rate_gamma (fun _ => exp x) _ y yd TX (exp_pos x) Pm Hy Ty).
  - auto.
  - lia.
  - auto.
  - apply t_cst.
  - rewrite Lt in L. split; [ rewrite !map_length; exact L | ].
    assert (ME := lm_map t (fun _ => exp) (nexp N) _ _ M (fun i Hi Ti => t_exp t _ _ Ti)). cbv beta in ME.
    assert (TL := lm_last t _ _ ME ltac:(rewrite map_length, L; lia)).
    refine (lm_map t (fun s v => v / lastR (map exp (odeint1 (fun _ x => growth_rate_gamma1 (c s) (exp x)) (ln (el (logspace (-3) 0.0 n) 0)) ts))) _ _ _ ME _).
    intros i Hi Ti. refine (t_div t _ _ _ _ _ Ti TL). 
    assert (LM : length (odeint1 (fun _ x => growth_rate_gamma1 (c t) (exp x)) (ln (el (logspace (-3) 0.0 n) 0)) ts) = n) by (destruct M as [M1 _]; unfold odeint1; rewrite (M1 t); exact L).
    cbv beta. fold (odeint1 (fun _ x => growth_rate_gamma1 (c t) (exp x)) (ln (el (logspace (-3) 0.0 n) 0)) ts).
    rewrite lastR_el by (rewrite map_length, LM; lia). unfold el at 1. rewrite (nth_map_lt exp _ _ 0) by (rewrite map_length, LM; lia).
    apply Rgt_not_eq, exp_pos.
Qed.

(** what the growth parametrisation needs *)
Definition growth_ok (x : cosmology) : Prop := match _gamma x with Some _ => 0 < Omega_m x | None => physical x /\ moderate x end.
Lemma m_gtab : growth_ok (c t) ->
  exists gt, list_moves t (fun s => gtab_of (c s)) gt /\ length gt = 128%nat /\ forall ad, gD N g ad = gclip01 N (ginterp1 N ad (map (cst N) atab128) gt).
Proof.
  intros GO. pose proof (m_flag c t g HM) as FL. destruct HM as (_ & _ & _ & _ & _ & _ & _ & _ & _ & HG). unfold growth_ok in GO. unfold gD.
  destruct (ggamma g) as [yd | ] eqn:Eg.
  - destruct HG as (y & Hy & Ty). rewrite Hy in GO. destruct (m_growth_gamma 128 y yd ltac:(lia) GO Hy Ty) as [L M].
    exists (snd (ggrowth_gamma N g yd (-3) 128)). split; [ | split; [ exact L | ]].
    + refine (lm_ext _ _ _ _ M). intros s. unfold gtab_of. now rewrite FL, Hy.
    + intros ad. assert (E1 : fst (ggrowth_gamma N g yd (-3) 128) = map (cst N) atab128) by reflexivity.
      destruct (ggrowth_gamma N g yd (-3) 128) as [u v]. cbn [fst snd] in *. now subst u.
  - rewrite HG in GO. destruct GO as [HP HMo].
    pose proof (ode_positive (c t) (-3) 128 HP HMo ltac:(lra) ltac:(lia) default_step) as POS.
    destruct (m_growth_ODE 128 ltac:(lia)) as (L & M & _); [ intros i Hi; destruct (POS i Hi) as (P & _); lra | ].
    exists (snd (fst (ggrowth_ODE N g (-3) 128))). split; [ | split; [ exact L | ]].
    + refine (lm_ext _ _ _ _ M). intros s. unfold gtab_of. now rewrite FL, HG.
    + intros ad. assert (E1 : fst (fst (ggrowth_ODE N g (-3) 128)) = map (cst N) atab128) by reflexivity.
      destruct (ggrowth_ODE N g (-3) 128) as [[u v] w]. cbn [fst snd] in *. now subst u.
Qed.
Lemma m_D a ad : T a ad -> query_ok t a atab128 -> growth_ok (c t) -> 0 < D (c t) (a t) < 1 -> T (fun s => D (c s) (a s)) (gD N g ad).
Proof.
  intros Ha HQ GO HD. destruct (m_gtab GO) as (gt & M & L & E). rewrite E.
  assert (ED : forall s, D (c s) (a s) = D_of (c s) (a s)) by (intros s; apply D_value, inv_fresh; split; eapply m_fresh; exact HM).
  refine (t_ext t _ _ _ (fun s => eq_sym (ED s)) _). rewrite ED in HD. unfold D_of, clip in *. unfold gclip01.
  assert (TI := t_interp t a ad atab128 (fun s => gtab_of (c s)) gt ltac:(rewrite length_logspace; lia) atab128_incr ltac:(now rewrite L, length_logspace) HQ Ha M).
  set (v := fun s => interp1 (a s) atab128 (gtab_of (c s))) in *. change (0 < Rmin (Rmax (v t) 0.0) 1.0 < 1) in HD.
  assert (V1 : Rmax (v t) 0.0 < 1).
  { destruct (Rlt_dec (Rmax (v t) 0.0) 1) as [ | n]; [ assumption | ]. rewrite Rmin_right in HD by lra. lra. }
  assert (V0 : v t <> 0.0). { intros E0. rewrite E0, Rmax_left, Rmin_left in HD by lra. lra. }
  refine (t_min t (fun s => Rmax (v s) 0.0) (fun _ => 1.0) _ _ _ (t_max t v (fun _ => 0.0) _ _ V0 TI (t_cst t 0.0)) (t_cst t 1.0)). lra.
Qed.
Lemma m_f a ad : T a ad -> 0 < a t -> query_ok t a atab128 -> growth_ok (c t) -> T (fun s => f_growth (c s) (a s)) (gf N g ad).
Proof.
  intros Ha Pa HQ GO. pose proof (m_flag c t g HM) as FL. pose proof (m_fresh c t g HM) as FR.
  destruct HM as (_ & _ & _ & _ & _ & _ & _ & _ & _ & HG). unfold growth_ok in GO. unfold gf.
  assert (EV : forall s, f_growth (c s) (a s) = if _gamma_growth (c s) then growth_rate_gamma1 (c s) (a s) else interp1 (a s) atab128 (snd (growth_table_ODE (c s) (-3) 128)))
    by (intros s; apply rate_value, inv_fresh; split; apply FR).
  refine (t_ext t _ _ _ (fun s => eq_sym (EV s)) _).
  destruct (ggamma g) as [yd | ] eqn:Eg.
  - destruct HG as (y & Hy & Ty). rewrite Hy in GO. refine (t_ext t _ _ _ _ (m_rate_gamma a ad y yd Ha Pa GO Hy Ty)). intros s. now rewrite FL, Hy.
  - rewrite HG in GO. destruct GO as [HP HMo].
    pose proof (ode_positive (c t) (-3) 128 HP HMo ltac:(lra) ltac:(lia) default_step) as POS.
    destruct (m_growth_ODE 128 ltac:(lia)) as (_ & _ & L & M); [ intros i Hi; destruct (POS i Hi) as (P & _); lra | ].
    assert (E1 : fst (fst (ggrowth_ODE N g (-3) 128)) = map (cst N) atab128) by reflexivity.
    destruct (ggrowth_ODE N g (-3) 128) as [[u v] z]. cbn [fst snd] in *. subst u.
    refine (t_ext t _ _ _ _ (t_interp t a ad atab128 _ _ _ atab128_incr _ HQ Ha M)); [ | rewrite length_logspace; lia | now rewrite L, length_logspace ].
    intros s. now rewrite FL, HG.
Qed.
End Growth.
