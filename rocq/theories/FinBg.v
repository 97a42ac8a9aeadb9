(** * The background functions over numbers with infinities and NaN *)
From Coquelicot Require Import Coquelicot.
From Verif Require Import Np NpLemmas Core Ode OdeSpec OdeProofs Interp InterpProofs Integrate Background BgSpec BgAlgebra BgTables
  BgGrowth BgPositive BgProofs BgFinal BgFinal2 BgGrad GradSpec Ad AdSpec AdProofs AdBg FinRules.

Section Floats.
Context {Nm : Type} {N : num Nm} {FLN : follows N}.
(** a curve of newly built cosmologies, and the Nm numbers of its parameters at t *)
Definition fin_moves (c : R -> cosmology) (t : R) (g : gcosmo Nm) : Prop :=
  (forall s, fresh (c s) /\ _gamma_growth (c s) = match _gamma (c s) with Some _ => true | None => false end) /\
  fin_of (fun s => _Omega_c (c s)) t (gOmega_c g) /\ fin_of (fun s => _Omega_b (c s)) t (gOmega_b g) /\
  fin_of (fun s => _h (c s)) t (gh g) /\ fin_of (fun s => _n_s (c s)) t (gn_s g) /\
  fin_of (fun s => _sigma8 (c s)) t (gsigma8 g) /\ fin_of (fun s => _Omega_k (c s)) t (gOmega_k g) /\
  fin_of (fun s => _w0 (c s)) t (gw0 g) /\ fin_of (fun s => _wa (c s)) t (gwa g) /\
  match ggamma g with
  | Some v => exists y, (forall s, _gamma (c s) = Some (y s)) /\ fin_of y t v
  | None => forall s, _gamma (c s) = None
  end.

Section Lists.
Variable t : R.
Local Notation T f d := (fin_of f t d).
Local Notation z0 := (cst N 0).

(** a list of curves and a list of Nm numbers *)
Definition flist_moves (F : R -> list R) (FD : list Nm) : Prop :=
  (forall s, length (F s) = length FD) /\ forall i, (i < length FD)%nat -> T (fun s => el (F s) i) (nth i FD z0).

Lemma flm_map (op : R -> R -> R) (opd : Nm -> Nm) F FD : flist_moves F FD ->
  (forall i, (i < length FD)%nat -> T (fun s => el (F s) i) (nth i FD z0) -> T (fun s => op s (el (F s) i)) (opd (nth i FD z0))) ->
  flist_moves (fun s => map (op s) (F s)) (map opd FD).
Proof.
  intros [L M] HO. split; [ intros s; now rewrite !map_length | ]. intros i Hi. rewrite map_length in Hi.
  rewrite (nth_map_lt opd FD i z0) by exact Hi. apply (ft_ext t (fun s => op s (el (F s) i))); [ | now apply HO, M ].
  intros s. unfold el. now rewrite (nth_map_lt (op s) (F s) i 0) by (rewrite L; exact Hi).
Qed.
Lemma flm_map2 (op : R -> R -> R) (opd : Nm -> Nm -> Nm) F FD G GD : flist_moves F FD -> flist_moves G GD -> length FD = length GD ->
  (forall i, (i < length FD)%nat -> T (fun s => el (F s) i) (nth i FD z0) -> T (fun s => el (G s) i) (nth i GD z0) ->
     T (fun s => op (el (F s) i) (el (G s) i)) (opd (nth i FD z0) (nth i GD z0))) ->
  flist_moves (fun s => map2 op (F s) (G s)) (map2 opd FD GD).
Proof.
  intros [L M] [L' M'] E HO. split; [ intros s; rewrite !length_map2, L, L'; lia | ]. intros i Hi. rewrite length_map2 in Hi.
  rewrite (nth_map2 opd FD GD i z0 z0) by lia.
  apply (ft_ext t (fun s => op (el (F s) i) (el (G s) i))); [ | apply HO; [ lia | apply M; lia | apply M'; lia ]].
  intros s. unfold el. rewrite (nth_map2 op (F s) (G s) i 0 0) by (rewrite ?L, ?L'; lia). reflexivity.
Qed.
Lemma flm_cst xs : flist_moves (fun _ => xs) (map (cst N) xs).
Proof.
  split; [ intros s; now rewrite map_length | ]. intros i Hi. rewrite map_length in Hi.
  rewrite (nth_map_lt (cst N) xs i 0) by exact Hi. apply ft_cst.
Qed.
Lemma glast_el (v : list Nm) : (1 <= length v)%nat -> glast N v = nth (length v - 1) v z0.
Proof.
  intros H. unfold glast, getZ, clipZ. change (-1 <? 0)%Z with true. cbv iota zeta.
  replace (Z.to_nat (Z.min (Z.max (-1 + Z.of_nat (length v)) 0) (Z.of_nat (length v) - 1))) with (length v - 1)%nat by lia.
  apply nth_indep. lia.
Qed.
Lemma flm_last F FD : flist_moves F FD -> (1 <= length FD)%nat -> T (fun s => lastR (F s)) (glast N FD).
Proof.
  intros [L M] H. rewrite glast_el by exact H. apply (ft_ext t (fun s => el (F s) (length FD - 1))); [ | apply M; lia ].
  intros s. rewrite lastR_el by (rewrite L; exact H). now rewrite L.
Qed.

(** float states *)
Lemma odeint1_moves (P : R -> Prop) (fn : R -> R -> R -> R) (fnd : Nm -> R -> Nm) y0 y0d ts :
  (forall x f y, P x -> T f y -> T (fun s => fn s (f s) x) (fnd y x)) -> (forall x y, P x -> P y -> P (x + (y - x) / 2)) ->
  (1 <= length ts)%nat -> (forall i, (i < length ts)%nat -> P (el ts i)) -> T y0 y0d ->
  length (odeint (nadd N) (fun h y => nmul N (cst N h) y) fnd y0d ts) = length ts /\
  flist_moves (fun s => odeint Rplus Rmult (fn s) (y0 s) ts) (odeint (nadd N) (fun h y => nmul N (cst N h) y) fnd y0d ts).
Proof.
  intros H4 H5 HL HP HY.
  destruct (odeint_rel (fun f x => T f x) P Rplus Rmult (nadd N) (fun h y => nmul N (cst N h) y) fn fnd y0 y0d ts 0 z0) as (L1 & L2 & M); auto.
  - intros f g x E. apply ft_ext, E.
  - intros f x g y. apply ft_add.
  - intros h f x Hf. apply ft_mul; [ apply ft_cst | exact Hf ].
  - split; [ exact L2 | ]. split; [ intros s; rewrite L1, L2; reflexivity | ]. rewrite L2. exact M.
Qed.

Lemma ft_gt f x b : T f x -> b < f t -> locally t (fun s => b < f s).
Proof. intros Hf Hb. exact (ft_continuous t f x Hf (fun y => b < y) (open_gt b _ Hb)). Qed.
Lemma ft_lt f x b : T f x -> f t < b -> locally t (fun s => f s < b).
Proof. intros Hf Hb. exact (ft_continuous t f x Hf (fun y => y < b) (open_lt b _ Hb)). Qed.

Lemma ft_interp x X xp F FD : (3 <= length xp)%nat -> incr xp -> length FD = length xp -> query_ok t x xp -> T x X -> flist_moves F FD ->
  T (fun s => interp1 (x s) xp (F s)) (ginterp1 N X (map (cst N) xp) FD).
Proof.
  intros Hn Hi Hl HQ HX [L M]. destruct (two_nodes (x t) xp Hn Hi) as (i & j & k & Li & Lj & Hk & Hij & Hlo & Hhi & HN).
  assert (NE : el xp j - el xp i <> 0).
  { assert (el xp k < el xp (k + 1)) by (apply Hi; lia). destruct Hij as [[-> ->] | [-> ->]]; lra. }
  rewrite (HN Nm N ft_vcst X FD (ft_vval t _ _ HX) Hl). cbv zeta.
  set (Ls := fun s => let a := (el (F s) j - el (F s) i) / (el xp j - el xp i) in a * x s + (el (F s) i - a * el xp i)).
  assert (TL : T Ls (let a := ndiv N (nsub N (nth j FD (cst N 0)) (nth i FD (cst N 0))) (nsub N (cst N (el xp j)) (cst N (el xp i))) in
       nadd N (nmul N a X) (nsub N (nth i FD (cst N 0)) (nmul N a (cst N (el xp i)))))).
  { assert (Mi := M i ltac:(lia)). assert (Mj := M j ltac:(lia)). unfold Ls. cbv zeta. 
    assert (TA := ft_div t _ _ _ _ NE (ft_sub t _ _ _ _ Mj Mi) (ft_sub t _ _ _ _ (ft_cst t (el xp j)) (ft_cst t (el xp i)))).
    exact (ft_add t _ _ _ _ (ft_mul t _ _ _ _ TA HX) (ft_sub t _ _ _ _ Mi (ft_mul t _ _ _ _ TA (ft_cst t (el xp i))))). }
  refine (ft_loc t Ls _ _ _ TL).
  assert (LF : forall s, length (F s) = length xp) by (intros s; now rewrite L).
  destruct HQ as [HC | HC].
  - apply filter_forall. intros s. rewrite HC. unfold Ls. rewrite HC.
    pose proof (HN R num_R (fun x => eq_refl) (x t) (F s) eq_refl (LF s)) as E. rewrite R_interp in E.
    replace (map (cst num_R) xp) with xp in E by (symmetry; apply map_id). symmetry. exact E.
  - assert (CE : forall s, cell xp (F s) k (x s) = Ls s).
    { intros s. unfold cell, line, Ls. destruct Hij as [[-> ->] | [-> ->]]; field; lra. }
    assert (LO : locally t (fun s => el xp k <= x s \/ k = 1%nat)).
    { destruct (Nat.eq_dec k 1) as [K | K]; [ apply filter_forall; auto | ]. destruct Hlo as [Hlo | E]; [ | lia ].
      apply (filter_imp (fun s => el xp k < x s)); [ intros s Hs; left; lra | ]. apply (ft_gt x X); [ exact HX | ].
      pose proof (HC k ltac:(lia)). lra. }
    assert (HI : locally t (fun s => x s <= el xp (k + 1) \/ k = (length xp - 2)%nat)).
    { destruct (Nat.eq_dec k (length xp - 2)) as [K | K]; [ apply filter_forall; auto | ]. destruct Hhi as [Hhi | E]; [ | lia ].
      apply (filter_imp (fun s => x s < el xp (k + 1))); [ intros s Hs; left; lra | ]. apply (ft_lt x X); [ exact HX | ].
      pose proof (HC (k + 1)%nat ltac:(lia)). lra. }
    apply (filter_imp (fun s => (el xp k <= x s \/ k = 1%nat) /\ (x s <= el xp (k + 1) \/ k = (length xp - 2)%nat))); [ | now apply filter_and ].
    intros s [A B]. rewrite <- CE. symmetry.
    destruct (Rle_dec (el xp k) (x s)) as [Q1 | Q1].
    + destruct (Rle_dec (x s) (el xp (k + 1))) as [Q2 | Q2]; [ apply interp1_incr; auto; lia | ].
      destruct B as [B | ->]; [ lra | ]. apply interp1_above; auto.
    + destruct A as [A | ->]; [ lra | ]. apply interp1_below; auto. lra.
Qed.
End Lists.

Section Moves.
Variables (c : R -> cosmology) (t : R) (g : gcosmo Nm).
Hypothesis HM : fin_moves c t g.
Local Notation T f d := (fin_of f t d).

Lemma fm_Omega_m : T (fun s => Omega_m (c s)) (gOmega_m N g).
Proof. destruct HM as (_ & Hc & Hb & _). exact (ft_add t _ _ _ _ Hb Hc). Qed.
Lemma fm_Omega_k : T (fun s => Omega_k (c s)) (gOmega_k g).
Proof. destruct HM as (_ & _ & _ & _ & _ & _ & Hk & _). exact Hk. Qed.
Lemma fm_Omega_de : T (fun s => Omega_de (c s)) (gOmega_de N g).
Proof. exact (ft_sub t _ _ _ _ (ft_sub t _ _ _ _ (ft_cst t 1.0) fm_Omega_k) fm_Omega_m). Qed.
Lemma fm_w0 : T (fun s => _w0 (c s)) (gw0 g). Proof. now destruct HM as (_ & _ & _ & _ & _ & _ & _ & W & _). Qed.
Lemma fm_wa : T (fun s => _wa (c s)) (gwa g). Proof. now destruct HM as (_ & _ & _ & _ & _ & _ & _ & _ & W & _). Qed.
Lemma fm_h : T (fun s => _h (c s)) (gh g). Proof. now destruct HM as (_ & _ & _ & W & _). Qed.
Lemma fm_n_s : T (fun s => _n_s (c s)) (gn_s g). Proof. now destruct HM as (_ & _ & _ & _ & W & _). Qed.
Lemma fm_sigma8 : T (fun s => _sigma8 (c s)) (gsigma8 g). Proof. now destruct HM as (_ & _ & _ & _ & _ & W & _). Qed.
Lemma fm_Omega_b : T (fun s => _Omega_b (c s)) (gOmega_b g). Proof. now destruct HM as (_ & _ & W & _). Qed.
Lemma fm_Omega_c : T (fun s => _Omega_c (c s)) (gOmega_c g). Proof. now destruct HM as (_ & W & _). Qed.
Lemma fm_fresh s : ws_chi (c s) = None /\ ws_growth (c s) = None. Proof. now destruct HM as (W & _); apply W. Qed.
Lemma fm_flag s : _gamma_growth (c s) = match _gamma (c s) with Some _ => true | None => false end. Proof. now destruct HM as (W & _); apply W. Qed.

Section At.
Variables (a : R -> R) (ad : Nm).
Hypothesis Ha : T a ad.
Hypothesis Pa : 0 < a t.
Lemma fm_w : T (fun s => w (c s) (a s)) (gw N g ad).
Proof. exact (ft_add t _ _ _ _ fm_w0 (ft_mul t _ _ _ _ (ft_sub t _ _ _ _ (ft_cst t 1.0) Ha) fm_wa)). Qed.
Lemma fm_f_de : T (fun s => f_de (c s) (a s)) (gf_de N g ad).
Proof.
  exact (ft_add t _ _ _ _ (ft_mul t _ _ _ _ (ft_mul t _ _ _ _ (ft_cst t (-3.0)) (ft_add t _ _ _ _ (ft_add t _ _ _ _ (ft_cst t 1.0) fm_w0) fm_wa)) (ft_ln t _ _ Pa Ha))
    (ft_mul t _ _ _ _ (ft_mul t _ _ _ _ (ft_cst t 3.0) fm_wa) (ft_sub t _ _ _ _ Ha (ft_cst t 1.0)))).
Qed.
Lemma fm_Esqr : T (fun s => Esqr (c s) (a s)) (gEsqr N g ad).
Proof.
  assert (NZ : forall z, a t <> 0 \/ (0 < z)%Z) by (intros; left; lra).
  exact (ft_add t _ _ _ _ (ft_add t _ _ _ _ (ft_mul t _ _ _ _ fm_Omega_m (ft_ipow t (-3) _ _ (NZ (-3)%Z) Ha)) (ft_mul t _ _ _ _ fm_Omega_k (ft_ipow t (-2) _ _ (NZ (-2)%Z) Ha)))
    (ft_mul t _ _ _ _ fm_Omega_de (ft_exp t _ _ fm_f_de))).
Qed.
Hypothesis PE : 0 < Esqr (c t) (a t).
Lemma fm_H : T (fun s => H (c s) (a s)) (gH N g ad).
Proof. exact (ft_mul t _ _ _ _ (ft_cst t const_H0) (ft_sqrt t _ _ PE fm_Esqr)). Qed.
Lemma fm_Omega_m_a : T (fun s => Omega_m_a (c s) (a s)) (gOmega_m_a N g ad).
Proof.
  refine (ft_div t _ _ _ _ _ (ft_mul t _ _ _ _ fm_Omega_m (ft_ipow t (-3) _ _ _ Ha)) fm_Esqr); [ lra | left; lra ].
Qed.
Lemma fm_Omega_de_a : T (fun s => Omega_de_a (c s) (a s)) (gOmega_de_a N g ad).
Proof. refine (ft_div t _ _ _ _ _ (ft_mul t _ _ _ _ fm_Omega_de (ft_exp t _ _ fm_f_de)) fm_Esqr). lra. Qed.
Lemma fm_dchioverda : T (fun s => dchioverda (c s) (a s)) (gdchioverda N g ad).
Proof.
  refine (ft_div t _ _ _ _ _ (ft_cst t const_rh) (ft_mul t _ _ _ _ (ft_ipow t 2 _ _ _ Ha) (ft_sqrt t _ _ PE fm_Esqr))); [ | left; lra ].
  apply Rmult_integral_contrapositive_currified; [ apply pow_nonzero; lra | apply Rgt_not_eq, sqrt_lt_R0, PE ].
Qed.
End At.

Hypothesis HE : expanding (c t).
Lemma fm_chi_table la n : (1 <= n)%nat -> length (snd (gchi_table N g la n)) = n /\ flist_moves t (fun s => snd (chi_table (c s) la n)) (snd (gchi_table N g la n)).
Proof.
  intros Hn. unfold gchi_table, chi_table. cbv zeta. cbn [snd]. set (ts := map ln (logspace la 0.0 n)).
  assert (Lt : length ts = n) by (unfold ts; now rewrite map_length, length_logspace).
  destruct (odeint1_moves t (fun _ => True) (fun s => dchioverdlna (c s)) (fun y x => let xa := nexp N (cst N x) in nmul N (gdchioverda N g xa) xa) (fun _ => 0.0) (cst N 0.0) ts) as [L M].
  - intros x f y _ _. assert (TX := ft_exp t _ _ (ft_cst t x)). cbv zeta. refine (ft_mul t _ _ _ _ (fm_dchioverda (fun _ => exp x) _ TX _ _) TX); [ apply exp_pos | apply HE, exp_pos ].
  - auto.
  - lia.
  - auto.
  - apply ft_cst.
  - rewrite Lt in L. split; [ rewrite map_length; exact L | ].
    assert (TL := flm_last t _ _ M ltac:(rewrite L; lia)).
    apply (flm_map t (fun s x => lastR (odeint1 (dchioverdlna (c s)) 0.0 ts) - x)); [ exact M | ].
    intros i Hi Ti. exact (ft_sub t _ _ _ _ TL Ti).
Qed.

Lemma gchi_table_fst la n : fst (gchi_table N g la n) = map (cst N) (logspace la 0.0 n). Proof. reflexivity. Qed.

Section Query.
Variables (a : R -> R) (ad : Nm).
Hypothesis Ha : T a ad.
Lemma fm_chi_raw : query_ok t a (logspace (-3) 0.0 256) ->
  T (fun s => interp1 (a s) (logspace (-3) 0.0 256) (snd (chi_table (c s) (-3) 256))) (ginterp1 N ad (fst (gchi_table N g (-3) 256)) (snd (gchi_table N g (-3) 256))).
Proof.
  intros HQ. destruct (fm_chi_table (-3) 256 ltac:(lia)) as [L M]. rewrite gchi_table_fst.
  apply ft_interp; [ rewrite length_logspace; lia | apply logspace_incr; [ lra | lia ] | now rewrite L, length_logspace | exact HQ | exact Ha | exact M ].
Qed.
Lemma chi_raw s : chi (c s) (a s) = Rmax (interp1 (a s) (logspace (-3) 0.0 256) (snd (chi_table (c s) (-3) 256))) 0.0.
Proof.
  rewrite (chi_value (c s)) by (apply inv_fresh; split; apply fm_fresh). unfold chi_of, clip_lo. now rewrite chi_table_fst.
Qed.
Lemma gchi_raw : gchi N g ad = nmax N (ginterp1 N ad (fst (gchi_table N g (-3) 256)) (snd (gchi_table N g (-3) 256))) (cst N 0.0).
Proof. unfold gchi. destruct (gchi_table N g (-3) 256). reflexivity. Qed.
Lemma fm_chi : query_ok t a (logspace (-3) 0.0 256) -> 0 < chi (c t) (a t) -> T (fun s => chi (c s) (a s)) (gchi N g ad).
Proof.
  intros HQ Hp. assert (TR := fm_chi_raw HQ). rewrite gchi_raw. rewrite chi_raw in Hp.
  apply (ft_ext t (fun s => Rmax (interp1 (a s) (logspace (-3) 0.0 256) (snd (chi_table (c s) (-3) 256))) 0.0)); [ intros s; symmetry; apply chi_raw | ].
  apply (ft_max t _ (fun _ => 0.0)); [ | exact TR | apply ft_cst ]. intros E. rewrite E in Hp. rewrite Rmax_left in Hp by lra. lra.
Qed.
(** the branches of lax.switch *)
Lemma fm_f_k : query_ok t a (logspace (-3) 0.0 256) -> 0 < chi (c t) (a t) -> _Omega_k (c t) <> 0 \/ (forall s, _Omega_k (c s) = 0) -> T (fun s => f_k (c s) (a s)) (gf_k N g ad).
Proof.
  intros HQ Hp HK. assert (TX := fm_chi HQ Hp). assert (TK := fm_Omega_k). unfold gf_k, gcurv. cbv zeta.
  assert (EF : forall s, f_k (c s) (a s) = f_k_branch (c s) (chi (c s) (a s))) by (intros s; apply trans_value, inv_fresh; split; apply fm_fresh).
  rewrite (ft_vval t _ _ TK). cbv beta. unfold Omega_k.
  assert (Rh : const_rh <> 0) by (unfold const_rh; lra).
  apply (ft_ext t (fun s => f_k_branch (c s) (chi (c s) (a s)))); [ intros s; symmetry; apply EF | ].
  destruct HK as [HK | HK].
  - assert (TS : T (fun s => sqrtk (c s)) (gsqrtk N g)) by (refine (ft_sqrt t _ _ _ (ft_abs t _ _ HK TK)); now apply Rabs_pos_lt).
    assert (NS : sqrtk (c t) <> 0) by (apply Rgt_not_eq, sqrt_lt_R0, Rabs_pos_lt, HK).
    assert (TA := ft_div t _ _ _ _ Rh (ft_mul t _ _ _ _ TS TX) (ft_cst t const_rh)).
    assert (TR := ft_div t _ _ _ _ NS (ft_cst t const_rh) TS).
    unfold f_k_branch, curv. cbv zeta. destruct (Rlt_dec (_Omega_k (c t)) 0) as [L | L].
    + unfold isign at 2. destruct (Rlt_dec (_Omega_k (c t)) 0); [ | lra ].
      change (clipZ (- -1 + 1) 0 2) with 2%Z. cbv iota.
      refine (ft_loc t _ _ _ _ (ft_mul t _ _ _ _ TR (ft_sin t _ _ TA))).
      apply (filter_imp (fun s => _Omega_k (c s) < 0)); [ | exact (ft_lt t _ _ 0 TK L) ].
      intros s Hs. unfold isign. destruct (Rlt_dec (_Omega_k (c s)) 0); [ reflexivity | lra ].
    + assert (L' : 0 < _Omega_k (c t)) by lra. unfold isign at 2. destruct (Rlt_dec (_Omega_k (c t)) 0); [ lra | ]. destruct (Rlt_dec 0 (_Omega_k (c t))); [ | lra ].
      change (clipZ (- (1) + 1) 0 2) with 0%Z. cbv iota.
      refine (ft_loc t _ _ _ _ (ft_mul t _ _ _ _ TR (ft_sinh t _ _ TA))).
      apply (filter_imp (fun s => 0 < _Omega_k (c s))); [ | exact (ft_gt t _ _ 0 TK L') ].
      intros s Hs. unfold isign. destruct (Rlt_dec (_Omega_k (c s)) 0); [ lra | ]. destruct (Rlt_dec 0 (_Omega_k (c s))); [ reflexivity | lra ].
  - rewrite HK. assert (E0 : isign 0 = 0%Z) by (unfold isign; destruct (Rlt_dec 0 0); [ lra | reflexivity ]). rewrite E0.
    change (clipZ (- 0 + 1) 0 2) with 1%Z. cbv iota. refine (ft_ext t _ _ _ _ TX).
    intros s. unfold f_k_branch, curv. rewrite HK, E0. reflexivity.
Qed.
End Query.
End Moves.
End Floats.
