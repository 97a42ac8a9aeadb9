(** * Halofit over numbers with infinities and NaN *)
From Coq Require Import Reals Lra Lia List ZArith String.
From Coquelicot Require Import Coquelicot.
From Verif Require Import FinRules FinBg FinGrowth FinTransfer.
From Verif Require Import Np NpLemmas Core Ode OdeSpec OdeProofs Interp InterpProofs InterpCont Integrate IntegrateSpec SimpsProofs RombProofs Background BgSpec
  BgAlgebra BgTables BgGrowth BgPositive BgProofs BgFinal BgFinal2 BgFinal4 BgGrad Transfer TransferProofs Power PowerProofs PowerFinal RedshiftShape
  DependsSpec BgDepends AmpScale PowerArrProofs HalofitScaleSpec HalofitScale HalofitScale2 GradSpec Probes AngularCl
  Ad AdSpec AdProofs AdBg AdGrowth AdFinal AdPower AdPowerProofs AdTransfer AdPowerFinal AdProbes AdRel AdProbesProofs AdArrSpec AdProbesFinal AdHalofit AdHalofitSpec AdHalofitProofs AdHalofitFinal FinPower.
Import ListNotations.
Local Open Scope R_scope.
Opaque chi_table growth_table_ODE growth_table_gamma logspace.

Section Floats.
Context {Nm : Type} {N : num Nm} {FLN : follows N}.
(** ** growth at the tabulated epochs *)
Section Growth.
Variables (C : R -> cosmology) (g : gcosmo Nm).
Local Notation c := (C 0).
Hypotheses (M : fin_moves C 0 g) (B : forall s, built (C s)) (HE : expanding c) (NG : _gamma c = None) (HP : physical c) (HMo : moderate c).
Lemma fgrowing : growing c. Proof. unfold growing. rewrite NG. now split. Qed.
Lemma fleaf_D a : table_node 128 1 <= a <= 1 -> fin_of (fun s => D (C s) a) 0 (gD N g (cst N a)).
Proof.
  intros [H1 [H2 | ->]]; [ apply (fleaf_D_inside C g M HE fgrowing), growth_interior; auto | apply (fleaf_D_today C g M B HE fgrowing) ].
Qed.
Lemma fleaf_D0 a : table_node 128 1 <= a <= 1 -> D c a <> 0.
Proof.
  intros [H1 [H2 | ->]]; [ apply Rgt_not_eq, growth_interior; auto | ].
  assert (E : D c 1 = 1) by (apply growth_normalised; [ apply fresh_reachable, built_fresh, B | apply growing_nonzero; [ apply B | exact fgrowing ] ]). lra.
Qed.
End Growth.

(** ** interpolation on a moving decreasing table *)
Section MovingTable.
Variable t : R.
Lemma ft_apart f x h y : fin_of f t x -> fin_of h t y -> f t < h t -> locally t (fun s => f s < h s).
Proof.
  intros Hf Hh L. apply (filter_imp (fun s => 0 < h s - f s)); [ intros; lra | ]. apply (ft_gt t (fun s => h s - f s) (nsub N y x)); [ now apply ft_sub | lra ].
Qed.
Lemma ft_interp_decr q Q F FD fp : fin_of q t Q -> flist_moves t F FD -> length fp = length FD -> (3 <= length FD)%nat -> decr (F t) ->
  (exists i, (i < length FD)%nat /\ forall j, (j < length FD)%nat -> j <> i -> Rabs (q t - el (F t) i) < Rabs (q t - el (F t) j)) ->
  fin_of (fun s => interp1 (q s) (F s) fp) t (ginterp1 N Q FD (map (cst N) fp)).
Proof.
  intros HQ [L M] Hl Hn Hd (i & Hi & HU). set (n := length FD) in *.
  assert (EF : map (val N) FD = F t).
  { apply (nth_ext _ _ 0 0); rewrite map_length; fold n; [ now rewrite L | ]. intros k Hk. rewrite (nth_map_lt (val N) FD k (cst N 0)) by exact Hk. exact (ft_vval t _ _ (M k Hk)). }
  assert (NU : nearest (q t) (F t) = i) by (apply nearest_unique; rewrite L; fold n; assumption).
  pose proof (pair_decr N Q FD (map (cst N) fp) (F t) i EF (ft_vcst 0) ltac:(rewrite L; exact Hn) ltac:(rewrite map_length, L; exact Hl) Hd ltac:(now rewrite (ft_vval t _ _ HQ))) as E.
  cbv zeta in E. rewrite L in E. fold n in E. set (r := Nat.min (Nat.max i 1) (n - 2)) in *. set (j := if Nat.ltb r (n - 2) then (r - 1)%nat else (r + 1)%nat) in *. rewrite E. clear E.
  assert (Hr : (1 <= r <= n - 2)%nat) by (unfold r; lia). assert (Hj : (j < n)%nat /\ j <> r) by (unfold j; destruct (Nat.ltb r (n - 2)); lia).
  assert (NE : el (F t) j - el (F t) r <> 0).
  { destruct Hj as [Hj Hjr]. assert (j < r \/ r < j)%nat as [K | K] by lia; [ assert (el (F t) r < el (F t) j) | assert (el (F t) j < el (F t) r) ]; try lra; apply Hd; rewrite L; fold n; lia. }
  set (Ls := fun s => let a := (el fp j - el fp r) / (el (F s) j - el (F s) r) in a * q s + (el fp r - a * el (F s) r)).
  refine (ft_loc t Ls _ _ _ _).
  - (* nearby tables decrease and have the same nearest node *)
    assert (D1 : locally t (fun s => forall k, (k < n)%nat -> forall m, (m < n)%nat -> (k < m)%nat -> el (F s) m < el (F s) k)).
    { apply (locally_list t n (fun k s => forall m, (m < n)%nat -> (k < m)%nat -> el (F s) m < el (F s) k)). intros k Hk.
      apply (locally_list t n (fun m s => (k < m)%nat -> el (F s) m < el (F s) k)). intros m Hm.
      destruct (lt_dec k m) as [K | K]; [ | apply filter_forall; intros; lia ].
      apply (filter_imp (fun s => el (F s) m < el (F s) k)); [ auto | ]. apply (ft_apart _ _ _ _ (M m Hm) (M k Hk)). apply Hd. rewrite L. fold n. lia. }
    assert (D2 : locally t (fun s => forall m, (m < n)%nat -> m <> i -> Rabs (q s - el (F s) i) < Rabs (q s - el (F s) m))).
    { apply (locally_list t n (fun m s => m <> i -> Rabs (q s - el (F s) i) < Rabs (q s - el (F s) m))). intros m Hm.
      destruct (Nat.eq_dec m i) as [K | K]; [ apply filter_forall; intros; lia | ].
      apply (filter_imp (fun s => (q s - el (F s) i) ^ 2 < (q s - el (F s) m) ^ 2)).
      - intros s Hs _. apply Rsqr_lt_abs_0. now rewrite !Rsqr_pow2.
      - apply (ft_apart _ _ _ _ (ft_sq t _ _ (ft_sub t _ _ _ _ HQ (M i Hi))) (ft_sq t _ _ (ft_sub t _ _ _ _ HQ (M m Hm)))).
        specialize (HU m Hm K). apply Rsqr_lt_abs_1 in HU. rewrite !Rsqr_pow2 in HU. exact HU. }
    apply (filter_imp (fun s => (forall k, (k < n)%nat -> forall m, (m < n)%nat -> (k < m)%nat -> el (F s) m < el (F s) k) /\
      (forall m, (m < n)%nat -> m <> i -> Rabs (q s - el (F s) i) < Rabs (q s - el (F s) m)))); [ | now apply filter_and ].
    intros s [A1 A2]. assert (Ds : decr (F s)) by (intros k m Hkm; rewrite L in Hkm; fold n in Hkm; apply A1; lia).
    assert (Ns : nearest (q s) (F s) = i) by (apply nearest_unique; rewrite L; fold n; assumption).
    pose proof (pair_decr num_R (q s) (F s) fp (F s) i (map_id _) eq_refl ltac:(rewrite L; exact Hn) ltac:(rewrite L; exact Hl) Ds Ns) as E.
    rewrite R_interp in E. rewrite E. cbv zeta. rewrite L. fold n. fold r. fold j. reflexivity.
  - assert (Mr := M r ltac:(lia)). assert (Mj := M j ltac:(lia)). unfold Ls. cbv zeta. 
    rewrite !(nth_map_lt (cst N) fp _ 0 (cst N 0)) by lia.
    assert (TA := ft_div t _ _ _ _ NE (ft_sub t _ _ _ _ (ft_cst t (el fp j)) (ft_cst t (el fp r))) (ft_sub t _ _ _ _ Mj Mr)).
    exact (ft_add t _ _ _ _ (ft_mul t _ _ _ _ TA HQ) (ft_sub t _ _ _ _ (ft_cst t (el fp r)) (ft_mul t _ _ _ _ TA Mr))).
Qed.
End MovingTable.
(** ** derivatives *)
Lemma ft_simps f gf a b n : (forall x, fin_of (fun s => f s x) 0 (gf x)) -> fin_of (fun s => simps_value (f s) a b n) 0 (gsimps_value N gf a b n).
Proof.
  intros HF. assert (HR := f_simps N (fun f x => fin_of f 0 x) (fin_respects 0) (ft_cst 0) (ft_add 0) (ft_mul 0) f gf a b n (fun x _ => HF x)).
  destruct (rr_cases _ _ _ HR) as [(x & y & E1 & E2 & L) | (e & E1 & E2)]; unfold gsimps_value; rewrite E1.
  - apply (ft_ext 0 x); [ intros s; unfold simps_value; now rewrite E2 | exact L ].
  - apply (ft_ext 0 (fun _ => 0)); [ intros s; unfold simps_value; now rewrite E2 | apply ft_cst ].
Qed.

(** apply the rule of the outermost operation; side conditions stay *)
Ltac tang :=
  match goal with
  | H : fin_of _ _ ?x |- fin_of _ _ ?x => exact H
  | |- fin_of _ _ (cst _ _) => apply ft_cst
  | |- fin_of _ _ (nadd _ _ _) => apply ft_add; [ tang | tang ]
  | |- fin_of _ _ (nsub _ _ _) => apply ft_sub; [ tang | tang ]
  | |- fin_of _ _ (nmul _ _ _) => apply ft_mul; [ tang | tang ]
  | |- fin_of _ _ (ndiv _ _ _) => apply ft_div; [ | tang | tang ]
  | |- fin_of _ _ (nneg _ _) => apply ft_neg; tang
  | |- fin_of _ _ (nexp _ (cst _ _)) => eassumption
  | |- fin_of _ _ (nexp _ _) => apply ft_exp; tang
  | |- fin_of _ _ (nipow _ _ 2) => apply ft_sq; tang
  | |- fin_of _ _ (nipow _ _ 3) => apply ft_cube; tang
  | |- fin_of _ _ (nipow _ _ 4) => apply ft_four; tang
  | |- fin_of _ _ (npow _ _ _) => apply ft_pow; [ | tang | tang ]
  | |- fin_of _ _ _ => eassumption
  | |- _ => idtac
  end.

Section Assemble.
Variables (k pk knl : R -> R) (kd pkd knld : Nm) (co : R -> hf_coeffs) (cod : ghf_coeffs (A := Nm)) (f1 f2 f3 : R -> R) (f1d f2d f3d : Nm).
Hypotheses (Tk : fin_of k 0 kd) (Tp : fin_of pk 0 pkd) (Tn : fin_of knl 0 knld).
Hypotheses (Ta : fin_of (fun s => hf_a (co s)) 0 (ghf_a cod)) (Tb : fin_of (fun s => hf_b (co s)) 0 (ghf_b cod)) (Tc : fin_of (fun s => hf_c (co s)) 0 (ghf_c cod))
  (Tg : fin_of (fun s => hf_gamma (co s)) 0 (ghf_gamma cod)) (Tal : fin_of (fun s => hf_alpha (co s)) 0 (ghf_alpha cod)) (Tbe : fin_of (fun s => hf_beta (co s)) 0 (ghf_beta cod))
  (Tmu : fin_of (fun s => hf_mu (co s)) 0 (ghf_mu cod)) (Tnu : fin_of (fun s => hf_nu (co s)) 0 (ghf_nu cod)).
Hypotheses (T1 : fin_of f1 0 f1d) (T2 : fin_of f2 0 f2d) (T3 : fin_of f3 0 f3d).
Hypotheses (Pk : 0 < k 0) (Pp : 0 <= pk 0) (Pn : 0 < knl 0) (Pb : 0 <= hf_b (co 0)) (Pc : 0 < hf_c (co 0)) (Pm : 0 <= hf_mu (co 0)) (Pv : 0 <= hf_nu (co 0)) (P3 : 0 < f3 0).
Hypothesis NZ : 1 + hf_alpha (co 0) * (k 0 ^ 3 * pk 0 / (2.0 * PI ^ 2)) <> 0.
Lemma ft_assemble : fin_of (fun s => hf_assemble (k s) (pk s) (knl s) (co s) (f1 s, f2 s, f3 s)) 0 (ghf_assemble N kd pkd knld cod (f1d, f2d, f3d)).
Proof.
  assert (Py : 0 < k 0 / knl 0) by (now apply Rdiv_lt_0_compat). assert (K3 : 0 < k 0 ^ 3) by (now apply pow_lt).
  assert (P2 := pi_pos). assert (PP : 2.0 * PI ^ 2 <> 0) by apply two_pi.
  assert (PL : 0 <= k 0 ^ 3 * pk 0 / (2.0 * PI ^ 2)).
  { replace 2.0 with 2 by lra. apply Rmult_le_pos; [ apply Rmult_le_pos; lra | left; now apply Rinv_0_lt_compat ]. }
  unfold hf_assemble, ghf_assemble. cbv zeta. tang; try exact PP; try lra.
  - assert (0 < (k 0 / knl 0) ^ 2) by (now apply pow_lt). assert (0 <= hf_mu (co 0) / (k 0 / knl 0)) by (apply Rmult_le_pos; [ assumption | left; now apply Rinv_0_lt_compat ]).
    assert (0 <= hf_nu (co 0) / (k 0 / knl 0) ^ 2) by (apply Rmult_le_pos; [ assumption | left; now apply Rinv_0_lt_compat ]). lra.
  - apply Rgt_not_eq. pose proof (rpow_gt0 (k 0 / knl 0) (f2 0) Py).
    pose proof (rpow_gt0 (hf_c (co 0) * f3 0 * (k 0 / knl 0)) (3.0 - hf_gamma (co 0)) ltac:(apply Rmult_lt_0_compat; [ now apply Rmult_lt_0_compat | exact Py ])).
    assert (0 <= hf_b (co 0) * rpow (k 0 / knl 0) (f2 0)) by (apply Rmult_le_pos; lra). lra.
  - apply Rmult_lt_0_compat; [ now apply Rmult_lt_0_compat | exact Py ].
  - apply Rgt_not_eq. now apply pow_lt.
Qed.
End Assemble.

Section Halofit.
Variables (C : R -> cosmology) (g : gcosmo Nm) (T : transfer) (GT : gcosmo Nm -> Nm -> Nm) (a : R).
Local Notation c := (C 0).
Hypotheses (M : fin_moves C 0 g) (B : forall s, built (C s)) (HE : expanding c) (NG : _gamma c = None) (HP : physical c) (HMo : moderate c) (HT : ftransfer T GT C g)
  (HN : sigmasqr_default c 8.0 T <> 0) (HT0 : T c (1 / 10000) <> 0) (H8 : _sigma8 c <> 0) (Ha : table_node 128 1 <= a <= 1).
Local Notation "' x" := (cst N x%R) (at level 1, format "' x").
Let TD : fin_of (fun s => D (C s) a) 0 (gD N g 'a) := fleaf_D C g M B HE NG HP HMo a Ha.
Lemma a_pos : 0 < a. Proof. pose proof node1_pos. lra. Qed.
Lemma D_nz : D c a <> 0. Proof. now apply (fleaf_D0 C B NG HP HMo). Qed.
Lemma D1_nz : D c 1 <> 0. Proof. apply (fleaf_D0 C B NG HP HMo). lra. Qed.
Lemma ft_lin x : fin_of (fun s => linear_matter_power (C s) (exp x) 1.0 T) 0 (glinear_matter_power N g (nexp N 'x) '1.0 GT).
Proof. apply (flinear C g T GT M HT HN (fun _ => exp x) _ (fun _ => 1.0)); [ exact (ft_exp 0 _ _ (ft_cst 0 x)) | apply exp_pos | apply fleaf_D; auto; lra ]. Qed.
Lemma ft_int_sigma r x : fin_of (fun s => hf_int_sigma (C s) a T r x) 0 (ghf_int_sigma N g 'a GT r x).
Proof.
  assert (TL := ft_lin x). assert (TDa := TD). assert (TX := ft_exp 0 _ _ (ft_cst 0 x)). cbv beta in TX. unfold hf_int_sigma, ghf_int_sigma. cbv zeta.
  tang; try exact TL; try exact TX; try exact TDa. apply two_pi.
Qed.
Lemma ft_table : flist_moves 0 (fun s => hf_sigma (C s) a T) (ghf_sigma N g 'a GT).
Proof.
  assert (LG : List.length (ghf_sigma N g 'a GT) = 256%nat) by (unfold ghf_sigma; now rewrite map_length, hf_logr_length).
  split; [ intros s; now rewrite table_length, LG | ]. rewrite LG. intros i Hi. unfold ghf_sigma.
  rewrite (nth_map_lt _ hf_logr i 0 (cst N 0)) by (now rewrite hf_logr_length).
  apply (ft_ext 0 (fun s => simps_value (hf_int_sigma (C s) a T (exp (nth i hf_logr 0))) (ln 1e-4) (ln 1e4) 256)).
  - intros s. unfold el, hf_sigma. now rewrite (nth_map_lt _ hf_logr i 0 0) by (now rewrite hf_logr_length).
  - apply ft_simps. intros x. apply ft_int_sigma.
Qed.
Hypothesis HF : scale_found c a T.
Lemma ft_R_nl : fin_of (fun s => R_nl (C s) a T) 0 (gR_nl N g 'a GT).
Proof.
  destruct HF as (i & HI & NE). assert (LG : List.length (ghf_sigma N g 'a GT) = 256%nat) by (unfold ghf_sigma; now rewrite map_length, hf_logr_length).
  assert (TI : fin_of (fun s => interp1 1.0 (hf_sigma (C s) a T) hf_logr) 0 (ginterp1 N '1.0 (ghf_sigma N g 'a GT) (map (cst N) hf_logr))).
  { apply (ft_interp_decr 0 (fun _ => 1.0) '1.0 _ _ hf_logr (ft_cst 0 1.0) ft_table); rewrite ?LG, ?hf_logr_length; try lia.
    -  apply table_decr; auto using D_nz, D1_nz.
    - exists i. split; [ apply HI | ]. intros j Hj NJ.  rewrite !table_el by (assumption || apply HI).
      replace 1.0 with 1 by lra. now apply HI. }
  unfold R_nl, gR_nl, clip_lo, gclip_lo. apply (ft_max 0 _ (fun _ => 1e-6)); [ | exact (ft_exp 0 _ _ TI) | apply ft_cst ].
   rewrite (found_interp c a T HN HT0 D_nz D1_nz H8 i HI). exact NE.
Qed.
Lemma R_nl_pos q : 0 < R_nl q a T.
Proof. unfold R_nl, clip_lo. pose proof (Rmax_r (exp (interp1 1.0 (hf_sigma q a T) hf_logr)) 1e-6). lra. Qed.
Lemma k_nl_pos q : 0 < k_nl q a T.
Proof. unfold k_nl. apply Rdiv_lt_0_compat; [ lra | apply R_nl_pos ]. Qed.
Lemma ft_k_nl : fin_of (fun s => k_nl (C s) a T) 0 (gk_nl N g 'a GT).
Proof. apply (ft_div 0 (fun _ => 1.0)); [ apply Rgt_not_eq, R_nl_pos | apply ft_cst | exact ft_R_nl ]. Qed.
Lemma ft_res x : fin_of (fun s => hf_res (C s) a T x) 0 (ghf_res N g 'a (gk_nl N g 'a GT) GT x).
Proof.
  assert (TL := ft_lin x). assert (TDa := TD). assert (TX := ft_exp 0 _ _ (ft_cst 0 x)). assert (TK := ft_k_nl). cbv beta in TX. unfold hf_res, ghf_res. cbv zeta.
  tang; try exact TL; try exact TX; try exact TDa; try exact TK; [ apply two_pi | apply Rgt_not_eq, k_nl_pos ].
Qed.
Lemma ft_dneff x : fin_of (fun s => hf_dneff (C s) a T x) 0 (ghf_dneff N g 'a (gk_nl N g 'a GT) GT x).
Proof.
  assert (TR := ft_res x). assert (TX := ft_exp 0 _ _ (ft_cst 0 x)). assert (TK := ft_k_nl). cbv beta in TX. unfold hf_dneff, ghf_dneff. cbv zeta.
  tang; try exact TR; try exact TX; try exact TK. apply Rgt_not_eq, k_nl_pos.
Qed.
Lemma ft_dC x : fin_of (fun s => hf_dC (C s) a T x) 0 (ghf_dC N g 'a (gk_nl N g 'a GT) GT x).
Proof.
  assert (TR := ft_res x). assert (TX := ft_exp 0 _ _ (ft_cst 0 x)). assert (TK := ft_k_nl). cbv beta in TX. unfold hf_dC, ghf_dC. cbv zeta.
  tang; try exact TR; try exact TX; try exact TK; apply Rgt_not_eq, k_nl_pos.
Qed.
Lemma ft_params : let p := fun s => halofit_parameters (C s) a T in let q := ghalofit_parameters N g 'a GT in
  fin_of (fun s => fst (fst (p s))) 0 (fst (fst q)) /\ fin_of (fun s => snd (fst (p s))) 0 (snd (fst q)) /\ fin_of (fun s => snd (p s)) 0 (snd q).
Proof.
  cbv zeta. unfold halofit_parameters, ghalofit_parameters. cbv zeta. cbn [fst snd].
  assert (T0 := ft_simps _ _ (ln 1e-4) (ln 1e4) 256 ft_dneff). assert (T1 := ft_simps _ _ (ln 1e-4) (ln 1e4) 256 ft_dC).
  split; [ exact ft_k_nl | split; [ apply ft_sub; [ exact T0 | apply ft_cst ] | apply ft_add; [ apply ft_sq; exact T0 | exact T1 ]]].
Qed.
Lemma ft_om : fin_of (fun s => Omega_m_a (C s) a) 0 (gOmega_m_a N g 'a).
Proof. apply (fm_Omega_m_a C 0 g (M) (fun _ => a) 'a (ft_cst 0 a)); [ apply a_pos | ].  apply HE, a_pos. Qed.
Lemma ft_ode : fin_of (fun s => Omega_de_a (C s) a) 0 (gOmega_de_a N g 'a).
Proof. apply (fm_Omega_de_a C 0 g (M) (fun _ => a) 'a (ft_cst 0 a)); [ apply a_pos | ].  apply HE, a_pos. Qed.
Lemma ft_w : fin_of (fun s => w (C s) a) 0 (gw N g 'a).
Proof. apply (fm_w C 0 g (M) (fun _ => a) 'a (ft_cst 0 a)). Qed.
Lemma om_pos : 0 < Omega_m_a (C 0) a.
Proof.  apply Omega_m_a_range; [ exact HP | apply a_pos ]. Qed.

Section Tangents.
Variables (n q : R -> R) (nd qd : Nm).
Hypotheses (Tn : fin_of n 0 nd) (Tq : fin_of q 0 qd).
Lemma ft_ten f x : fin_of f 0 x -> fin_of (fun s => pow10 (f s)) 0 (npow N '10 x).
Proof. intros Tf. apply (ft_ext 0 (fun s => rpow 10 (f s))); [ intros s; apply pow_ten | ]. apply (ft_pow 0 (fun _ => 10)); [ lra | apply ft_cst | exact Tf ]. Qed.
End Tangents.

Lemma halofit_number p k kd : fin_of k 0 kd -> 0 < k 0 -> formula_smooth c (k 0) a T p ->
  rr (fun f x => fin_of f 0 x) (fun t => halofit (C t) (k t) a T p) (ghalofit N g kd 'a GT p).
Proof.
  intros Tk Pk HS. destruct ft_params as (T1 & T2 & T3). cbv zeta in T1, T2, T3.
  assert (TL := flinear C g T GT M HT HN k kd (fun _ => a) 'a Tk Pk TD). cbv beta in TL. 
  assert (KP : 0 < fst (fst (halofit_parameters (C 0) a T))) by apply k_nl_pos.
  assert (LP : 0 <= linear_matter_power (C 0) (k 0) a T) by (now apply linear_nonneg).
  assert (TO := ft_om). assert (TE := ft_ode). assert (TW := ft_w). assert (OP := om_pos).
  unfold formula_smooth in HS.
  unfold ghalofit, halofit. cbv zeta.
  destruct (ghalofit_parameters N g 'a GT) as [[knd nd] qd]. cbn [fst snd] in T1, T2, T3.
  set (pr := fun s => halofit_parameters (C s) a T) in *. change (halofit_parameters (C 0) a T) with (pr 0) in *.
  assert (TEN : forall x, 0 < pow10 x) by (intros; apply exp_pos).
  destruct HS as [[-> HA] | (-> & HO & HZ)]; cbn [String.eqb Ascii.eqb Bool.eqb].
  - set (co := fun s => hf_takahashi (snd (fst (pr s))) (snd (pr s)) (Omega_de_a (C s) a) (w (C s) a)).
    set (om := fun s => Omega_m_a (C s) a) in *.
    apply (rr_ok (fun f x => fin_of f 0 x) _ (fun s => hf_assemble (k s) (linear_matter_power (C s) (k s) a T) (fst (fst (pr s))) (co s) (rpow (om s) (-0.0307), rpow (om s) (-0.0585), rpow (om s) 0.0743))).
    { intros s. change (halofit_parameters (C s) a T) with (pr s). unfold co, om. destruct (pr s) as [[? ?] ?]. reflexivity. }
    apply (ft_assemble k (fun s => linear_matter_power (C s) (k s) a T) (fun s => fst (fst (pr s))) kd _ knd co _ (fun s => rpow (om s) (-0.0307)) (fun s => rpow (om s) (-0.0585)) (fun s => rpow (om s) 0.0743));
      try assumption; unfold co, hf_takahashi, ghf_takahashi; cbn [ghf_a ghf_b ghf_c ghf_gamma ghf_alpha ghf_beta ghf_mu ghf_nu hf_a hf_b hf_c hf_gamma hf_alpha hf_beta hf_mu hf_nu].
    all: try (apply ft_ten; tang; fail). all: try (tang; try exact OP; fail). all: try (left; apply TEN). all: try apply TEN. all: try lra.
    + apply ft_abs; [ exact HA | tang ].
    + now apply rpow_gt0.
    + apply Rgt_not_eq. pose proof pi_pos. assert (K3 : 0 < k 0 ^ 3) by (now apply pow_lt). assert (QA := Rabs_pos (6.0835 + 1.3373 * snd (fst (pr 0)) - 0.1959 * snd (fst (pr 0)) ^ 2 - 5.5274 * snd (pr 0))).
      assert (QB : 0 <= k 0 ^ 3 * linear_matter_power (C 0) (k 0) a T / (2.0 * PI ^ 2)).
      { replace 2.0 with 2 by lra. apply Rmult_le_pos; [ apply Rmult_le_pos; lra | left; now apply Rinv_0_lt_compat ]. }
      assert (QC := Rmult_le_pos _ _ QA QB). lra.
  - set (co := fun s => hf_smith (snd (fst (pr s))) (snd (pr s))).
    set (om := fun s => Omega_m_a (C s) a) in *. set (fr := fun s => Omega_de_a (C s) a / (1.0 - om s)).
    assert (TF : fin_of fr 0 (ndiv N (gOmega_de_a N g 'a) (nsub N '1.0 (gOmega_m_a N g 'a)))).
    { unfold fr. tang. replace 1.0 with 1 by lra. unfold om in *. lra. }
    set (h1 := fun s => fr s * rpow (om s) (-0.0307) + (1 - fr s) * rpow (om s) (-0.0732)).
    set (h2 := fun s => fr s * rpow (om s) (-0.0585) + (1 - fr s) * rpow (om s) (-0.1423)).
    set (h3 := fun s => fr s * rpow (om s) 0.0743 + (1 - fr s) * rpow (om s) 0.0725).
    apply (rr_ok (fun f x => fin_of f 0 x) _ (fun s => hf_assemble (k s) (linear_matter_power (C s) (k s) a T) (fst (fst (pr s))) (co s) (h1 s, h2 s, h3 s))).
    { intros s. change (halofit_parameters (C s) a T) with (pr s). unfold co, h1, h2, h3, fr, om. destruct (pr s) as [[? ?] ?]. reflexivity. }
    apply (ft_assemble k (fun s => linear_matter_power (C s) (k s) a T) (fun s => fst (fst (pr s))) kd _ knd co _ h1 h2 h3);
      try assumption; unfold co, hf_smith, ghf_smith; cbn [ghf_a ghf_b ghf_c ghf_gamma ghf_alpha ghf_beta ghf_mu ghf_nu hf_a hf_b hf_c hf_gamma hf_alpha hf_beta hf_mu hf_nu].
    all: try (apply ft_ten; tang; fail). all: try (unfold h1, h2, h3; tang; try exact OP; fail). all: try (left; apply TEN). all: try apply TEN. all: try lra.
    + change (0 < fr 0 * rpow (om 0) 0.0743 + (1 - fr 0) * rpow (om 0) 0.0725). pose proof (rpow_gt0 (om 0) 0.0743 OP). pose proof (rpow_gt0 (om 0) 0.0725 OP).
      assert (F0 : 0 <= fr 0 <= 1).
      { assert (RG := Omega_m_a_range (C 0) a HP a_pos). assert (RS := omega_le (C 0) a HP a_pos).
        unfold fr, om in *. assert (0 < 1.0 - Omega_m_a (C 0) a) by lra. split.
        - apply Rmult_le_pos; [ lra | left; now apply Rinv_0_lt_compat ].
        - apply (Rmult_le_reg_r (1.0 - Omega_m_a (C 0) a)); [ assumption | ]. unfold Rdiv. rewrite Rmult_assoc, Rinv_l by lra. lra. }
      destruct (Rle_dec (fr 0) (1 / 2)); [ assert (0 <= fr 0 * rpow (om 0) 0.0743) by (apply Rmult_le_pos; lra); assert (0 < (1 - fr 0) * rpow (om 0) 0.0725) by (apply Rmult_lt_0_compat; lra)
        | assert (0 < fr 0 * rpow (om 0) 0.0743) by (apply Rmult_lt_0_compat; lra); assert (0 <= (1 - fr 0) * rpow (om 0) 0.0725) by (apply Rmult_le_pos; lra) ]; lra.
    + replace 2.0 with 2 by lra. replace 0.3700 with 0.37 by lra. exact HZ.
Qed.
End Halofit.

End Floats.
