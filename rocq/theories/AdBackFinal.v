(** * Reverse mode is the transpose of forward mode, program by program *)
From Coq Require Import String.
From Coquelicot Require Import Coquelicot.
From Verif Require Import Np NpLemmas Core Sparse SparseSpec Likelihood LikelihoodSpec Integrate IntegrateSpec Interp Background BgSpec BgPositive BgFinal4 BgGrad Transfer Power Redshift Probes ProbesSpec AngularCl CovSpec AclSpec GradSpec FisherSpec ContFinal
  Ad AdSpec AdPower AdProbes AdArrSpec AdHalofit AdHalofitSpec AdLike AdLikeSpec AdSurvey AdFinal AdParam AdParamCl AdJacSpec AdJac AdJacFinal AdBack AdBackSpec AdBackProofs.
Opaque chi_table growth_table_ODE growth_table_gamma logspace.
Local Open Scope R_scope.

Section Transpose.
Variable c : cosmology.
Local Notation W d x y := (weight d x y).
Local Notation g := (back_cosmo c).
Lemma rb_input d x y v i : (i < 10)%nat -> rb 10 (W d x y) (input v i) (v, W d x y i).
Proof. intros Hi. split; [ reflexivity | ]. intros u. unfold pair_, input. cbn [snd]. do 10 (destruct i as [ | i]; [ cbn; ring | ]). lia. Qed.
Lemma RB d x y : cosmo_rel (rb 10 (W d x y)) g (dual_cosmo c d).
Proof.
  constructor; try (apply rb_input; lia). unfold back_cosmo, dual_cosmo; cbn [ggamma]. destruct (_gamma c); [ | exact I ]. apply (nr_cst _ _ _ (rb_num 10 (W d x y))).
Qed.
Lemma rb8 d x y v : rb 10 (W d x y) (input v 8) (v, x). Proof. apply (rb_input d x y v 8). lia. Qed.
Lemma rb9 d x y v : rb 10 (W d x y) (input v 9) (v, y). Proof. apply (rb_input d x y v 9). lia. Qed.
Lemma pair_dot d x y f : pair_ 10 (W d x y) f = dot (slots f) d + f 8%nat * x + f 9%nat * y.
Proof. unfold pair_. rewrite packed_dot. reflexivity. Qed.
Lemma vjp1_of (Gb : gcosmo back -> back -> back) (Gd : gcosmo dual -> dual -> dual) a :
  (forall w x x', cosmo_rel (rb 10 w) g x -> rb 10 w (input a 8) x' -> rb 10 w (Gb g (input a 8)) (Gd x x')) -> vjp1 (Gb g (input a 8)) (fun d x => Gd (dual_cosmo c d) (a, x)).
Proof.
  intros K d x. destruct (K _ _ _ (RB d x 0) (rb8 d x 0 a)) as [E1 E2]. split; [ now symmetry | ]. intros u. rewrite <- E2, pair_dot. ring.
Qed.
Lemma vjp2_of (Gb : gcosmo back -> back -> back -> back) (Gd : gcosmo dual -> dual -> dual -> dual) k a :
  (forall w x x' x2, cosmo_rel (rb 10 w) g x -> rb 10 w (input k 8) x' -> rb 10 w (input a 9) x2 -> rb 10 w (Gb g (input k 8) (input a 9)) (Gd x x' x2)) ->
  vjp2 (Gb g (input k 8) (input a 9)) (fun d x y => Gd (dual_cosmo c d) (k, x) (a, y)).
Proof.
  intros K d x y. destruct (K _ _ _ _ (RB d x y) (rb8 d x y k) (rb9 d x y a)) as [E1 E2]. split; [ now symmetry | ]. intros u. now rewrite <- E2, pair_dot.
Qed.
Local Notation NR w := (rb_num 10 w).
Lemma vjp_background a : let transposed (G : forall A, num A -> gcosmo A -> A -> A) := vjp1 (G back num_back g (input a 8)) (fun d x => G dual num_dual (dual_cosmo c d) (a, x)) in
  transposed (@gH) /\ transposed (@gOmega_m_a) /\ transposed (@gOmega_de_a) /\ transposed (@gdchioverda) /\ transposed (@gchi) /\ transposed (@ga_of_chi) /\
  transposed (@gf_k) /\ transposed (@gd_A) /\ transposed (@gD) /\ transposed (@gf).
Proof.
  intros transposed. unfold transposed. refine (conj _ (conj _ (conj _ (conj _ (conj _ (conj _ (conj _ (conj _ (conj _ _))))))))).
  - apply (vjp1_of (gH num_back)). intros w x x' HC Hx. now apply (p_H _ _ _ (NR w)).
  - apply (vjp1_of (gOmega_m_a num_back)). intros w x x' HC Hx. now apply (p_Omega_m_a _ _ _ (NR w)).
  - apply (vjp1_of (gOmega_de_a num_back)). intros w x x' HC Hx. now apply (p_Omega_de_a _ _ _ (NR w)).
  - apply (vjp1_of (gdchioverda num_back)). intros w x x' HC Hx. now apply (p_dchioverda _ _ _ (NR w)).
  - apply (vjp1_of (gchi num_back)). intros w x x' HC Hx. now apply (p_chi _ _ _ (NR w)).
  - apply (vjp1_of (ga_of_chi num_back)). intros w x x' HC Hx. now apply (p_a_of_chi _ _ _ (NR w)).
  - apply (vjp1_of (gf_k num_back)). intros w x x' HC Hx. now apply (p_f_k _ _ _ (NR w)).
  - apply (vjp1_of (gd_A num_back)). intros w x x' HC Hx. now apply (p_d_A _ _ _ (NR w)).
  - apply (vjp1_of (gD num_back)). intros w x x' HC Hx. now apply (p_D _ _ _ (NR w)).
  - apply (vjp1_of (gf num_back)). intros w x x' HC Hx. now apply (p_f _ _ _ (NR w)).
Qed.
Lemma rb_eh w x osc : cosmo_rel (rb 10 w) g x -> transfer_rel (rb 10 w) g x (geh num_back osc) (geh num_dual osc).
Proof. intros HC k k' Hk. destruct osc; cbn [geh]; [ now apply (p_eisenhu_osc _ _ _ (NR w)) | now apply (p_eisenhu _ _ _ (NR w)) ]. Qed.
Lemma rb_model w x nl osc : cosmo_rel (rb 10 w) g x -> spectrum_rel (rb 10 w) g x (gmodel num_back nl osc) (gmodel num_dual nl osc).
Proof. intros HC. destruct nl; cbn [gmodel]; [ now apply (p_spectrum_halofit _ _ _ (NR w)), rb_eh | now apply (p_spectrum_linear _ _ _ (NR w)), rb_eh ]. Qed.
Lemma vjp_power k a osc : vjp1 (geh num_back osc g (input k 8)) (fun d x => geh num_dual osc (dual_cosmo c d) (k, x)) /\
  vjp2 (glinear_matter_power num_back g (input k 8) (input a 9) (geh num_back osc)) (fun d x y => glinear_matter_power num_dual (dual_cosmo c d) (k, x) (a, y) (geh num_dual osc)) /\
  forall p, vjp_result2 (ghalofit num_back g (input k 8) (input a 9) (geh num_back osc) p) (fun d x y => ghalofit num_dual (dual_cosmo c d) (k, x) (a, y) (geh num_dual osc) p).
Proof.
  split; [ | split ].
  - apply (vjp1_of (geh num_back osc)). intros w x x' HC Hx. now apply rb_eh.
  - apply (vjp2_of (fun g k a => glinear_matter_power num_back g k a (geh num_back osc)) (fun g k a => glinear_matter_power num_dual g k a (geh num_dual osc))).
    intros w x u v HC Hu Hv. apply (p_linear _ _ _ (NR w)); try assumption. now apply rb_eh.
  - intros p.
    assert (K := fun d x y => p_halofit _ _ _ (NR (W d x y)) _ _ (RB d x y) _ _ (rb_eh (W d x y) _ osc (RB d x y)) (input k 8) (k, x) (input a 9) (a, y) p (rb8 d x y k) (rb9 d x y a)).
    destruct (ghalofit num_back g (input k 8) (input a 9) (geh num_back osc) p) as [b | e]; cbn [vjp_result2].
    + exists (fun d x y => match ghalofit num_dual (dual_cosmo c d) (k, x) (a, y) (geh num_dual osc) p with Ok z => z | Err _ => (0, 0) end). split.
      * intros d x y. specialize (K d x y). destruct (ghalofit num_dual (dual_cosmo c d) (k, x) (a, y) (geh num_dual osc) p); cbn [res_rel] in K; [ reflexivity | contradiction ].
      * intros d x y. specialize (K d x y). destruct (ghalofit num_dual (dual_cosmo c d) (k, x) (a, y) (geh num_dual osc) p); cbn [res_rel] in K; [ | contradiction ].
        destruct K as [E1 E2]. split; [ now symmetry | ]. intros u. now rewrite <- E2, pair_dot.
    + intros d x y. specialize (K d x y). destruct (ghalofit num_dual (dual_cosmo c d) (k, x) (a, y) (geh num_dual osc) p); cbn [res_rel] in K; [ contradiction | now rewrite K ].
Qed.
Lemma pair_row d us : forall bs ms, Forall2 (rb 10 (W d 0 0)) bs ms ->
  Np.vsum (map2 (fun u (m : dual) => u * snd m) us ms) = pair_ 10 (W d 0 0) (fun q => Np.vsum (map2 (fun u (x : back) => snd x u q) us bs)).
Proof.
  induction us as [ | u us IH]; intros bs ms K.
  - unfold Np.vsum; cbn [map2 fold_right]. now rewrite pair_0.
  - destruct K as [ | b m bs ms [_ E] K]; unfold Np.vsum in *; cbn [map2 fold_right]; [ now rewrite pair_0 | ]. rewrite pair_plus, E, (IH _ _ K). reflexivity.
Qed.
Lemma pair_rows d U : forall b M, Forall2 (Forall2 (rb 10 (W d 0 0))) b M -> contract U M = pair_ 10 (W d 0 0) (backward U b).
Proof.
  unfold contract, backward. induction U as [ | us U IH]; intros b M K.
  - unfold Np.vsum; cbn [map2 fold_right]. now rewrite pair_0.
  - destruct K as [ | bs ms b M E K].
    + unfold Np.vsum; cbn [map2 fold_right]. now rewrite pair_0.
    + pose proof (pair_row d us _ _ E) as E1. specialize (IH _ _ K). unfold Np.vsum in *; cbn [map2 fold_right]. rewrite pair_plus, E1, IH. reflexivity.
Qed.
Lemma vjp_spectra nl osc ells probes : vjp_rows (gangular_cl num_back g ells probes (gmodel num_back nl osc)) (fun d => gangular_cl num_dual (dual_cosmo c d) ells probes (gmodel num_dual nl osc)).
Proof.
  assert (K := fun d => q_angular _ _ _ (NR (W d 0 0)) _ _ (RB d 0 0) _ _ (rb_model (W d 0 0) _ nl osc (RB d 0 0)) ells probes).
  destruct (gangular_cl num_back g ells probes (gmodel num_back nl osc)) as [b | e]; cbn [vjp_rows]; intros d; specialize (K d); destruct (gangular_cl num_dual (dual_cosmo c d) ells probes (gmodel num_dual nl osc)) as [M | e']; cbn [res_rel] in K; try contradiction.
  - exists M. split; [ reflexivity | split ]; [ symmetry; exact (rb_values2 _ _ _ _ K) | ]. intros U. rewrite (pair_rows d U b M K), pair_dot. ring.
  - now rewrite K.
Qed.
Lemma vjp_survey la nl osc ells probes f_sky sparse data il method : solve_linear la ->
  vjp_result (gsurvey_likelihood num_back (linalg_back la) g ells probes (gmodel num_back nl osc) f_sky sparse data il method)
    (fun d => gsurvey_likelihood num_dual (linalg_dual la) (dual_cosmo c d) ells probes (gmodel num_dual nl osc) f_sky sparse data il method).
Proof.
  intros HS. assert (K := fun d => q_survey _ _ _ (NR (W d 0 0)) _ _ (rb_linalg 10 (W d 0 0) la HS) _ _ ells probes _ _ f_sky sparse data il method (RB d 0 0) (rb_model (W d 0 0) _ nl osc (RB d 0 0))).
  destruct (gsurvey_likelihood num_back (linalg_back la) g ells probes (gmodel num_back nl osc) f_sky sparse data il method) as [b | e]; cbn [vjp_result]; intros d; specialize (K d);
    destruct (gsurvey_likelihood num_dual _ _ _ _ _ _ _ _ _ _) as [y | e']; cbn [res_rel] in K; try contradiction.
  - destruct K as [E1 E2]. exists y. split; [ reflexivity | split; [ now symmetry | ]]. intros u. rewrite <- E2, pair_dot. ring.
  - now rewrite K.
Qed.
End Transpose.
(** the same with all quantifiers *)
Lemma c_vjp_background c a : let transposed (G : forall A, num A -> gcosmo A -> A -> A) := vjp1 (G back num_back (back_cosmo c) (input a 8)) (fun d x => G dual num_dual (dual_cosmo c d) (a, x)) in
  transposed (@gH) /\ transposed (@gOmega_m_a) /\ transposed (@gOmega_de_a) /\ transposed (@gdchioverda) /\ transposed (@gchi) /\ transposed (@ga_of_chi) /\
  transposed (@gf_k) /\ transposed (@gd_A) /\ transposed (@gD) /\ transposed (@gf).
Proof. exact (vjp_background c a). Qed.
Lemma c_vjp_power c k a osc : vjp1 (geh num_back osc (back_cosmo c) (input k 8)) (fun d x => geh num_dual osc (dual_cosmo c d) (k, x)) /\
  vjp2 (glinear_matter_power num_back (back_cosmo c) (input k 8) (input a 9) (geh num_back osc)) (fun d x y => glinear_matter_power num_dual (dual_cosmo c d) (k, x) (a, y) (geh num_dual osc)) /\
  forall p, vjp_result2 (ghalofit num_back (back_cosmo c) (input k 8) (input a 9) (geh num_back osc) p) (fun d x y => ghalofit num_dual (dual_cosmo c d) (k, x) (a, y) (geh num_dual osc) p).
Proof. exact (vjp_power c k a osc). Qed.
Lemma c_vjp_spectra c nl osc ells probes : vjp_rows (gangular_cl num_back (back_cosmo c) ells probes (gmodel num_back nl osc)) (fun d => gangular_cl num_dual (dual_cosmo c d) ells probes (gmodel num_dual nl osc)).
Proof. exact (vjp_spectra c nl osc ells probes). Qed.
Lemma c_vjp_survey c la nl osc ells probes f_sky sparse data il method : solve_linear la ->
  vjp_result (gsurvey_likelihood num_back (linalg_back la) (back_cosmo c) ells probes (gmodel num_back nl osc) f_sky sparse data il method)
    (fun d => gsurvey_likelihood num_dual (linalg_dual la) (dual_cosmo c d) ells probes (gmodel num_dual nl osc) f_sky sparse data il method).
Proof. exact (vjp_survey c la nl osc ells probes f_sky sparse data il method). Qed.

(** jax.grad of the likelihood of a survey *)
Lemma grad_survey la c osc probes ells f_sky sparse data il method : linalg_ok la -> linalg_shaped la -> solve_linear la ->
  built c -> expanding c -> _gamma c = None -> physical c -> moderate c ->
  (forall d, transfer_moves (eh osc) (geh num_dual osc) c d) -> sigmasqr_default c 8.0 (eh osc) <> 0 -> eh osc c (1 / 10000) <> 0 -> _sigma8 c <> 0 ->
  shallow (concat (map bins_of probes)) -> off_clip chi c probes ->
  (forall b, limber_epoch probes b -> scale_found c b (eh osc) /\ forall k, formula_smooth c k b (eh osc) "takahashi2012") ->
  probes_ok probes -> noise_positive probes -> (2 <= length ells)%nat -> (forall l, In l ells -> 0 <= l) -> (forall l, (l < length ells)%nat -> 0 < knox_norm ells f_sky l) ->
  length data = (length ells * length (get_cl_ordering probes))%nat -> sparse = true \/ method = "inverse"%string \/ method = "cholesky"%string ->
  exists b, gsurvey_likelihood num_back (linalg_back la) (back_cosmo c) ells probes (gmodel num_back true osc) f_sky sparse data il method = Ok b /\
    survey_likelihood la c ells probes (eh osc) halofit_default f_sky sparse data il method = Ok (fst b) /\
    forall d, exists f, (forall t, survey_likelihood la (displaced c d t) ells probes (eh osc) halofit_default f_sky sparse data il method = Ok (f t)) /\
      is_derive f 0 (dot (slots (snd b 1)) d).
Proof.
  intros HO HS HL B HE NG HPh HMo HT HN8 HT0 H8 HSh HC HB Hok HN HLe HE0 HKn HD HM.
  assert (J := fun d => default_survey_jvp la c d probes ells (eh osc) (geh num_dual osc) f_sky sparse data il method HO HS B HE NG HPh HMo HT HN8 HT0 H8 HSh HC HB Hok HN HLe HE0 HKn HD HM).
  pose proof (vjp_survey c la true osc ells probes f_sky sparse data il method HL) as V. cbn [gmodel] in V |- *.
  destruct (gsurvey_likelihood num_back (linalg_back la) (back_cosmo c) ells probes (ghalofit_default num_back (geh num_back osc)) f_sky sparse data il method) as [b | e]; cbn [vjp_result] in V.
  - exists b. split; [ reflexivity | ]. split.
    + destruct (J (unit_direction 8)) as (f & y & F1 & F2 & F3 & _). destruct (V (unit_direction 8)) as (y' & G1 & G2 & _). rewrite F2 in G1. injection G1 as <-.
      specialize (F1 0). rewrite displaced_0 in F1 by exact B. rewrite F1. f_equal. congruence.
    + intros d. destruct (J d) as (f & y & F1 & F2 & F3 & F4). destruct (V d) as (y' & G1 & G2 & G3). rewrite F2 in G1. injection G1 as <-. exists f. split; [ exact F1 | ].
      replace (dot (slots (snd b 1)) d) with (snd y) by (rewrite <- G3; ring). exact F4.
  - destruct (J (unit_direction 8)) as (f & y & _ & F2 & _). rewrite V in F2. discriminate.
Qed.
